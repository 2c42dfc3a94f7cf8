(** * Proofs of the statements in Properties_table.v *)
From Coq Require Import Sorted.
From Verif Require Import Base Base_facts Utils Utils_facts Parsers Parsers_facts Pattern Spec
  Spec_table Hash_facts SuffixArray TrieSpec TrieSpec_facts TrieSpec_props TrieSpec_cases TableSpec
  Table_refine Table_facts Table_content Trie_main Trie_claims Deciders Siphash Tests.
From Verif Require Trie Trie_refine.

Lemma tok_ok_of ps :
  Forall valid_pattern ps -> Forall (fun p => Forall (tok_ok (okp_of ps)) (pat_tokens p)) ps.
Proof. exact (okt_of ps). Qed.

(** Adding never panics, whatever the hash function. *)
Lemma table_adds sip ps :
  Forall valid_pattern ps ->
  exists t, add_patterns sip table_new ps = Ret t /\ twf (okp_of ps) t /\
    (collision_free sip ps -> tabs t = t_adds ps).
Proof.
  intros V. destruct (add_patterns_ok (okp_of ps) sip ps table_new (tok_ok_of ps V) (twf_new _))
    as (t & E & W & R). exists t. split; [exact E|]. split; [exact W|].
  intros C. exact (R (okp_of_inj sip ps C)).
Qed.

Lemma table_adds_ret sip ps t :
  Forall valid_pattern ps -> add_patterns sip table_new ps = Ret t ->
  twf (okp_of ps) t /\ (collision_free sip ps -> tabs t = t_adds ps).
Proof.
  intros V E. destruct (table_adds sip ps V) as (t' & E' & H). assert (t' = t) as -> by congruence. exact H.
Qed.

Lemma table_total sip ps :
  Forall valid_pattern ps -> (forall q, parser_in ps q -> parser_ascii_set q) ->
  exists t, add_patterns sip table_new ps = Ret t /\
    forall text, utf8 text -> exists r, parse t text = Ret r.
Proof.
  intros V A. destruct (table_adds sip ps V) as (t & E & W & _). exists t. split; [exact E|].
  intros text Hu. apply (parse_total (okp_of ps)); auto.
  - apply okp_of_utf8.
  - intros q (_ & Hq). apply A. exact Hq.
Qed.

Lemma table_refines sip ps t text r :
  Forall valid_pattern ps -> collision_free sip ps -> add_patterns sip table_new ps = Ret t ->
  utf8 text -> parse t text = Ret r -> r = t_parse (t_adds ps) text.
Proof.
  intros V C E Hu H. destruct (table_adds_ret sip ps t V E) as (W & R). rewrite <- (R C).
  apply (parse_ret (okp_of ps)); auto. apply okp_of_utf8.
Qed.

Lemma table_exact sip ps :
  Forall valid_pattern ps -> (forall q, parser_in ps q -> parser_ascii_set q) -> collision_free sip ps ->
  exists t, add_patterns sip table_new ps = Ret t /\
    forall text, utf8 text -> parse t text = Ret (t_parse (t_adds ps) text).
Proof.
  intros V A C. destruct (table_total sip ps V A) as (t & E & T). exists t. split; [exact E|].
  intros text Hu. destruct (T text Hu) as (r & Hr). rewrite Hr. f_equal.
  apply (table_refines sip ps t text r V C E Hu Hr).
Qed.

(** ** C27 *)
Lemma twf_part (okp : parser -> Prop) x t : part_of x t -> twf okp t -> twf okp x.
Proof.
  induction 1 as [t|e c x les pes Hi Hc Hp IH|e c x les pes Hi Hc Hp IH]; intros W; [exact W| |];
    inversion W as [? ? HS Hl Hlw Hq Hqw]; subst; apply IH; eauto.
Qed.

Lemma table_lcp sip ps t x v :
  Forall valid_pattern ps -> add_patterns sip table_new ps = Ret t -> part_of x t -> utf8 v ->
  exists o, longest_common_prefix x v = Ret o /\
    match o with
    | Some e => In e (literal_entries x) /\ exists w, longest_common_chars (le_literal e) v w /\
        forall e' w', In e' (literal_entries x) -> longest_common_chars (le_literal e') v w' ->
          length w' <= length w
    | None => literal_entries x = []
    end.
Proof.
  intros V E Hpart Hv. destruct (table_adds_ret sip ps t V E) as (W0 & _).
  pose proof (twf_part _ _ _ Hpart W0) as W. clear t Hpart E W0.
  inversion W as [les pes HS Hl Hlw Hp Hpw]; subst.
  destruct (lcp_ret les pes v HS Hv) as (o & Eo & Hin & Hn). exists o. split; [exact Eo|].
  cbn [literal_entries]. destruct o as [e|]; simpl in Hn.
  - specialize (Hin e eq_refl). split; [exact Hin|].
    destruct (cpl_longest (le_literal e) v (Hl e Hin) Hv) as (w & Ew & Hw). exists w. split; [exact Hw|].
    intros e' w' He' Hw'. symmetry in Hn.
    assert (common_prefix_len (le_literal e') v <= common_prefix_len (le_literal e) v) as L.
    { apply (nearest_max (map lpair les) v (le_literal e) (lentry e)) with (x := lpair e'); auto.
      - unfold ksorted, keys. rewrite map_map. exact HS.
      - intros x Hx. apply in_map_iff in Hx. destruct Hx as (y & <- & Hy). apply Hl. exact Hy.
      - apply in_map. exact He'. }
    destruct (cpl_longest (le_literal e') v (Hl e' He') Hv) as (w2 & Ew2 & Hw2).
    rewrite (longest_common_chars_unique _ _ _ _ Hw' Hw2). lia.
  - symmetry in Hn. apply nearest_none in Hn. destruct les; [reflexivity|discriminate].
Qed.

(** ** Content *)
Lemma theld_tstored t : forall path q, theld t path q <-> tstored (tabs t) path q.
Proof.
  assert (forall n t, height t <= n -> forall path q, theld t path q <-> tstored (tabs t) path q) as H.
  2: { intros path q. apply (H (height t) t (Nat.le_refl _)). }
  clear t. induction n as [|n IH]; intros [les pes] L path q; [cbn [height] in L; lia|].
  rewrite tabs_unfold. split.
  - intros H. inversion H as [e ? ? ? Hi Hp|e c ? ? path' ? Hi Hc Hh|e ? ? ? Hi Hp|e c ? ? path' ? Hi Hc Hh]; subst.
    + apply (ts_literal _ (option_map tabs (le_child e))). apply in_map_iff. exists e. split; [|exact Hi].
      unfold lpair, lentry. rewrite Hp. reflexivity.
    + apply (ts_below_literal _ (le_pattern e) (tabs c)).
      * apply in_map_iff. exists e. split; [|exact Hi]. unfold lpair, lentry. rewrite Hc. reflexivity.
      * apply IH; [|exact Hh]. pose proof (height_lit les pes e c Hi Hc). lia.
    + apply (ts_parser _ (option_map tabs (pe_child e))). apply in_map_iff. exists e. split; [|exact Hi].
      unfold ppair, pentry. rewrite Hp. reflexivity.
    + apply (ts_below_parser _ (pe_pattern e) (tabs c)).
      * apply in_map_iff. exists e. split; [|exact Hi]. unfold ppair, pentry. rewrite Hc. reflexivity.
      * apply IH; [|exact Hh]. pose proof (height_par les pes e c Hi Hc). lia.
  - intros H. inversion H as [k co ? ? ? Hi|k po c ? ? ? ? Hi Hc|x co ? ? ? Hi|x po c ? ? ? ? Hi Hc]; subst;
      apply in_map_iff in Hi; destruct Hi as (e & E & Hi).
    + unfold lpair, lentry in E. inversion E as [[E1 E2 E3]]. subst. apply th_literal; assumption.
    + unfold lpair, lentry in E. inversion E as [[E1 E2 E3]]. subst.
      destruct (le_child e) as [c'|] eqn:Ec; [|discriminate]. simpl in E3. inversion E3; subst c.
      apply (th_below_literal e c'); auto. apply IH; [|exact Hc].
      pose proof (height_lit les pes e c' Hi Ec). lia.
    + unfold ppair, pentry in E. inversion E as [[E1 E2 E3]]. subst. apply th_parser; assumption.
    + unfold ppair, pentry in E. inversion E as [[E1 E2 E3]]. subst.
      destruct (pe_child e) as [c'|] eqn:Ec; [|discriminate]. simpl in E3. inversion E3; subst c.
      apply (th_below_parser e c'); auto. apply IH; [|exact Hc].
      pose proof (height_par les pes e c' Hi Ec). lia.
Qed.

Lemma table_content sip ps t path q :
  Forall valid_pattern ps -> collision_free sip ps -> add_patterns sip table_new ps = Ret t ->
  theld t path q <->
  path <> [] /\ exists a p b, ps = a ++ p :: b /\ pat_tokens p = path /\ q = stripped p /\
    forall p', In p' b -> ~ displaces (pat_tokens p') path.
Proof.
  intros V C E. destruct (table_adds_ret sip ps t V E) as (_ & R).
  rewrite theld_tstored, (R C). apply tstored_adds.
Qed.

Lemma table_adds_snoc sip ps p t t' :
  add_patterns sip table_new ps = Ret t -> add_pattern sip t p = Ret t' ->
  add_patterns sip table_new (ps ++ [p]) = Ret t'.
Proof.
  generalize table_new. induction ps as [|p0 ps IH]; cbn [add_patterns app]; intros t0 H H'.
  - inversion H; subst. rewrite H'. reflexivity.
  - unbind H as t1 E. rewrite E. cbn [bind]. apply IH; assumption.
Qed.

(** Retention in the form of C19, for the table. *)
Lemma table_keeps sip ps p t t' path q :
  Forall valid_pattern (ps ++ [p]) -> collision_free sip (ps ++ [p]) ->
  add_patterns sip table_new ps = Ret t -> add_pattern sip t p = Ret t' ->
  theld t' path q <->
  (pat_tokens p <> [] /\ path = pat_tokens p /\ q = stripped p) \/
  (theld t path q /\ ~ displaces (pat_tokens p) path).
Proof.
  intros V C E E'. pose proof (table_adds_snoc sip ps p t t' E E') as E2.
  assert (Forall valid_pattern ps) as V1 by (apply Forall_app in V; apply V).
  assert (collision_free sip ps) as C1.
  { apply (collision_free_incl sip (ps ++ [p])); [apply incl_appl, incl_refl|exact C]. }
  rewrite (table_content sip _ t' path q V C E2), (table_content sip ps t path q V1 C1 E).
  split.
  - intros (N & a & p0 & b & Eps & Ep & Eq & Hb). destruct b as [|z b _] using rev_ind.
    + apply app_inj_tail in Eps. destruct Eps as (-> & ->). left. subst path. auto.
    + rewrite app_comm_cons, app_assoc in Eps. apply app_inj_tail in Eps. destruct Eps as (-> & <-).
      right. split.
      * split; [exact N|]. exists a, p0, b. split; [reflexivity|]. split; [exact Ep|]. split; [exact Eq|].
        intros p' Hp. apply Hb. apply in_or_app. auto.
      * apply Hb. apply in_or_app. right. left. reflexivity.
  - intros [(N & -> & ->)|((N & a & p0 & b & -> & Ep & Eq & Hb) & Hd)].
    + split; [exact N|]. exists ps, p, []. split; [reflexivity|]. split; [reflexivity|]. split; [reflexivity|].
      intros p' [].
    + split; [exact N|]. exists a, p0, (b ++ [p]). rewrite <- app_assoc. split; [reflexivity|]. split; [exact Ep|]. split; [exact Eq|].
      intros p' Hp. apply in_app_or in Hp. destruct Hp as [Hp|[<-|[]]]; auto.
Qed.

(** ** Soundness *)
Lemma table_sound sip ps t text r :
  Forall valid_pattern ps -> collision_free sip ps -> add_patterns sip table_new ps = Ret t ->
  utf8 text -> parse t text = Ret (Some r) ->
  exists p caps, In p ps /\ mr_pattern r = stripped p /\ table_walk (pat_tokens p) text caps /\
    reports caps (mr_values r).
Proof.
  intros V C E Hu H. destruct (table_adds_ret sip ps t V E) as (W & R).
  apply (table_refines sip ps t text _ V C E Hu) in H. symmetry in H.
  pose proof (tabs_lwf (okp_of ps) t (okp_of_utf8 ps) W) as Lw. rewrite (R C) in Lw.
  destruct (t_parse_sound _ Lw text r Hu H) as (toks & caps & H1 & H2 & H3).
  apply tstored_adds in H1. destruct H1 as (_ & a & p & b & -> & <- & Eq & _).
  exists p, caps. split; [apply in_elt|]. split; [exact Eq|]. split; [exact H2|apply good_reports; exact H3].
Qed.

(** ** A single pattern *)
Lemma nearest_one {A} k (e : A) text : nearest [(k, e)] text = Some (k, e).
Proof. unfold nearest. cbn [filter fst]. destruct (notgtb (str_cmp k text)); reflexivity. Qed.

Lemma tchain_parse toks p text caps :
  table_walk toks text caps -> Forall usable_token toks -> utf8 text ->
  exists r, t_parse (t_insert toks level_empty p) text = Some r.
Proof.
  induction 1 as [l text Hp|q v Hc|l toks w text caps Nt Hl Nx Hw IH|q toks v text caps Nt Hc Hw IH]; intros HF Hu.
  - inversion HF as [|? ? H1 _]; subst. simpl in H1.
    rewrite t_insert_unfold. cbn [lits_of pars_of level_empty upsert]. rewrite t_parse_unfold, nearest_one.
    cbv zeta. assert (common_prefix_len l text = length text) as ->.
    { rewrite cpl_sym by assumption. apply Trie_refine.cpl_prefix; auto. apply prefixb_app. exact Hp. }
    rewrite Nat.eqb_refl. cbn. eauto.
  - inversion HF as [|? ? H0 _]; subst. destruct H0 as (H1 & H2).
    rewrite t_insert_unfold. cbn [lits_of pars_of level_empty at_parser]. rewrite t_parse_unfold. cbn [nearest filter last_opt hd_error].
    cbn [try_parsers]. unfold try_parser.
    rewrite (capture_complete q v v Hu H1 Hu Hc), skipn_all. cbn. eauto.
  - inversion HF as [|? ? H1 H2]; subst. simpl in H1. pose proof Hl as (Uw & _).
    rewrite t_insert_unfold. cbn [lits_of pars_of level_empty upsert]. rewrite t_parse_unfold, nearest_one.
    cbv zeta. destruct (cpl_longest l (w ++ text) H1 Hu) as (w' & Ew & Hw').
    rewrite (longest_common_chars_unique _ _ _ _ Hw' Hl) in Ew. rewrite <- Ew, app_length.
    destruct (Nat.eqb_spec (length w) (length w + length text)) as [E|_].
    { destruct text; [congruence|simpl in E; lia]. }
    unfold tput. destruct toks as [|t2 toks]; [congruence|]. cbn [is_empty snd].
    rewrite skipn_app, skipn_all, Nat.sub_diag. apply IH; [exact H2|].
    apply (utf8_app_inv_r w text Uw Hu).
  - inversion HF as [|? ? H0 H3]; subst. destruct H0 as (H1 & H2).
    assert (utf8 v) as Hv by (apply (captures_ascii_utf8 q (v ++ text)); assumption).
    rewrite t_insert_unfold. cbn [lits_of pars_of level_empty at_parser]. rewrite t_parse_unfold. cbn [nearest filter last_opt hd_error].
    cbn [try_parsers]. unfold try_parser.
    rewrite (capture_complete q (v ++ text) v Hu H1 Hv Hc), skipn_app, skipn_all, Nat.sub_diag. simpl app. cbn [skipn].
    unfold tput. destruct toks as [|t2 toks]; [congruence|]. cbn [is_empty fst snd].
    destruct IH as (r & ->); [exact H3|apply (utf8_app_inv_r v); assumption|]. simpl. eauto.
Qed.

Lemma table_single sip p t text r :
  valid_pattern p -> (forall q, In (Parser q) (pat_tokens p) -> parser_ascii_set q) ->
  collision_free sip [p] -> add_patterns sip table_new [p] = Ret t ->
  utf8 text -> parse t text = Ret r ->
  match r with
  | Some r => mr_pattern r = stripped p /\
              exists caps, table_walk (pat_tokens p) text caps /\ reports caps (mr_values r)
  | None => forall caps, ~ table_walk (pat_tokens p) text caps
  end.
Proof.
  intros V A C E Hu H. assert (Forall valid_pattern [p]) as V1 by (constructor; [exact V|constructor]).
  destruct r as [r|].
  - destruct (table_sound sip [p] t text r V1 C E Hu H) as (p0 & caps & [<-|[]] & E1 & E2 & E3). eauto.
  - intros caps Hw. apply (table_refines sip [p] t text _ V1 C E Hu) in H.
    change (t_adds [p]) with (t_insert (pat_tokens p) level_empty (stripped p)) in H.
    destruct (tchain_parse _ (stripped p) _ _ Hw (usable_tokens p V A) Hu) as (r & Hr). congruence.
Qed.

Lemma table_walk_unique toks text caps :
  table_walk toks text caps -> forall caps', table_walk toks text caps' -> caps = caps'.
Proof.
  induction 1 as [l text Hp|q v Hc|l toks w text caps Nt Hl Nx Hw IH|q toks v text caps Nt Hc Hw IH];
    intros caps' H'; inversion H'; subst; try congruence.
  - apply IH. match goal with H : ?w0 ++ ?t0 = w ++ text |- _ =>
      assert (w0 = w) as -> by (apply (longest_common_chars_unique l (w ++ text)); [rewrite <- H; assumption|assumption]);
      apply app_inv_head in H; subst t0 end. assumption.
  - match goal with H : ?v0 ++ ?t0 = v ++ text |- _ =>
      assert (v0 = v) as -> by (apply (captures_unique q (v ++ text)); [rewrite <- H; assumption|assumption]);
      apply app_inv_head in H; subst t0 end.
    f_equal. apply IH. assumption.
Qed.

(** ** Trie and table *)
Lemma agree_level K text r :
  NoDup (keys K) -> (forall k e, In (k, e) K -> utf8 k) -> utf8 text ->
  (forall k k', In k (keys K) -> In k' (keys K) -> incomparable k k') ->
  (forall k po c text r, In (k, (po, Some c)) K -> utf8 text -> s_parse c text = Some r -> t_parse c text = Some r) ->
  ksorted K ->
  s_parse (Level K []) text = Some r -> t_parse (Level K []) text = Some r.
Proof.
  intros HN HU Hu HI HC HS H.
  assert (forall k e, In (k, e) K -> prefix_of k text -> nearest K text = Some (k, e)) as HK.
  { intros k e Hk Hp. destruct (nearest K text) as [(k', e')|] eqn:En.
    - pose proof (nearest_in K text k' e' En) as Hk'.
      assert (common_prefix_len k text <= common_prefix_len k' text) as L.
      { apply (nearest_max K text k' e') with (x := (k, e)); auto. intros (k1, e1) Hx. apply (HU k1 e1 Hx). }
      rewrite (Trie_refine.cpl_prefix k text) in L; [|apply (HU k e Hk)|exact Hu|apply prefixb_app; exact Hp].
      destruct (cpl_longest k' text (HU k' e' Hk') Hu) as (w & Ew & _ & Pk' & Pt & _).
      assert (prefix_of k w) as (r1 & E1) by (apply (prefix_comparable k w text); auto; lia).
      destruct Pk' as (r2 & E2). rewrite E1, <- app_assoc in E2.
      assert (r1 ++ r2 = []) as E3.
      { apply (HI k k'); [apply (in_map fst) in Hk; exact Hk|apply (in_map fst) in Hk'; exact Hk'|auto]. }
      rewrite E3, app_nil_r in E2. subst k'. f_equal. f_equal.
      apply (in_lookup K k e HN) in Hk. apply (in_lookup K k e' HN) in Hk'. congruence.
    - apply nearest_none in En. subst K. destruct Hk. }
  rewrite s_parse_unfold in H. rewrite t_parse_unfold.
  destruct (try_literals s_parse (keys K) K text) as [r'|] eqn:Et.
  - subst r'. apply try_literals_some in Et. destruct Et as (k & po & c & Hk & R & E).
    apply routes_spec in R. destruct R as (_ & (rest & -> & Nr) & _).
    rewrite (HK k _ Hk) by (exists rest; reflexivity). cbv zeta. cbn [fst snd].
    rewrite (Trie_refine.cpl_prefix k (k ++ rest)); [|apply (HU k _ Hk)|exact Hu|apply prefixb_app; eauto].
    rewrite app_length. destruct (Nat.eqb_spec (length k) (length k + length rest)) as [E2|_].
    { destruct rest; [congruence|simpl in E2; lia]. }
    rewrite skipn_app, skipn_all, Nat.sub_diag in *. simpl in E. simpl.
    apply (HC k po c); auto. apply (utf8_app_inv_r k rest (HU k _ Hk) Hu).
  - destruct (lookup text K) as [e|] eqn:El.
    + apply lookup_in in El. rewrite (HK text e El) by (exists []; rewrite app_nil_r; reflexivity).
      cbv zeta. rewrite (cpl_self text Hu), Nat.eqb_refl. exact H.
    + destruct (blocked (keys K) text); discriminate.
Qed.

Definition okt (tok : token) : Prop :=
  match tok with Literal l => utf8 l | Parser q => parser_utf8 q end.

Lemma agree_chain toks p : Forall okt toks -> forall text r, utf8 text ->
  s_parse (s_insert toks level_empty p) text = Some r ->
  t_parse (s_insert toks level_empty p) text = Some r.
Proof.
  induction toks as [|[x|l] rest IH]; intros HF text r Hu H.
  - exact H.
  - inversion HF as [|? ? H1 H2]; subst. simpl in H1. rewrite chain_parser in *.
    rewrite s_parse_unfold in H. cbn [try_literals keys map lookup blocked existsb] in H.
    rewrite t_parse_unfold. cbn [nearest filter last_opt hd_error].
    cbn [try_parsers] in *. unfold try_parser in *. destruct (capture x text) as [v|] eqn:Ec; [|exact H].
    pose proof (capture_utf8 _ _ _ Ec Hu H1) as Hv. pose proof (capture_prefix _ _ _ Ec) as Ep.
    set (tl := skipn (length v) text) in *. clearbody tl.
    unfold put in *. destruct rest as [|t2 rest]; cbn [is_empty fst snd] in *; [exact H|].
    destruct (s_parse (s_insert (t2 :: rest) level_empty p) tl) as [r'|] eqn:Es; [|discriminate].
    rewrite (IH H2 tl r'); auto. apply (utf8_app_inv_r v tl Hv). rewrite <- Ep. exact Hu.
  - inversion HF as [|? ? H1 H2]; subst. simpl in H1. rewrite chain_literal in *.
    apply agree_level; auto.
    + constructor; [intros []|constructor].
    + intros k e [E|[]]. inversion E; subst. exact H1.
    + intros k k' [<-|[]] [<-|[]] r0 [E|E]; rewrite <- (app_nil_r l) in E at 1; apply app_inv_head in E; auto.
    + intros k po c text' r' [E|[]] Hu' Hs. unfold put in E.
      destruct rest as [|t2 rest]; cbn [is_empty snd] in E; inversion E; subst.
      apply (IH H2 text' r' Hu' Hs).
    + constructor; constructor.
Qed.

Lemma s_adds_t_adds ps : apart ps -> s_adds ps = t_adds ps.
Proof.
  induction ps as [|p ps IH] using rev_ind; intros HA; [reflexivity|].
  assert (apart ps) as HA' by (apply (apart_incl (ps ++ [p])); [apply incl_appl, incl_refl|exact HA]).
  rewrite s_adds_snoc, t_adds_snoc, <- (IH HA'). unfold s_add, t_add.
  destruct (s_adds_apart (fun _ => true) ps HA') as (HP & HS & HK & _).
  destruct HA as (H1 & H2). destruct (H1 p) as (l & rest & Et); [apply in_elt|]. rewrite Et.
  destruct (s_adds ps) as [K P]. cbn [lits_of pars_of] in *. cbn [s_insert t_insert].
  rewrite enter_apart.
  - cbn [lits_of pars_of]. rewrite chain_same. reflexivity.
  - intros k Hk. destruct (HK k Hk) as (p0 & Hi & Hs).
    apply (H2 p0 p); [apply in_or_app; auto|apply in_elt|exact Hs|exists rest; exact Et].
Qed.

Lemma valid_okt p : valid_pattern p -> Forall okt (pat_tokens p).
Proof.
  apply Forall_impl. intros [q|l] H; simpl in *; [destruct q; simpl in *; tauto|exact H].
Qed.

Lemma agree_apart ps text r :
  Forall valid_pattern ps -> apart ps -> utf8 text ->
  s_parse (s_adds ps) text = Some r -> t_parse (t_adds ps) text = Some r.
Proof.
  intros V HA Hu H. pose proof (s_adds_t_adds ps HA) as E.
  destruct (s_adds_apart (fun _ => true) ps HA) as (HP & HS & HK & _).
  pose proof (fun tok => t_adds_entry ps tok) as HE. rewrite <- E in *.
  destruct (s_adds ps) as [K P]. cbn [lits_of pars_of] in *. subst P.
  rewrite Forall_forall in V.
  apply agree_level; auto.
  - apply sorted_keys_nodup. exact HS.
  - intros k e Hk. destruct (HK k (in_map fst _ _ Hk)) as (p & Hp & rest & Ep).
    specialize (V p Hp). unfold valid_pattern in V. rewrite Ep in V. inversion V; assumption.
  - intros k k' Hk Hk'. destruct (HK k Hk) as (p & Hp & Hs). destruct (HK k' Hk') as (p' & Hp' & Hs').
    destruct HA as (_ & HA). apply (HA p p'); assumption.
  - intros k po c text' r' Hk Hu' Hs. specialize (HE (Literal k)). cbn [entry_of lits_of] in HE.
    apply (in_lookup K k _ (sorted_keys_nodup _ HS)) in Hk. rewrite Hk in HE.
    destruct (existsb (first_is (Literal k)) ps); [|discriminate]. inversion HE as [[E1 E2]].
    symmetry in E2. apply last_such_some in E2. destruct E2 as (a & p & b & Eps & El & _).
    unfold longer in El. destruct (pat_tokens p) as [|t [|t2 rest]] eqn:Ep; try discriminate.
    destruct (token_dec t (Literal k)) as [->|]; [|discriminate].
    assert (c = s_insert (t2 :: rest) level_empty (stripped p)) as Ec
      by (rewrite <- chain_same; congruence).
    rewrite Ec in *. apply agree_chain; auto.
    assert (In p ps) as Hp by (rewrite Eps; apply in_elt).
    specialize (valid_okt p (V p Hp)). rewrite Ep. intros F. inversion F; assumption.
Qed.

Lemma table_follows_trie sip ps t t' text r r' :
  Forall valid_pattern ps -> collision_free sip ps -> apart ps ->
  Trie.add_patterns sip Trie.tree_new ps = Ret t -> add_patterns sip table_new ps = Ret t' ->
  utf8 text -> Trie.parse t text = Ret (Some r) -> parse t' text = Ret r' -> r' = Some r.
Proof.
  intros V C A E E' Hu H H'. apply (trie_refines sip ps t text _ V C E Hu) in H.
  apply (table_refines sip ps t' text _ V C E' Hu) in H'. subst r'.
  apply agree_apart; auto.
Qed.

Lemma table_follows_trie_one sip p t t' text r r' :
  valid_pattern p -> collision_free sip [p] ->
  Trie.add_patterns sip Trie.tree_new [p] = Ret t -> add_patterns sip table_new [p] = Ret t' ->
  utf8 text -> Trie.parse t text = Ret (Some r) -> parse t' text = Ret r' -> r' = Some r.
Proof.
  intros V0 C E E' Hu H H'. assert (Forall valid_pattern [p]) as V by (constructor; auto).
  apply (trie_refines sip [p] t text _ V C E Hu) in H.
  apply (table_refines sip [p] t' text _ V C E' Hu) in H'. subst r'.
  change (t_adds [p]) with (t_insert (pat_tokens p) level_empty (stripped p)). rewrite chain_same.
  apply agree_chain; auto. apply valid_okt. exact V0.
Qed.

(** Patterns of parsers only. *)
Definition only_parsers (p : pattern) : Prop := forall tok, In tok (pat_tokens p) -> exists q, tok = Parser q.

Inductive nolits : level -> Prop :=
| nolits_level P : (forall x po c, In (x, (po, Some c)) P -> nolits c) -> nolits (Level [] P).

Lemma nolits_same L : nolits L -> forall text, s_parse L text = t_parse L text.
Proof.
  induction 1 as [P HP IH]. intros text. rewrite s_parse_unfold, t_parse_unfold.
  cbn [try_literals keys map lookup blocked existsb nearest filter last_opt hd_error].
  clear HP. induction P as [|(x, (po, co)) P IHP]; [reflexivity|]. cbn [try_parsers].
  assert (try_parser s_parse x (po, co) text = try_parser t_parse x (po, co) text) as ->.
  { unfold try_parser. destruct (capture x text); [|reflexivity]. cbn [fst snd].
    destruct co as [c|]; [|reflexivity]. rewrite (IH x po c (or_introl eq_refl)). reflexivity. }
  rewrite IHP; [reflexivity|]. intros y po' c' Hi. apply (IH y po' c'). right. exact Hi.
Qed.

Lemma nolits_insert toks : (forall tok, In tok toks -> exists q, tok = Parser q) ->
  forall L p, nolits L -> s_insert toks L p = t_insert toks L p /\ nolits (t_insert toks L p).
Proof.
  induction toks as [|tok rest IH]; intros HT L p HL; [split; [reflexivity|exact HL]|].
  destruct (HT tok (or_introl eq_refl)) as (q & ->).
  destruct (IH (fun t H => HT t (or_intror H)) level_empty p) as (E1 & E2).
  { constructor. intros x po c []. }
  inversion HL as [P HP]; subst. cbn [s_insert]. rewrite E1. split; [reflexivity|].
  rewrite t_insert_unfold. cbn [lits_of pars_of]. constructor. intros x po c Hi.
  destruct (at_parser_split P q (tput rest p)) as (A & B & [(E3 & ->)|(e & E3 & ->)]);
    rewrite E3 in Hi; apply in_elt_inv in Hi; destruct Hi as [Hi|Hi].
  - inversion Hi as [[Ex Ee]]. unfold tput in Ee. destruct (is_empty rest); inversion Ee; subst. exact E2.
  - apply (HP x po c Hi).
  - inversion Hi as [[Ex Ee]]. destruct e as (po', co'). unfold tput in Ee. cbn [fst snd] in Ee.
    destruct (is_empty rest); inversion Ee; subst; [|exact E2]. eapply HP. apply in_elt.
  - apply (HP x po c). apply in_app_or in Hi. apply in_or_app. destruct Hi; [auto|right; right; assumption].
Qed.

Lemma nolits_adds ps : Forall only_parsers ps -> s_adds ps = t_adds ps /\ nolits (t_adds ps).
Proof.
  induction ps as [|p ps IH] using rev_ind; intros H.
  - split; [reflexivity|]. constructor. intros x po c [].
  - apply Forall_app in H. destruct H as (H1 & H2). inversion H2 as [|? ? Hp _]; subst.
    destruct (IH H1) as (E & HL). rewrite s_adds_snoc, t_adds_snoc, E. unfold s_add, t_add.
    apply nolits_insert; assumption.
Qed.

Lemma table_is_trie_parsers sip ps t t' text r r' :
  Forall valid_pattern ps -> collision_free sip ps ->
  (forall p tok, In p ps -> In tok (pat_tokens p) -> exists q, tok = Parser q) ->
  Trie.add_patterns sip Trie.tree_new ps = Ret t -> add_patterns sip table_new ps = Ret t' ->
  utf8 text -> Trie.parse t text = Ret r -> parse t' text = Ret r' -> r = r'.
Proof.
  intros V C A E E' Hu H H'. apply (trie_refines sip ps t text _ V C E Hu) in H.
  apply (table_refines sip ps t' text _ V C E' Hu) in H'. subst r r'.
  destruct (nolits_adds ps) as (E1 & HL).
  { apply Forall_forall. intros p Hp tok. apply (A p tok Hp). }
  rewrite E1. apply nolits_same. exact HL.
Qed.

(** ** Patterns consisting of one literal *)
Lemma str_lt_prefix a b : prefix_of a b -> str_cmp b a <> Lt.
Proof.
  intros (r & ->). induction a as [|x a IH]; simpl.
  - destruct r; discriminate.
  - rewrite byte_cmp_refl. exact IH.
Qed.

Lemma starts_existsb ps k : existsb (first_is (Literal k)) ps = true <-> exists p, In p ps /\ starts_with p k.
Proof.
  rewrite existsb_exists. split; intros (p & Hp & H); exists p; (split; [exact Hp|]).
  - unfold first_is in H. destruct (pat_tokens p) as [|t rest] eqn:E; [discriminate|].
    destruct (token_dec t (Literal k)) as [->|]; [|discriminate]. exists rest. exact E.
  - destruct H as (rest & E). unfold first_is. rewrite E. destruct (token_dec (Literal k) (Literal k)); congruence.
Qed.

Lemma t_adds_lits ps k e :
  In (k, e) (lits_of (t_adds ps)) <->
  (exists p, In p ps /\ starts_with p k) /\
  e = (last_such (single (Literal k)) ps, last_such (longer (Literal k)) ps).
Proof.
  rewrite in_lits by apply t_adds_sorted. rewrite t_adds_entry, <- starts_existsb.
  destruct (existsb (first_is (Literal k)) ps); split; try discriminate.
  - intros H. inversion H. auto.
  - intros (_ & ->). reflexivity.
  - intros (H & _). discriminate.
Qed.

Lemma starts_utf8 ps p k : Forall valid_pattern ps -> In p ps -> starts_with p k -> utf8 k.
Proof.
  intros V Hp (rest & E). rewrite Forall_forall in V. specialize (V p Hp). unfold valid_pattern in V.
  rewrite E in V. inversion V; assumption.
Qed.

Lemma t_adds_keys_utf8 ps : Forall valid_pattern ps -> forall x, In x (lits_of (t_adds ps)) -> utf8 (fst x).
Proof.
  intros V (k, e) H. apply t_adds_lits in H. destruct H as ((p & Hp & Hs) & _). simpl.
  apply (starts_utf8 ps p); assumption.
Qed.

(** Among the keys not smaller than [text] the nearest one is the first. *)
Lemma nearest_extending (K : list (str * entry)) text k e :
  ksorted K -> (forall x, In x K -> utf8 (fst x)) -> utf8 text ->
  nearest K text = Some (k, e) -> prefix_of text k ->
  forall x, In x K -> prefix_of text (fst x) -> str_cmp k (fst x) <> Gt.
Proof.
  intros HS HU Hu H Hk x Hx Hp. unfold nearest in H.
  set (K1 := filter (fun x => notgtb (str_cmp (fst x) text)) K) in *.
  set (K2 := filter (fun x => negb (notgtb (str_cmp (fst x) text))) K) in *.
  assert (forall y, In y K1 -> prefix_of text (fst y) -> fst y = text) as H1.
  { intros y Hy Hpy. apply filter_In in Hy. destruct Hy as (_ & Hc).
    apply str_lt_prefix in Hpy. destruct (str_cmp (fst y) text) eqn:E; try discriminate; try congruence.
    apply str_cmp_eq in E. exact E. }
  assert (str_cmp text (fst x) <> Gt) as Lx.
  { intros C. apply str_lt_prefix in Hp. rewrite str_cmp_antisym in C.
    destruct (str_cmp (fst x) text); simpl in C; congruence. }
  assert (forall a, last_opt K1 = Some a -> a = (k, e) -> str_cmp k (fst x) <> Gt) as Q1.
  { intros a Ha ->. apply last_opt_in in Ha. apply H1 in Ha; [|exact Hk]. simpl in Ha. subst k. exact Lx. }
  assert (forall b, hd_error K2 = Some b -> b = (k, e) -> In x K2 -> str_cmp k (fst x) <> Gt) as Q2.
  { intros b Hb -> Hx2. apply (sorted_first K2 (k, e)); auto. apply ksorted_filter. exact HS. }
  assert (In x K2 \/ (In x K1 /\ fst x = text)) as HxK.
  { destruct (notgtb (str_cmp (fst x) text)) eqn:E.
    - right. assert (In x K1) as Hi by (apply filter_In; auto). auto.
    - left. apply filter_In. split; [exact Hx|]. rewrite E. reflexivity. }
  destruct (last_opt K1) as [a|] eqn:Ea, (hd_error K2) as [b|] eqn:Eb.
  - destruct (Nat.leb_spec (common_prefix_len (fst b) text) (common_prefix_len (fst a) text)) as [L|L].
    + apply (Q1 a eq_refl). congruence.
    + destruct HxK as [Hx2|(Hx1 & Ex)]; [apply (Q2 b eq_refl); congruence|].
      exfalso. assert (common_prefix_len (fst x) text <= common_prefix_len (fst a) text) as L2.
      { pose proof (last_opt_in _ _ Ea) as Ha. apply cpl_between_up; auto.
        - apply HU. apply filter_In in Ha. apply Ha.
        - apply (sorted_last K1); auto. apply ksorted_filter. exact HS.
        - apply filter_In in Ha. destruct Ha as (_ & Ha). destruct (str_cmp (fst a) text); discriminate. }
      rewrite Ex, (cpl_self text Hu) in L2. pose proof (cpl_le_r (fst b) text). lia.
  - apply (Q1 a eq_refl). congruence.
  - destruct HxK as [Hx2|(Hx1 & Ex)]; [apply (Q2 b eq_refl); congruence|].
    apply last_opt_none in Ea. rewrite Ea in Hx1. destruct Hx1.
  - discriminate.
Qed.

Lemma table_literals sip ps t text r :
  Forall valid_pattern ps -> (forall p, In p ps -> exists l, pat_tokens p = [Literal l]) ->
  add_patterns sip table_new ps = Ret t ->
  utf8 text -> parse t text = Ret r ->
  match r with
  | Some r => exists a p b l, ps = a ++ p :: b /\ pat_tokens p = [Literal l] /\ prefix_of text l /\
                (forall p', In p' b -> pat_tokens p' <> [Literal l]) /\
                (forall p' l', In p' ps -> pat_tokens p' = [Literal l'] -> prefix_of text l' ->
                   str_cmp l l' <> Gt) /\
                r = {| mr_pattern := stripped p; mr_values := [] |}
  | None => forall p l, In p ps -> pat_tokens p = [Literal l] -> ~ prefix_of text l
  end.
Proof.
  intros V A E Hu H.
  assert (collision_free sip ps) as C.
  { intros q q' (p & Hp & Hq). destruct (A p Hp) as (l & El). rewrite El in Hq. destruct Hq as [Hq|[]].
    discriminate. }
  apply (table_refines sip ps t text _ V C E Hu) in H.
  pose proof (t_adds_lits ps) as HL. pose proof (t_adds_sorted ps) as HS.
  pose proof (t_adds_keys_utf8 ps V) as HU.
  assert (pars_of (t_adds ps) = []) as HP.
  { destruct (pars_of (t_adds ps)) as [|(x, e) P] eqn:EP; [reflexivity|].
    assert (In (x, e) (pars_of (t_adds ps))) as Hi by (rewrite EP; left; reflexivity).
    apply in_pars in Hi; [|apply t_adds_pnodup]. rewrite t_adds_entry in Hi.
    destruct (existsb (first_is (Parser x)) ps) eqn:Ex; [|discriminate]. apply existsb_exists in Ex.
    destruct Ex as (p & Hp & Hf). destruct (A p Hp) as (l & El). unfold first_is in Hf. rewrite El in Hf.
    destruct (token_dec (Literal l) (Parser x)); discriminate. }
  destruct (t_adds ps) as [K P]. cbn [lits_of pars_of] in *. subst P.
  assert (forall p l, In p ps -> pat_tokens p = [Literal l] -> exists e, In (l, e) K) as Hkey.
  { intros p l Hp El. eexists. apply HL. split; [|reflexivity]. exists p. split; [exact Hp|]. exists []. exact El. }
  rewrite t_parse_unfold in H. destruct (nearest K text) as [(k, e)|] eqn:En.
  - pose proof (nearest_in K text k e En) as Hk. pose proof (HU _ Hk) as Uk. simpl in Uk.
    apply HL in Hk. destruct Hk as ((p & Hp & Hs) & Ee). destruct (A p Hp) as (l & El).
    assert (last_such (longer (Literal k)) ps = None) as Hlong.
    { apply last_such_none. intros p' Hp'. destruct (A p' Hp') as (l' & El'). unfold longer. rewrite El'. reflexivity. }
    cbv zeta in H. rewrite Ee, Hlong in H. cbn [fst snd] in H.
    destruct (Nat.eqb_spec (common_prefix_len k text) (length text)) as [Ec|Ec].
    + assert (prefix_of text k) as Hpk.
      { destruct (cpl_longest k text Uk Hu) as (w & Ew & _ & Pk & Pt & _).
        assert (prefix_of text w) as (r1 & E1).
        { apply (prefix_comparable text w text); [exists []; rewrite app_nil_r; reflexivity|exact Pt|lia]. }
        destruct Pk as (r2 & ->). exists (r1 ++ r2). rewrite E1, app_assoc. reflexivity. }
      destruct (last_such (single (Literal k)) ps) as [q|] eqn:El2; simpl in H.
      * subst r. apply last_such_some in El2. destruct El2 as (a & p1 & b & Eps & Es & Hb).
        exists a, p1, b, k. split; [exact Eps|]. unfold single in Es.
        destruct (pat_tokens p1) as [|t1 [|t2 r1]] eqn:Ep1; try discriminate.
        destruct (token_dec t1 (Literal k)) as [->|]; [|discriminate]. inversion Es; subst q.
        split; [reflexivity|]. split; [exact Hpk|]. split; [|split; [|reflexivity]].
        -- intros p' Hp' E'. apply Hb in Hp'. unfold single in Hp'. rewrite E' in Hp'.
           destruct (token_dec (Literal k) (Literal k)); congruence.
        -- intros p' l' Hp' E' Hpl. destruct (Hkey p' l' Hp' E') as (e' & He').
           apply (nearest_extending K text k e HS HU Hu En Hpk (l', e') He' Hpl).
      * exfalso. pose proof (proj1 (last_such_none _ _) El2 p Hp) as El3.
        destruct Hs as (rest & Es). rewrite Es in El. inversion El; subst.
        unfold single in El3. rewrite Es in El3. destruct (token_dec (Literal l) (Literal l)); congruence.
    + subst r. intros p' l' Hp' E' Hpl. destruct (Hkey p' l' Hp' E') as (e' & He').
      pose proof (nearest_max K text k e HS HU Hu En (l', e') He') as L. simpl in L.
      rewrite (cpl_sym l' text) in L; [|apply (HU _ He')|exact Hu].
      rewrite (Trie_refine.cpl_prefix text l') in L; [|exact Hu|apply (HU _ He')|apply prefixb_app; exact Hpl].
      pose proof (cpl_le_r k text). lia.
  - apply nearest_none in En. subst K. cbn [try_parsers] in H. subst r.
    intros p l Hp El. destruct (Hkey p l Hp El) as (e & []).
Qed.

(** ** Literals first *)
Lemma t_adds_lits_filter ps : lits_of (t_adds (filter literal_first ps)) = lits_of (t_adds ps).
Proof.
  induction ps as [|p ps IH] using rev_ind; [reflexivity|]. rewrite filter_app, t_adds_snoc. cbn [filter].
  unfold literal_first at 2. unfold t_add at 1. destruct (pat_tokens p) as [|[x|l] rest] eqn:E.
  - rewrite app_nil_r. exact IH.
  - rewrite app_nil_r, t_insert_unfold. exact IH.
  - rewrite t_adds_snoc. unfold t_add. rewrite E, !t_insert_unfold. cbn [lits_of]. rewrite IH. reflexivity.
Qed.

Lemma t_parse_lits L L' text :
  lits_of L = lits_of L' -> lits_of L <> [] -> t_parse L text = t_parse L' text.
Proof.
  destruct L as [K P], L' as [K' P']. cbn [lits_of]. intros <- N. rewrite !t_parse_unfold.
  destruct (nearest K text) as [(k, e)|] eqn:En; [reflexivity|]. apply nearest_none in En. contradiction.
Qed.

Lemma t_adds_some_lit ps p :
  In p ps -> literal_first p = true -> lits_of (t_adds ps) <> [].
Proof.
  intros Hp Hl E. unfold literal_first in Hl. destruct (pat_tokens p) as [|[x|l] rest] eqn:Et; try discriminate.
  assert (exists e, In (l, e) (lits_of (t_adds ps))) as (e & He); [|rewrite E in He; destruct He].
  eexists. apply t_adds_lits. split; [|reflexivity]. exists p. split; [exact Hp|]. exists rest. exact Et.
Qed.

Lemma table_same sip ps ps' t t' text r r' :
  incl ps' ps -> Forall valid_pattern ps -> collision_free sip ps ->
  t_parse (t_adds ps) text = t_parse (t_adds ps') text ->
  add_patterns sip table_new ps = Ret t -> add_patterns sip table_new ps' = Ret t' ->
  utf8 text -> parse t text = Ret r -> parse t' text = Ret r' -> r = r'.
Proof.
  intros Hi V C E Ha Ha' Hu Hp Hp'.
  apply (table_refines sip ps t text r V C Ha Hu) in Hp.
  apply (table_refines sip ps' t' text r') in Hp'; auto.
  - congruence.
  - apply (Forall_incl _ ps); assumption.
  - apply (collision_free_incl sip ps); assumption.
Qed.

Lemma table_literals_first sip ps t t' text r r' :
  Forall valid_pattern ps -> collision_free sip ps ->
  (exists p, In p ps /\ literal_first p = true) ->
  add_patterns sip table_new ps = Ret t ->
  add_patterns sip table_new (filter literal_first ps) = Ret t' ->
  utf8 text -> parse t text = Ret r -> parse t' text = Ret r' -> r = r'.
Proof.
  intros V C (p & Hp & Hl). apply table_same; auto; [apply filter_incl|].
  apply t_parse_lits; [symmetry; apply t_adds_lits_filter|]. apply (t_adds_some_lit ps p); assumption.
Qed.

(** ** Locality *)
Lemma last_such_filter {A} (f : pattern -> option A) g ps :
  (forall p a, f p = Some a -> g p = true) -> last_such f (filter g ps) = last_such f ps.
Proof.
  intros H. induction ps as [|p ps IH] using rev_ind; [reflexivity|].
  rewrite filter_app, last_such_snoc. cbn [filter]. destruct (g p) eqn:E.
  - rewrite last_such_snoc, IH. reflexivity.
  - rewrite app_nil_r, IH. destruct (f p) as [a|] eqn:F; [|reflexivity]. rewrite (H p a F) in E. discriminate.
Qed.

Lemma starts_withb_spec k p : starts_withb k p = true <-> starts_with p k.
Proof.
  unfold starts_withb, starts_with. destruct (pat_tokens p) as [|[x|l] rest].
  - split; [discriminate|intros (r & E); discriminate].
  - split; [discriminate|intros (r & E); discriminate].
  - split.
    + intros H. apply str_eqb_eq in H. subst. eauto.
    + intros (r & E). inversion E. apply str_eqb_refl.
Qed.

Lemma table_local sip ps t text r :
  Forall valid_pattern ps -> collision_free sip ps ->
  (exists p, In p ps /\ literal_first p = true) ->
  add_patterns sip table_new ps = Ret t -> utf8 text -> parse t text = Ret r ->
  exists l, (exists p, In p ps /\ starts_with p l) /\ shares_most ps text l /\
    forall t' r', add_patterns sip table_new (filter (starts_withb l) ps) = Ret t' ->
      parse t' text = Ret r' -> r = r'.
Proof.
  intros V C (p0 & Hp0 & Hl0) E Hu H.
  pose proof (t_adds_some_lit ps p0 Hp0 Hl0) as Nk.
  destruct (nearest (lits_of (t_adds ps)) text) as [(k, e)|] eqn:En; [|apply nearest_none in En; contradiction].
  pose proof (nearest_in _ _ _ _ En) as Hk. apply t_adds_lits in Hk. destruct Hk as ((p & Hp & Hs) & Ee).
  exists k. split; [eauto|]. split.
  - destruct (cpl_longest k text (starts_utf8 ps p k V Hp Hs) Hu) as (w & Ew & Hw). exists w. split; [exact Hw|].
    intros p' l' w' Hp' Hs' Hw'.
    assert (exists e', In (l', e') (lits_of (t_adds ps))) as (e' & He').
    { eexists. apply t_adds_lits. split; [|reflexivity]. eauto. }
    pose proof (nearest_max _ text k e (t_adds_sorted ps) (t_adds_keys_utf8 ps V) Hu En (l', e') He') as L.
    simpl in L. destruct (cpl_longest l' text (starts_utf8 ps p' l' V Hp' Hs') Hu) as (w2 & Ew2 & Hw2).
    rewrite (longest_common_chars_unique _ _ _ _ Hw' Hw2). lia.
  - intros t' r' E' H'. apply (table_same sip ps (filter (starts_withb k) ps) t t' text r r'); auto; [apply filter_incl|].
    set (ps' := filter (starts_withb k) ps) in *.
    assert (lits_of (t_adds ps') = [(k, e)]) as EK.
    { assert (forall k' e', In (k', e') (lits_of (t_adds ps')) <-> k' = k /\ e' = e) as HH.
      { intros k' e'. rewrite t_adds_lits. split.
        - intros ((p' & Hp' & Hs') & Ee'). apply filter_In in Hp'. destruct Hp' as (_ & Hb).
          apply starts_withb_spec in Hb. destruct Hs' as (r1 & E1), Hb as (r2 & E2).
          assert (k' = k) as -> by congruence. split; [reflexivity|]. rewrite Ee', Ee.
          unfold ps'. rewrite !last_such_filter; [reflexivity| |].
          + intros q a Hq. unfold longer in Hq. destruct (pat_tokens q) as [|t1 [|t2 rr]] eqn:Eq; try discriminate.
            destruct (token_dec t1 (Literal k)) as [->|]; [|discriminate].
            apply starts_withb_spec. eexists. exact Eq.
          + intros q a Hq. unfold single in Hq. destruct (pat_tokens q) as [|t1 [|t2 rr]] eqn:Eq; try discriminate.
            destruct (token_dec t1 (Literal k)) as [->|]; [|discriminate].
            apply starts_withb_spec. eexists. exact Eq.
        - intros (-> & ->). split.
          + exists p. split; [|exact Hs]. apply filter_In. split; [exact Hp|]. apply starts_withb_spec. exact Hs.
          + rewrite Ee. unfold ps'. rewrite !last_such_filter; [reflexivity| |].
            * intros q a Hq. unfold longer in Hq. destruct (pat_tokens q) as [|t1 [|t2 rr]] eqn:Eq; try discriminate.
              destruct (token_dec t1 (Literal k)) as [->|]; [|discriminate].
              apply starts_withb_spec. eexists. exact Eq.
            * intros q a Hq. unfold single in Hq. destruct (pat_tokens q) as [|t1 [|t2 rr]] eqn:Eq; try discriminate.
              destruct (token_dec t1 (Literal k)) as [->|]; [|discriminate].
              apply starts_withb_spec. eexists. exact Eq. }
      pose proof (sorted_keys_nodup _ (t_adds_sorted ps')) as HN.
      destruct (lits_of (t_adds ps')) as [|(k1, e1) [|(k2, e2) K]] eqn:EK.
      - destruct (proj2 (HH k e) (conj eq_refl eq_refl)).
      - destruct (proj1 (HH k1 e1) (or_introl eq_refl)) as (-> & ->). reflexivity.
      - destruct (proj1 (HH k1 e1) (or_introl eq_refl)) as (-> & ->).
        destruct (proj1 (HH k2 e2) (or_intror (or_introl eq_refl))) as (-> & ->).
        inversion HN as [|? ? N _]; subst. exfalso. apply N. left. reflexivity. }
    destruct (t_adds ps) as [K P], (t_adds ps') as [K' P']. cbn [lits_of] in *. subst K'.
    rewrite !t_parse_unfold, En, nearest_one. reflexivity.
Qed.

(** ** Re-adding *)
Lemma t_insert_twice toks L p q : t_insert toks (t_insert toks L p) q = t_insert toks L q.
Proof.
  destruct toks as [|[x|l] rest]; [reflexivity| |]; rewrite !t_insert_unfold; cbn [lits_of pars_of].
  - rewrite at_parser_twice; [reflexivity|]. intros e. unfold tput. destruct (is_empty rest); reflexivity.
  - rewrite upsert_twice; [reflexivity|]. intros e. unfold tput. destruct (is_empty rest); reflexivity.
Qed.

Lemma t_adds_replace ps p q :
  pat_tokens p = pat_tokens q -> t_adds (ps ++ [p; q]) = t_adds (ps ++ [q]).
Proof.
  intros E. change [p; q] with ([p] ++ [q]). rewrite app_assoc, !t_adds_snoc. unfold t_add.
  rewrite E. apply t_insert_twice.
Qed.

(** The abstraction forgets nothing. *)
Lemma tabs_inj t : forall t', tabs t = tabs t' -> t = t'.
Proof.
  assert (forall n t, height t <= n -> forall t', tabs t = tabs t' -> t = t') as H.
  2: { intros t'. apply (H (height t) t (Nat.le_refl _)). }
  clear t. induction n as [|n IH]; intros [les pes] L t' E; [cbn [height] in L; lia|].
  destruct t' as [les' pes']. rewrite !tabs_unfold in E. inversion E as [[E1 E2]].
  assert (les = les') as <-.
  { enough (forall l les', (forall e, In e l -> In e les) -> map lpair l = map lpair les' -> l = les') as HH
      by (apply HH; auto).
    clear E E1 E2 les'. induction l as [|e l IHl]; intros [|e' l'] HI E1; try discriminate; [reflexivity|].
    simpl in E1. inversion E1 as [[A1 A2 A3 A4]]. f_equal.
    - destruct e as [ll lp lc], e' as [ll' lp' lc']. cbn in A1, A2, A3. subst. f_equal.
      destruct lc as [c|], lc' as [c'|]; try discriminate; [|reflexivity]. simpl in A3. inversion A3 as [A5].
      f_equal. apply IH; [|exact A5]. pose proof (height_lit les pes _ c (HI _ (or_introl eq_refl)) eq_refl). lia.
    - apply IHl; [|exact A4]. intros x Hx. apply HI. right. exact Hx. }
  assert (pes = pes') as <-; [|reflexivity].
  enough (forall l pes', (forall e, In e l -> In e pes) -> map ppair l = map ppair pes' -> l = pes') as HH
    by (apply HH; auto).
  clear E E1 E2 pes'. induction l as [|e l IHl]; intros [|e' l'] HI E1; try discriminate; [reflexivity|].
  simpl in E1. inversion E1 as [[A1 A2 A3 A4]]. f_equal.
  - destruct e as [ll lp lc], e' as [ll' lp' lc']. cbn in A1, A2, A3. subst. f_equal.
    destruct lc as [c|], lc' as [c'|]; try discriminate; [|reflexivity]. simpl in A3. inversion A3 as [A5].
    f_equal. apply IH; [|exact A5]. pose proof (height_par les pes _ c (HI _ (or_introl eq_refl)) eq_refl). lia.
  - apply IHl; [|exact A4]. intros x Hx. apply HI. right. exact Hx.
Qed.

Lemma table_replace sip ps p q t t' :
  Forall valid_pattern (ps ++ [p; q]) -> collision_free sip (ps ++ [p; q]) ->
  pat_tokens p = pat_tokens q ->
  add_patterns sip table_new (ps ++ [p; q]) = Ret t ->
  add_patterns sip table_new (ps ++ [q]) = Ret t' -> t = t'.
Proof.
  intros V C E H H'. assert (incl (ps ++ [q]) (ps ++ [p; q])) as Hi.
  { intros x Hx. apply in_app_or in Hx. apply in_or_app. destruct Hx as [Hx|[<-|[]]]; [auto|right; right; left; reflexivity]. }
  apply tabs_inj. destruct (table_adds_ret sip _ t V H) as (_ & R).
  destruct (table_adds_ret sip _ t' (Forall_incl _ _ _ Hi V) H') as (_ & R').
  rewrite (R C), (R' (collision_free_incl sip _ _ Hi C)). apply t_adds_replace. exact E.
Qed.

Lemma table_add_empty sip t p : pat_tokens p = [] -> add_pattern sip t p = Ret t.
Proof. intros E. unfold add_pattern. rewrite E. reflexivity. Qed.

(** ** Witnesses *)
Lemma ascii_patternb_sound p : ascii_patternb p = true -> ascii_pattern p.
Proof.
  intros H. assert (Forall ascii_pattern [p]) as F.
  { apply ascii_patterns_sound. simpl. rewrite H. reflexivity. }
  inversion F; assumption.
Qed.

Lemma walk_one_literal l text caps : walk [Literal l] text caps -> text = l.
Proof.
  intros H. inversion H as [|? ? rest ? Hw|]; subst. inversion Hw; subst. apply app_nil_r.
Qed.

Lemma table_unsound :
  exists p t text r,
    valid_pattern p /\ ascii_pattern p /\ ascii text = true /\
    add_patterns siphash table_new [p] = Ret t /\ parse t text = Ret (Some r) /\
    forall caps, ~ walk (pat_tokens p) text caps.
Proof.
  eexists (tpat 1 ($"app")), _, ($"ap"), _.
  split; [apply valid_patternb_sound; vm_compute; reflexivity|].
  split; [apply ascii_patternb_sound; vm_compute; reflexivity|].
  split; [vm_compute; reflexivity|]. split; [vm_compute; reflexivity|]. split; [vm_compute; reflexivity|].
  assert (pat_tokens (tpat 1 ($"app")) = [Literal ($"app")]) as -> by (vm_compute; reflexivity).
  intros caps H. apply walk_one_literal in H. vm_compute in H. discriminate H.
Qed.

Lemma table_incomplete :
  exists p t text caps,
    valid_pattern p /\ ascii_pattern p /\ nonempty_literals p /\ ascii text = true /\
    walk (pat_tokens p) text caps /\
    add_patterns siphash table_new [p] = Ret t /\ parse t text = Ret None.
Proof.
  eexists (tpat 1 ($"app%{GREEDY:x}")), _, ($"app"), _.
  split; [apply valid_patternb_sound; vm_compute; reflexivity|].
  split; [apply ascii_patternb_sound; vm_compute; reflexivity|].
  split; [intros l Hl; vm_compute in Hl; intuition congruence|].
  split; [vm_compute; reflexivity|]. split; [|split; vm_compute; reflexivity].
  assert (pat_tokens (tpat 1 ($"app%{GREEDY:x}")) =
          [Literal ($"app"); Parser (PGreedy {| gp_name := Some ($"x"); gp_end_string := None |})]) as ->
    by (vm_compute; reflexivity).
  apply (walk_literal ($"app")). rewrite <- (app_nil_r ([] : str)). constructor; [reflexivity|constructor].
Qed.

Lemma table_disagrees :
  exists p t t' text r,
    valid_pattern p /\ ascii_pattern p /\ ascii text = true /\
    Trie.add_patterns siphash Trie.tree_new [p] = Ret t /\ Trie.parse t text = Ret None /\
    add_patterns siphash table_new [p] = Ret t' /\ parse t' text = Ret (Some r).
Proof.
  eexists (tpat 1 ($"app")), _, _, ($"ap"), _.
  split; [apply valid_patternb_sound; vm_compute; reflexivity|].
  split; [apply ascii_patternb_sound; vm_compute; reflexivity|].
  split; [vm_compute; reflexivity|]. split; [vm_compute; reflexivity|]. split; [vm_compute; reflexivity|].
  split; vm_compute; reflexivity.
Qed.

(** The trie matches, the table does not. *)
Lemma table_misses :
  exists ps t t' text r,
    Forall valid_pattern ps /\ Forall ascii_pattern ps /\ collision_free siphash ps /\ ascii text = true /\
    Trie.add_patterns siphash Trie.tree_new ps = Ret t /\ Trie.parse t text = Ret (Some r) /\
    add_patterns siphash table_new ps = Ret t' /\ parse t' text = Ret None.
Proof.
  eexists [tpat 1 ($"a"); tpat 2 ($"%{INT:x}")], _, _, ($"7"), _.
  split; [apply valid_patterns_sound; vm_compute; reflexivity|].
  split; [apply ascii_patterns_sound; vm_compute; reflexivity|].
  split; [apply collision_freeb_sound; vm_compute; reflexivity|].
  split; [vm_compute; reflexivity|]. split; [vm_compute; reflexivity|]. split; [vm_compute; reflexivity|].
  split; vm_compute; reflexivity.
Qed.
