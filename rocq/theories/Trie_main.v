(** * The main facts about the trie, for patterns added to an empty one *)
From Verif Require Import Base Base_facts Utils Utils_facts Parsers Parsers_facts Pattern Spec
  Spec_trie Hash_facts Trie TrieSpec TrieSpec_facts TrieSpec_props TrieSpec_cases Trie_refine Trie_total.

Definition okp_of (ps : list pattern) (q : parser) : Prop := valid_parser q /\ parser_in ps q.

Lemma okp_of_utf8 ps q : okp_of ps q -> parser_utf8 q.
Proof. intros (H & _). destruct q; simpl in *; tauto. Qed.

Lemma okp_of_inj sip ps :
  collision_free sip ps ->
  forall p q, okp_of ps p -> okp_of ps q -> hash_os sip p = hash_os sip q -> p = q.
Proof.
  intros H p q (V & I) (V' & I') E. apply (hash_stream_inj p q V V'). apply H; assumption.
Qed.

Lemma okt_of ps :
  Forall valid_pattern ps ->
  Forall (fun p => Forall (token_ok (okp_of ps) utf8) (pat_tokens p)) ps.
Proof.
  intros H. rewrite Forall_forall in H. apply Forall_forall. intros p Hp.
  specialize (H p Hp). unfold valid_pattern in H. rewrite Forall_forall in H.
  apply Forall_forall. intros [q|l] Ht; specialize (H _ Ht); simpl in *; [|exact H].
  split; [exact H|]. exists p. auto.
Qed.

Lemma utf8_both a b : utf8 (a ++ b) -> utf8 a -> utf8 a /\ utf8 b.
Proof. intros H Ha. split; [exact Ha|]. apply (utf8_app_inv_r a b Ha H). Qed.

Lemma adds_wf sip ps t :
  Forall valid_pattern ps -> collision_free sip ps -> add_patterns sip tree_new ps = Ret t ->
  wf (okp_of ps) utf8 t /\ abs t = s_adds ps.
Proof.
  intros V C H.
  apply (add_patterns_ret (okp_of ps) utf8 (fun _ H => H) utf8_both sip (okp_of_inj sip ps C)) in H;
    [exact H|apply okt_of; exact V|apply wf_new].
Qed.

Lemma trie_refines sip ps t text r :
  Forall valid_pattern ps -> collision_free sip ps -> add_patterns sip tree_new ps = Ret t ->
  utf8 text -> parse t text = Ret r -> r = s_parse (s_adds ps) text.
Proof.
  intros V C H Hu Hp. destruct (adds_wf sip ps t V C H) as (W & <-).
  apply (parse_ret (okp_of ps) (okp_of_utf8 ps) utf8 (fun _ H => H)) in Hp; assumption.
Qed.

Definition okp_ascii (q : parser) : Prop := parser_utf8 q /\ parser_ascii_set q.

Lemma okt_ascii ps :
  Forall valid_pattern ps -> Forall ascii_pattern ps ->
  Forall (fun p => Forall (token_ok okp_ascii asciip) (pat_tokens p)) ps.
Proof.
  intros H A. rewrite Forall_forall in H, A. apply Forall_forall. intros p Hp.
  specialize (H p Hp). specialize (A p Hp). unfold valid_pattern in H. unfold ascii_pattern in A.
  rewrite Forall_forall in H, A. apply Forall_forall. intros [q|l] Ht;
    specialize (H _ Ht); specialize (A _ Ht); simpl in *; [|exact A].
  split; [|exact A]. destruct q; simpl in *; tauto.
Qed.

(** On ASCII data neither adding nor matching panics, whatever the hash
    function. *)
Lemma trie_total sip ps :
  Forall valid_pattern ps -> Forall ascii_pattern ps ->
  exists t, add_patterns sip tree_new ps = Ret t /\
    forall text, ascii text = true -> exists r, parse t text = Ret r.
Proof.
  intros V A.
  destruct (add_patterns_total okp_ascii sip ps tree_new (okt_ascii ps V A) (wf_new _ _))
    as (t & H & W).
  exists t. split; [exact H|]. intros text Ht.
  apply (parse_total okp_ascii (fun p H => proj1 H) (fun p H => proj2 H) t text W Ht).
Qed.

Lemma trie_exact sip ps :
  Forall valid_pattern ps -> Forall ascii_pattern ps -> collision_free sip ps ->
  exists t, add_patterns sip tree_new ps = Ret t /\
    forall text, ascii text = true -> parse t text = Ret (s_parse (s_adds ps) text).
Proof.
  intros V A C. destruct (trie_total sip ps V A) as (t & H & T). exists t. split; [exact H|].
  intros text Ht. destruct (T text Ht) as (r & Hr). rewrite Hr.
  f_equal. apply (trie_refines sip ps t text r V C H); [apply ascii_utf8; exact Ht|exact Hr].
Qed.

(** ** What a trie holds *)
Lemma estored_inv po co path p :
  estored (po, co) path p ->
  (path = [] /\ po = Some p) \/ exists c, co = Some c /\ stored c path p.
Proof. intros H. inversion H; subst; [left; auto|right; eauto]. Qed.

Lemma held_stored okp okl t : wf okp okl t -> forall path p, held t path p <-> stored (abs t) path p.
Proof.
  induction 1 as [lcs pcs HS Hok Hw IH Hpok Hpw IHp]. intros path p. split.
  - intros H. rewrite abs_unfold. inversion H as [n ? ? ? Hi Hv Hp|n c ? ? path' ? Hi Hn Hc
      |n ? ? ? Hi Hp|n c ? ? path' ? Hi Hn Hc]; subst.
    + rewrite <- (app_nil_r (map inl (ln_literal n))).
      apply (st_literal (ln_literal n) (Some p, option_map abs (ln_node n))); [|constructor].
      apply in_flat_map. exists n. split; [exact Hi|]. destruct n as [lit hv po co]; simpl in *.
      subst hv po. left. reflexivity.
    + pose proof (Hok n Hi) as (_ & Hb). apply (IH n c Hi Hn) in Hc.
      destruct (ln_has_value n) eqn:Hv.
      * apply (st_literal (ln_literal n) (ln_pattern n, Some (abs c))); [|constructor; exact Hc].
        apply in_flat_map. exists n. split; [exact Hi|]. destruct n as [lit hv po co]; simpl in *.
        subst hv co. left. reflexivity.
      * destruct (Hb eq_refl) as (_ & c' & Ec & Ep & _). assert (c' = c) as -> by congruence.
        destruct c as [lcs' pcs']. simpl in Ep. subst pcs'. rewrite abs_unfold in Hc.
        inversion Hc as [k e ? ? path0 ? Hk He|? ? ? ? ? ? Hk]; subst; [|destruct Hk].
        rewrite app_assoc, <- map_app. apply (st_literal (ln_literal n ++ k) e); [|exact He].
        apply in_flat_map. exists n. split; [exact Hi|]. destruct n as [lit hv po co]; simpl in *.
        subst hv co. apply in_map_iff. exists (k, e). split; [reflexivity|exact Hk].
    + apply (st_parser (pn_parser n) (Some p, option_map abs (pn_node n))); [|constructor].
      apply in_map_iff. exists n. split; [|exact Hi]. destruct n as [q po co]; simpl in *. subst po. reflexivity.
    + apply (IHp n c Hi Hn) in Hc.
      apply (st_parser (pn_parser n) (pn_pattern n, Some (abs c))); [|constructor; exact Hc].
      apply in_map_iff. exists n. split; [|exact Hi]. destruct n as [q po co]; simpl in *. subst co. reflexivity.
  - rewrite abs_unfold. intros H. inversion H as [k e ? ? path' ? Hk He|x e ? ? path' ? Hk He]; subst.
    + apply in_flat_map in Hk. destruct Hk as (n & Hi & Hk). pose proof (IH n) as IHn.
      pose proof (Hok n Hi) as (_ & Hb). destruct n as [lit hv po co]; simpl in *. destruct hv; simpl in Hk.
      * destruct Hk as [Hk|[]]. inversion Hk; subst. apply estored_inv in He.
        destruct He as [(-> & ->)|(c0 & E1 & Hc)].
        -- rewrite app_nil_r. apply (held_literal (LNode k true (Some p) co)); auto.
        -- destruct co as [c|]; [|discriminate]. simpl in E1. inversion E1; subst.
           apply (held_below_literal (LNode k true po (Some c)) c); auto. apply (IHn c Hi eq_refl). exact Hc.
      * destruct (Hb eq_refl) as (_ & c & -> & Ep & _). apply in_map_iff in Hk.
        destruct Hk as ((k', e') & E & Hk). unfold prepend in E. simpl in E. inversion E; subst.
        rewrite map_app, <- app_assoc.
        apply (held_below_literal (LNode lit false po (Some c)) c); auto.
        apply (IHn c Hi eq_refl). destruct (abs c) as [K P]. apply (st_literal k' e); assumption.
    + apply in_map_iff in Hk. destruct Hk as (n & En & Hi). pose proof (IHp n) as IHn.
      destruct n as [q po co]; simpl in *. inversion En; subst.
      apply estored_inv in He. destruct He as [(-> & ->)|(c0 & E1 & Hc)].
      * apply (held_parser (PNode x (Some p) co)); auto.
      * destruct co as [c|]; [|discriminate]. simpl in E1. inversion E1; subst.
        apply (held_below_parser (PNode x po (Some c)) c); auto. apply (IHn c Hi eq_refl). exact Hc.
Qed.

(** ** Packaged properties *)
Lemma adds_snoc sip t0 ps p :
  add_patterns sip t0 (ps ++ [p]) = bind (add_patterns sip t0 ps) (fun t => add_pattern sip t p).
Proof.
  revert t0. induction ps as [|p0 ps IH]; intros t0; simpl.
  - destruct (add_pattern sip t0 p); reflexivity.
  - destruct (add_pattern sip t0 p0); simpl; [apply IH|reflexivity|reflexivity].
Qed.

Lemma collision_free_incl sip ps ps' : incl ps' ps -> collision_free sip ps -> collision_free sip ps'.
Proof.
  intros Hi H q q' (p & Hp & Hq) (p' & Hp' & Hq'). apply H; [exists p|exists p']; auto.
Qed.

Lemma trie_keeps sip ps p t t' path q :
  Forall valid_pattern (ps ++ [p]) -> Forall nonempty_literals ps ->
  collision_free sip (ps ++ [p]) ->
  add_patterns sip tree_new ps = Ret t -> add_pattern sip t p = Ret t' ->
  held t path q ->
  held t' path q \/
  (pat_tokens p <> [] /\ path = flat (pat_tokens p)) \/
  (exists tok rest more, pat_tokens p = tok :: rest /\ rest <> [] /\ more <> [] /\
     path = flat [tok] ++ more).
Proof.
  intros V N C Ht Ht' H. pose proof V as V'. apply Forall_app in V'. destruct V' as (V1 & _).
  assert (add_patterns sip tree_new (ps ++ [p]) = Ret t') as Ha
    by (rewrite adds_snoc, Ht; exact Ht').
  apply (adds_wf sip _ t' V C) in Ha. destruct Ha as (W' & E').
  apply (adds_wf sip _ t V1) in Ht; [|apply (collision_free_incl sip (ps ++ [p])); [apply incl_appl, incl_refl|exact C]].
  destruct Ht as (W & E).
  apply (held_stored _ _ t W) in H. rewrite E in H.
  rewrite (held_stored _ _ t' W'), E', s_adds_snoc. unfold s_add.
  destruct (pat_tokens p) as [|tok rest] eqn:Et; [left; exact H|].
  apply (s_insert_keeps tok rest _ (stripped p)) in H; [|apply s_adds_solid; exact N].
  destruct H as [H|[H|(H1 & more & H2 & H3)]]; [left; exact H| |].
  - right. left. split; [discriminate|exact H].
  - right. right. exists tok, rest, more. split; [reflexivity|]. split; [exact H1|]. split; [exact H2|].
    simpl. rewrite app_nil_r. exact H3.
Qed.

Lemma trie_holds_new sip ps p t :
  Forall valid_pattern (ps ++ [p]) -> collision_free sip (ps ++ [p]) ->
  add_patterns sip tree_new (ps ++ [p]) = Ret t -> pat_tokens p <> [] ->
  held t (flat (pat_tokens p)) (stripped p).
Proof.
  intros V C Ha N. apply (adds_wf sip _ t V C) in Ha. destruct Ha as (W & E).
  apply (held_stored _ _ t W). rewrite E, s_adds_snoc. apply s_insert_new. exact N.
Qed.

Lemma trie_holds_only sip ps t path q :
  Forall valid_pattern ps -> collision_free sip ps ->
  add_patterns sip tree_new ps = Ret t -> held t path q ->
  exists p, In p ps /\ q = stripped p /\ path = flat (pat_tokens p).
Proof.
  intros V C Ha H. apply (adds_wf sip _ t V C) in Ha. destruct Ha as (W & E).
  apply (held_stored _ _ t W) in H. rewrite E in H. apply s_adds_stored. exact H.
Qed.

Lemma trie_sound sip ps t text r :
  Forall valid_pattern ps -> collision_free sip ps -> add_patterns sip tree_new ps = Ret t ->
  utf8 text -> parse t text = Ret (Some r) ->
  exists p caps, In p ps /\ mr_pattern r = stripped p /\ walk (pat_tokens p) text caps /\
    reports caps (mr_values r).
Proof.
  intros V C Ha Hu Hp. apply (trie_refines sip ps t text _ V C Ha Hu) in Hp.
  apply s_parse_sound. symmetry. exact Hp.
Qed.

Lemma trie_single sip p t text r :
  valid_pattern p -> (forall q, In (Parser q) (pat_tokens p) -> parser_ascii_set q) ->
  collision_free sip [p] -> add_patterns sip tree_new [p] = Ret t ->
  utf8 text -> parse t text = Ret r ->
  match r with
  | Some r => mr_pattern r = stripped p /\
              exists caps, trie_walk (pat_tokens p) text caps /\ reports caps (mr_values r)
  | None => forall caps, ~ trie_walk (pat_tokens p) text caps
  end.
Proof.
  intros V A C Ha Hu Hp.
  apply (trie_refines sip [p] t text _ (Forall_cons _ V (Forall_nil _)) C Ha Hu) in Hp.
  subst r. apply s_parse_single; [|exact Hu].
  unfold valid_pattern in V. rewrite Forall_forall in V. apply Forall_forall.
  intros [q|l] Ht; specialize (V _ Ht); simpl in *; [|exact V].
  split; [|apply A; exact Ht]. destruct q; simpl in *; tauto.
Qed.

Lemma trie_literals sip ps t text r :
  Forall valid_pattern ps -> (forall p, In p ps -> exists l, pat_tokens p = [Literal l]) ->
  add_patterns sip tree_new ps = Ret t ->
  utf8 text -> parse t text = Ret r ->
  match r with
  | Some r => exists a p b, ps = a ++ p :: b /\ pat_tokens p = [Literal text] /\
                (forall p', In p' b -> pat_tokens p' <> [Literal text]) /\
                r = {| mr_pattern := stripped p; mr_values := [] |}
  | None => forall p, In p ps -> pat_tokens p <> [Literal text]
  end.
Proof.
  intros V L Ha Hu Hp.
  assert (collision_free sip ps) as C.
  { intros q q' (p & Hi & Hq). destruct (L p Hi) as (l & E). rewrite E in Hq.
    destruct Hq as [Hq|[]]; discriminate. }
  apply (trie_refines sip ps t text _ V C Ha Hu) in Hp.
  destruct (s_parse_literals ps text) as (o & Ho & Eo).
  { apply Forall_forall. exact L. }
  rewrite Eo in Hp. subst r. destruct o as [p|]; simpl in *.
  - destruct Ho as (a & b & E1 & E2 & E3). rewrite Forall_forall in E3. exists a, p, b. auto.
  - rewrite Forall_forall in Ho. exact Ho.
Qed.

Lemma trie_parsers sip ps t text r :
  Forall valid_pattern ps -> (forall p, In p ps -> exists q, pat_tokens p = [Parser q]) ->
  collision_free sip ps -> add_patterns sip tree_new ps = Ret t ->
  utf8 text -> parse t text = Ret r ->
  match r with
  | Some r => exists q p, wins ps text q p /\ mr_pattern r = stripped p /\
                reports [(q, text)] (mr_values r)
  | None => forall p q, In p ps -> pat_tokens p = [Parser q] -> ~ captures q text text
  end.
Proof.
  intros V L C Ha Hu Hp. apply (trie_refines sip ps t text _ V C Ha Hu) in Hp.
  pose proof (s_parse_parsers ps text) as H. rewrite <- Hp in H. destruct r as [r|].
  - destruct H as (q & p & W & ->); [apply Forall_forall; exact L| |exact Hu|].
    + apply Forall_forall. intros p Hi q Hq. rewrite Forall_forall in V. specialize (V p Hi).
      unfold valid_pattern in V. rewrite Forall_forall in V. specialize (V _ Hq).
      destruct q; simpl in *; tauto.
    + exists q, p. split; [exact W|]. split; [apply match_result_insert_pattern|].
      apply good_reports. apply good_insert. apply good_nil.
  - apply H; [apply Forall_forall; exact L| |exact Hu].
    apply Forall_forall. intros p Hi q Hq. rewrite Forall_forall in V. specialize (V p Hi).
    unfold valid_pattern in V. rewrite Forall_forall in V. specialize (V _ Hq).
    destruct q; simpl in *; tauto.
Qed.
