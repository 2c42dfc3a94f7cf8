(** * What the exact conditions of Trie_panics.v say about sets of patterns *)
From Verif Require Import Base Base_facts Utils Utils_facts Parsers Parsers_facts Pattern Spec
  Spec_trie Spec_panics Trie TrieSpec TrieSpec_facts TrieSpec_props TrieSpec_cases Trie_refine
  Trie_total Trie_main Trie_panics.

(** ** Patterns of one literal *)
Lemma in_single_literals ps l :
  In l (single_literals ps) <-> exists p, In p ps /\ pat_tokens p = [Literal l].
Proof.
  unfold single_literals. rewrite in_flat_map. split.
  - intros (p & Hp & H). exists p. split; [exact Hp|]. destruct (pat_tokens p) as [|[q|l'] [|x y]]; simpl in H; try tauto.
    destruct H as [->|[]]. reflexivity.
  - intros (p & Hp & H). exists p. split; [exact Hp|]. rewrite H. left. reflexivity.
Qed.

Lemma literals_level ps :
  (forall p, In p ps -> exists l, pat_tokens p = [Literal l]) ->
  exists K, s_adds ps = Level K [] /\ childless K /\
    forall k, In k (keys K) <-> In k (single_literals ps).
Proof.
  intros H. induction ps as [|p ps IH] using rev_ind.
  - exists []. split; [reflexivity|]. split; [intros k e []|]. simpl. tauto.
  - destruct IH as (K & E & HC & HK); [intros q Hq; apply H; apply in_or_app; auto|].
    destruct (H p) as (l & El); [apply in_or_app; simpl; auto|].
    rewrite s_adds_snoc, E. unfold s_add. rewrite El. cbn [s_insert is_empty].
    rewrite enter_unfold, childless_enter_literals by exact HC.
    eexists. split; [reflexivity|]. split; [apply childless_upsert; [exact HC|reflexivity]|].
    intros k. rewrite upsert_keys, HK. unfold single_literals. rewrite flat_map_app, in_app_iff.
    simpl. rewrite El. simpl. intuition congruence.
Qed.

Lemma fork_ext ks ks' w : (forall k, In k ks <-> In k ks') -> fork ks w -> fork ks' w.
Proof.
  intros H [->|(k1 & k2 & H1 & H2 & Hr)]; [left; reflexivity|]. right. exists k1, k2.
  split; [apply H; exact H1|]. split; [apply H; exact H2|exact Hr].
Qed.

Lemma stuck_ext ks ks' l : (forall k, In k ks <-> In k ks') -> stuck ks l -> stuck ks' l.
Proof.
  intros H (w & r & k & s & Hf & El & Hr & Hk & Hx). exists w, r, k, s.
  split; [apply (fork_ext ks); assumption|]. split; [exact El|]. split; [exact Hr|].
  split; [apply H; exact Hk|exact Hx].
Qed.

Lemma torn_ext ks ks' l : (forall k, In k ks <-> In k ks') -> torn ks l -> torn ks' l.
Proof.
  intros H (k & w & a & s & Hk & Hx). exists k, w, a, s. split; [apply H; exact Hk|exact Hx].
Qed.

Lemma childless_no_route K l : childless K -> no_route K l.
Proof. intros H k po c Hin. apply H in Hin. discriminate. Qed.

Lemma childless_reaches K P l L' l' :
  childless K -> reaches (Level K P) l L' l' -> L' = Level K P /\ l' = l.
Proof.
  intros H Hr. inversion Hr as [|? ? k po c]; subst; [auto|]. exfalso.
  apply H in H0. discriminate.
Qed.

Lemma literals_collision_free sip ps :
  (forall p, In p ps -> exists l, pat_tokens p = [Literal l]) -> collision_free sip ps.
Proof.
  intros L q q' (p & Hi & Hq). destruct (L p Hi) as (l & E). rewrite E in Hq.
  destruct Hq as [Hq|[]]; discriminate.
Qed.

Lemma literals_adding sip ps :
  Forall valid_pattern ps -> (forall p, In p ps -> exists l, pat_tokens p = [Literal l]) ->
  (add_patterns sip tree_new ps = Panic <->
   exists A p B l, ps = A ++ p :: B /\ pat_tokens p = [Literal l] /\
     (stuck (single_literals A) l \/ torn (single_literals A) l)).
Proof.
  intros V L. destruct (adding_panics sip ps V (literals_collision_free sip ps L)) as (-> & _).
  assert (forall A p B l, ps = A ++ p :: B -> pat_tokens p = [Literal l] ->
            (add_panics (s_adds A) p <-> stuck (single_literals A) l \/ torn (single_literals A) l)) as H.
  { intros A p B l E El. destruct (literals_level A) as (K & EA & HC & HK).
    { intros q Hq. apply L. rewrite E. apply in_or_app. auto. }
    unfold add_panics. rewrite EA, El. split.
    - intros (l0 & rest & E0 & X). inversion E0; subst.
      inversion X as [L0 text K0 P0 l1 Hr Hs|L0 text K0 P0 l1 Hr Hn Ht]; subst;
        (apply childless_reaches in Hr; [|exact HC]; destruct Hr as (Hr & ->); inversion Hr; subst).
      + left. apply (stuck_ext (keys K)); assumption.
      + right. apply (torn_ext (keys K)); assumption.
    - intros Hx. exists l, []. split; [reflexivity|]. destruct Hx as [X|X].
      + apply (lp_stuck _ _ K [] l); [constructor|].
        apply (stuck_ext (single_literals A)); [intros k; symmetry; apply HK|exact X].
      + apply (lp_torn _ _ K [] l); [constructor|apply childless_no_route; exact HC|].
        apply (torn_ext (single_literals A)); [intros k; symmetry; apply HK|exact X]. }
  split.
  - intros (A & p & B & E & X). destruct (L p) as (l & El); [rewrite E; apply in_elt|].
    exists A, p, B, l. split; [exact E|]. split; [exact El|]. apply (H A p B l E El). exact X.
  - intros (A & p & B & l & E & El & X). exists A, p, B. split; [exact E|].
    apply (H A p B l E El). exact X.
Qed.

Lemma literals_matching sip ps t text :
  Forall valid_pattern ps -> (forall p, In p ps -> exists l, pat_tokens p = [Literal l]) ->
  add_patterns sip tree_new ps = Ret t -> utf8 text ->
  (parse t text = Panic <-> stuck (single_literals ps) text).
Proof.
  intros V L Ha Hu.
  destruct (matching_panics sip ps t text V (literals_collision_free sip ps L) Ha Hu) as (-> & _).
  destruct (literals_level ps L) as (K & E & HC & HK). rewrite E. split.
  - intros X. inversion X as [L0 t0 K0 P0 l0 Hr Hs|L0 t0 K0 A q e B l0 Hr|L0 t0 K0 A q po c B l0 v Hr]; subst;
      apply childless_reaches in Hr; try exact HC; destruct Hr as (Hr & ->); inversion Hr; subst.
    + apply (stuck_ext (keys K)); assumption.
    + destruct A; discriminate.
    + destruct A; discriminate.
  - intros X. apply (pp_literal _ _ K [] text); [constructor|].
    apply (stuck_ext (single_literals ps)); [intros k; symmetry; apply HK|exact X].
Qed.

(** ** Patterns beginning with a literal *)
Lemma enter_keys K P l f :
  forall k, In k (keys K) -> In k (keys (lits_of (enter (Level K P) l f))).
Proof.
  intros k Hk. rewrite enter_unfold. destruct (enter_literals enter (keys K) K l f) as [K'|] eqn:E.
  - cbn [lits_of]. rewrite (enter_literals_keys _ _ _ _ _ E). exact Hk.
  - cbn [lits_of]. apply upsert_keys. auto.
Qed.

Lemma enter_some_key K P l f :
  l <> [] -> exists k, k <> [] /\ prefix_of k l /\ In k (keys (lits_of (enter (Level K P) l f))).
Proof.
  intros Hl. rewrite enter_unfold. destruct (enter_literals enter (keys K) K l f) as [K'|] eqn:E.
  - pose proof (enter_literals_keys _ _ _ _ _ E) as Ek. cbn [lits_of]. rewrite Ek.
    apply enter_literals_some in E. destruct E as (A & k & po & c & C & -> & R & _).
    apply routes_spec in R. destruct R as (Hk & (q & Elq & _) & _). exists k.
    split; [exact Hk|]. split; [exists q; exact Elq|]. rewrite keys_app. apply in_or_app. right. left. reflexivity.
  - exists l. split; [exact Hl|]. split; [exists []; rewrite app_nil_r; reflexivity|].
    cbn [lits_of]. apply upsert_keys. auto.
Qed.

Lemma s_add_keys L p k : In k (keys (lits_of L)) -> In k (keys (lits_of (s_add L p))).
Proof.
  intros Hk. unfold s_add. destruct (pat_tokens p) as [|[q|l] rest]; cbn [s_insert]; [exact Hk|exact Hk|].
  destruct L as [K P]. apply enter_keys. exact Hk.
Qed.

Lemma first_literal_key ps p l rest :
  In p ps -> pat_tokens p = Literal l :: rest -> l <> [] ->
  exists k, k <> [] /\ prefix_of k l /\ In k (keys (lits_of (s_adds ps))).
Proof.
  intros Hp El Hl. induction ps as [|p0 ps IH] using rev_ind; [destruct Hp|].
  rewrite s_adds_snoc. apply in_app_or in Hp. destruct Hp as [Hp|[->|[]]].
  - destruct (IH Hp) as (k & H1 & H2 & H3). exists k. split; [exact H1|]. split; [exact H2|].
    apply s_add_keys. exact H3.
  - unfold s_add. rewrite El. cbn [s_insert]. destruct (s_adds ps) as [K P]. apply enter_some_key. exact Hl.
Qed.

Lemma prefix_wide k l : prefix_of k l -> k <> [] -> wide k = wide l.
Proof. intros (q & ->) Hk. rewrite wide_app by exact Hk. reflexivity. Qed.

Lemma stuck_here ks k l :
  In k ks -> k <> [] -> l <> [] -> wide k = true \/ wide l = true -> stuck ks l.
Proof.
  intros Hk Hk0 Hl Hw. exists [], l, k, k. split; [left; reflexivity|]. split; [reflexivity|].
  split; [exact Hl|]. split; [exact Hk|]. split; [reflexivity|]. split; [exact Hk0|tauto].
Qed.

Lemma two_first_literals sip ps t A p B p' C l rest l' rest' :
  Forall valid_pattern ps -> collision_free sip ps -> add_patterns sip tree_new ps = Ret t ->
  ps = A ++ p :: B ++ p' :: C ->
  pat_tokens p = Literal l :: rest -> pat_tokens p' = Literal l' :: rest' -> l <> [] -> l' <> [] ->
  wide l = false /\ wide l' = false.
Proof.
  intros V C0 Ha E El El' Hl Hl'. destruct (adding_panics sip ps V C0) as (Hp & _).
  assert (~ (wide l = true \/ wide l' = true)) as H.
  { intros Hw. assert (add_patterns sip tree_new ps = Panic) as X; [|congruence]. apply Hp.
    exists (A ++ p :: B), p', C. split; [rewrite E, <- app_assoc; reflexivity|].
    exists l', rest'. split; [exact El'|].
    destruct (first_literal_key (A ++ p :: B) p l rest) as (k & Hk1 & Hk2 & Hk3); auto; [apply in_elt|].
    destruct (s_adds (A ++ p :: B)) as [K P] eqn:Es. cbn [lits_of] in Hk3.
    apply (lp_stuck _ _ K P l'); [constructor|]. apply (stuck_here _ k); auto.
    rewrite (prefix_wide k l Hk2 Hk1). exact Hw. }
  destruct (wide l), (wide l'); tauto.
Qed.

Lemma text_beyond_ascii sip ps t p l rest text :
  Forall valid_pattern ps -> collision_free sip ps -> add_patterns sip tree_new ps = Ret t ->
  In p ps -> pat_tokens p = Literal l :: rest -> l <> [] -> utf8 text -> text <> [] ->
  wide l = true \/ wide text = true ->
  parse t text = Panic.
Proof.
  intros V C Ha Hp El Hl Hu Ht Hw.
  destruct (matching_panics sip ps t text V C Ha Hu) as (-> & _).
  destruct (first_literal_key ps p l rest Hp El Hl) as (k & Hk1 & Hk2 & Hk3).
  destruct (s_adds ps) as [K P]. apply (pp_literal _ _ K P text); [constructor|].
  apply (stuck_here _ k); auto. rewrite (prefix_wide k l Hk2 Hk1). exact Hw.
Qed.

(** ** Patterns without literals *)
Inductive bare (okq : parser -> Prop) : level -> Prop :=
| bare_level P :
    (forall q e, In (q, e) P -> okq q) ->
    (forall q po c, In (q, (po, Some c)) P -> bare okq c) -> bare okq (Level [] P).

Lemma bare_insert (okq : parser -> Prop) toks : (forall tok, In tok toks -> exists q, tok = Parser q /\ okq q) ->
  forall L p, bare okq L -> bare okq (s_insert toks L p).
Proof.
  induction toks as [|tok rest IH]; intros HT L p HL; [exact HL|].
  destruct (HT tok (or_introl eq_refl)) as (q & -> & Hq).
  pose proof (IH (fun t H => HT t (or_intror H)) level_empty p) as E2.
  inversion HL as [P HP HP']; subst. cbn [s_insert lits_of pars_of].
  set (f := fun e : entry => _).
  assert (forall e c, (forall c, snd e = Some c -> bare okq c) -> snd (f e) = Some c -> bare okq c) as Hf.
  { intros e c He. unfold f. destruct (is_empty rest); [apply He|]. intros X. simpl in X.
    inversion X; subst. apply E2. constructor; [intros x e0 []|intros x po c0 []]. }
  destruct (at_parser_split P q f) as (A & B & [(E3 & ->)|(e & E3 & ->)]); rewrite E3; constructor.
  - intros x e Hi. apply in_elt_inv in Hi. destruct Hi as [Hi|Hi]; [inversion Hi; subst; exact Hq|].
    apply (HP x e Hi).
  - intros x po c Hi. apply in_elt_inv in Hi. destruct Hi as [Hi|Hi]; [|apply (HP' x po c Hi)].
    inversion Hi as [[X1 X2]]. apply (Hf (None, None)); [intros c0; discriminate|]. rewrite <- X2. reflexivity.
  - intros x e' Hi. apply in_elt_inv in Hi. destruct Hi as [Hi|Hi]; [inversion Hi; subst; exact Hq|].
    apply (HP x e'). apply in_app_or in Hi. apply in_or_app. destruct Hi; [auto|right; right; assumption].
  - intros x po c Hi. apply in_elt_inv in Hi. destruct Hi as [Hi|Hi].
    + inversion Hi as [[X1 X2]]. apply (Hf e); [|rewrite <- X2; reflexivity].
      destruct e as [po0 co0]. intros c0 X. simpl in X. subst co0. apply (HP' q po0 c0). apply in_elt.
    + apply (HP' x po c). apply in_app_or in Hi. apply in_or_app. destruct Hi; [auto|right; right; assumption].
Qed.

Lemma bare_adds (okq : parser -> Prop) ps :
  (forall p tok, In p ps -> In tok (pat_tokens p) -> exists q, tok = Parser q /\ okq q) ->
  bare okq (s_adds ps).
Proof.
  induction ps as [|p ps IH] using rev_ind; intros H.
  - constructor; [intros x e []|intros x po c []].
  - rewrite s_adds_snoc. apply bare_insert.
    + intros tok Ht. apply (H p); [apply in_or_app; simpl; auto|exact Ht].
    + apply IH. intros q tok Hq. apply (H q). apply in_or_app. auto.
Qed.

Lemma bare_no_panic (okq : parser -> Prop) L :
  (forall q, okq q -> parser_utf8 q /\ parser_ascii_set q) ->
  bare okq L -> forall text, utf8 text -> ~ parse_panics L text.
Proof.
  intros Hq. induction 1 as [P HP HP' IH]. intros text Hu X.
  assert (forall l L' l', reaches (Level [] P) l L' l' -> L' = Level [] P /\ l' = l) as Hr0.
  { intros l L' l' Hr. inversion Hr as [|? ? k po c ? ? ? Hin]; subst; [auto|destruct Hin]. }
  inversion X as [L0 t0 K0 P0 l0 Hr Hs|L0 t0 K0 A q e B l0 Hr Hn Ht Hpn
                 |L0 t0 K0 A q po c B l0 v Hr Hn Ht Hc Hb]; subst;
    apply Hr0 in Hr; destruct Hr as (Hr & ->); inversion Hr; subst.
  - destruct Hs as (w & r & k & s & _ & _ & _ & [] & _).
  - destruct (Hq q (HP q e (in_elt _ _ _))) as (Q1 & Q2).
    destruct (parser_parse_total q text Hu Q1 Q2) as (o & Eo). congruence.
  - destruct (Hq q (HP q _ (in_elt _ _ _))) as (Q1 & Q2).
    unfold capture in Hc. destruct (parser_parse q text) as [o| |] eqn:Ep; try discriminate. subst o.
    apply (IH q po c (in_elt _ _ _) (skipn (length v) text)); [|exact Hb].
    apply parser_parse_some in Ep; [|exact Hu|exact Q1]. destruct Ep as (Cv & Hv).
    destruct (captures_prefix q text v Cv) as (r & ->).
    rewrite skipn_app, skipn_all, Nat.sub_diag. simpl. apply (utf8_app_inv_r v r Hv Hu).
Qed.

Lemma parsers_never_panic sip ps :
  Forall valid_pattern ps -> collision_free sip ps ->
  (forall p tok, In p ps -> In tok (pat_tokens p) -> exists q, tok = Parser q /\ parser_ascii_set q) ->
  exists t, add_patterns sip tree_new ps = Ret t /\
    forall text, utf8 text -> parse t text = Ret (s_parse (s_adds ps) text).
Proof.
  intros V C H. destruct (adding_panics sip ps V C) as (Hp & Hr).
  assert (add_patterns sip tree_new ps <> Panic) as Hn.
  { rewrite Hp. intros (A & p & B & E & l & rest & El & _).
    destruct (H p (Literal l)) as (q & Eq0 & _); [rewrite E; apply in_elt|rewrite El; left; reflexivity|discriminate]. }
  destruct (Hr Hn) as (t & Ht). exists t. split; [exact Ht|]. intros text Hu.
  apply (matching_panics sip ps t text V C Ht Hu).
  apply (bare_no_panic (fun q => valid_parser q /\ parser_ascii_set q)); [| |exact Hu].
  - intros q (Q1 & Q2). split; [|exact Q2]. destruct q; simpl in *; tauto.
  - apply bare_adds. intros p tok Hi Ht'. destruct (H p tok Hi Ht') as (q & -> & Hq). exists q.
    split; [reflexivity|]. split; [|exact Hq]. rewrite Forall_forall in V. specialize (V p Hi).
    unfold valid_pattern in V. rewrite Forall_forall in V. apply (V _ Ht').
Qed.
