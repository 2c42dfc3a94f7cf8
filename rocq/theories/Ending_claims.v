(** * How loading ends *)
From Verif Require Import Base Base_facts Utils Parsers Pattern Spec Spec_source Spec_ending Source Source_claims
  Loading_claims TrieSpec TableSpec Trie_panics Panics_claims Spec_panics Spec_table_panics Table_panics.
From Verif Require Trie Trie_total Trie_refine SuffixArray Table_refine.

(** ** Adding ends *)
Lemma update_nth_fuel {A} (l : list A) f : (forall x, In x l -> f x <> OutOfFuel) -> forall i, update_nth l i f <> OutOfFuel.
Proof.
  induction l as [|x l IH]; intros H [|i]; cbn [update_nth]; try discriminate.
  - apply Trie_total.bind_fuel; [apply H; left; reflexivity|discriminate].
  - apply Trie_total.bind_fuel; [apply IH; intros y Hy; apply H; right; exact Hy|discriminate].
Qed.

Lemma sort_fuel {A} (cmp : A -> A -> outcome comparison) l : (forall x y, cmp x y <> OutOfFuel) -> sort cmp l <> OutOfFuel.
Proof.
  intros H. unfold sort. generalize (@nil A). induction l as [|x l IH]; intros rl; cbn [sort_loop]; [discriminate|].
  apply Trie_total.bind_fuel; [|intros rl' _; apply IH].
  induction rl as [|y rl IHr]; cbn [sort_insert]; [discriminate|].
  apply Trie_total.bind_fuel; [apply H|]. intros [| |] _; try discriminate.
  apply Trie_total.bind_fuel; [exact IHr|discriminate].
Qed.

Section TrieEnds.
  Import Trie Trie_total.
  Lemma add_literal_node_fuel t n : add_literal_node t n <> OutOfFuel.
  Proof.
    unfold add_literal_node, sv_push. apply bind_fuel; [|discriminate]. apply sort_fuel. intros x y. apply cmp_str_fuel.
  Qed.
  Lemma update_literal_fuel t pos k : (forall n, k n <> OutOfFuel) -> update_literal_child t pos k <> OutOfFuel.
  Proof. intros H. unfold update_literal_child. apply bind_fuel; [apply update_nth_fuel; auto|discriminate]. Qed.
  Lemma lookup_mut_fuel t : forall l k, (forall n r, k n r <> OutOfFuel) -> lookup_literal_mut t l k <> OutOfFuel.
  Proof.
    induction t as [t IH] using tree_height_ind. intros l k Hk. destruct t as [lcs pcs].
    rewrite Trie_refine.lookup_literal_mut_unfold. apply bind_fuel; [apply search_fuel|].
    intros [pos| |pos rest] _; [apply Hk|apply Hk|]. apply bind_fuel; [|discriminate].
    apply update_nth_fuel. intros n Hn. destruct n as [lit hv po [c|]]; cbn [Trie_refine.descend_mut]; [|discriminate].
    apply bind_fuel; [|discriminate]. apply IH; [|exact Hk]. exact (Trie_refine.height_literal lcs pcs _ c Hn eq_refl).
  Qed.
  Lemma split_fuel n i l : split n i l <> OutOfFuel.
  Proof.
    unfold split, rtrunc, ltrunc. apply bind_fuel; [apply usub_fuel|]. intros d _.
    apply bind_fuel; [apply bind_fuel; [apply usub_fuel|intros; apply slice_to_fuel]|]. intros cp _.
    apply bind_fuel; [apply slice_from_fuel|]. intros lb _. apply bind_fuel; [apply slice_from_fuel|]. intros rb _.
    apply bind_fuel; [apply add_literal_node_fuel|]. intros n1 _. apply bind_fuel; [apply add_literal_node_fuel|discriminate].
  Qed.
  Lemma insert_literal_tail_fuel t l k : (forall n, k n <> OutOfFuel) -> insert_literal_tail t l k <> OutOfFuel.
  Proof.
    intros Hk. unfold insert_literal_tail. apply bind_fuel.
    - apply bsearch_loop_fuel; [intros; apply cmp_str_fuel|apply le_n].
    - intros [pos|pos] _.
      + apply bind_fuel; [apply get_unwrap_fuel|]. intros n _. destruct (has_common_prefix _ _) as [c|]; [|discriminate].
        apply update_literal_fuel. intros hit. apply bind_fuel; [apply split_fuel|]. intros hit' _.
        apply bind_fuel; [apply slice_from_fuel|]. intros suffix _. destruct (ln_node hit') as [node|]; [|discriminate].
        apply bind_fuel; [|discriminate]. unfold lookup_freshly_inserted_literal. apply lookup_mut_fuel.
        intros x [y|y]; [apply update_literal_fuel; exact Hk|discriminate].
      + apply bind_fuel; [apply add_literal_node_fuel|]. intros t' _. apply update_literal_fuel. exact Hk.
  Qed.
  Lemma insert_literal_fuel t l k : (forall n, k n <> OutOfFuel) -> insert_literal t l k <> OutOfFuel.
  Proof.
    intros Hk. unfold insert_literal. apply lookup_mut_fuel. intros n [i|i]; [apply update_literal_fuel; exact Hk|].
    apply bind_fuel; [apply usub_fuel|]. intros d _. apply bind_fuel; [apply slice_from_fuel|]. intros tail _.
    apply insert_literal_tail_fuel. exact Hk.
  Qed.
  Lemma trie_insert_ends sip toks : forall t p, insert_tokens sip toks t p <> OutOfFuel.
  Proof.
    induction toks as [|[q|l] rest IH]; intros t p; cbn [insert_tokens]; [discriminate| |].
    - unfold insert_parser.
      assert (forall e : pnode tree, (if is_empty rest then Ret (pnode_set_pattern e (Some (set_pattern_tokens p rest)))
         else let* c := insert_tokens sip rest tree_new (set_pattern_tokens p rest) in Ret (pnode_set_child e (Some c))) <> OutOfFuel) as Hk.
      { intros e. destruct (is_empty rest); [discriminate|]. apply bind_fuel; [apply IH|discriminate]. }
      destruct (lookup_parser sip t q).
      + apply bind_fuel; [|discriminate]. apply update_nth_fuel. intros x _. apply Hk.
      + apply bind_fuel; [apply Hk|discriminate].
    - apply insert_literal_fuel. intros e. destruct (is_empty rest); [discriminate|]. apply bind_fuel; [apply IH|discriminate].
  Qed.
End TrieEnds.

Section TableEnds.
  Import SuffixArray Trie_total.
  Lemma table_insert_ends sip toks : forall t p, insert_tokens sip toks t p <> OutOfFuel.
  Proof.
    induction toks as [|[q|l] rest IH]; intros t p; cbn [insert_tokens]; [discriminate| |].
    - unfold insert_parser.
      assert (forall e : parser_e table, (if is_empty rest then Ret (pe_set_pattern e (Some (set_pattern_tokens p rest)))
         else let* c := insert_tokens sip rest table_new (set_pattern_tokens p rest) in Ret (pe_set_child e (Some c))) <> OutOfFuel) as Hk.
      { intros e. destruct (is_empty rest); [discriminate|]. apply bind_fuel; [apply IH|discriminate]. }
      destruct (Trie.position _ _).
      + apply bind_fuel; [|discriminate]. apply update_nth_fuel. intros x _. apply Hk.
      + apply bind_fuel; [apply Hk|discriminate].
    - unfold insert_literal.
      assert (forall e : literal_e table, (if is_empty rest then Ret (le_set_pattern e (Some (set_pattern_tokens p rest)))
         else let* c := insert_tokens sip rest table_new (set_pattern_tokens p rest) in Ret (le_set_child e (Some c))) <> OutOfFuel) as Hk.
      { intros e. destruct (is_empty rest); [discriminate|]. apply bind_fuel; [apply IH|discriminate]. }
      apply bind_fuel; [apply bsearch_loop_fuel; [discriminate|apply le_n]|]. intros [pos|pos] _.
      + apply bind_fuel; [|discriminate]. apply update_nth_fuel. intros x _. apply Hk.
      + apply bind_fuel; [unfold vec_insert; destruct (Nat.leb _ _); discriminate|]. intros les _.
        apply bind_fuel; [|discriminate]. apply update_nth_fuel. intros x _. apply Hk.
  Qed.
End TableEnds.

Lemma trie_ends sip : matcher_ends (trie_ops sip).
Proof. split; [exact Trie_total.parse_terminates|]. intros m p. apply trie_insert_ends. Qed.
Lemma table_ends sip : matcher_ends (table_ops sip).
Proof. split; [exact Table_refine.parse_terminates|]. intros m p. apply table_insert_ends. Qed.

(** ** Loading *)
Section Generic.
  Context {M : Type} (ops : matcher_ops M).

  Lemma check_breaks m p a t b : (forall t', In t' a -> passes ops m p t') -> mo_parse ops m (tm_message t) = Panic ->
    check_test_messages ops m (a ++ t :: b) (pat_uuid p) = Panic.
  Proof.
    intros Ha Ht. induction a as [|t' a IH]; cbn [app check_test_messages].
    - rewrite Ht. reflexivity.
    - destruct (Ha t' ltac:(left; reflexivity)) as (r & E & Eu & S). rewrite E. cbn [bind].
      unfold check_test_message, uuid_eqb. apply str_eqb_eq in Eu. rewrite Eu. apply test_result_ok in S. rewrite S.
      apply IH. intros t2 H2. apply Ha. right. exact H2.
  Qed.

  Lemma check_pattern_breaks m p : check_pattern ops m (Ok p) = Panic <-> breaks ops m p.
  Proof.
    unfold check_pattern. rewrite extract_spec. cbn [bind]. split.
    - destruct (mo_add_pattern ops m (untested p)) as [m1| |] eqn:A; cbn [bind]; [|intros _; apply breaks_adding; exact A|discriminate].
      pose proof (check_cases ops m1 p (rev (tests p))) as C.
      destruct (check_test_messages ops m1 (rev (tests p)) (pat_uuid p)) as [[[]|e]| |]; cbn [bind]; try discriminate.
      intros _. destruct C as (a & t & b & El & Ha & Hp).
      apply (breaks_test ops m p m1 (rev b) t (rev a) A).
      + rewrite <- (rev_involutive (tests p)), El, rev_app_distr. cbn [rev]. rewrite <- app_assoc. reflexivity.
      + intros t' Ht. apply Ha. apply in_rev. exact Ht.
      + exact Hp.
    - intros [A|m1 a t b A Et Hb Hp]; rewrite A; cbn [bind]; [reflexivity|].
      rewrite Et, rev_app_distr. cbn [rev]. rewrite <- app_assoc. cbn [app].
      rewrite check_breaks; [reflexivity| |exact Hp]. intros t' Ht. apply Hb. apply in_rev. exact Ht.
  Qed.

  Lemma from_source_breaks src : forall m,
    from_source_loop ops m src = Panic <->
    exists before p after m', src = before ++ Ok p :: after /\ loads ops m before m' /\ breaks ops m' p.
  Proof.
    intros m. split.
    - revert m. induction src as [|[p|e] src IH]; intros m; cbn [from_source_loop]; [discriminate| |].
      + destruct (check_pattern ops m (Ok p)) as [(m1, [[]|e])| |] eqn:C; cbn [bind]; try discriminate.
        * intros H. destruct (IH m1 H) as (before & q & after & m' & -> & L & B).
          exists (Ok p :: before), q, after, m'. split; [reflexivity|]. split; [|exact B].
          unfold check_pattern in C. rewrite extract_spec in C. cbn [bind] in C.
          destruct (mo_add_pattern ops m (untested p)) as [m2| |] eqn:A; cbn [bind] in C; try discriminate.
          pose proof (check_cases ops m2 p (rev (tests p))) as K.
          destruct (check_test_messages ops m2 (rev (tests p)) (pat_uuid p)) as [[[]|e]| |]; cbn [bind] in C; try discriminate.
          injection C as <-. econstructor; [exact A| |exact L]. intros t Ht. apply K. apply in_rev in Ht. exact Ht.
        * intros _. exists [], p, src, m. split; [reflexivity|]. split; [constructor|]. apply check_pattern_breaks. exact C.
      + unfold check_pattern. cbn [bind]. discriminate.
    - intros (before & p & after & m' & -> & L & B). rewrite (loads_continue ops _ _ _ _ L). cbn [from_source_loop].
      apply check_pattern_breaks in B. rewrite B. reflexivity.
  Qed.

  Theorem checked_panics src : from_source ops src = Panic <-> checked_breaks ops src.
  Proof. apply from_source_breaks. Qed.

  (** Ignoring errors. *)
  Lemma check_pattern_state m p m1 c : check_pattern ops m (Ok p) = Ret (m1, c) -> mo_add_pattern ops m (untested p) = Ret m1.
  Proof.
    unfold check_pattern. rewrite extract_spec. cbn [bind]. destruct (mo_add_pattern ops m (untested p)) as [m2| |]; cbn [bind]; try discriminate.
    destruct (check_test_messages _ _ _ _); cbn [bind]; try discriminate. intros H. injection H as -> _. reflexivity.
  Qed.

  Lemma ignoring_breaks_loop src : matcher_ends ops -> forall m,
    from_source_ignore_errors_loop ops m src = Panic <->
    exists before p after m', src = before ++ Ok p :: after /\ adds ops m (map untested (patterns_of before)) = Ret m' /\ breaks ops m' p.
  Proof.
    intros (Ep & Ea) m. split.
    - revert m. induction src as [|[p|e] src IH]; intros m; cbn [from_source_ignore_errors_loop]; [discriminate| |].
      + destruct (check_pattern ops m (Ok p)) as [(m1, c)| |] eqn:C; cbn [bind fst]; try discriminate.
        * intros H. destruct (IH m1 H) as (before & q & after & m' & -> & L & B).
          exists (Ok p :: before), q, after, m'. split; [reflexivity|]. split; [|exact B].
          cbn [patterns_of map adds]. rewrite (check_pattern_state m p m1 c C). exact L.
        * intros _. exists [], p, src, m. split; [reflexivity|]. split; [reflexivity|]. apply check_pattern_breaks. exact C.
      + unfold check_pattern. cbn [bind fst]. intros H. destruct (IH m H) as (before & q & after & m' & -> & L & B).
        exists (Err e :: before), q, after, m'. split; [reflexivity|]. split; [exact L|exact B].
    - intros (before & p & after & m' & -> & L & B). revert m L. induction before as [|[q|e] before IH]; intros m L; cbn [app from_source_ignore_errors_loop].
      + cbn in L. injection L as ->. apply check_pattern_breaks in B. rewrite B. reflexivity.
      + cbn [patterns_of map adds] in L. destruct (mo_add_pattern ops m (untested q)) as [m1| |] eqn:A; cbn [bind] in L; try discriminate.
        destruct (check_pattern ops m (Ok q)) as [(m2, c)| |] eqn:C; cbn [bind fst].
        * apply check_pattern_state in C. rewrite A in C. injection C as <-. apply IH. exact L.
        * reflexivity.
        * exfalso. unfold check_pattern in C. rewrite extract_spec in C. cbn [bind] in C. rewrite A in C. cbn [bind] in C.
          pose proof (check_cases ops m1 q (rev (tests q))) as K.
          destruct (check_test_messages ops m1 (rev (tests q)) (pat_uuid q)); cbn [bind] in C; try discriminate.
          destruct K as (_ & t & _ & _ & _ & K). exact (Ep _ _ K).
      + unfold check_pattern. cbn [bind fst]. apply IH. exact L.
  Qed.

  Theorem ignoring_panics src : matcher_ends ops -> (from_source_ignore_errors ops src = Panic <-> ignoring_breaks ops src).
  Proof. intros H. apply ignoring_breaks_loop. exact H. Qed.

  (** Loading never runs out of fuel. *)
  Lemma check_pattern_ends m r : matcher_ends ops -> check_pattern ops m r <> OutOfFuel.
  Proof.
    intros (Ep & Ea). destruct r as [p|e]; unfold check_pattern; [|discriminate]. rewrite extract_spec. cbn [bind].
    apply Trie_total.bind_fuel; [apply Ea|]. intros m1 _. apply Trie_total.bind_fuel; [|discriminate].
    pose proof (check_cases ops m1 p (rev (tests p))) as K. intros E. rewrite E in K.
    destruct K as (_ & t & _ & _ & _ & K). exact (Ep _ _ K).
  Qed.
  Theorem loading_ends src : matcher_ends ops -> from_source ops src <> OutOfFuel /\ from_source_ignore_errors ops src <> OutOfFuel.
  Proof.
    intros H. unfold from_source, from_source_ignore_errors. generalize (mo_new ops). split.
    - revert m. induction src as [|r src IH]; intros m; cbn [from_source_loop]; [discriminate|].
      apply Trie_total.bind_fuel; [apply check_pattern_ends; exact H|]. intros (m1, [[]|e]) _; [apply IH|discriminate].
    - revert m. induction src as [|r src IH]; intros m; cbn [from_source_ignore_errors_loop]; [discriminate|].
      apply Trie_total.bind_fuel; [apply check_pattern_ends; exact H|]. intros x _. apply IH.
  Qed.

  (** Where checked loading succeeds, ignoring errors changes nothing. *)
  Theorem ok_ignoring src m : from_source ops src = Ret (Ok m) -> from_source_ignore_errors ops src = Ret m.
  Proof.
    unfold from_source, from_source_ignore_errors. generalize (mo_new ops). induction src as [|r src IH]; intros m0; cbn [from_source_loop from_source_ignore_errors_loop].
    - congruence.
    - destruct (check_pattern ops m0 r) as [(m1, [[]|e])| |]; cbn [bind fst]; try discriminate. apply IH.
  Qed.
  (** Where ignoring errors gives a matcher, checked loading gives it or an error. *)
  Theorem ignoring_checked src m : from_source_ignore_errors ops src = Ret m ->
    from_source ops src = Ret (Ok m) \/ exists e, from_source ops src = Ret (Err e).
  Proof.
    unfold from_source, from_source_ignore_errors. generalize (mo_new ops). induction src as [|r src IH]; intros m0; cbn [from_source_loop from_source_ignore_errors_loop].
    - left. congruence.
    - destruct (check_pattern ops m0 r) as [(m1, [[]|e])| |]; cbn [bind fst]; try discriminate; [apply IH|eauto].
  Qed.
End Generic.

(** ** The trie and the suffix table *)
Lemma patterns_of_in before p after : patterns_of (before ++ Ok p :: after) = patterns_of before ++ p :: patterns_of after.
Proof. rewrite patterns_of_app. reflexivity. Qed.

Lemma trie_breaks sip qs p m : Forall valid_pattern (qs ++ [p]) -> collision_free sip (qs ++ [p]) ->
  (forall t, In t (tests p) -> utf8 (tm_message t)) ->
  adds (trie_ops sip) Trie.tree_new (map untested qs) = Ret m ->
  (breaks (trie_ops sip) m p <-> breaks_trie sip qs m p).
Proof.
  unfold breaks_trie. intros V C U A. rewrite trie_adds in A.
  pose proof (untested_valid _ V) as V'. pose proof (untested_collision_free sip _ C) as C'.
  assert (incl (map untested qs) (map untested (qs ++ [p]))) as Inc by (rewrite map_app; apply incl_appl, incl_refl).
  destruct (adding_panics sip _ V' C') as (P & R).
  assert (Trie.add_patterns sip Trie.tree_new (map untested (qs ++ [p])) = mo_add_pattern (trie_ops sip) m (untested p)) as Es.
  { rewrite map_app. rewrite <- trie_adds, adds_app, trie_adds, A. cbn [bind map adds].
    destruct (mo_add_pattern (trie_ops sip) m (untested p)); reflexivity. }
  rewrite Es in P, R.
  assert (mo_add_pattern (trie_ops sip) m (untested p) = Panic <-> add_panics (s_adds (map untested qs)) (untested p)) as Q.
  { rewrite P. split.
    - intros (X & q & Y & E & H). rewrite map_app in E. cbn [map] in E.
      destruct Y as [|y Y _] using rev_ind.
      + apply app_inj_tail in E. destruct E as (-> & ->). exact H.
      + exfalso. rewrite app_comm_cons, app_assoc in E. apply app_inj_tail in E. destruct E as (E & _).
        destruct (adding_panics sip (map untested qs)) as (P0 & _).
        * apply (incl_Forall Inc V').
        * apply (Trie_main.collision_free_incl sip _ _ Inc C').
        * rewrite A in P0. assert (@Ret Trie.tree m = Panic) as K; [|discriminate K]. apply P0. exists X, q, Y. auto.
    - intros H. exists (map untested qs), (untested p), []. rewrite map_app. auto. }
  split.
  - intros [B|m' a t b B Et Hb Hp]; [left; apply Q; exact B|]. right. split; [rewrite <- Q, B; discriminate|].
    exists m', a, t, b. split; [exact B|]. split; [exact Et|]. split; [exact Hb|].
    rewrite B in Es. destruct (matching_panics sip _ m' (tm_message t) V' C' Es) as (K & _).
    + apply U. rewrite Et. apply in_app_iff. right. left. reflexivity.
    + apply K. exact Hp.
  - intros [B|(_ & m' & a & t & b & B & Et & Hb & Hp)]; [apply breaks_adding; apply Q; exact B|].
    apply (breaks_test _ _ _ m' a t b B Et Hb). rewrite B in Es.
    destruct (matching_panics sip _ m' (tm_message t) V' C' Es) as (K & _).
    + apply U. rewrite Et. apply in_app_iff. right. left. reflexivity.
    + apply K. exact Hp.
Qed.

Lemma table_breaks sip qs p m : Forall valid_pattern (qs ++ [p]) -> collision_free sip (qs ++ [p]) ->
  (forall t, In t (tests p) -> utf8 (tm_message t)) ->
  adds (table_ops sip) SuffixArray.table_new (map untested qs) = Ret m ->
  (breaks (table_ops sip) m p <-> breaks_table sip qs m p).
Proof.
  unfold breaks_table. intros V C U A. rewrite table_adds in A.
  pose proof (untested_valid _ V) as V'. pose proof (untested_collision_free sip _ C) as C'.
  destruct (table_matching_panics sip _ V' C') as (t0 & Es & P).
  assert (mo_add_pattern (table_ops sip) m (untested p) = Ret t0) as E0.
  { rewrite map_app in Es. rewrite <- table_adds, adds_app, table_adds, A in Es. cbn [bind map adds] in Es.
    destruct (mo_add_pattern (table_ops sip) m (untested p)); cbn [bind] in Es; congruence. }
  split.
  - intros [B|m' a t b B Et Hb Hp]; [congruence|].
    exists m', a, t, b. split; [exact B|]. split; [exact Et|]. split; [exact Hb|].
    rewrite E0 in B. injection B as <-. destruct (P (tm_message t)) as (K & _).
    + apply U. rewrite Et. apply in_app_iff. right. left. reflexivity.
    + apply K. exact Hp.
  - intros (m' & a & t & b & B & Et & Hb & Hp).
    apply (breaks_test _ _ _ m' a t b B Et Hb). rewrite E0 in B. injection B as <-. destruct (P (tm_message t)) as (K & _).
    + apply U. rewrite Et. apply in_app_iff. right. left. reflexivity.
    + apply K. exact Hp.
Qed.

Lemma prefix_incl (before : list build_result) p after :
  incl (patterns_of before ++ [p]) (patterns_of (before ++ Ok p :: after)).
Proof. rewrite patterns_of_in. intros x. rewrite !in_app_iff. cbn [In]. tauto. Qed.

Theorem trie_checked_panics sip src :
  Forall valid_pattern (patterns_of src) -> collision_free sip (patterns_of src) -> utf8_tests (patterns_of src) ->
  (from_source (trie_ops sip) src = Panic <->
   exists before p after m, src = before ++ Ok p :: after /\ loads (trie_ops sip) Trie.tree_new before m /\
     breaks_trie sip (patterns_of before) m p).
Proof.
  intros V C U. rewrite checked_panics. unfold checked_breaks.
  split; intros (before & p & after & m & E & L & B); exists before, p, after, m; split; try exact E; split; try exact L; subst src;
    pose proof (prefix_incl before p after) as Inc;
    (apply (trie_breaks sip (patterns_of before) p m);
     [apply (incl_Forall Inc V)|apply (Trie_main.collision_free_incl sip _ _ Inc C)
     |intros t Ht; apply (U p t); [rewrite patterns_of_in; apply in_app_iff; right; left; reflexivity|exact Ht]
     |apply loads_adds in L; apply L|exact B]).
Qed.

Theorem trie_ignoring_panics sip src :
  Forall valid_pattern (patterns_of src) -> collision_free sip (patterns_of src) -> utf8_tests (patterns_of src) ->
  (from_source_ignore_errors (trie_ops sip) src = Panic <->
   exists before p after m, src = before ++ Ok p :: after /\
     Trie.add_patterns sip Trie.tree_new (map untested (patterns_of before)) = Ret m /\
     breaks_trie sip (patterns_of before) m p).
Proof.
  intros V C U. rewrite (ignoring_panics _ _ (trie_ends sip)). unfold ignoring_breaks.
  split; intros (before & p & after & m & E & L & B); exists before, p, after, m; split; try exact E;
    (split; [rewrite <- trie_adds in * || rewrite trie_adds in *; exact L|]); subst src;
    pose proof (prefix_incl before p after) as Inc;
    (apply (trie_breaks sip (patterns_of before) p m);
     [apply (incl_Forall Inc V)|apply (Trie_main.collision_free_incl sip _ _ Inc C)
     |intros t Ht; apply (U p t); [rewrite patterns_of_in; apply in_app_iff; right; left; reflexivity|exact Ht]
     |try exact L; rewrite trie_adds; exact L|exact B]).
Qed.

Theorem table_checked_panics sip src :
  Forall valid_pattern (patterns_of src) -> collision_free sip (patterns_of src) -> utf8_tests (patterns_of src) ->
  (from_source (table_ops sip) src = Panic <->
   exists before p after m, src = before ++ Ok p :: after /\ loads (table_ops sip) SuffixArray.table_new before m /\
     breaks_table sip (patterns_of before) m p).
Proof.
  intros V C U. rewrite checked_panics. unfold checked_breaks.
  split; intros (before & p & after & m & E & L & B); exists before, p, after, m; split; try exact E; split; try exact L; subst src;
    pose proof (prefix_incl before p after) as Inc;
    (apply (table_breaks sip (patterns_of before) p m);
     [apply (incl_Forall Inc V)|apply (Trie_main.collision_free_incl sip _ _ Inc C)
     |intros t Ht; apply (U p t); [rewrite patterns_of_in; apply in_app_iff; right; left; reflexivity|exact Ht]
     |apply loads_adds in L; apply L|exact B]).
Qed.

Theorem table_ignoring_panics sip src :
  Forall valid_pattern (patterns_of src) -> collision_free sip (patterns_of src) -> utf8_tests (patterns_of src) ->
  (from_source_ignore_errors (table_ops sip) src = Panic <->
   exists before p after m, src = before ++ Ok p :: after /\
     SuffixArray.add_patterns sip SuffixArray.table_new (map untested (patterns_of before)) = Ret m /\
     breaks_table sip (patterns_of before) m p).
Proof.
  intros V C U. rewrite (ignoring_panics _ _ (table_ends sip)). unfold ignoring_breaks.
  split; intros (before & p & after & m & E & L & B); exists before, p, after, m; split; try exact E;
    (split; [rewrite <- table_adds in * || rewrite table_adds in *; exact L|]); subst src;
    pose proof (prefix_incl before p after) as Inc;
    (apply (table_breaks sip (patterns_of before) p m);
     [apply (incl_Forall Inc V)|apply (Trie_main.collision_free_incl sip _ _ Inc C)
     |intros t Ht; apply (U p t); [rewrite patterns_of_in; apply in_app_iff; right; left; reflexivity|exact Ht]
     |try exact L; rewrite table_adds; exact L|exact B]).
Qed.
