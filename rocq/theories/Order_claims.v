(** * The order of patterns and adding patterns again *)
From Coq Require Import Permutation.
From Verif Require Import Base Utils Parsers Pattern Spec Spec_panics Spec_order TrieSpec TrieSpec_order
  TrieSpec_props TrieSpec_cases TableSpec Table_content Trie_main Trie_claims Table_claims Table_refine Trie_canon.
From Verif Require Trie SuffixArray.

Lemma reordered_perm R ps qs : reordered R ps qs -> Permutation ps qs.
Proof.
  induction 1 as [ps|A p q B qs HI _ IH]; [reflexivity|]. rewrite <- IH.
  apply Permutation_app_head. apply perm_swap.
Qed.

Lemma perm_incl {A} (ps qs : list A) : Permutation ps qs -> incl qs ps.
Proof. intros H x. apply Permutation_in. symmetry. exact H. Qed.

(** Any order, when all patterns are independent of each other. *)
Lemma s_adds_perm ps qs :
  (forall p q, In p ps -> In q ps -> p = q \/ independent p q) -> Permutation ps qs ->
  s_adds ps = s_adds qs.
Proof.
  intros HI HP. unfold s_adds.
  assert (lsorted level_empty) as H0 by (apply (s_adds_lsorted [])).
  revert H0. generalize level_empty. induction HP as [|p ps qs HP IH|p q ps|ps qs rs HP1 IH1 HP2 IH2]; intros L HL.
  - reflexivity.
  - cbn [fold_left]. apply IH; [intros a b Ha Hb; apply HI; right; assumption|]. apply s_insert_sorted. exact HL.
  - cbn [fold_left]. f_equal. destruct (HI q p) as [->|H]; [simpl; auto|simpl; auto|reflexivity|].
    apply s_add_commute; assumption.
  - rewrite IH1 by assumption. apply IH2; [|exact HL]. intros a b Ha Hb.
    apply HI; eapply Permutation_in; try apply Permutation_sym; eassumption.
Qed.

Lemma t_adds_perm ps qs :
  (forall p q, In p ps -> In q ps -> p = q \/ table_independent p q) -> Permutation ps qs ->
  t_adds ps = t_adds qs.
Proof.
  intros HI HP. unfold t_adds.
  assert (sorted_keys (lits_of level_empty)) as H0 by (apply sorted_empty).
  revert H0. generalize level_empty. induction HP as [|p ps qs HP IH|p q ps|ps qs rs HP1 IH1 HP2 IH2]; intros L HL.
  - reflexivity.
  - cbn [fold_left]. apply IH; [intros a b Ha Hb; apply HI; right; assumption|]. apply t_insert_sorted. exact HL.
  - cbn [fold_left]. f_equal. destruct (HI q p) as [->|H]; [simpl; auto|simpl; auto|reflexivity|].
    apply t_add_commute; assumption.
  - rewrite IH1 by assumption. apply IH2; [|exact HL]. intros a b Ha Hb.
    apply HI; eapply Permutation_in; try apply Permutation_sym; eassumption.
Qed.

(** ** From levels to matchers *)
Lemma trie_same_level sip ps qs t t' :
  Forall valid_pattern ps -> collision_free sip ps -> incl qs ps -> s_adds ps = s_adds qs ->
  Trie.add_patterns sip Trie.tree_new ps = Ret t -> Trie.add_patterns sip Trie.tree_new qs = Ret t' ->
  t = t'.
Proof.
  intros V C HI HE Ha Ha'.
  apply (trie_canonical sip sip ps qs); auto; [apply (Forall_incl _ _ _ HI V)|apply (collision_free_incl sip _ _ HI C)].
Qed.

Lemma table_same_level sip ps qs :
  Forall valid_pattern ps -> collision_free sip ps -> incl qs ps -> t_adds ps = t_adds qs ->
  exists t, SuffixArray.add_patterns sip SuffixArray.table_new ps = Ret t /\
            SuffixArray.add_patterns sip SuffixArray.table_new qs = Ret t.
Proof.
  intros V C HI HE. destruct (table_adds sip ps V) as (t & E & _ & R).
  destruct (table_adds sip qs (Forall_incl _ _ _ HI V)) as (t' & E' & _ & R').
  exists t. split; [exact E|]. rewrite E'. f_equal. apply tabs_inj.
  rewrite (R C), (R' (collision_free_incl sip _ _ HI C)). symmetry. exact HE.
Qed.

(** ** C128 *)
Lemma trie_order sip ps qs t t' :
  Forall valid_pattern ps -> collision_free sip ps ->
  reordered independent ps qs \/
    (Permutation ps qs /\ forall p q, In p ps -> In q ps -> p = q \/ independent p q) ->
  Trie.add_patterns sip Trie.tree_new ps = Ret t -> Trie.add_patterns sip Trie.tree_new qs = Ret t' ->
  t = t'.
Proof.
  intros V C H. apply (trie_same_level sip); auto.
  - destruct H as [H|(H & _)]; [apply perm_incl, (reordered_perm _ _ _ H)|apply perm_incl, H].
  - destruct H as [H|(H & HI)]; [apply s_adds_reordered, H|apply s_adds_perm; assumption].
Qed.

Lemma table_order sip ps qs :
  Forall valid_pattern ps -> collision_free sip ps ->
  reordered table_independent ps qs \/
    (Permutation ps qs /\ forall p q, In p ps -> In q ps -> p = q \/ table_independent p q) ->
  exists t, SuffixArray.add_patterns sip SuffixArray.table_new ps = Ret t /\
            SuffixArray.add_patterns sip SuffixArray.table_new qs = Ret t.
Proof.
  intros V C H. apply table_same_level; auto.
  - destruct H as [H|(H & _)]; [apply perm_incl, (reordered_perm _ _ _ H)|apply perm_incl, H].
  - destruct H as [H|(H & HI)]; [apply t_adds_reordered, H|apply t_adds_perm; assumption].
Qed.

(** ** C129 *)
Lemma trie_adds_app sip ps qs : forall t,
  Trie.add_patterns sip t (ps ++ qs) = let* t' := Trie.add_patterns sip t ps in Trie.add_patterns sip t' qs.
Proof.
  induction ps as [|p ps IH]; intros t; [reflexivity|]. cbn [app Trie.add_patterns].
  destruct (Trie.add_pattern sip t p); simpl; auto.
Qed.

Lemma table_adds_app sip ps qs : forall t,
  SuffixArray.add_patterns sip t (ps ++ qs) =
  let* t' := SuffixArray.add_patterns sip t ps in SuffixArray.add_patterns sip t' qs.
Proof.
  induction ps as [|p ps IH]; intros t; [reflexivity|]. cbn [app SuffixArray.add_patterns].
  destruct (SuffixArray.add_pattern sip t p); simpl; auto.
Qed.

Lemma incl_twice {A} (ps : list A) : incl (ps ++ ps) ps.
Proof. intros x Hx. apply in_app_or in Hx. tauto. Qed.

Lemma trie_again sip ps t t' :
  Forall valid_pattern ps -> collision_free sip ps ->
  Trie.add_patterns sip Trie.tree_new ps = Ret t -> Trie.add_patterns sip t ps = Ret t' ->
  t' = t.
Proof.
  intros V C E E'. symmetry. apply (trie_same_level sip ps (ps ++ ps)); auto using incl_twice.
  - symmetry. apply s_adds_again.
  - rewrite trie_adds_app, E. exact E'.
Qed.

Lemma table_again sip ps t :
  Forall valid_pattern ps -> collision_free sip ps ->
  SuffixArray.add_patterns sip SuffixArray.table_new ps = Ret t -> SuffixArray.add_patterns sip t ps = Ret t.
Proof.
  intros V C E.
  destruct (table_same_level sip ps (ps ++ ps) V C (incl_twice ps) (eq_sym (t_adds_again ps))) as (t' & E1 & E2).
  assert (t' = t) as -> by congruence. rewrite table_adds_app, E in E2. exact E2.
Qed.
