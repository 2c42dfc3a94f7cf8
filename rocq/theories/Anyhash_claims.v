(** * C128, C129, C139 and C141 for every hash function *)
From Coq Require Import Permutation.
From Verif Require Import Base Base_facts Utils Parsers Pattern Spec Spec_table Spec_order Spec_forget Spec_hash Spec_canon
  Order_claims Forget_claims Collide_claims Canon_claims.
From Verif Require Trie SuffixArray.

(** ** Lists that confuse parsers alike *)
Definition alike (sip : list byte -> N) (ps qs : list pattern) : Prop := forall x, stand_in sip ps x = stand_in sip qs x.

Lemma alike_confused sip ps qs p : alike sip ps qs -> confused sip ps p = confused sip qs p.
Proof.
  intros A. unfold confused. f_equal. unfold confused_tokens.
  destruct (pat_tokens p) as [|[x|l] rest]; [reflexivity| |reflexivity]. rewrite A. reflexivity.
Qed.

Lemma alike_same sip ps qs : first_parsers ps = first_parsers qs -> alike sip ps qs.
Proof. intros E x. unfold stand_in. rewrite E. reflexivity. Qed.

Lemma trie_alike sip ps qs : alike sip ps qs ->
  Trie.add_patterns sip Trie.tree_new qs = Trie.add_patterns ideal_hash Trie.tree_new (map (confused sip ps) qs).
Proof.
  intros A. rewrite (trie_confused sip ideal_hash qs ideal_injective). f_equal. apply map_ext.
  intros p. symmetry. apply alike_confused. exact A.
Qed.

Lemma table_alike sip ps qs : alike sip ps qs ->
  SuffixArray.add_patterns sip SuffixArray.table_new qs =
  SuffixArray.add_patterns ideal_hash SuffixArray.table_new (map (confused sip ps) qs).
Proof.
  intros A. rewrite (table_confused sip ideal_hash qs ideal_injective). f_equal. apply map_ext.
  intros p. symmetry. apply alike_confused. exact A.
Qed.

Lemma alike_refl sip ps : alike sip ps ps.
Proof. intros x. reflexivity. Qed.

(** ** C128 *)
Definition same_first (p q : pattern) : Prop :=
  match pat_tokens p, pat_tokens q with
  | Parser x :: _, Parser y :: _ => x = y
  | _, _ => True
  end.

Lemma independent_first p q : independent p q -> same_first p q.
Proof.
  unfold independent, same_first. destruct (pat_tokens p) as [|[x|l] r], (pat_tokens q) as [|[y|m] r']; tauto.
Qed.
Lemma table_independent_first p q : table_independent p q -> same_first p q.
Proof.
  unfold table_independent, same_first. destruct (pat_tokens p) as [|[x|l] r], (pat_tokens q) as [|[y|m] r']; tauto.
Qed.
Lemma confused_independent sip ps p q : independent p q -> independent (confused sip ps p) (confused sip ps q).
Proof.
  unfold independent. cbn [confused pat_tokens].
  destruct (pat_tokens p) as [|[x|l] r], (pat_tokens q) as [|[y|m] r']; cbn [confused_tokens]; try tauto.
  intros (-> & H). auto.
Qed.
Lemma confused_table_independent sip ps p q :
  table_independent p q -> table_independent (confused sip ps p) (confused sip ps q).
Proof.
  unfold table_independent. cbn [confused pat_tokens].
  destruct (pat_tokens p) as [|[x|l] r], (pat_tokens q) as [|[y|m] r']; cbn [confused_tokens]; try tauto.
  intros (-> & H). auto.
Qed.

Lemma first_parsers_app a b : first_parsers (a ++ b) = first_parsers a ++ first_parsers b.
Proof. apply flat_map_app. Qed.

Lemma reordered_first (R : pattern -> pattern -> Prop) ps qs : (forall p q, R p q -> same_first p q) -> reordered R ps qs -> first_parsers ps = first_parsers qs.
Proof.
  intros HR. induction 1 as [ps|A p q B qs HI _ IH]; [reflexivity|]. rewrite <- IH, !first_parsers_app. f_equal.
  specialize (HR p q HI). unfold same_first in HR. cbn [first_parsers flat_map].
  destruct (pat_tokens p) as [|[x|l] r], (pat_tokens q) as [|[y|m] r']; try reflexivity. subst y. reflexivity.
Qed.

Lemma reordered_confused (R : pattern -> pattern -> Prop) ps qs f : (forall p q, R p q -> R (f p) (f q)) -> reordered R ps qs -> reordered R (map f ps) (map f qs).
Proof.
  intros HR. induction 1 as [ps|A p q B qs HI _ IH]; [constructor|]. rewrite map_app in *. cbn [map] in *.
  constructor; [apply HR; exact HI|exact IH].
Qed.

Lemma perm_first ps qs : (forall p q, In p ps -> In q ps -> p = q \/ same_first p q) -> Permutation ps qs ->
  first_parsers ps = first_parsers qs.
Proof.
  intros H HP.
  assert (Permutation (first_parsers ps) (first_parsers qs)) as HF by (apply Permutation_flat_map; exact HP).
  destruct (first_parsers ps) as [|x l] eqn:E; [apply Permutation_nil in HF; congruence|].
  assert (forall y, In y (x :: l) -> y = x) as Hx.
  { intros y Hy. rewrite <- E in Hy.
    assert (In x (first_parsers ps)) as Hx by (rewrite E; left; reflexivity).
    apply first_parsers_in in Hy. apply first_parsers_in in Hx.
    destruct Hy as (p & r & Ip & Ep), Hx as (q & r' & Iq & Eq).
    destruct (H p q Ip Iq) as [->|S]; [congruence|]. unfold same_first in S. rewrite Ep, Eq in S. exact S. }
  assert (forall y, In y (first_parsers qs) -> y = x) as Hy.
  { intros y I. apply Hx. eapply Permutation_in; [|exact I]. apply Permutation_sym. exact HF. }
  apply Permutation_length in HF. revert Hx Hy HF. generalize (first_parsers qs). generalize (x :: l). clear.
  intros a. induction a as [|u a IH]; intros [|v b] Ha Hb L; cbn in L; try discriminate; [reflexivity|].
  rewrite (Ha u), (Hb v) by (left; reflexivity). f_equal.
  apply IH; [intros y I; apply Ha; right; exact I|intros y I; apply Hb; right; exact I|lia].
Qed.

Lemma order_first (R : pattern -> pattern -> Prop) ps qs : (forall p q, R p q -> same_first p q) ->
  reordered R ps qs \/ (Permutation ps qs /\ forall p q, In p ps -> In q ps -> p = q \/ R p q) ->
  first_parsers ps = first_parsers qs.
Proof.
  intros HR [H|(H & HI)]; [apply (reordered_first R); assumption|]. apply perm_first; [|exact H].
  intros p q Ip Iq. destruct (HI p q Ip Iq) as [->|X]; [left; reflexivity|right; apply HR; exact X].
Qed.

Lemma order_confused (R : pattern -> pattern -> Prop) ps qs f : (forall p q, R p q -> R (f p) (f q)) ->
  reordered R ps qs \/ (Permutation ps qs /\ forall p q, In p ps -> In q ps -> p = q \/ R p q) ->
  reordered R (map f ps) (map f qs) \/
    (Permutation (map f ps) (map f qs) /\ forall p q, In p (map f ps) -> In q (map f ps) -> p = q \/ R p q).
Proof.
  intros HR [H|(H & HI)]; [left; apply reordered_confused; assumption|right]. split; [apply Permutation_map; exact H|].
  intros p q Ip Iq. apply in_map_iff in Ip. apply in_map_iff in Iq. destruct Ip as (p0 & <- & Ip), Iq as (q0 & <- & Iq).
  destruct (HI p0 q0 Ip Iq) as [->|X]; [left; reflexivity|right; apply HR; exact X].
Qed.

Theorem trie_order_any sip ps qs t t' :
  Forall valid_pattern ps ->
  reordered independent ps qs \/
    (Permutation ps qs /\ forall p q, In p ps -> In q ps -> p = q \/ independent p q) ->
  Trie.add_patterns sip Trie.tree_new ps = Ret t -> Trie.add_patterns sip Trie.tree_new qs = Ret t' ->
  t = t'.
Proof.
  intros V H.
  rewrite (trie_alike sip ps ps (alike_refl sip ps)).
  rewrite (trie_alike sip ps qs (alike_same sip ps qs (order_first _ ps qs independent_first H))).
  apply trie_order; [apply confused_valid; exact V|apply ideal_collision_free, ideal_injective|].
  apply order_confused; [apply confused_independent|exact H].
Qed.

Theorem table_order_any sip ps qs :
  Forall valid_pattern ps ->
  reordered table_independent ps qs \/
    (Permutation ps qs /\ forall p q, In p ps -> In q ps -> p = q \/ table_independent p q) ->
  exists t, SuffixArray.add_patterns sip SuffixArray.table_new ps = Ret t /\
            SuffixArray.add_patterns sip SuffixArray.table_new qs = Ret t.
Proof.
  intros V H.
  rewrite (table_alike sip ps ps (alike_refl sip ps)).
  rewrite (table_alike sip ps qs (alike_same sip ps qs (order_first _ ps qs table_independent_first H))).
  apply table_order; [apply confused_valid; exact V|apply ideal_collision_free, ideal_injective|].
  apply order_confused; [apply confused_table_independent|exact H].
Qed.

(** ** C129 *)
Lemma twice_alike sip ps : alike sip ps (ps ++ ps).
Proof.
  intros x. unfold stand_in. rewrite first_parsers_app, find_app.
  destruct (find _ (first_parsers ps)) ; reflexivity.
Qed.

Theorem trie_again_any sip ps t t' :
  Forall valid_pattern ps ->
  Trie.add_patterns sip Trie.tree_new ps = Ret t -> Trie.add_patterns sip t ps = Ret t' -> t' = t.
Proof.
  intros V E E'.
  assert (Trie.add_patterns sip Trie.tree_new (ps ++ ps) = Ret t') as E2 by (rewrite trie_adds_app, E; exact E').
  rewrite (trie_alike sip ps ps (alike_refl sip ps)) in E.
  rewrite (trie_alike sip ps _ (twice_alike sip ps)), map_app, trie_adds_app, E in E2.
  apply (trie_again ideal_hash (map (confused sip ps) ps));
    [apply confused_valid; exact V|apply ideal_collision_free, ideal_injective|exact E|exact E2].
Qed.

Theorem table_again_any sip ps t :
  Forall valid_pattern ps ->
  SuffixArray.add_patterns sip SuffixArray.table_new ps = Ret t -> SuffixArray.add_patterns sip t ps = Ret t.
Proof.
  intros V E. pose proof (table_adds_app sip ps ps SuffixArray.table_new) as E2. rewrite E in E2. cbn in E2. rewrite <- E2.
  rewrite (table_alike sip ps _ (twice_alike sip ps)), map_app, table_adds_app.
  rewrite (table_alike sip ps ps (alike_refl sip ps)) in E. rewrite E. cbn.
  apply (table_again ideal_hash (map (confused sip ps) ps));
    [apply confused_valid; exact V|apply ideal_collision_free, ideal_injective|exact E].
Qed.

(** ** C141 *)
Theorem loaded_compact_any sip ps t :
  Forall valid_pattern ps -> Trie.add_patterns sip Trie.tree_new ps = Ret t -> compact t.
Proof.
  intros V E. rewrite (trie_alike sip ps ps (alike_refl sip ps)) in E.
  apply (loaded_compact ideal_hash _ t) in E; [exact E|apply confused_valid; exact V|apply ideal_collision_free, ideal_injective].
Qed.

(** ** C139 *)
Lemma known_first ps x : known_parser ps x <-> In x (first_parsers ps).
Proof.
  split; [|apply first_parsers_in]. intros (p & rest & I & E). apply in_flat_map. exists p. split; [exact I|].
  rewrite E. left. reflexivity.
Qed.

Lemma known_confused sip full ps x : known_parser ps x -> known_parser (map (confused sip full) ps) (stand_in sip full x).
Proof.
  intros (p & rest & I & E). exists (confused sip full p), rest. split; [apply in_map; exact I|].
  cbn [confused pat_tokens]. rewrite E. reflexivity.
Qed.

Lemma confused_displaces sip full q p : displaces q p -> displaces (confused_tokens sip full q) (confused_tokens sip full p).
Proof.
  intros (tok & r & r' & -> & -> & H). destruct tok as [x|l]; cbn [confused_tokens]; eexists; eexists; eexists; eauto.
Qed.

Lemma confused_no_trace_table sip full a p z : no_trace_in_table a p z ->
  no_trace_in_table (map (confused sip full) a) (confused sip full p) (confused sip full z).
Proof.
  unfold no_trace_in_table. cbn [confused pat_tokens].
  destruct (pat_tokens p) as [|[x|l] r], (pat_tokens z) as [|[y|m] r']; cbn [confused_tokens]; try tauto.
  intros [->|[H|H]]; [left; reflexivity|right; left|right; right]; apply known_confused; exact H.
Qed.

Lemma confused_no_trace_trie sip full a p z : no_trace_in_trie a p z ->
  no_trace_in_trie (map (confused sip full) a) (confused sip full p) (confused sip full z).
Proof.
  intros H. pose proof (confused_no_trace_table sip full a p z) as T. revert H T. unfold no_trace_in_trie. cbn [confused pat_tokens].
  destruct (pat_tokens p) as [|[x|l] r], (pat_tokens z) as [|[y|m] r']; cbn [confused_tokens]; tauto.
Qed.

Lemma map_split {A B} (f : A -> B) l b z b' : map f l = b ++ z :: b' ->
  exists b0 z0 b0', l = b0 ++ z0 :: b0' /\ b = map f b0 /\ z = f z0.
Proof.
  revert b. induction l as [|x l IH]; intros [|y b] E; cbn in E; try discriminate; injection E as <- E.
  - exists [], x, l. auto.
  - destruct (IH b E) as (b0 & z0 & b0' & -> & -> & ->). exists (x :: b0), z0, b0'. auto.
Qed.

Lemma forgotten_alike sip a p b q c : forgotten_in_table a p b q -> alike sip (a ++ p :: b ++ q :: c) (a ++ b ++ q :: c).
Proof.
  intros ((tok & r & r' & Eq & Ep & D) & T).
  destruct tok as [x|l].
  2: { apply alike_same. rewrite (first_parsers_app a), (first_parsers_app a). f_equal.
       change (p :: b ++ q :: c) with ([p] ++ (b ++ q :: c)). rewrite (first_parsers_app [p]).
       unfold first_parsers at 1. cbn [flat_map]. rewrite Ep. reflexivity. }
  intros w. unfold stand_in. rewrite !first_parsers_app, !find_app.
  destruct (find _ (first_parsers a)) eqn:Ea; [reflexivity|].
  change (first_parsers (p :: b ++ q :: c)) with
    ((match pat_tokens p with Parser q0 :: _ => [q0] | _ => [] end) ++ first_parsers (b ++ q :: c)).
  rewrite Ep. cbn [app find]. rewrite first_parsers_app.
  destruct (N.eqb (sip (hash_stream x)) (sip (hash_stream w))) eqn:Ex; [|rewrite find_app; reflexivity].
  set (f := fun q' => N.eqb (sip (hash_stream q')) (sip (hash_stream w))) in *.
  assert (forall b1 b2, b = b1 ++ b2 -> find f (first_parsers b1) = None ->
            find f (first_parsers b2 ++ first_parsers (q :: c)) = Some x) as H.
  { intros b1 b2. revert b1. induction b2 as [|z b2 IH]; intros b1 Eb N.
    - cbn [first_parsers flat_map app]. rewrite Eq. cbn. unfold f at 1. rewrite Ex. reflexivity.
    - specialize (T b1 z b2 Eb). unfold no_trace_in_table in T. rewrite Ep in T.
      change (first_parsers (z :: b2)) with
        ((match pat_tokens z with Parser q0 :: _ => [q0] | _ => [] end) ++ first_parsers b2).
      assert (forall y, f y = true -> ~ known_parser (a ++ b1) y) as K.
      { intros y Fy Ky. apply known_first in Ky. rewrite first_parsers_app in Ky. apply in_app_or in Ky.
        destruct Ky as [Ky|Ky]; [apply (find_none _ _ Ea) in Ky|apply (find_none _ _ N) in Ky]; congruence. }
      destruct (f (match pat_tokens z with Parser y :: _ => y | _ => w end) &&
                match pat_tokens z with Parser _ :: _ => true | _ => false end)%bool eqn:Ez.
      + destruct (pat_tokens z) as [|[y|m] rz]; rewrite ?andb_false_r in Ez; try discriminate. rewrite andb_true_r in Ez.
        cbn [app find]. rewrite Ez.
        destruct T as [->|[T|T]]; [reflexivity| |]; [destruct (K x Ex T)|destruct (K y Ez T)].
      + destruct (pat_tokens z) as [|[y|m] rz] eqn:Tz; rewrite ?andb_true_r in Ez; cbn [app].
        * apply (IH (b1 ++ [z])); [rewrite <- app_assoc; exact Eb|].
          rewrite first_parsers_snoc, Tz, app_nil_r. exact N.
        * cbn [find]. rewrite Ez. apply (IH (b1 ++ [z])); [rewrite <- app_assoc; exact Eb|].
          rewrite first_parsers_snoc, Tz, find_app, N. cbn. rewrite Ez. reflexivity.
        * apply (IH (b1 ++ [z])); [rewrite <- app_assoc; exact Eb|].
          rewrite first_parsers_snoc, Tz, app_nil_r. exact N. }
  specialize (H [] b eq_refl eq_refl). rewrite find_app in H. rewrite H. reflexivity.
Qed.

Lemma trie_forgotten_table a p b q : forgotten_in_trie a p b q -> forgotten_in_table a p b q.
Proof.
  intros (D & H). split; [exact D|]. intros b1 z b2 E. specialize (H b1 z b2 E). unfold no_trace_in_trie in H.
  unfold no_trace_in_table in *. destruct (pat_tokens p) as [|[x|l] r], (pat_tokens z) as [|[y|m] r']; try exact I; exact H.
Qed.

Theorem trie_forgets_any sip a p b q c t t' :
  let ps := a ++ p :: b ++ q :: c in
  Forall valid_pattern ps -> forgotten_in_trie a p b q ->
  Trie.add_patterns sip Trie.tree_new ps = Ret t -> Trie.add_patterns sip Trie.tree_new (a ++ b ++ q :: c) = Ret t' ->
  t = t'.
Proof.
  intros ps V H.
  rewrite (trie_alike sip ps ps (alike_refl sip ps)).
  rewrite (trie_alike sip ps (a ++ b ++ q :: c) (forgotten_alike sip a p b q c (trie_forgotten_table _ _ _ _ H))).
  pose proof (confused_valid sip ps V) as V'. unfold ps in V' |- *. fold ps in V' |- *. revert V'.
  unfold ps at 2 4. rewrite !map_app. cbn [map]. rewrite !map_app. cbn [map]. intros V'.
  apply trie_forgets; [exact V'|apply ideal_collision_free, ideal_injective|].
  destruct H as (D & H). split; [apply confused_displaces; exact D|].
  intros b1 z b2 E. apply map_split in E. destruct E as (b0 & z0 & b0' & E & -> & ->).
  rewrite <- map_app. apply confused_no_trace_trie. apply (H b0 z0 b0' E).
Qed.

Theorem table_forgets_any sip a p b q c :
  let ps := a ++ p :: b ++ q :: c in
  Forall valid_pattern ps -> forgotten_in_table a p b q ->
  exists t, SuffixArray.add_patterns sip SuffixArray.table_new ps = Ret t /\
            SuffixArray.add_patterns sip SuffixArray.table_new (a ++ b ++ q :: c) = Ret t.
Proof.
  intros ps V H.
  rewrite (table_alike sip ps ps (alike_refl sip ps)).
  rewrite (table_alike sip ps (a ++ b ++ q :: c) (forgotten_alike sip a p b q c H)).
  pose proof (confused_valid sip ps V) as V'. unfold ps in V' |- *. fold ps in V' |- *. revert V'.
  unfold ps at 2 4. rewrite !map_app. cbn [map]. rewrite !map_app. cbn [map]. intros V'.
  apply table_forgets; [exact V'|apply ideal_collision_free, ideal_injective|].
  destruct H as (D & H). split; [apply confused_displaces; exact D|].
  intros b1 z b2 E. apply map_split in E. destruct E as (b0 & z0 & b0' & E & -> & ->).
  rewrite <- map_app. apply confused_no_trace_table. apply (H b0 z0 b0' E).
Qed.
