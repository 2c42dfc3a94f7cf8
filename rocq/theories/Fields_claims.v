(** * The order of fields: proofs for C160 *)
From Verif Require Import Base Base_facts Utils Parsers Pattern Grammar Deser Spec_fields.
From Coq Require Import Permutation.

Lemma same_refl {A E} (r : result A E) : same_result r r.
Proof. destruct r; cbn; auto. Qed.
Lemma same_sym {A E} (r r' : result A E) : same_result r r' -> same_result r' r.
Proof. destruct r, r'; cbn; auto. Qed.
Lemma same_trans {A E} (r1 r2 r3 : result A E) : same_result r1 r2 -> same_result r2 r3 -> same_result r1 r3.
Proof. destruct r1, r2, r3; cbn; intros; subst; tauto. Qed.
Lemma same_rbind {A B E} (r r' : result A E) (k k' : A -> result B E) :
  same_result r r' -> (forall a, same_result (k a) (k' a)) -> same_result (rbind r k) (rbind r' k').
Proof. destruct r, r'; cbn; intros H K; subst; try contradiction; auto. Qed.

(** ** Reading fields one after the other *)
Section Visit.
  Context {S V E : Type} (step : S -> str * V -> result S E).
  Fixpoint visit (l : list (str * V)) (a : S) : result S E :=
    match l with [] => Ok a | x :: l' => rbind (step a x) (visit l') end.

  Hypothesis commute : forall a x y, fst x <> fst y ->
    same_result (rbind (step a x) (fun a => step a y)) (rbind (step a y) (fun a => step a x)).

  Lemma visit_permutation l l' : Permutation l l' -> NoDup (map fst l) -> forall a, same_result (visit l a) (visit l' a).
  Proof.
    induction 1 as [|x l l' P IH|x y l|l l' l'' P IH P' IH']; intros D a.
    - apply same_refl.
    - cbn. apply same_rbind; [apply same_refl|]. intros b. apply IH. inversion D; assumption.
    - cbn. cbn [map] in D. assert (N : fst y <> fst x) by (intros e; inversion D as [|? ? D']; subst; apply D'; left; auto).
      pose proof (commute a y x N) as C.
      destruct (step a x) as [b|], (step a y) as [c|]; cbn in *; try (destruct (step b y)); try (destruct (step c x)); cbn in *; try contradiction; auto.
      subst. apply same_refl.
    - apply (same_trans _ (visit l' a)); [apply IH, D|]. apply IH'. apply (Permutation_NoDup (Permutation_map fst P) D).
  Qed.
End Visit.

Lemma visit_fields {S E} (step : S -> str * value -> result S E) l m :
  (forall a k v v', reordered v v' -> same_result (step a (k, v)) (step a (k, v'))) ->
  reordered_fields l m -> forall a, same_result (visit step l a) (visit step m a).
Proof.
  intros H. induction 1 as [|k v v' l l' R F IH]; intros a; [apply same_refl|]. cbn. apply same_rbind; [apply H, R|]. exact IH.
Qed.
Lemma fields_keys l m : reordered_fields l m -> map fst m = map fst l.
Proof. induction 1; cbn; congruence. Qed.

Lemma visit_reordered {S E} (step : S -> str * value -> result S E) l m l' :
  (forall a k v v', reordered v v' -> same_result (step a (k, v)) (step a (k, v'))) ->
  (forall a x y, fst x <> fst y -> same_result (rbind (step a x) (fun a => step a y)) (rbind (step a y) (fun a => step a x))) ->
  NoDup (map fst l) -> reordered_fields l m -> Permutation m l' -> forall a, same_result (visit step l a) (visit step l' a).
Proof.
  intros H C D F P a. apply (same_trans _ (visit step m a)); [apply visit_fields; assumption|].
  apply visit_permutation; [exact C|exact P|]. rewrite (fields_keys _ _ F). exact D.
Qed.

(** ** Leaves, lists and maps *)
Lemma string_reordered v v' : reordered v v' -> de_string v' = de_string v.
Proof. destruct 1; reflexivity. Qed.

Lemma map_result_reordered {A} (f : value -> result A de_error) l l' :
  (forall v v', reordered v v' -> same_result (f v) (f v')) -> reordered_list l l' ->
  same_result (map_result f l) (map_result f l').
Proof.
  intros H. induction 1 as [|v v' l l' R L IH]; [reflexivity|]. cbn. apply same_rbind; [apply H, R|]. intros a.
  apply same_rbind; [exact IH|]. intros b. reflexivity.
Qed.
Lemma vec_reordered {A} (f : value -> result A de_error) v v' :
  (forall v v', reordered v v' -> same_result (f v) (f v')) -> reordered v v' -> same_result (de_vec f v) (de_vec f v').
Proof. intros H [| | |l l' L|l m l' D F P]; cbn; auto. apply map_result_reordered; assumption. Qed.
Lemma strings_reordered v v' : reordered v v' -> same_result (de_vec de_string v) (de_vec de_string v').
Proof. apply vec_reordered. intros w w' R. rewrite (string_reordered _ _ R). apply same_refl. Qed.

Lemma insert_swap k k' (v v' : str) (m : bmap) : k <> k' ->
  bmap_insert k v (bmap_insert k' v' m) = bmap_insert k' v' (bmap_insert k v m).
Proof.
  intros N. assert (Nc : str_cmp k k' <> Eq) by (intros e; apply N, str_cmp_eq, e).
  pose proof (str_cmp_antisym k k') as A.
  induction m as [|[x y] m IH]; cbn [bmap_insert].
  - rewrite A. destruct (str_cmp k k') eqn:E; cbn; congruence.
  - pose proof (str_cmp_antisym k x) as Ax. pose proof (str_cmp_antisym k' x) as Ax'.
    destruct (str_cmp k x) eqn:E1, (str_cmp k' x) eqn:E2; cbn [bmap_insert CompOpp] in *.
    + apply str_cmp_eq in E1, E2. congruence.
    + apply str_cmp_eq in E1. subst x. rewrite A in E2. destruct (str_cmp k k') eqn:E; cbn in *; try discriminate.
      rewrite str_cmp_refl, A. reflexivity.
    + apply str_cmp_eq in E1. subst x. rewrite E2, str_cmp_refl. reflexivity.
    + apply str_cmp_eq in E2. subst x. rewrite E1, A, E1. cbn [CompOpp]. rewrite str_cmp_refl. reflexivity.
    + rewrite A, E1, E2. destruct (str_cmp k k') eqn:E; cbn [CompOpp]; congruence.
    + rewrite E1. rewrite (str_cmp_lt_trans k x k') in A by assumption. cbn in A. rewrite A, E2. reflexivity.
    + apply str_cmp_eq in E2. subst x. rewrite E1, str_cmp_refl. reflexivity.
    + rewrite E2. rewrite (str_cmp_antisym k' k) in Nc |- *. rewrite (str_cmp_lt_trans k' x k) by assumption. cbn. rewrite E1. reflexivity.
    + rewrite E1, E2. f_equal. exact IH.
Qed.

Definition map_step (m : bmap) (x : str * value) : result bmap de_error :=
  rbind (de_string (snd x)) (fun s => Ok (bmap_insert (fst x) s m)).
Lemma de_map_entries_visit l : forall m, de_map_entries l m = visit map_step l m.
Proof.
  induction l as [|[k v] l IH]; intros m; [reflexivity|]. cbn. unfold map_step. cbn. destruct (de_string v); cbn; [apply IH|reflexivity].
Qed.
Lemma map_reordered v v' : reordered v v' -> same_result (de_map v) (de_map v').
Proof.
  intros [| | |l l' L|l m l' D F P]; cbn; auto. rewrite !de_map_entries_visit. apply (visit_reordered map_step l m l'); auto.
  - intros a k w w' R. unfold map_step. cbn. rewrite (string_reordered _ _ R). apply same_refl.
  - intros a [k w] [k' w'] N. unfold map_step. cbn in *. destruct (de_string w), (de_string w'); cbn; auto. apply insert_swap. congruence.
Qed.

(** ** Test messages *)
Definition tm_step (a : tm_acc) (x : str * value) : result tm_acc de_error :=
  rbind (tm_field_of (fst x)) (fun field =>
    match field with
    | TM_MESSAGE => rbind (de_string (snd x)) (fun s => Ok {| ta_message := Some s; ta_values := ta_values a; ta_tags := ta_tags a |})
    | TM_VALUES => rbind (de_map (snd x)) (fun m => Ok {| ta_message := ta_message a; ta_values := Some m; ta_tags := ta_tags a |})
    | TM_TAGS => rbind (de_vec de_string (snd x)) (fun t => Ok {| ta_message := ta_message a; ta_values := ta_values a; ta_tags := Some t |})
    end).
Lemma tm_visit l : forall a, tm_visit_fields l a = visit tm_step l a.
Proof.
  induction l as [|[k v] l IH]; intros a; [reflexivity|]. cbn. unfold tm_step. cbn. destruct (tm_field_of k) as [[]|]; cbn; [| | |reflexivity].
  - destruct (de_string v); cbn; [apply IH|reflexivity].
  - destruct (de_map v); cbn; [apply IH|reflexivity].
  - destruct (de_vec de_string v); cbn; [apply IH|reflexivity].
Qed.
Lemma tm_field_name k f : tm_field_of k = Ok f ->
  k = match f with TM_MESSAGE => $"message" | TM_VALUES => $"values" | TM_TAGS => $"tags" end.
Proof.
  unfold tm_field_of. destruct (str_eqb k ($"message")) eqn:E1; [intros X; injection X as <-; apply str_eqb_eq, E1|].
  destruct (str_eqb k ($"values")) eqn:E2; [intros X; injection X as <-; apply str_eqb_eq, E2|].
  destruct (str_eqb k ($"tags")) eqn:E3; [intros X; injection X as <-; apply str_eqb_eq, E3|]. discriminate.
Qed.
Lemma message_reordered v v' : reordered v v' -> same_result (de_test_message v) (de_test_message v').
Proof.
  intros [| | |l l' L|l m l' D F P]; cbn; auto. rewrite !tm_visit. apply same_rbind; [|intros a; apply same_refl].
  apply (visit_reordered tm_step l m l'); auto.
  - intros a k w w' R. unfold tm_step. cbn. apply same_rbind; [apply same_refl|]. intros [].
    + rewrite (string_reordered _ _ R). apply same_refl.
    + apply same_rbind; [apply map_reordered, R|]. intros b. apply same_refl.
    + apply same_rbind; [apply strings_reordered, R|]. intros b. apply same_refl.
  - intros a [k w] [k' w'] N. unfold tm_step. cbn in *.
    destruct (tm_field_of k) as [f|] eqn:Ef, (tm_field_of k') as [f'|] eqn:Ef'; cbn; auto.
    + apply tm_field_name in Ef, Ef'.
      generalize (de_string w), (de_map w), (de_vec de_string w), (de_string w'), (de_map w'), (de_vec de_string w').
      intros r1 r2 r3 r4 r5 r6. destruct f, f'; try congruence; destruct r1, r2, r3, r4, r5, r6; cbn; auto.
    + generalize (de_string w), (de_map w), (de_vec de_string w). intros r1 r2 r3. destruct f, r1, r2, r3; cbn; auto.
    + generalize (de_string w'), (de_map w'), (de_vec de_string w'). intros r1 r2 r3. destruct f', r1, r2, r3; cbn; auto.
Qed.

(** ** Patterns *)
Section Pattern.
  Variable parse_uuid : str -> option uuid.
  Definition pat_step (a : pat_acc) (x : str * value) : result pat_acc de_error :=
    rbind (pat_field_of (fst x)) (fun field => pat_visit_field parse_uuid a field (snd x)).
  Lemma pat_visit l : forall a, pat_visit_fields parse_uuid l a = visit pat_step l a.
  Proof.
    induction l as [|[k v] l IH]; intros a; [reflexivity|]. cbn. unfold pat_step. cbn. destruct (pat_field_of k) as [f|]; cbn; [|reflexivity].
    destruct (pat_visit_field parse_uuid a f v); cbn; [apply IH|reflexivity].
  Qed.
  Lemma pat_field_name k f : pat_field_of k = Ok f ->
    k = match f with F_NAME => $"name" | F_UUID => $"uuid" | F_PATTERN => $"pattern" | F_VALUES => $"values" | F_TAGS => $"tags"
                   | F_TESTMESSAGES => $"test_messages" end.
  Proof.
    unfold pat_field_of. destruct (str_eqb k ($"name")) eqn:E1; [intros X; injection X as <-; apply str_eqb_eq, E1|].
    destruct (str_eqb k ($"uuid")) eqn:E2; [intros X; injection X as <-; apply str_eqb_eq, E2|].
    destruct (str_eqb k ($"pattern")) eqn:E3; [intros X; injection X as <-; apply str_eqb_eq, E3|].
    destruct (str_eqb k ($"values")) eqn:E4; [intros X; injection X as <-; apply str_eqb_eq, E4|].
    destruct (str_eqb k ($"tags")) eqn:E5; [intros X; injection X as <-; apply str_eqb_eq, E5|].
    destruct (str_eqb k ($"test_messages")) eqn:E6; [intros X; injection X as <-; apply str_eqb_eq, E6|]. discriminate.
  Qed.
  Lemma uuid_reordered v v' : reordered v v' -> de_uuid parse_uuid v' = de_uuid parse_uuid v.
  Proof. destruct 1; reflexivity. Qed.

  Theorem pattern_reordered v v' : reordered v v' -> same_outcome (de_pattern parse_uuid v) (de_pattern parse_uuid v').
  Proof.
    intros [| | |l l' L|l m l' D F P]; cbn; auto. rewrite !pat_visit.
    assert (X : same_result (visit pat_step l pat_acc_new) (visit pat_step l' pat_acc_new)).
    { apply (visit_reordered pat_step l m l'); auto.
      - intros a k w w' R. unfold pat_step. cbn. apply same_rbind; [apply same_refl|]. intros []; cbn.
        + rewrite (string_reordered _ _ R). apply same_refl.
        + rewrite (uuid_reordered _ _ R). apply same_refl.
        + rewrite (string_reordered _ _ R). apply same_refl.
        + apply same_rbind; [apply map_reordered, R|]. intros b. apply same_refl.
        + apply same_rbind; [apply strings_reordered, R|]. intros b. apply same_refl.
        + apply same_rbind; [apply (vec_reordered _ _ _ message_reordered R)|]. intros b. apply same_refl.
      - intros a [k w] [k' w'] N. unfold pat_step. cbn in *.
        destruct (pat_field_of k) as [f|] eqn:Ef, (pat_field_of k') as [f'|] eqn:Ef'; cbn; auto.
        + apply pat_field_name in Ef, Ef'. assert (Nf : f <> f') by (intros e; apply N; rewrite Ef, Ef', e; reflexivity). clear Ef Ef' N.
          unfold pat_visit_field.
          generalize (de_string w), (de_uuid parse_uuid w), (de_map w), (de_vec de_string w), (de_vec de_test_message w).
          generalize (de_string w'), (de_uuid parse_uuid w'), (de_map w'), (de_vec de_string w'), (de_vec de_test_message w').
          intros r1 r2 r3 r4 r5 s1 s2 s3 s4 s5. destruct f, f'; try congruence; clear Nf.
          all: destruct r1, s1; cbn; auto; destruct r2, s2; cbn; auto; destruct r3, s3; cbn; auto; destruct r4, s4; cbn; auto; destruct r5, s5; cbn; auto.
        + unfold pat_visit_field.
          generalize (de_string w), (de_uuid parse_uuid w), (de_map w), (de_vec de_string w), (de_vec de_test_message w).
          intros r1 r2 r3 r4 r5. destruct f; [destruct r1|destruct r2|destruct r1|destruct r3|destruct r4|destruct r5]; cbn; auto.
        + unfold pat_visit_field.
          generalize (de_string w'), (de_uuid parse_uuid w'), (de_map w'), (de_vec de_string w'), (de_vec de_test_message w').
          intros r1 r2 r3 r4 r5. destruct f'; [destruct r1|destruct r2|destruct r1|destruct r3|destruct r4|destruct r5]; cbn; auto. }
    destruct (visit pat_step l pat_acc_new) as [a|e], (visit pat_step l' pat_acc_new) as [a'|e']; cbn in X; try contradiction; [subst a'|exact I].
    destruct (de_pattern_finish a); cbn; auto. apply same_refl.
  Qed.

  Lemma patterns_reordered l l' : reordered_list l l' -> same_outcome (de_patterns parse_uuid l) (de_patterns parse_uuid l').
  Proof.
    induction 1 as [|v v' l l' R L IH]; [reflexivity|]. cbn. pose proof (pattern_reordered _ _ R) as X.
    destruct (de_pattern parse_uuid v) as [[p|e]| |], (de_pattern parse_uuid v') as [[p'|e']| |]; cbn in *; try contradiction; auto. subst p'.
    destruct (de_patterns parse_uuid l) as [[ps|e]| |], (de_patterns parse_uuid l') as [[ps'|e']| |]; cbn in *; try contradiction; auto. congruence.
  Qed.

  Lemma vec_patterns_reordered v v' : reordered v v' -> same_outcome (de_pattern_vec parse_uuid v) (de_pattern_vec parse_uuid v').
  Proof. intros [| | |l l' L|l m l' D F P]; cbn; auto. apply patterns_reordered, L. Qed.

  (** A file has one field at most, unless it is rejected. *)
  Lemma file_keys l : forall a r, file_visit_fields parse_uuid l a = Ret (Ok r) -> forall x, In x (map fst l) -> x = $"patterns".
  Proof.
    induction l as [|[k v] l IH]; intros a r H x; [intros []|]. cbn [file_visit_fields] in H. destruct (str_eqb k ($"patterns")) eqn:E; [|discriminate H].
    destruct (de_pattern_vec parse_uuid v) as [[ps|e]| |]; cbn in H; try discriminate H. intros [<-|Ix]; [apply str_eqb_eq, E|]. apply (IH _ _ H x Ix).
  Qed.
  Lemma file_short (l : list (str * value)) : NoDup (map fst l) -> (forall x, In x (map fst l) -> x = $"patterns") -> l = [] \/ exists v, l = [($"patterns", v)].
  Proof.
    destruct l as [|[k v] [|[k' v'] l]]; cbn; intros D H; [left; reflexivity| |exfalso].
    - right. exists v. rewrite <- (H k); [reflexivity|left; reflexivity].
    - inversion D as [|? ? D1]; subst. apply D1. left. rewrite (H k'), (H k); [reflexivity| |]; cbn; auto.
  Qed.
  Lemma single_fields k v m : reordered_fields [(k, v)] m -> exists v', m = [(k, v')] /\ reordered v v'.
  Proof. intros H. inversion H as [|? ? v' ? ? R F]; subst. inversion F; subst. eauto. Qed.
  Lemma single_fields_back k v l : reordered_fields l [(k, v)] -> exists v', l = [(k, v')] /\ reordered v' v.
  Proof. intros H. inversion H as [|? v' ? ? ? R F]; subst. inversion F; subst. eauto. Qed.

  Theorem file_reordered v v' ps : reordered v v' -> (de_pattern_file parse_uuid v = Ret (Ok ps) <-> de_pattern_file parse_uuid v' = Ret (Ok ps)).
  Proof.
    assert (K : forall l m l', NoDup (map fst l) -> reordered_fields l m -> Permutation m l' ->
      (l = [] \/ exists w, l = [($"patterns", w)]) \/ (l' = [] \/ exists w, l' = [($"patterns", w)]) ->
      de_pattern_file parse_uuid (VMap l) = Ret (Ok ps) <-> de_pattern_file parse_uuid (VMap l') = Ret (Ok ps)).
    { intros l m l' D F P H.
      assert (C : (l = [] /\ l' = []) \/ exists w w', l = [($"patterns", w)] /\ l' = [($"patterns", w')] /\ reordered w w').
      { destruct H as [[->|(w & ->)]|[->|(w & ->)]].
        - inversion F; subst. apply Permutation_nil in P. auto.
        - apply single_fields in F. destruct F as (w' & -> & R). apply Permutation_length_1_inv in P. right. eauto.
        - apply Permutation_sym, Permutation_nil in P. subst. inversion F; subst. auto.
        - apply Permutation_sym, Permutation_length_1_inv in P. subst. apply single_fields_back in F. destruct F as (w' & -> & R). right. eauto. }
      destruct C as [(-> & ->)|(w & w' & -> & -> & R)]; [tauto|]. apply vec_patterns_reordered in R. cbn.
      destruct (de_pattern_vec parse_uuid w) as [[qs|e]| |], (de_pattern_vec parse_uuid w') as [[qs'|e']| |]; cbn in *; try contradiction;
        try (split; intros Y; discriminate Y). subst. tauto. }
    assert (G : forall l, NoDup (map fst l) -> de_pattern_file parse_uuid (VMap l) = Ret (Ok ps) -> l = [] \/ exists w, l = [($"patterns", w)]).
    { intros l D H. apply file_short; [exact D|]. cbn in H. destruct (file_visit_fields parse_uuid l None) as [[r|e]| |] eqn:E; cbn in H; try discriminate.
      apply (file_keys _ _ _ E). }
    intros [| | |l l' L|l m l' D F P]; try (cbn; split; intros X; discriminate X).
    assert (D' : NoDup (map fst l')).
    { apply (Permutation_NoDup (Permutation_map fst P)). rewrite (fields_keys _ _ F). exact D. }
    split; intros H.
    - apply (K l m l' D F P); [left; apply (G l D H)|exact H].
    - apply (K l m l' D F P); [right; apply (G l' D' H)|exact H].
  Qed.
End Pattern.
