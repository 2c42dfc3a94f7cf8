(** * Hash collisions: only parsers at the beginning of patterns can be confused *)
From Verif Require Import Base Base_facts Utils Parsers Pattern Spec Spec_trie Spec_table Spec_hash Hash_facts
  Trie_main Table_claims Siphash Deciders Tests.
From Verif Require Trie SuffixArray.

Lemma position_ext {A} (f g : A -> bool) l : (forall x, In x l -> f x = g x) -> Trie.position f l = Trie.position g l.
Proof.
  induction l as [|x l IH]; intros H; simpl; [reflexivity|]. rewrite (H x (or_introl eq_refl)), IH; [reflexivity|].
  intros y I. apply H. right. exact I.
Qed.
Lemma position_none {A} (f : A -> bool) l : Trie.position f l = None -> forall x, In x l -> f x = false.
Proof.
  induction l as [|y l IH]; simpl; [intros _ x []|]. destruct (f y) eqn:E; [discriminate|].
  destruct (Trie.position f l); [discriminate|]. intros _ x [<-|I]; [exact E|]. apply IH; auto.
Qed.

Lemma position_some {A} (f : A -> bool) l : forall i, Trie.position f l = Some i -> exists x, In x l /\ f x = true.
Proof.
  induction l as [|y l IH]; simpl; intros i H; [discriminate|]. destruct (f y) eqn:E; [exists y; auto|].
  destruct (Trie.position f l) as [j|]; [|discriminate]. destruct (IH j eq_refl) as (x & I & Ex). exists x. auto.
Qed.

(** ** First parsers *)
Definition same_hash (sip : list byte -> N) (q q' : parser) : bool := N.eqb (sip (hash_stream q')) (sip (hash_stream q)).

Lemma stand_in_hash sip ps q : sip (hash_stream (stand_in sip ps q)) = sip (hash_stream q).
Proof.
  unfold stand_in. destruct (find _ (first_parsers ps)) as [q'|] eqn:E; [|reflexivity].
  apply find_some in E. apply N.eqb_eq. apply E.
Qed.
Lemma stand_in_same sip ps q q' : In q (first_parsers ps) -> sip (hash_stream q) = sip (hash_stream q') ->
  stand_in sip ps q = stand_in sip ps q'.
Proof.
  intros I E. unfold stand_in. rewrite E. destruct (find _ (first_parsers ps)) eqn:F; [reflexivity|].
  exfalso. pose proof (find_none _ _ F q I) as H. simpl in H. rewrite E, N.eqb_refl in H. discriminate.
Qed.
Lemma stand_in_in sip ps q : In q (first_parsers ps) -> In (stand_in sip ps q) (first_parsers ps).
Proof.
  intros I. unfold stand_in. destruct (find _ (first_parsers ps)) as [q'|] eqn:F; [|exact I].
  apply find_some in F. apply F.
Qed.
Lemma find_app {A} (f : A -> bool) a b :
  find f (a ++ b) = match find f a with Some x => Some x | None => find f b end.
Proof. induction a as [|x a IH]; simpl; [reflexivity|]. destruct (f x); [reflexivity|exact IH]. Qed.
Lemma stand_in_new sip a p b q rest : pat_tokens p = Parser q :: rest ->
  (forall x, In x (first_parsers a) -> sip (hash_stream x) <> sip (hash_stream q)) ->
  stand_in sip (a ++ p :: b) q = q.
Proof.
  intros E H. unfold stand_in. replace (first_parsers (a ++ p :: b)) with (first_parsers a ++ q :: first_parsers b)
    by (unfold first_parsers; rewrite flat_map_app; simpl; rewrite E; reflexivity).
  rewrite find_app. destruct (find _ (first_parsers a)) as [x|] eqn:F.
  - exfalso. apply find_some in F. destruct F as (I & F). apply N.eqb_eq in F. exact (H x I F).
  - simpl. rewrite N.eqb_refl. reflexivity.
Qed.

(** What is at the root after adding [done]: stand-ins, one for each first parser. *)
Definition root_ok (sip : list byte -> N) (ps done : list pattern) (qs : list parser) : Prop :=
  (forall x, In x qs -> In x (first_parsers ps) /\ stand_in sip ps x = x) /\
  (forall q, In q (first_parsers done) -> exists x, In x qs /\ sip (hash_stream x) = sip (hash_stream q)).

Lemma root_position sip ideal ps done qs q : injective_hash ideal -> root_ok sip ps done qs -> In q (first_parsers ps) ->
  forall x, In x qs ->
    N.eqb (sip (hash_stream x)) (sip (hash_stream q)) = N.eqb (ideal (hash_stream x)) (ideal (hash_stream (stand_in sip ps q))).
Proof.
  intros J (R & _) Iq x Ix. destruct (R x Ix) as (Ip & Ex). apply eq_true_iff_eq. rewrite !N.eqb_eq. split.
  - intros E. rewrite <- (stand_in_same sip ps x q Ip E), Ex. reflexivity.
  - intros E. apply J in E. rewrite E. apply stand_in_hash.
Qed.

Lemma first_parsers_snoc a p : first_parsers (a ++ [p]) =
  first_parsers a ++ match pat_tokens p with Parser q :: _ => [q] | _ => [] end.
Proof. unfold first_parsers. rewrite flat_map_app. simpl. rewrite app_nil_r. reflexivity. Qed.

Lemma set_confused sip ps p rest : set_pattern_tokens (confused sip ps p) rest = set_pattern_tokens p rest.
Proof. reflexivity. Qed.

(** ** The trie *)
Lemma trie_fresh sip ideal toks : forall p,
  Trie.insert_tokens sip toks Trie.tree_new p = Trie.insert_tokens ideal toks Trie.tree_new p.
Proof. induction toks as [|tok rest IH]; intros p; simpl; [reflexivity|]. rewrite IH. destruct tok; reflexivity. Qed.

Lemma lookup_literal_mut_parsers k : (forall t r t', k t r = Ret t' -> Trie.parser_children t' = Trie.parser_children t) ->
  forall t l t', Trie.lookup_literal_mut t l k = Ret t' -> Trie.parser_children t' = Trie.parser_children t.
Proof.
  intros H t l t' E. destruct t as [lcs pcs]. simpl in E. destruct (Trie.search (Trie.Tree lcs pcs) l) as [[pos| |pos tr]| |]; try discriminate.
  - exact (H _ _ _ E).
  - exact (H _ _ _ E).
  - simpl in E. match goal with H : bind ?x _ = _ |- _ => destruct x as [lcs'| |]; try discriminate end.
    simpl in E. injection E as <-. reflexivity.
Qed.
Lemma bind_ret {A B} (m : outcome A) (f : A -> outcome B) y : bind m f = Ret y -> exists x, m = Ret x /\ f x = Ret y.
Proof. destruct m as [x| |]; simpl; try discriminate. intros H. exists x. auto. Qed.

Lemma update_literal_child_parsers t pos k t' : Trie.update_literal_child t pos k = Ret t' ->
  Trie.parser_children t' = Trie.parser_children t.
Proof. unfold Trie.update_literal_child. intros H. apply bind_ret in H. destruct H as (l & _ & H). injection H as <-. reflexivity. Qed.

Lemma insert_literal_parsers t l k t' : Trie.insert_literal t l k = Ret t' ->
  Trie.parser_children t' = Trie.parser_children t.
Proof.
  unfold Trie.insert_literal. apply lookup_literal_mut_parsers. clear. intros t [index|len] t' H.
  - exact (update_literal_child_parsers _ _ _ _ H).
  - apply bind_ret in H. destruct H as (d & _ & H). apply bind_ret in H. destruct H as (tail & _ & H).
    unfold Trie.insert_literal_tail in H. apply bind_ret in H. destruct H as (r & _ & H). destruct r as [pos|pos].
    + apply bind_ret in H. destruct H as (n & _ & H). destruct (has_common_prefix _ _); [|discriminate].
      exact (update_literal_child_parsers _ _ _ _ H).
    + apply bind_ret in H. destruct H as (t1 & H1 & H). rewrite (update_literal_child_parsers _ _ _ _ H).
      unfold Trie.add_literal_node in H1. apply bind_ret in H1. destruct H1 as (l1 & _ & H1). injection H1 as <-. reflexivity.
Qed.

Lemma update_nth_map {A B} (g : A -> B) f : (forall x y, f x = Ret y -> g y = g x) ->
  forall l i l', update_nth l i f = Ret l' -> map g l' = map g l.
Proof.
  intros H l. induction l as [|x l IH]; intros [|i] l' E; simpl in E; try discriminate; apply bind_ret in E;
    destruct E as (y & E & E'); injection E' as <-; simpl.
  - rewrite (H x y E). reflexivity.
  - rewrite (IH i y E). reflexivity.
Qed.

(** What is done at the node of the last or of another token keeps the parser. *)
Definition trie_here (sip : list byte -> N) (rest : list token) (p : pattern) (e : Trie.pnode Trie.tree) : outcome (Trie.pnode Trie.tree) :=
  if is_empty rest then Ret (Trie.pnode_set_pattern e (Some p))
  else let* c := Trie.insert_tokens sip rest Trie.tree_new p in Ret (Trie.pnode_set_child e (Some c)).
Lemma trie_here_parser sip rest p e e' : trie_here sip rest p e = Ret e' -> Trie.pn_parser e' = Trie.pn_parser e.
Proof.
  unfold trie_here. destruct (is_empty rest); [intros H; injection H as <-; reflexivity|].
  intros H. apply bind_ret in H. destruct H as (c & _ & H). injection H as <-. reflexivity.
Qed.

Definition trie_qs (t : Trie.tree) : list parser := map (@Trie.pn_parser Trie.tree) (Trie.parser_children t).

Lemma trie_step sip ideal a p b t : injective_hash ideal -> root_ok sip (a ++ p :: b) a (trie_qs t) ->
  Trie.add_pattern sip t p = Trie.add_pattern ideal t (confused sip (a ++ p :: b) p) /\
  forall t', Trie.add_pattern sip t p = Ret t' -> root_ok sip (a ++ p :: b) (a ++ [p]) (trie_qs t').
Proof.
  intros J R. set (ps := a ++ p :: b) in *. unfold Trie.add_pattern.
  change (pat_tokens (confused sip ps p)) with (confused_tokens sip ps (pat_tokens p)).
  destruct (pat_tokens p) as [|[q|l] rest] eqn:E; simpl.
  - split; [reflexivity|]. intros t' H. injection H as <-. destruct R as (R1 & R2). split; [exact R1|].
    rewrite first_parsers_snoc, E, app_nil_r. exact R2.
  - change (set_pattern_tokens (confused sip ps p) rest) with (set_pattern_tokens p rest).
    rewrite <- (trie_fresh sip ideal rest (set_pattern_tokens p rest)).
    fold (trie_here sip rest (set_pattern_tokens p rest)).
    assert (In q (first_parsers ps)) as Iq.
    { unfold ps, first_parsers. rewrite flat_map_app. apply in_or_app. right. simpl. rewrite E. left. reflexivity. }
    assert (Trie.lookup_parser sip t q = Trie.lookup_parser ideal t (stand_in sip ps q)) as Lk.
    { unfold Trie.lookup_parser, hash_os. apply position_ext. intros x Ix.
      apply (root_position sip ideal ps a (trie_qs t) q J R Iq). apply in_map. exact Ix. }
    unfold Trie.insert_parser. rewrite <- Lk. destruct (Trie.lookup_parser sip t q) as [i|] eqn:Ei.
    + split; [reflexivity|]. intros t' H. apply bind_ret in H. destruct H as (pcs & H & H'). injection H' as <-.
      unfold trie_qs. simpl. apply (update_nth_map (@Trie.pn_parser Trie.tree)) in H; [|intros x y; apply trie_here_parser].
      rewrite H. destruct R as (R1 & R2). split; [exact R1|]. rewrite first_parsers_snoc, E. intros q' I.
      apply in_app_or in I. destruct I as [I|[<-|[]]]; [apply R2, I|].
      destruct (position_some _ _ _ Ei) as (x & Ix & Ex). unfold hash_os in Ex. simpl in Ex. apply N.eqb_eq in Ex.
      exists (Trie.pn_parser x). split; [apply in_map, Ix|exact Ex].
    + assert (stand_in sip ps q = q) as Es.
      { apply (stand_in_new sip a p b q rest E). intros x Ix Ex. destruct R as (_ & R2). destruct (R2 x Ix) as (y & Iy & Ey).
        unfold trie_qs in Iy. apply in_map_iff in Iy. destruct Iy as (n & <- & In_).
        pose proof (position_none _ _ Ei n In_) as Hn. unfold hash_os in Hn. simpl in Hn. apply N.eqb_neq in Hn. congruence. }
      rewrite Es. split; [reflexivity|]. intros t' H. apply bind_ret in H. destruct H as (e & H & H'). injection H' as <-.
      apply trie_here_parser in H. unfold trie_qs. simpl. rewrite map_app. simpl. rewrite H. simpl.
      destruct R as (R1 & R2). split.
      * intros x I. apply in_app_or in I. destruct I as [I|[<-|[]]]; [apply R1, I|auto].
      * rewrite first_parsers_snoc, E. intros q' I. apply in_app_or in I. destruct I as [I|[<-|[]]].
        -- destruct (R2 q' I) as (x & Ix & Ex). exists x. split; [apply in_or_app; left; exact Ix|exact Ex].
        -- exists q. split; [apply in_or_app; right; left; reflexivity|reflexivity].
  - change (set_pattern_tokens (confused sip ps p) rest) with (set_pattern_tokens p rest).
    rewrite <- (trie_fresh sip ideal rest (set_pattern_tokens p rest)). split; [reflexivity|]. intros t' H.
    apply insert_literal_parsers in H. unfold trie_qs. rewrite H. destruct R as (R1 & R2). split; [exact R1|].
    rewrite first_parsers_snoc, E, app_nil_r. exact R2.
Qed.

Theorem trie_confused sip ideal ps : injective_hash ideal ->
  Trie.add_patterns sip Trie.tree_new ps = Trie.add_patterns ideal Trie.tree_new (map (confused sip ps) ps).
Proof.
  intros J.
  assert (forall b a t, ps = a ++ b -> root_ok sip ps a (trie_qs t) ->
            Trie.add_patterns sip t b = Trie.add_patterns ideal t (map (confused sip ps) b)) as H.
  { induction b as [|p b IH]; intros a t E R; [reflexivity|]. simpl. rewrite E in R.
    destruct (trie_step sip ideal a p b t J R) as (Es & Rs). rewrite <- E in Es, Rs. rewrite <- Es.
    destruct (Trie.add_pattern sip t p) as [t'| |]; try reflexivity. simpl.
    apply (IH (a ++ [p])); [rewrite <- app_assoc; exact E|apply Rs; reflexivity]. }
  apply (H ps [] Trie.tree_new eq_refl). split; intros x [].
Qed.

(** ** The suffix table *)
Lemma table_fresh sip ideal toks : forall p,
  SuffixArray.insert_tokens sip toks SuffixArray.table_new p = SuffixArray.insert_tokens ideal toks SuffixArray.table_new p.
Proof. induction toks as [|tok rest IH]; intros p; simpl; [reflexivity|]. rewrite IH. destruct tok; reflexivity. Qed.

Lemma table_insert_literal_parsers t l k t' : SuffixArray.insert_literal t l k = Ret t' ->
  SuffixArray.parser_entries t' = SuffixArray.parser_entries t.
Proof.
  unfold SuffixArray.insert_literal. intros H. apply bind_ret in H. destruct H as (r & _ & H). destruct r as [pos|pos].
  - apply bind_ret in H. destruct H as (les & _ & H). injection H as <-. reflexivity.
  - apply bind_ret in H. destruct H as (les & _ & H). apply bind_ret in H. destruct H as (les' & _ & H). injection H as <-. reflexivity.
Qed.

Definition table_here (sip : list byte -> N) (rest : list token) (p : pattern) (e : SuffixArray.parser_e SuffixArray.table)
  : outcome (SuffixArray.parser_e SuffixArray.table) :=
  if is_empty rest then Ret (SuffixArray.pe_set_pattern e (Some p))
  else let* c := SuffixArray.insert_tokens sip rest SuffixArray.table_new p in Ret (SuffixArray.pe_set_child e (Some c)).
Lemma table_here_parser sip rest p e e' : table_here sip rest p e = Ret e' -> SuffixArray.pe_parser e' = SuffixArray.pe_parser e.
Proof.
  unfold table_here. destruct (is_empty rest); [intros H; injection H as <-; reflexivity|].
  intros H. apply bind_ret in H. destruct H as (c & _ & H). injection H as <-. reflexivity.
Qed.

Definition table_qs (t : SuffixArray.table) : list parser :=
  map (@SuffixArray.pe_parser SuffixArray.table) (SuffixArray.parser_entries t).

Lemma table_step sip ideal a p b t : injective_hash ideal -> root_ok sip (a ++ p :: b) a (table_qs t) ->
  SuffixArray.add_pattern sip t p = SuffixArray.add_pattern ideal t (confused sip (a ++ p :: b) p) /\
  forall t', SuffixArray.add_pattern sip t p = Ret t' -> root_ok sip (a ++ p :: b) (a ++ [p]) (table_qs t').
Proof.
  intros J R. set (ps := a ++ p :: b) in *. unfold SuffixArray.add_pattern.
  change (pat_tokens (confused sip ps p)) with (confused_tokens sip ps (pat_tokens p)).
  destruct (pat_tokens p) as [|[q|l] rest] eqn:E; simpl.
  - split; [reflexivity|]. intros t' H. injection H as <-. destruct R as (R1 & R2). split; [exact R1|].
    rewrite first_parsers_snoc, E, app_nil_r. exact R2.
  - change (set_pattern_tokens (confused sip ps p) rest) with (set_pattern_tokens p rest).
    rewrite <- (table_fresh sip ideal rest (set_pattern_tokens p rest)).
    fold (table_here sip rest (set_pattern_tokens p rest)).
    assert (In q (first_parsers ps)) as Iq.
    { unfold ps, first_parsers. rewrite flat_map_app. apply in_or_app. right. simpl. rewrite E. left. reflexivity. }
    unfold SuffixArray.insert_parser.
    assert (Trie.position (fun x => N.eqb (hash_os sip (SuffixArray.pe_parser x)) (hash_os sip q)) (SuffixArray.parser_entries t) =
            Trie.position (fun x => N.eqb (hash_os ideal (SuffixArray.pe_parser x)) (hash_os ideal (stand_in sip ps q)))
              (SuffixArray.parser_entries t)) as Lk.
    { unfold hash_os. apply position_ext. intros x Ix.
      apply (root_position sip ideal ps a (table_qs t) q J R Iq). apply in_map. exact Ix. }
    rewrite <- Lk. destruct (Trie.position _ (SuffixArray.parser_entries t)) as [i|] eqn:Ei.
    + split; [reflexivity|]. intros t' H. apply bind_ret in H. destruct H as (pcs & H & H'). injection H' as <-.
      unfold table_qs. simpl. apply (update_nth_map (@SuffixArray.pe_parser SuffixArray.table)) in H; [|intros x y; apply table_here_parser].
      rewrite H. destruct R as (R1 & R2). split; [exact R1|]. rewrite first_parsers_snoc, E. intros q' I.
      apply in_app_or in I. destruct I as [I|[<-|[]]]; [apply R2, I|].
      destruct (position_some _ _ _ Ei) as (x & Ix & Ex). unfold hash_os in Ex. simpl in Ex. apply N.eqb_eq in Ex.
      exists (SuffixArray.pe_parser x). split; [apply in_map, Ix|exact Ex].
    + assert (stand_in sip ps q = q) as Es.
      { apply (stand_in_new sip a p b q rest E). intros x Ix Ex. destruct R as (_ & R2). destruct (R2 x Ix) as (y & Iy & Ey).
        unfold table_qs in Iy. apply in_map_iff in Iy. destruct Iy as (n & <- & In_).
        pose proof (position_none _ _ Ei n In_) as Hn. unfold hash_os in Hn. simpl in Hn. apply N.eqb_neq in Hn. congruence. }
      rewrite Es. split; [reflexivity|]. intros t' H. apply bind_ret in H. destruct H as (e & H & H'). injection H' as <-.
      apply table_here_parser in H. unfold table_qs. simpl. rewrite map_app. simpl. rewrite H. simpl.
      destruct R as (R1 & R2). split.
      * intros x I. apply in_app_or in I. destruct I as [I|[<-|[]]]; [apply R1, I|auto].
      * rewrite first_parsers_snoc, E. intros q' I. apply in_app_or in I. destruct I as [I|[<-|[]]].
        -- destruct (R2 q' I) as (x & Ix & Ex). exists x. split; [apply in_or_app; left; exact Ix|exact Ex].
        -- exists q. split; [apply in_or_app; right; left; reflexivity|reflexivity].
  - change (set_pattern_tokens (confused sip ps p) rest) with (set_pattern_tokens p rest).
    rewrite <- (table_fresh sip ideal rest (set_pattern_tokens p rest)). split; [reflexivity|]. intros t' H.
    apply table_insert_literal_parsers in H. unfold table_qs. rewrite H. destruct R as (R1 & R2). split; [exact R1|].
    rewrite first_parsers_snoc, E, app_nil_r. exact R2.
Qed.

Theorem table_confused sip ideal ps : injective_hash ideal ->
  SuffixArray.add_patterns sip SuffixArray.table_new ps = SuffixArray.add_patterns ideal SuffixArray.table_new (map (confused sip ps) ps).
Proof.
  intros J.
  assert (forall b a t, ps = a ++ b -> root_ok sip ps a (table_qs t) ->
            SuffixArray.add_patterns sip t b = SuffixArray.add_patterns ideal t (map (confused sip ps) b)) as H.
  { induction b as [|p b IH]; intros a t E R; [reflexivity|]. simpl. rewrite E in R.
    destruct (table_step sip ideal a p b t J R) as (Es & Rs). rewrite <- E in Es, Rs. rewrite <- Es.
    destruct (SuffixArray.add_pattern sip t p) as [t'| |]; try reflexivity. simpl.
    apply (IH (a ++ [p])); [rewrite <- app_assoc; exact E|apply Rs; reflexivity]. }
  apply (H ps [] SuffixArray.table_new eq_refl). split; intros x [].
Qed.

(** ** A hash function without collisions *)
Fixpoint ideal_hash (s : list byte) : N :=
  match s with [] => 0 | b :: s' => 1 + Byte.to_N b + 256 * ideal_hash s' end%N.
Lemma ideal_injective : injective_hash ideal_hash.
Proof.
  intros x. induction x as [|a x IH]; intros [|b y] E; cbn [ideal_hash] in E.
  - reflexivity.
  - exfalso. lia.
  - exfalso. lia.
  - pose proof (Byte.to_N_bounded a) as Ba. pose proof (Byte.to_N_bounded b) as Bb.
    assert (Byte.to_N a = Byte.to_N b /\ ideal_hash x = ideal_hash y) as (E1 & E2) by lia.
    f_equal; [|apply IH, E2]. apply (f_equal Byte.of_N) in E1. rewrite !Byte.of_to_N in E1. congruence.
Qed.
Lemma ideal_collision_free ideal ps : injective_hash ideal -> collision_free ideal ps.
Proof. intros J q q' _ _ E. apply J, E. Qed.

(** ** What follows *)
Lemma first_parsers_in ps q : In q (first_parsers ps) -> exists p rest, In p ps /\ pat_tokens p = Parser q :: rest.
Proof.
  unfold first_parsers. intros I. apply in_flat_map in I. destruct I as (p & Ip & I).
  destruct (pat_tokens p) as [|[q'|l] rest] eqn:E; [destruct I|destruct I as [I|[]]|destruct I]. subst q'. exists p, rest. auto.
Qed.
Lemma confused_valid sip ps : Forall valid_pattern ps -> Forall valid_pattern (map (confused sip ps) ps).
Proof.
  intros V. pose proof V as V0. rewrite Forall_forall in V. apply Forall_forall. intros p' I. apply in_map_iff in I. destruct I as (p & <- & I).
  unfold valid_pattern. simpl. pose proof (V p I) as Vp. unfold valid_pattern in Vp.
  destruct (pat_tokens p) as [|[q|l] rest] eqn:E; simpl; try exact Vp.
  inversion Vp as [|x y Vq Vr]; subst. constructor; [|exact Vr].
  assert (In q (first_parsers ps)) as Iq.
  { unfold first_parsers. apply in_flat_map. exists p. split; [exact I|]. rewrite E. left. reflexivity. }
  destruct (first_parsers_in ps _ (stand_in_in sip ps q Iq)) as (p1 & rest1 & I1 & E1).
  pose proof (V p1 I1) as V1. unfold valid_pattern in V1. rewrite E1 in V1. inversion V1; assumption.
Qed.

Theorem trie_confused_reports sip ps t text r : Forall valid_pattern ps -> Trie.add_patterns sip Trie.tree_new ps = Ret t ->
  utf8 text -> Trie.parse t text = Ret (Some r) ->
  exists p caps, In p ps /\ mr_pattern r = stripped p /\ walk (confused_tokens sip ps (pat_tokens p)) text caps /\
    reports caps (mr_values r).
Proof.
  intros V H U P. rewrite (trie_confused sip ideal_hash ps ideal_injective) in H.
  destruct (trie_sound ideal_hash _ t text r (confused_valid sip ps V) (ideal_collision_free _ _ ideal_injective) H U P)
    as (p' & caps & I & E & W & R).
  apply in_map_iff in I. destruct I as (p & <- & I). exists p, caps. auto.
Qed.
Theorem table_confused_reports sip ps t text r : Forall valid_pattern ps -> SuffixArray.add_patterns sip SuffixArray.table_new ps = Ret t ->
  utf8 text -> SuffixArray.parse t text = Ret (Some r) ->
  exists p caps, In p ps /\ mr_pattern r = stripped p /\ table_walk (confused_tokens sip ps (pat_tokens p)) text caps /\
    reports caps (mr_values r).
Proof.
  intros V H U P. rewrite (table_confused sip ideal_hash ps ideal_injective) in H.
  destruct (table_sound ideal_hash _ t text r (confused_valid sip ps V) (ideal_collision_free _ _ ideal_injective) H U P)
    as (p' & caps & I & E & W & R).
  apply in_map_iff in I. destruct I as (p & <- & I). exists p, caps. auto.
Qed.

Lemma apart_not_confused sip ps : Forall valid_pattern ps -> first_apart sip ps -> map (confused sip ps) ps = ps.
Proof.
  intros V A. rewrite <- (map_id ps) at 3. apply map_ext_in. intros p I. unfold confused.
  assert (confused_tokens sip ps (pat_tokens p) = pat_tokens p) as ->; [|destruct p; reflexivity].
  destruct (pat_tokens p) as [|[q|l] rest] eqn:E; try reflexivity. simpl. do 2 f_equal.
  assert (In q (first_parsers ps)) as Iq.
  { unfold first_parsers. apply in_flat_map. exists p. split; [exact I|]. rewrite E. left. reflexivity. }
  assert (forall x, In x (first_parsers ps) -> valid_parser x) as Vx.
  { intros x Ix. destruct (first_parsers_in ps x Ix) as (p1 & rest1 & I1 & E1). rewrite Forall_forall in V.
    pose proof (V p1 I1) as V1. unfold valid_pattern in V1. rewrite E1 in V1. inversion V1; assumption. }
  pose proof (stand_in_in sip ps q Iq) as Is.
  apply hash_stream_inj; [apply Vx, Is|apply Vx, Iq|]. apply A; [exact Is|exact Iq|apply stand_in_hash].
Qed.
Theorem trie_first_apart sip ideal ps : Forall valid_pattern ps -> first_apart sip ps -> injective_hash ideal ->
  Trie.add_patterns sip Trie.tree_new ps = Trie.add_patterns ideal Trie.tree_new ps.
Proof. intros V A J. rewrite (trie_confused sip ideal ps J), (apart_not_confused sip ps V A). reflexivity. Qed.
Theorem table_first_apart sip ideal ps : Forall valid_pattern ps -> first_apart sip ps -> injective_hash ideal ->
  SuffixArray.add_patterns sip SuffixArray.table_new ps = SuffixArray.add_patterns ideal SuffixArray.table_new ps.
Proof. intros V A J. rewrite (table_confused sip ideal ps J), (apart_not_confused sip ps V A). reflexivity. Qed.
