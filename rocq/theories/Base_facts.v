(** * Facts about Base.v *)
From Verif Require Import Base.

(** ** outcome *)
Lemma bind_ret {A B} (m : outcome A) (k : A -> outcome B) (b : B) :
  bind m k = Ret b <-> exists a, m = Ret a /\ k a = Ret b.
Proof.
  split.
  - destruct m; simpl; intros H; try discriminate. eauto.
  - intros (a & -> & H). exact H.
Qed.

Ltac inv_bind :=
  repeat match goal with
         | H : bind _ _ = Ret _ |- _ =>
             apply bind_ret in H;
             let a := fresh "r" in let E := fresh "E" in
             destruct H as (a & E & H)
         end.

Tactic Notation "unbind" hyp(H) "as" ident(a) ident(E) :=
  apply bind_ret in H; destruct H as (a & E & H).

(** ** Bytes *)
Lemma byte_eqb_eq (x y : byte) : byte_eqb x y = true <-> x = y.
Proof.
  unfold byte_eqb. rewrite N.eqb_eq. split; [|congruence].
  intros H. apply (f_equal Byte.of_N) in H. rewrite !Byte.of_to_N in H. congruence.
Qed.

Lemma byte_eqb_refl (x : byte) : byte_eqb x x = true.
Proof. apply byte_eqb_eq. reflexivity. Qed.

Lemma byte_eqb_neq (x y : byte) : byte_eqb x y = false <-> x <> y.
Proof.
  split.
  - intros H E. apply byte_eqb_eq in E. congruence.
  - intros H. destruct (byte_eqb x y) eqn:E; [|reflexivity].
    apply byte_eqb_eq in E. contradiction.
Qed.

Lemma byte_to_N_inj (x y : byte) : Byte.to_N x = Byte.to_N y -> x = y.
Proof.
  intros H. apply byte_eqb_eq. unfold byte_eqb. apply N.eqb_eq. exact H.
Qed.

Lemma byte_cmp_eq (x y : byte) : byte_cmp x y = Eq <-> x = y.
Proof.
  unfold byte_cmp. rewrite N.compare_eq_iff. split; [apply byte_to_N_inj|congruence].
Qed.

Lemma byte_cmp_refl (x : byte) : byte_cmp x x = Eq.
Proof. apply byte_cmp_eq. reflexivity. Qed.

Lemma byte_cmp_antisym (x y : byte) : byte_cmp y x = CompOpp (byte_cmp x y).
Proof. unfold byte_cmp. apply N.compare_antisym. Qed.

Lemma byte_cmp_lt (x y : byte) : byte_cmp x y = Lt <-> (Byte.to_N x < Byte.to_N y)%N.
Proof. unfold byte_cmp. apply N.compare_lt_iff. Qed.

Lemma byte_cmp_gt (x y : byte) : byte_cmp x y = Gt <-> (Byte.to_N y < Byte.to_N x)%N.
Proof. unfold byte_cmp. apply N.compare_gt_iff. Qed.

Lemma byte_cmp_lt_trans (x y z : byte) :
  byte_cmp x y = Lt -> byte_cmp y z = Lt -> byte_cmp x z = Lt.
Proof. rewrite !byte_cmp_lt. lia. Qed.

Lemma byte_dec (x y : byte) : {x = y} + {x <> y}.
Proof.
  destruct (byte_eqb x y) eqn:E; [left; apply byte_eqb_eq; exact E|].
  right. apply byte_eqb_neq. exact E.
Qed.

(** ** Strings *)
Lemma str_eqb_eq (a b : str) : str_eqb a b = true <-> a = b.
Proof.
  revert b. induction a as [|x a IH]; intros [|y b]; simpl; split; try congruence.
  - intros H. apply andb_true_iff in H. destruct H as [H1 H2].
    apply byte_eqb_eq in H1. apply IH in H2. congruence.
  - intros H. inversion H; subst. rewrite byte_eqb_refl. simpl. apply IH. reflexivity.
Qed.

Lemma str_eqb_refl (a : str) : str_eqb a a = true.
Proof. apply str_eqb_eq. reflexivity. Qed.

Lemma str_eqb_neq (a b : str) : str_eqb a b = false <-> a <> b.
Proof.
  split.
  - intros H E. apply str_eqb_eq in E. congruence.
  - intros H. destruct (str_eqb a b) eqn:E; [|reflexivity].
    apply str_eqb_eq in E. contradiction.
Qed.

Lemma str_dec (a b : str) : {a = b} + {a <> b}.
Proof. apply list_eq_dec. apply byte_dec. Qed.

Lemma str_cmp_eq (a b : str) : str_cmp a b = Eq <-> a = b.
Proof.
  revert b. induction a as [|x a IH]; intros [|y b]; simpl; split; try congruence.
  - destruct (byte_cmp x y) eqn:E; try discriminate.
    apply byte_cmp_eq in E. intros H. apply IH in H. congruence.
  - intros H. inversion H; subst. rewrite byte_cmp_refl. apply IH. reflexivity.
Qed.

Lemma str_cmp_refl (a : str) : str_cmp a a = Eq.
Proof. apply str_cmp_eq. reflexivity. Qed.

Lemma str_cmp_antisym (a b : str) : str_cmp b a = CompOpp (str_cmp a b).
Proof.
  revert b. induction a as [|x a IH]; intros [|y b]; simpl; try reflexivity.
  rewrite (byte_cmp_antisym x y). destruct (byte_cmp x y); simpl; auto.
Qed.

Lemma str_cmp_lt_trans (a b c : str) :
  str_cmp a b = Lt -> str_cmp b c = Lt -> str_cmp a c = Lt.
Proof.
  revert b c. induction a as [|x a IH]; intros [|y b] [|z c]; simpl; try congruence.
  destruct (byte_cmp x y) eqn:E1; destruct (byte_cmp y z) eqn:E2; try discriminate.
  - apply byte_cmp_eq in E1. apply byte_cmp_eq in E2. subst. rewrite byte_cmp_refl. apply IH.
  - apply byte_cmp_eq in E1. subst. rewrite E2. reflexivity.
  - apply byte_cmp_eq in E2. subst. rewrite E1. reflexivity.
  - intros _ _. rewrite (byte_cmp_lt_trans x y z) by assumption. reflexivity.
Qed.

Lemma prefixb_app (p s : str) : prefixb p s = true <-> exists r, s = p ++ r.
Proof.
  revert s. induction p as [|x p IH]; intros s; simpl.
  - split; [intros _; exists s; reflexivity|reflexivity].
  - destruct s as [|y s].
    + split; [discriminate|]. intros (r & H). discriminate.
    + rewrite andb_true_iff, byte_eqb_eq, IH. split.
      * intros (-> & r & ->). exists r. reflexivity.
      * intros (r & H). inversion H; subst. eauto.
Qed.

Lemma prefixb_refl (p : str) : prefixb p p = true.
Proof. apply prefixb_app. exists []. rewrite app_nil_r. reflexivity. Qed.

Lemma is_empty_true {A} (l : list A) : is_empty l = true <-> l = [].
Proof. destruct l; simpl; split; congruence. Qed.

Lemma is_empty_false {A} (l : list A) : is_empty l = false <-> l <> [].
Proof. destruct l; simpl; split; congruence. Qed.

(** [str_find] is the first occurrence. *)
Lemma str_find_some (n s : str) (i : nat) :
  str_find n s = Some i <->
  (exists r, s = firstn i s ++ n ++ r) /\ i <= length s /\
  (forall j, j < i -> prefixb n (skipn j s) = false).
Proof.
  revert i. induction s as [|b s IH]; intros i.
  - simpl. destruct (prefixb n []) eqn:E.
    + apply prefixb_app in E. destruct E as (r & E). split.
      * intros H. inversion H; subst. split; [exists r; exact E|]. split; [simpl; lia|]. lia.
      * intros (_ & H & _). simpl in H. assert (i = 0) by lia. congruence.
    + split; [discriminate|]. intros ((r & H) & Hi & _).
      exfalso. destruct i; simpl in H; [|simpl in Hi; lia].
      symmetry in H. apply app_eq_nil in H. destruct H as [-> _]. discriminate.
  - change (str_find n (b :: s)) with
      (if prefixb n (b :: s) then Some 0 else option_map S (str_find n s)).
    destruct (prefixb n (b :: s)) eqn:E.
    + split.
      * intros H. inversion H; subst. apply prefixb_app in E. destruct E as (r & E).
        split; [exists r; exact E|]. split; [simpl; lia|]. lia.
      * intros (_ & _ & H). destruct i; [reflexivity|]. specialize (H 0 ltac:(lia)).
        simpl in H. simpl in E. congruence.
    + split.
      * destruct (str_find n s) as [k|] eqn:F; simpl; [|discriminate].
        intros H. inversion H; subst. destruct (proj1 (IH k) eq_refl) as ((r & F') & Hk & G).
        split; [exists r; simpl; f_equal; exact F'|]. split; [simpl; lia|].
        intros [|j] Hj; [exact E|]. simpl. apply G. lia.
      * intros ((r & H) & Hi & G). destruct i as [|i].
        -- exfalso. simpl in H. assert (prefixb n (b :: s) = true) as E'.
           { apply prefixb_app. exists r. exact H. }
           congruence.
        -- assert (str_find n s = Some i) as ->; [|reflexivity].
           apply IH. split; [exists r; simpl in H; inversion H; congruence|].
           split; [simpl in Hi; lia|]. intros j Hj. apply (G (S j)). lia.
Qed.

Lemma str_find_none (n s : str) :
  str_find n s = None <-> (forall a r, s <> a ++ n ++ r).
Proof.
  induction s as [|b s IH].
  - simpl. destruct (prefixb n []) eqn:E.
    + split; [discriminate|]. intros H. apply prefixb_app in E. destruct E as (r & E).
      exfalso. apply (H [] r). exact E.
    + split; [|reflexivity]. intros _ a r H. symmetry in H.
      apply app_eq_nil in H. destruct H as [-> H]. apply app_eq_nil in H.
      destruct H as [-> _]. discriminate.
  - change (str_find n (b :: s)) with
      (if prefixb n (b :: s) then Some 0 else option_map S (str_find n s)).
    destruct (prefixb n (b :: s)) eqn:E.
    + split; [discriminate|]. intros H. apply prefixb_app in E. destruct E as (r & E).
      exfalso. apply (H [] r). exact E.
    + split.
      * destruct (str_find n s) eqn:F; simpl; [discriminate|]. intros _ [|x a] r H.
        -- simpl in H. assert (prefixb n (b :: s) = true) as E'.
           { apply prefixb_app. exists r. exact H. } congruence.
        -- inversion H; subst. destruct IH as [IH _]. apply (IH eq_refl a r). reflexivity.
      * intros H. destruct IH as [_ IH]. rewrite IH; [reflexivity|].
        intros a r ->. apply (H (b :: a) r). reflexivity.
Qed.

(** ** Lists *)
Lemma update_nth_ret {A} (l : list A) i f l' :
  update_nth l i f = Ret l' <->
  exists x y a b, l = a ++ x :: b /\ length a = i /\ f x = Ret y /\ l' = a ++ y :: b.
Proof.
  revert i l'. induction l as [|z l IH]; intros i l'; simpl.
  - split; [destruct i; discriminate|]. intros (x & y & a & b & H & _).
    destruct a; discriminate.
  - destruct i as [|i].
    + rewrite bind_ret. split.
      * intros (y & H1 & H2). inversion H2; subst. exists z, y, [], l. auto.
      * intros (x & y & a & b & H1 & H2 & H3 & H4). destruct a; [|discriminate].
        simpl in *. inversion H1; subst. eauto.
    + rewrite bind_ret. split.
      * intros (r & H1 & H2). inversion H2; subst. apply IH in H1.
        destruct H1 as (x & y & a & b & -> & H1 & H3 & ->).
        exists x, y, (z :: a), b. simpl. rewrite H1. auto.
      * intros (x & y & a & b & H1 & H2 & H3 & H4). destruct a as [|z' a]; [discriminate|].
        simpl in *. inversion H1; subst. exists (a ++ y :: b). split; [|reflexivity].
        apply IH. exists x, y, a, b. inversion H2. auto.
Qed.

Lemma nth_error_app_mid {A} (a b : list A) x : nth_error (a ++ x :: b) (length a) = Some x.
Proof. rewrite nth_error_app2, Nat.sub_diag by lia. reflexivity. Qed.

Lemma get_unwrap_ret {A} (l : list A) i x : get_unwrap l i = Ret x <-> nth_error l i = Some x.
Proof. unfold get_unwrap. destruct (nth_error l i); split; congruence. Qed.

(** ** Character boundaries *)
Definition head_not_cont (s : str) : Prop :=
  match s with [] => True | b :: _ => is_cont b = false end.

Lemma boundary_app (a b : str) :
  is_char_boundary (a ++ b) (length a) = true <-> a = [] \/ head_not_cont b.
Proof.
  unfold is_char_boundary.
  rewrite app_length.
  destruct a as [|x a]; [simpl; tauto|]. simpl (length (x :: a)).
  destruct b as [|y b].
  - simpl. rewrite Nat.add_0_r, Nat.eqb_refl. simpl. tauto.
  - replace (Nat.eqb (S (length a)) 0 ||
             Nat.eqb (S (length a)) (S (length a) + length (y :: b)))%bool with false.
    + change (S (length a)) with (length (x :: a)).
      rewrite nth_error_app_mid. simpl. rewrite negb_true_iff. split; [auto|].
      intros [H|H]; [discriminate|exact H].
    + symmetry. apply orb_false_iff. split; [reflexivity|]. apply Nat.eqb_neq. simpl. lia.
Qed.

Lemma boundary_le (s : str) i : is_char_boundary s i = true -> i <= length s.
Proof.
  unfold is_char_boundary.
  destruct (Nat.eqb i 0) eqn:E1; simpl.
  { apply Nat.eqb_eq in E1. subst. intros _. lia. }
  destruct (Nat.eqb i (length s)) eqn:E2; simpl.
  { apply Nat.eqb_eq in E2. subst. lia. }
  destruct (nth_error s i) eqn:E; [|discriminate]. intros _.
  assert (nth_error s i <> None) as H by congruence. apply nth_error_Some in H. lia.
Qed.

Lemma boundary_split (s : str) i :
  is_char_boundary s i = true <->
  exists a b, s = a ++ b /\ length a = i /\ (a = [] \/ head_not_cont b).
Proof.
  split.
  - intros H. pose proof (boundary_le _ _ H) as Hle.
    exists (firstn i s), (skipn i s). rewrite firstn_skipn.
    split; [reflexivity|]. split; [rewrite firstn_length; lia|].
    apply boundary_app. rewrite firstn_skipn, firstn_length, Nat.min_l by lia. exact H.
  - intros (a & b & -> & <- & H). apply boundary_app. exact H.
Qed.

Lemma slice_from_ret (s : str) i r :
  slice_from s i = Ret r <->
  exists a, s = a ++ r /\ length a = i /\ (a = [] \/ head_not_cont r).
Proof.
  unfold slice_from. destruct (is_char_boundary s i) eqn:E.
  - apply boundary_split in E. destruct E as (a & b & -> & <- & H).
    rewrite skipn_app, skipn_all, Nat.sub_diag. simpl. split.
    + intros H1. inversion H1; subst. eauto.
    + intros (a' & H1 & H2 & H3).
      assert (a' = a /\ r = b) as [-> ->]; [|reflexivity].
      { clear - H1 H2. revert a' H1 H2. induction a; intros [|y a'] H1 H2; simpl in *;
          try discriminate; [auto|]. inversion H1; subst.
        destruct (IHa a'); [assumption|lia|]. subst. auto. }
  - split; [discriminate|]. intros (a & -> & <- & H). apply boundary_app in H. congruence.
Qed.

Lemma slice_to_ret (s : str) i r :
  slice_to s i = Ret r <->
  exists b, s = r ++ b /\ length r = i /\ (r = [] \/ head_not_cont b).
Proof.
  unfold slice_to. destruct (is_char_boundary s i) eqn:E.
  - apply boundary_split in E. destruct E as (a & b & -> & <- & H).
    rewrite firstn_app, firstn_all, Nat.sub_diag. simpl. rewrite app_nil_r. split.
    + intros H1. inversion H1; subst. eauto.
    + intros (b' & H1 & H2 & H3).
      assert (r = a) as ->; [|reflexivity].
      { clear - H1 H2. revert r H1 H2. induction a; intros [|y r] H1 H2; simpl in *;
          try discriminate; [auto|]. inversion H1; subst.
        f_equal. apply (IHa r); [assumption|lia]. }
  - split; [discriminate|]. intros (b & -> & <- & H). apply boundary_app in H. congruence.
Qed.

(** ** UTF-8 *)
Lemma in_rng_spec lo hi b :
  in_rng lo hi b = true <-> (lo <= Byte.to_N b <= hi)%N.
Proof. unfold in_rng. rewrite andb_true_iff, !N.leb_le. tauto. Qed.

Lemma is_cont_spec b : is_cont b = true <-> (128 <= Byte.to_N b < 192)%N.
Proof. unfold is_cont. rewrite andb_true_iff, N.leb_le, N.ltb_lt. tauto. Qed.

Lemma is_cont_false b : is_cont b = false <-> (Byte.to_N b < 128 \/ 192 <= Byte.to_N b)%N.
Proof.
  split.
  - intros H. destruct (N.lt_ge_cases (Byte.to_N b) 128) as [?|H1]; [auto|].
    destruct (N.lt_ge_cases (Byte.to_N b) 192) as [H2|?]; [|auto].
    assert (is_cont b = true) by (apply is_cont_spec; lia). congruence.
  - intros H. destruct (is_cont b) eqn:E; [|reflexivity]. apply is_cont_spec in E. lia.
Qed.

Ltac bool_hyps :=
  repeat match goal with
         | H : (_ && _)%bool = true |- _ => apply andb_true_iff in H; destruct H
         | H : (_ || _)%bool = true |- _ => apply orb_true_iff in H; destruct H
         | H : in_rng _ _ _ = true |- _ => apply in_rng_spec in H
         | H : is_cont _ = true |- _ => apply is_cont_spec in H
         end.

(** Shape of a character: a leading byte and continuation bytes. *)
Lemma utf8_char_shape (c : str) :
  utf8_char c = true ->
  exists b cs, c = b :: cs /\ is_cont b = false /\ forallb is_cont cs = true /\
               length c = utf8_width b.
Proof.
  intros H. unfold utf8_width.
  destruct c as [|b1 [|b2 [|b3 [|b4 [|b5 c]]]]]; simpl in H; try discriminate.
  all: bool_hyps.
  all: eexists; eexists; split; [reflexivity|].
  all: split; [apply is_cont_false; lia|].
  all: split; [simpl; rewrite ?andb_true_iff; repeat split; apply is_cont_spec; lia|].
  all: repeat match goal with |- context [N.ltb ?a ?b] => destruct (N.ltb_spec a b) end.
  all: simpl; lia.
Qed.

Lemma utf8_char_nonempty c : utf8_char c = true -> c <> [].
Proof. intros H E. subst. discriminate. Qed.

Lemma utf8_app (a b : str) : utf8 a -> utf8 b -> utf8 (a ++ b).
Proof.
  induction 1 as [|c s Hc Hs IH]; intros Hb; [exact Hb|].
  rewrite <- app_assoc. constructor; auto.
Qed.

Lemma utf8_head (s : str) : utf8 s -> head_not_cont s.
Proof.
  intros [|c s' Hc Hs]; [exact I|].
  destruct (utf8_char_shape c Hc) as (b & cs & -> & Hb & _). exact Hb.
Qed.

(** The first character of a string is determined by the string. *)
Lemma utf8_char_prefix (c c' x y : str) :
  utf8_char c = true -> utf8_char c' = true -> c ++ x = c' ++ y -> c = c' /\ x = y.
Proof.
  intros H H' E.
  destruct (utf8_char_shape c H) as (b & cs & -> & _ & _ & L).
  destruct (utf8_char_shape c' H') as (b' & cs' & -> & _ & _ & L').
  simpl in E. injection E as Eb E. subst b'.
  assert (length cs = length cs') as Hl by (simpl in L, L'; lia).
  clear - E Hl. assert (cs = cs' /\ x = y) as [-> ->]; [|auto].
  revert cs' Hl E. induction cs as [|a cs IH]; intros [|a' cs'] Hl E; simpl in *;
    try discriminate; [auto|].
  inversion E; subst. destruct (IH cs'); [lia|assumption|]. subst. auto.
Qed.

Lemma utf8_cons_inv (c s : str) : utf8_char c = true -> utf8 (c ++ s) -> utf8 s.
Proof.
  intros Hc H. inversion H as [E|c' s' Hc' Hs' E].
  - symmetry in E. apply app_eq_nil in E. destruct E as [-> ->]. constructor.
  - destruct (utf8_char_prefix c' c s' s Hc' Hc E) as [-> ->]. exact Hs'.
Qed.

(** Removing a valid prefix leaves a valid rest. *)
Lemma utf8_app_inv_r (a b : str) : utf8 a -> utf8 (a ++ b) -> utf8 b.
Proof.
  induction 1 as [|c s Hc Hs IH]; intros H; [exact H|].
  rewrite <- app_assoc in H. apply IH. apply (utf8_cons_inv c); assumption.
Qed.

(** Cutting a valid string at a boundary gives valid strings. *)
Lemma utf8_cut (a b : str) :
  utf8 (a ++ b) -> a = [] \/ head_not_cont b -> utf8 a /\ utf8 b.
Proof.
  intros H. remember (a ++ b) as s eqn:E. revert a b E.
  induction H as [|c s Hc Hs IH]; intros a b E HB.
  - symmetry in E. apply app_eq_nil in E. destruct E as [-> ->]. split; constructor.
  - destruct (Nat.le_gt_cases (length c) (length a)) as [Hle|Hgt].
    + assert (exists a', a = c ++ a' /\ s = a' ++ b) as (a' & -> & E').
      { clear - E Hle. revert a E Hle. induction c as [|x c IH]; intros a E Hle.
        - exists a. auto.
        - destruct a as [|y a]; [simpl in Hle; lia|]. simpl in E. inversion E; subst.
          destruct (IH a) as (a' & -> & ->); [assumption|simpl in Hle; lia|]. exists a'. auto. }
      destruct (IH a' b E') as [Ha Hb].
      * destruct HB as [HB|HB]; [|auto]. apply app_eq_nil in HB. left. apply HB.
      * split; [constructor; assumption|exact Hb].
    + (* the cut is inside the first character *)
      destruct a as [|x a].
      { simpl in E. subst b. split; [constructor|]. constructor; assumption. }
      exfalso. destruct HB as [HB|HB]; [discriminate|].
      destruct (utf8_char_shape c Hc) as (b0 & cs & -> & Hb0 & Hcs & _).
      simpl in E. injection E as -> E. simpl in Hgt.
      assert (exists y cs', b = y :: cs' /\ is_cont y = true) as (y & cs' & -> & Hy).
      { clear - E Hcs Hgt. revert a E Hgt. induction cs as [|z cs IH]; intros a E Hgt.
        - simpl in Hgt. lia.
        - simpl in Hcs. apply andb_true_iff in Hcs. destruct Hcs as [Hz Hcs].
          destruct a as [|w a]; simpl in E.
          + exists z, (cs ++ s). auto.
          + inversion E; subst. apply (IH Hcs a); [assumption|simpl in Hgt; lia]. }
      simpl in HB. congruence.
Qed.

Lemma utf8_cut_iff (a b : str) :
  utf8 (a ++ b) -> (a = [] \/ head_not_cont b <-> utf8 a).
Proof.
  intros H. split.
  - intros HB. apply (utf8_cut a b H HB).
  - intros Ha. right. apply utf8_head. apply (utf8_app_inv_r a); assumption.
Qed.

(** ASCII *)
Lemma ascii_byte_not_cont b : ascii_byte b = true -> is_cont b = false.
Proof. unfold ascii_byte. rewrite N.ltb_lt. intros H. apply is_cont_false. auto. Qed.

Lemma ascii_byte_char b : ascii_byte b = true -> utf8_char [b] = true.
Proof.
  unfold ascii_byte. rewrite N.ltb_lt. intros H. simpl. apply in_rng_spec. lia.
Qed.

Lemma ascii_utf8 (s : str) : ascii s = true -> utf8 s.
Proof.
  induction s as [|b s IH]; simpl; intros H; [constructor|].
  apply andb_true_iff in H. destruct H as [Hb Hs].
  change (b :: s) with ([b] ++ s). constructor; [apply ascii_byte_char; exact Hb|auto].
Qed.

Lemma ascii_app (a b : str) : ascii (a ++ b) = (ascii a && ascii b)%bool.
Proof. unfold ascii. apply forallb_app. Qed.

Lemma ascii_head (s : str) : ascii s = true -> head_not_cont s.
Proof. intros H. apply utf8_head, ascii_utf8, H. Qed.

(** In a valid string a byte below 128 is followed by a boundary. *)
Lemma utf8_ascii_prefix (a b : str) : utf8 (a ++ b) -> ascii a = true -> utf8 b.
Proof. intros H Ha. apply (utf8_app_inv_r a); [apply ascii_utf8; exact Ha|exact H]. Qed.

(** [utf8b] decides [utf8]. *)
Lemma utf8b_go_sound fuel s : utf8b_go fuel s = true -> utf8 s.
Proof.
  revert s. induction fuel as [|f IH]; intros s H; simpl in H.
  - destruct s; [constructor|discriminate].
  - destruct s as [|b s]; [constructor|].
    repeat (apply orb_true_iff in H; destruct H as [H|H]);
      apply andb_true_iff in H; destruct H as [H1 H2]; apply IH in H2.
    + rewrite <- (firstn_skipn 1 (b :: s)). constructor; assumption.
    + rewrite <- (firstn_skipn 2 (b :: s)). constructor; assumption.
    + rewrite <- (firstn_skipn 3 (b :: s)). constructor; assumption.
    + rewrite <- (firstn_skipn 4 (b :: s)). constructor; assumption.
Qed.

Lemma utf8b_sound s : utf8b s = true -> utf8 s.
Proof. apply utf8b_go_sound. Qed.
