(** * Facts about Utils.v *)
From Coq Require Import Permutation Sorted.
From Verif Require Import Base Base_facts Utils Pattern Spec.

(** ** common_prefix_len *)

(** The bytes counted are common to both strings. *)
Lemma cpl_loop_common self : forall a b i last pre,
  self = pre ++ a -> length pre = i -> last <= i ->
  exists n, cpl_loop self a b i last = n /\ n <= i + length a /\ n <= i + length b /\
            (n <= i \/ firstn (n - i) a = firstn (n - i) b).
Proof.
  induction a as [|x a IH]; intros b i last pre Hs Hi Hl; simpl.
  - exists i. repeat split; try lia.
  - destruct b as [|y b]; simpl.
    + exists i. repeat split; try lia.
    + set (last' := if is_char_boundary self i then i else last).
      assert (last' <= i) by (unfold last'; destruct (is_char_boundary self i); lia).
      destruct (byte_eqb x y) eqn:E.
      * apply byte_eqb_eq in E. subst y.
        destruct (IH b (S i) last' (pre ++ [x])) as (n & Hn & H1 & H2 & H3).
        -- rewrite <- app_assoc. exact Hs.
        -- rewrite app_length. simpl. lia.
        -- lia.
        -- exists n. split; [exact Hn|]. split; [lia|]. split; [lia|].
           destruct (Nat.le_gt_cases n i) as [|Hgt]; [left; assumption|right].
           replace (n - i) with (S (n - S i)) by lia. simpl. f_equal.
           destruct H3 as [H3|H3]; [|exact H3].
           replace (n - S i) with 0 by lia. reflexivity.
      * exists last'. repeat split; try lia.
Qed.

Lemma cpl_common (a b : str) :
  exists c a' b', a = c ++ a' /\ b = c ++ b' /\ common_prefix_len a b = length c.
Proof.
  unfold common_prefix_len.
  destruct (cpl_loop_common a a b 0 0 [] eq_refl eq_refl (Nat.le_refl 0))
    as (n & Hn & H1 & H2 & H3).
  rewrite Hn. simpl in *.
  exists (firstn n a), (skipn n a), (skipn n b).
  split; [symmetry; apply firstn_skipn|].
  split.
  - destruct H3 as [H3|H3].
    + assert (n = 0) as -> by lia. reflexivity.
    + rewrite Nat.sub_0_r in H3. rewrite H3. symmetry. apply firstn_skipn.
  - rewrite firstn_length. lia.
Qed.

(** Relation of the final value to character boundaries. *)
Lemma cpl_loop_spec self : forall a b i last pre,
  self = pre ++ a -> length pre = i ->
  (* [last] is the greatest boundary of [self] below [i] *)
  (i = 0 \/ last < i /\ is_char_boundary self last = true /\
   forall j, last < j < i -> is_char_boundary self j = false) ->
  (* either one string is exhausted, or the result is the greatest boundary
     up to the first difference *)
  let n := cpl_loop self a b i last in
  (exists r, n = i + length a /\ b = a ++ r) \/
  (exists r, n = i + length b /\ a = b ++ r) \/
  (exists c x y a' b', a = c ++ x :: a' /\ b = c ++ y :: b' /\ x <> y /\
     n <= i + length c /\ is_char_boundary self n = true /\
     forall j, n < j <= i + length c -> is_char_boundary self j = false).
Proof.
  induction a as [|x a IH]; intros b i last pre Hs Hi Hl; simpl.
  - left. exists b. split; [lia|reflexivity].
  - destruct b as [|y b]; simpl.
    + right. left. exists (x :: a). split; [lia|reflexivity].
    + set (last' := if is_char_boundary self i then i else last).
      assert (HL : last' <= i /\ is_char_boundary self last' = true /\
                   forall j, last' < j < S i -> is_char_boundary self j = false).
      { unfold last'. destruct (is_char_boundary self i) eqn:E.
        - split; [lia|]. split; [exact E|]. intros j Hj. lia.
        - destruct Hl as [->|(H1 & H2 & H3)].
          + unfold is_char_boundary in E. simpl in E. discriminate.
          + split; [lia|]. split; [exact H2|]. intros j Hj.
            destruct (Nat.eq_dec j i) as [->|]; [exact E|]. apply H3. lia. }
      destruct HL as (HL1 & HL2 & HL3).
      destruct (byte_eqb x y) eqn:E.
      * apply byte_eqb_eq in E. subst y.
        specialize (IH b (S i) last' (pre ++ [x])).
        destruct IH as [(r & H1 & H2)|[(r & H1 & H2)|(c & x' & y' & a' & b' & H1 & H2 & H3 & H4 & H5 & H6)]].
        -- rewrite <- app_assoc. exact Hs.
        -- rewrite app_length. simpl. lia.
        -- right. split; [lia|]. split; [exact HL2|]. exact HL3.
        -- left. exists r. split; [lia|]. simpl. congruence.
        -- right. left. exists r. split; [lia|]. simpl. congruence.
        -- right. right. exists (x :: c), x', y', a', b'.
           split; [simpl; congruence|]. split; [simpl; congruence|]. split; [exact H3|].
           simpl length. split; [lia|]. split; [exact H5|]. intros j Hj. apply H6. lia.
      * right. right. apply byte_eqb_neq in E. exists [], x, y, a, b.
        repeat split; simpl; auto; try lia. intros j Hj. apply HL3. lia.
Qed.

Lemma prefix_of_length (p s : str) : prefix_of p s -> length p <= length s.
Proof. intros (r & ->). rewrite app_length. lia. Qed.

Lemma prefix_comparable (a b s : str) :
  prefix_of a s -> prefix_of b s -> length a <= length b -> prefix_of a b.
Proof.
  intros (r & ->) (r' & H). revert b H. induction a as [|x a IH]; intros b H L.
  - exists b. reflexivity.
  - destruct b as [|y b]; [simpl in L; lia|]. simpl in H. inversion H; subst.
    destruct (IH b) as (q & ->); [assumption|simpl in L; lia|]. exists q. reflexivity.
Qed.

Lemma cpl_longest (a b : str) :
  utf8 a -> utf8 b ->
  exists w, length w = common_prefix_len a b /\ longest_common_chars a b w.
Proof.
  intros Ha Hb. unfold common_prefix_len.
  assert (i0 : 0 = 0 \/ 0 < 0 /\ is_char_boundary a 0 = true /\
    forall j, 0 < j < 0 -> is_char_boundary a j = false) by auto.
  pose proof (cpl_loop_spec a a b 0 0 [] eq_refl eq_refl i0) as H.
  cbv zeta in H. set (n := cpl_loop a a b 0 0) in *. simpl in H.
  destruct H as [(r & Hn & Hr)|[(r & Hn & Hr)|(c & x & y & a' & b' & H1 & H2 & H3 & H4 & H5 & H6)]].
  - exists a. split; [symmetry; exact Hn|]. split; [exact Ha|].
    split; [exists []; rewrite app_nil_r; reflexivity|]. split; [exists r; exact Hr|].
    intros w' _ Hw _. apply prefix_of_length. exact Hw.
  - exists b. split; [symmetry; exact Hn|]. split; [exact Hb|].
    split; [exists r; exact Hr|]. split; [exists []; rewrite app_nil_r; reflexivity|].
    intros w' _ _ Hw. apply prefix_of_length. exact Hw.
  - apply boundary_split in H5. destruct H5 as (w & rest & Hw & Hlen & HB).
    assert (utf8 w /\ utf8 rest) as [Uw Ur].
    { apply utf8_cut; [rewrite <- Hw; exact Ha|exact HB]. }
    exists w. split; [exact Hlen|]. split; [exact Uw|].
    assert (prefix_of w a) as Pwa by (exists rest; exact Hw).
    assert (prefix_of w c) as (q & Hq).
    { apply (prefix_comparable w c a); [exact Pwa|exists (x :: a'); exact H1|lia]. }
    split; [exact Pwa|].
    split; [exists (q ++ y :: b'); rewrite H2, Hq, app_assoc; reflexivity|].
    intros w' Uw' Pa Pb.
    (* w' cannot be longer than c, and is cut at a boundary *)
    assert (length w' <= length c) as Hc.
    { destruct (Nat.le_gt_cases (length w') (length c)) as [|Hgt]; [assumption|exfalso].
      assert (prefix_of (c ++ [x]) w') as (q1 & E1).
      { apply (prefix_comparable _ _ a); [exists a'; rewrite <- app_assoc; exact H1|exact Pa|].
        rewrite app_length. simpl. lia. }
      assert (prefix_of (c ++ [y]) w') as (q2 & E2).
      { apply (prefix_comparable _ _ b); [exists b'; rewrite <- app_assoc; exact H2|exact Pb|].
        rewrite app_length. simpl. lia. }
      rewrite E1, <- !app_assoc in E2. apply app_inv_head in E2. simpl in E2. congruence. }
    destruct (Nat.le_gt_cases (length w') (length w)) as [|Hgt]; [assumption|exfalso].
    specialize (H6 (length w') ltac:(lia)).
    assert (is_char_boundary a (length w') = true) as HBd; [|congruence].
    destruct Pa as (q3 & E3). rewrite E3. apply boundary_app.
    apply utf8_cut_iff; [rewrite <- E3; exact Ha|exact Uw'].
Qed.

Lemma longest_common_chars_unique a b w w' :
  longest_common_chars a b w -> longest_common_chars a b w' -> w = w'.
Proof.
  intros (U & Pa & Pb & M) (U' & Pa' & Pb' & M').
  pose proof (M w' U' Pa' Pb'). pose proof (M' w U Pa Pb).
  destruct (prefix_comparable w w' a Pa Pa') as (q & E); [lia|].
  subst w'. rewrite app_length in *. destruct q; [rewrite app_nil_r; reflexivity|simpl in *; lia].
Qed.

Lemma longest_common_chars_sym a b w :
  longest_common_chars a b w -> longest_common_chars b a w.
Proof. intros (U & Pa & Pb & M). repeat split; auto. Qed.

Lemma cpl_sym (a b : str) :
  utf8 a -> utf8 b -> common_prefix_len a b = common_prefix_len b a.
Proof.
  intros Ha Hb.
  destruct (cpl_longest a b Ha Hb) as (w & <- & Hw).
  destruct (cpl_longest b a Hb Ha) as (w' & <- & Hw').
  apply longest_common_chars_sym in Hw'.
  f_equal. apply (longest_common_chars_unique a b); assumption.
Qed.

Lemma ltrunc_ok (w r : str) : utf8 (w ++ r) -> utf8 w -> ltrunc (w ++ r) (length w) = Ret r.
Proof.
  intros H Hw. unfold ltrunc. apply slice_from_ret. exists w.
  split; [reflexivity|]. split; [reflexivity|]. apply utf8_cut_iff; assumption.
Qed.

Lemma rtrunc_ok (w r : str) : utf8 (w ++ r) -> utf8 w -> rtrunc (w ++ r) (length r) = Ret w.
Proof.
  intros H Hw. unfold rtrunc, usub. rewrite app_length.
  destruct (Nat.leb_spec (length r) (length w + length r)); [|lia]. simpl.
  apply slice_to_ret. exists r. split; [reflexivity|]. split; [lia|].
  apply utf8_cut_iff; assumption.
Qed.

Lemma ltrunc_ret (s : str) n r :
  ltrunc s n = Ret r -> exists a, s = a ++ r /\ length a = n /\ (a = [] \/ head_not_cont r).
Proof. unfold ltrunc. intros H. apply slice_from_ret in H. exact H. Qed.

Lemma rtrunc_ret (s : str) n r :
  rtrunc s n = Ret r -> exists b, s = r ++ b /\ length b = n /\ (r = [] \/ head_not_cont b).
Proof.
  unfold rtrunc, usub. destruct (Nat.leb_spec n (length s)) as [Hle|]; simpl; [|discriminate].
  intros H. apply slice_to_ret in H. destruct H as (b & E & L & HB).
  exists b. split; [exact E|]. split; [|exact HB].
  assert (length s = length r + length b) by (rewrite E, app_length; reflexivity). lia.
Qed.

(** ** flatten_vec *)
Lemma flatten_vec_concat {A} (l : list (list A)) : flatten_vec l = concat l.
Proof.
  assert (inner : forall v (acc : list A),
            fold_left (fun acc' i => acc' ++ [i]) v acc = acc ++ v).
  { induction v as [|x v IH]; intros acc; simpl; [rewrite app_nil_r; reflexivity|].
    rewrite IH, <- app_assoc. reflexivity. }
  unfold flatten_vec.
  assert (outer : forall (acc : list A),
            fold_left (fun acc vector => fold_left (fun acc' i => acc' ++ [i]) vector acc) l acc
            = acc ++ concat l).
  { induction l as [|v l IH]; intros acc; simpl; [rewrite app_nil_r; reflexivity|].
    rewrite inner, IH, <- app_assoc. reflexivity. }
  apply outer.
Qed.

(** ** std binary search *)
Lemma div2_le n : Nat.div2 n <= n.
Proof. rewrite Nat.div2_div. apply Nat.div_le_upper_bound; lia. Qed.

Lemma div2_lt n : 0 < n -> Nat.div2 n < n.
Proof. intros H. apply Nat.lt_div2. exact H. Qed.

Lemma div2_half n : Nat.div2 n + Nat.div2 (n - 1) = n - 1 /\ Nat.div2 n <= n.
Proof.
  split; [|apply div2_le].
  rewrite !Nat.div2_div. destruct n as [|n]; [reflexivity|].
  replace (S n - 1) with n by lia.
  pose proof (Nat.div_mod (S n) 2 ltac:(lia)). pose proof (Nat.div_mod n 2 ltac:(lia)).
  pose proof (Nat.mod_upper_bound (S n) 2 ltac:(lia)).
  pose proof (Nat.mod_upper_bound n 2 ltac:(lia)). lia.
Qed.

Section BSearch.
  Context {A : Type}.

  (** Outcome of a search where [a] is Less, [b] Equal and [c] Greater. *)
  Definition bsearch_result (a b : list A) (r : nat + nat) : Prop :=
    match r with
    | inl i => length a <= i < length a + length b
    | inr i => b = [] /\ i = length a
    end.

  Lemma bsearch_loop_ret (f : A -> outcome comparison) (a b c : list A) :
    (forall x k, In x a -> f x = Ret k -> k = Lt) ->
    (forall x k, In x b -> f x = Ret k -> k = Eq) ->
    (forall x k, In x c -> f x = Ret k -> k = Gt) ->
    forall fuel base lim r,
      base <= length a -> length a + length b <= base + lim ->
      base + lim <= length (a ++ b ++ c) ->
      bsearch_loop (a ++ b ++ c) f fuel base lim = Ret r ->
      bsearch_result a b r.
  Proof.
    intros Ha Hb Hc. induction fuel as [|fuel IH]; intros base lim r H1 H2 H3 H.
    - destruct lim; simpl in H; [|discriminate]. inversion H; subst. simpl.
      destruct b; [|simpl in *; lia]. split; [reflexivity|]. simpl in *. lia.
    - destruct lim as [|lim].
      { simpl in H. inversion H; subst. simpl.
        destruct b; [|simpl in *; lia]. split; [reflexivity|]. simpl in *. lia. }
      cbn [bsearch_loop] in H.
      set (h := Nat.div2 (S lim)) in *.
      assert (h <= lim) by (unfold h; pose proof (div2_lt (S lim)); lia).
      pose proof (div2_half (S lim)) as [Hh _]. fold h in Hh. simpl in Hh.
      rewrite Nat.sub_0_r in Hh.
      apply bind_ret in H. destruct H as (x & Hx & H).
      apply bind_ret in H. destruct H as (k & Hk & H).
      apply get_unwrap_ret in Hx.
      destruct (Nat.lt_ge_cases (base + h) (length a)) as [Ca|Ca].
      + rewrite nth_error_app1 in Hx by lia. apply nth_error_In in Hx.
        rewrite (Ha x k Hx Hk) in H.
        apply IH in H; [exact H|lia|lia|lia].
      + rewrite nth_error_app2 in Hx by lia.
        destruct (Nat.lt_ge_cases (base + h - length a) (length b)) as [Cb|Cb].
        * rewrite nth_error_app1 in Hx by lia. apply nth_error_In in Hx.
          rewrite (Hb x k Hx Hk) in H. inversion H; subst. simpl. lia.
        * rewrite nth_error_app2 in Hx by lia. apply nth_error_In in Hx.
          rewrite (Hc x k Hx Hk) in H.
          apply IH in H; [exact H|lia|lia|lia].
  Qed.

  Lemma binary_search_by_ret (f : A -> outcome comparison) (a b c : list A) r :
    (forall x k, In x a -> f x = Ret k -> k = Lt) ->
    (forall x k, In x b -> f x = Ret k -> k = Eq) ->
    (forall x k, In x c -> f x = Ret k -> k = Gt) ->
    binary_search_by (a ++ b ++ c) f = Ret r ->
    bsearch_result a b r.
  Proof.
    intros Ha Hb Hc H. unfold binary_search_by in H.
    apply (bsearch_loop_ret f a b c Ha Hb Hc) in H; auto;
      rewrite ?app_length in *; lia.
  Qed.

  (** It always returns when the comparison does. *)
  Lemma bsearch_loop_total (l : list A) (f : A -> outcome comparison) :
    (forall x, In x l -> exists k, f x = Ret k) ->
    forall fuel base lim, lim <= fuel -> base + lim <= length l ->
      exists r, bsearch_loop l f fuel base lim = Ret r.
  Proof.
    intros Hf. induction fuel as [|fuel IH]; intros base lim H1 H2.
    - destruct lim; [|lia]. simpl. eauto.
    - destruct lim as [|lim]; [simpl; eauto|].
      cbn [bsearch_loop]. set (h := Nat.div2 (S lim)).
      assert (h <= lim) by (unfold h; pose proof (div2_lt (S lim)); lia).
      pose proof (div2_half (S lim)) as [Hh _]. fold h in Hh. simpl in Hh.
      rewrite Nat.sub_0_r in Hh.
      destruct (nth_error l (base + h)) as [x|] eqn:E.
      + unfold get_unwrap. rewrite E. simpl.
        destruct (Hf x (nth_error_In _ _ E)) as (k & ->). simpl.
        destruct k; [eauto| |]; apply IH; lia.
      + apply nth_error_None in E. lia.
  Qed.

  Lemma binary_search_by_total (l : list A) (f : A -> outcome comparison) :
    (forall x, In x l -> exists k, f x = Ret k) ->
    exists r, binary_search_by l f = Ret r.
  Proof. intros H. apply bsearch_loop_total; auto. Qed.
End BSearch.

(** ** Sorting *)

(** A total order as a comparison function. *)

Section TotalOrder.
  Context {A : Type} (c : A -> A -> comparison) (TO : total_order c).

  Lemma to_refl x : c x x = Eq.
  Proof. pose proof (to_antisym c TO x x) as H. destruct (c x x); simpl in H; congruence. Qed.

  Lemma to_lt_gt x y : c x y = Lt <-> c y x = Gt.
  Proof.
    rewrite (to_antisym c TO x y). destruct (c x y); simpl; split; congruence.
  Qed.

  Lemma to_eq_sym x y : c x y = Eq -> c y x = Eq.
  Proof. rewrite (to_antisym c TO x y). intros ->. reflexivity. Qed.

  Lemma to_eq_trans x y z : c x y = Eq -> c y z = Eq -> c x z = Eq.
  Proof.
    intros H1 H2.
    assert (c x z <> Gt) by (apply (to_trans c TO x y z); congruence).
    assert (c z x <> Gt).
    { apply (to_trans c TO z y x);
        [rewrite (to_eq_sym y z H2)|rewrite (to_eq_sym x y H1)]; congruence. }
    rewrite (to_antisym c TO x z) in H0. destruct (c x z); simpl in *; congruence.
  Qed.

  Lemma to_lt_trans x y z : c x y = Lt -> c y z <> Gt -> c x z = Lt.
  Proof.
    intros H1 H2.
    destruct (c x z) eqn:E; [|reflexivity|].
    - exfalso. (* z <= x, so y <= x *)
      assert (c y x <> Gt) as H.
      { apply (to_trans c TO y z x); [exact H2|rewrite (to_eq_sym x z E); discriminate]. }
      apply to_lt_gt in H1. congruence.
    - exfalso. assert (c x z <> Gt); [|congruence].
      apply (to_trans c TO x y z); congruence.
  Qed.

  Lemma to_lt_trans' x y z : c x y <> Gt -> c y z = Lt -> c x z = Lt.
  Proof.
    intros H1 H2. destruct (c x z) eqn:E; [|reflexivity|].
    - exfalso. assert (c z y <> Gt) as H.
      { apply (to_trans c TO z x y); [rewrite (to_eq_sym x z E); discriminate|exact H1]. }
      apply to_lt_gt in H2. congruence.
    - exfalso. assert (c x z <> Gt); [|congruence].
      apply (to_trans c TO x y z); congruence.
  Qed.

  Lemma to_eq_l x y z : c x y = Eq -> c x z = c y z.
  Proof.
    intros H. destruct (c y z) eqn:E.
    - apply (to_eq_trans x y z H E).
    - apply (to_lt_trans' x y z); congruence.
    - apply to_lt_gt. apply to_lt_gt in E. apply (to_lt_trans z y x E).
      rewrite (to_eq_sym x y H). discriminate.
  Qed.

  Lemma to_eq_r x y z : c x y = Eq -> c z x = c z y.
  Proof.
    intros H. rewrite (to_antisym c TO x z), (to_antisym c TO y z).
    rewrite (to_eq_l x y z H). reflexivity.
  Qed.
End TotalOrder.

Section SortFacts.
  Context {A : Type} (c : A -> A -> comparison) (TO : total_order c).
  Variable cmp : A -> A -> outcome comparison.
  Hypothesis cmp_ret : forall x y k, cmp x y = Ret k -> k = c x y.

  (** Inserting into the reversed sorted prefix [rl]. *)
  Lemma sort_insert_ret : forall rl x r,
    sort_insert cmp rl x = Ret r ->
    exists hi lo, rl = hi ++ lo /\ r = hi ++ x :: lo /\
      Forall (fun y => c x y = Lt) hi /\
      match lo with [] => True | y :: _ => c x y <> Lt end.
  Proof.
    induction rl as [|y rl IH]; intros x r H; simpl in H.
    - inversion H; subst. exists [], []. repeat split; constructor.
    - apply bind_ret in H. destruct H as (k & Hk & H).
      rewrite (cmp_ret _ _ _ Hk) in H. destruct (c x y) eqn:E.
      + inversion H; subst. exists [], (y :: rl). repeat split; [constructor|congruence].
      + apply bind_ret in H. destruct H as (r' & Hr & H). inversion H; subst.
        destruct (IH x r' Hr) as (hi & lo & -> & -> & H1 & H2).
        exists (y :: hi), lo. repeat split; [constructor; assumption|exact H2].
      + inversion H; subst. exists [], (y :: rl). repeat split; [constructor|congruence].
  Qed.

  Lemma sort_insert_total rl x :
    (forall y, In y rl -> exists k, cmp x y = Ret k) ->
    exists r, sort_insert cmp rl x = Ret r.
  Proof.
    induction rl as [|y rl IH]; intros H; simpl; [eauto|].
    destruct (H y (or_introl eq_refl)) as (k & ->). simpl.
    destruct k; [eauto| |eauto].
    destruct IH as (r & ->); [intros z Hz; apply H; right; exact Hz|]. simpl. eauto.
  Qed.

  Lemma StronglySorted_app (R : A -> A -> Prop) l1 l2 :
    StronglySorted R (l1 ++ l2) <->
    StronglySorted R l1 /\ StronglySorted R l2 /\ (forall x y, In x l1 -> In y l2 -> R x y).
  Proof.
    induction l1 as [|z l1 IH]; simpl.
    - split; [intros H; split; [constructor|split; [exact H|intros ? ? []]]|].
      intros (_ & H & _). exact H.
    - split.
      + intros H. inversion H as [|? ? H1 H2]; subst. apply IH in H1.
        destruct H1 as (H1 & H3 & H4). rewrite Forall_app in H2. destruct H2 as [H2 H5].
        split; [constructor; assumption|]. split; [exact H3|].
        intros x y [->|Hx] Hy; [|apply H4; assumption].
        rewrite Forall_forall in H5. apply H5. exact Hy.
      + intros (H1 & H2 & H3). inversion H1 as [|? ? H4 H5]; subst. constructor.
        * apply IH. split; [exact H4|]. split; [exact H2|]. intros x y Hx Hy. apply H3; auto.
        * apply Forall_app. split; [exact H5|]. apply Forall_forall. intros y Hy.
          apply H3; auto.
  Qed.

  Lemma sort_loop_sorted : forall todo rl r,
    StronglySorted (sle c) (rev rl ++ todo) ->
    forall x, sort_loop cmp rl (todo ++ [x]) = Ret r ->
    exists r', sort_insert cmp (rev (rev rl ++ todo)) x = Ret r' /\ r = rev r'.
  Proof.
    induction todo as [|y todo IH]; intros rl r HS x H; simpl in H.
    - apply bind_ret in H. destruct H as (r' & Hr & H). inversion H; subst.
      exists r'. rewrite app_nil_r, rev_involutive. auto.
    - apply bind_ret in H. destruct H as (rl' & Hr & H).
      apply sort_insert_ret in Hr. destruct Hr as (hi & lo & -> & -> & H1 & H2).
      assert (hi = []) as ->.
      { destruct hi as [|z hi]; [reflexivity|exfalso].
        inversion H1 as [|? ? H3 H4]; subst.
        apply StronglySorted_app in HS. destruct HS as (_ & _ & HS).
        assert (sle c z y) as HL.
        { apply HS; [|left; reflexivity]. apply -> in_rev. left. reflexivity. }
        apply (to_lt_gt c TO) in H3. unfold sle in HL. congruence. }
      simpl in *. apply IH in H.
      + destruct H as (r' & Hr' & ->). exists r'. split; [|reflexivity].
        simpl in Hr'. rewrite <- app_assoc in Hr'. exact Hr'.
      + simpl. rewrite <- app_assoc. exact HS.
  Qed.

  (** [push] puts the new element behind everything not greater. *)
  Lemma sv_push_ret (l : list A) x r :
    StronglySorted (sle c) l -> sv_push cmp l x = Ret r ->
    exists lo hi, l = lo ++ hi /\ r = lo ++ x :: hi /\
      Forall (fun y => c y x <> Gt) lo /\ Forall (fun y => c x y = Lt) hi.
  Proof.
    intros HS H. unfold sv_push, sort in H.
    apply (sort_loop_sorted l []) in H; [|exact HS].
    destruct H as (r' & Hr & ->). simpl in Hr.
    apply sort_insert_ret in Hr. destruct Hr as (hi & lo & E & -> & H1 & H2).
    apply (f_equal (@rev A)) in E. rewrite rev_involutive, rev_app_distr in E.
    exists (rev lo), (rev hi). split; [exact E|]. split.
    - rewrite rev_app_distr. simpl. rewrite <- app_assoc. reflexivity.
    - split.
      + subst l. apply StronglySorted_app in HS. destruct HS as (HS & _ & _).
        destruct lo as [|y lo]; [constructor|]. simpl in *.
        apply StronglySorted_app in HS. destruct HS as (_ & _ & HS).
        assert (c y x <> Gt) as Hy by (rewrite <- (to_lt_gt c TO x y); exact H2).
        apply Forall_app. split.
        * apply Forall_forall. intros z Hz. apply (to_trans c TO z y x); [|exact Hy].
          apply HS; [exact Hz|left; reflexivity].
        * constructor; [exact Hy|constructor].
      + apply Forall_rev. exact H1.
  Qed.

  Lemma sort_loop_total : forall todo rl,
    (forall x y, In x (rl ++ todo) -> In y (rl ++ todo) -> exists k, cmp x y = Ret k) ->
    exists r, sort_loop cmp rl todo = Ret r.
  Proof.
    induction todo as [|x todo IH]; intros rl H; simpl; [eauto|].
    destruct (sort_insert_total rl x) as (r & Hr).
    { intros y Hy. apply H; apply in_app_iff; [right; left; reflexivity|left; exact Hy]. }
    rewrite Hr. simpl. apply IH.
    apply sort_insert_ret in Hr. destruct Hr as (hi & lo & -> & -> & _ & _).
    intros y z Hy Hz. apply H.
    - rewrite in_app_iff in *. simpl in *. rewrite in_app_iff in *. simpl in *. tauto.
    - rewrite in_app_iff in *. simpl in *. rewrite in_app_iff in *. simpl in *. tauto.
  Qed.

  Lemma sv_push_total (l : list A) x :
    (forall y z, In y (l ++ [x]) -> In z (l ++ [x]) -> exists k, cmp y z = Ret k) ->
    exists r, sv_push cmp l x = Ret r.
  Proof. intros H. apply sort_loop_total. exact H. Qed.

  (** Stable insertion keeps the list sorted, its elements and their order. *)
  Lemma sv_push_sorted (l : list A) x r :
    StronglySorted (sle c) l -> sv_push cmp l x = Ret r ->
    StronglySorted (sle c) r /\ Permutation (l ++ [x]) r /\
    (forall z, filter (fun y => match c z y with Eq => true | _ => false end) r =
               filter (fun y => match c z y with Eq => true | _ => false end) (l ++ [x])).
  Proof.
    intros HS H. apply sv_push_ret in H; [|exact HS].
    destruct H as (lo & hi & -> & -> & H1 & H2).
    rewrite Forall_forall in H1, H2.
    split; [|split].
    - apply StronglySorted_app in HS. destruct HS as (S1 & S2 & S3).
      apply StronglySorted_app. split; [exact S1|]. split.
      + constructor; [exact S2|]. apply Forall_forall. intros y Hy. unfold sle.
        rewrite (H2 y Hy). discriminate.
      + intros y z Hy [->|Hz]; [apply H1; exact Hy|apply S3; assumption].
    - rewrite <- app_assoc. apply Permutation_app_head.
      apply (Permutation_app_comm hi [x]).
    - intros z. rewrite !filter_app. simpl. rewrite <- app_assoc. f_equal.
      destruct (c z x) eqn:E; rewrite ?app_nil_r; try reflexivity.
      (* nothing in hi is equal to z *)
      assert (filter (fun y => match c z y with Eq => true | _ => false end) hi = []) as ->.
      { assert (forall y, In y hi -> c z y <> Eq) as Hn.
        { intros y Hy. rewrite (to_eq_l c TO z x y E), (H2 y Hy). discriminate. }
        clear - Hn. induction hi as [|y hi IH]; [reflexivity|]. simpl.
        destruct (c z y) eqn:E; [|apply IH|apply IH];
          try (intros w Hw; apply Hn; right; exact Hw).
        exfalso. apply (Hn y); [left; reflexivity|exact E]. }
      reflexivity.
  Qed.
End SortFacts.

(** Any sequence of pushes on a SortedVec. *)
Section Pushes.
  Context {A : Type} (c : A -> A -> comparison) (TO : total_order c).
  Let cmp (x y : A) : outcome comparison := Ret (c x y).
  Notation sv_pushes := (Utils.sv_pushes cmp).

  Lemma sv_pushes_sorted : forall xs l,
    StronglySorted (sle c) l ->
    exists r, sv_pushes l xs = Ret r /\
      StronglySorted (sle c) r /\ Permutation (l ++ xs) r /\
      (forall z, filter (fun y => match c z y with Eq => true | _ => false end) r =
                 filter (fun y => match c z y with Eq => true | _ => false end) (l ++ xs)).
  Proof.
    induction xs as [|x xs IH]; intros l HS; simpl.
    - exists l. rewrite app_nil_r. repeat split; auto.
    - destruct (sv_push_total c cmp) with (l := l) (x := x) as (l' & Hl').
      { intros a b k H. inversion H. reflexivity. }
      { intros y z _ _. eexists. reflexivity. }
      rewrite Hl'. simpl.
      apply (sv_push_sorted c TO cmp) in Hl'; [|intros a b k H; inversion H; reflexivity|exact HS].
      destruct Hl' as (S1 & P1 & F1).
      destruct (IH l' S1) as (r & Hr & S2 & P2 & F2).
      exists r. split; [exact Hr|]. split; [exact S2|].
      replace (l ++ x :: xs) with ((l ++ [x]) ++ xs) by (rewrite <- app_assoc; reflexivity).
      split.
      + eapply Permutation_trans; [|exact P2]. apply Permutation_app_tail. exact P1.
      + intros z. rewrite F2, !filter_app, F1, filter_app. reflexivity.
  Qed.
End Pushes.

(** ** The hand-written binary search of SortedVec *)
Section SvSearch.
  Context {A : Type} (c : A -> A -> comparison) (TO : total_order c).
  Let cmp (x y : A) : outcome comparison := Ret (c x y).

  Lemma sv_bsearch_loop_spec (l : list A) (needle : A) :
    StronglySorted (sle c) l ->
    forall fuel low high,
      high - low <= fuel -> high <= length l ->
      (forall i x, nth_error l i = Some x -> c x needle = Eq -> low <= i < high) ->
      match sv_bsearch_loop cmp l needle fuel low high with
      | Ret (Some i) => exists x, nth_error l i = Some x /\ c x needle = Eq
      | Ret None => forall x, In x l -> c x needle <> Eq
      | _ => False
      end.
  Proof.
    intros HS. induction fuel as [|fuel IH]; intros low high Hf Hh Hin.
    - simpl. destruct (Nat.ltb_spec low high); [lia|].
      intros x Hx E. apply In_nth_error in Hx. destruct Hx as (i & Hi).
      specialize (Hin i x Hi E). lia.
    - cbn [sv_bsearch_loop]. destruct (Nat.ltb_spec low high) as [Hlt|Hge].
      + set (mid := Nat.div2 (low + high)).
        assert (low <= mid < high) as Hmid.
        { unfold mid. rewrite Nat.div2_div. split.
          - apply Nat.div_le_lower_bound; lia.
          - apply Nat.div_lt_upper_bound; lia. }
        destruct (nth_error l mid) as [x|] eqn:E; [|apply nth_error_None in E; lia].
        unfold get_unwrap. rewrite E. cbn [bind]. unfold cmp at 1. cbn [bind].
        assert (Hsplit : forall i y, nth_error l i = Some y ->
                  (i < mid -> c y x <> Gt) /\ (mid < i -> c x y <> Gt)).
        { intros i y Hi. apply nth_error_split in E. destruct E as (l1 & l2 & -> & L).
          apply StronglySorted_app in HS. destruct HS as (_ & S2 & S3).
          inversion S2 as [|? ? _ S4]; subst. rewrite Forall_forall in S4. split; intros Hc.
          - apply (S3 y x); [|left; reflexivity].
            rewrite nth_error_app1 in Hi by lia. apply nth_error_In in Hi. exact Hi.
          - rewrite nth_error_app2 in Hi by lia.
            destruct (i - length l1) as [|j] eqn:Ej; [lia|]. simpl in Hi.
            apply nth_error_In in Hi. apply S4. exact Hi. }
        destruct (c x needle) eqn:Ec.
        * eauto.
        * apply IH; [lia|lia|]. intros i y Hi Hy. specialize (Hin i y Hi Hy).
          destruct (Hsplit i y Hi) as [H1 _].
          destruct (Nat.lt_trichotomy i mid) as [H|[H|H]]; [|subst i; congruence|lia].
          specialize (H1 H). exfalso.
          pose proof (to_lt_trans' c TO y x needle H1 Ec). congruence.
        * apply IH; [lia|lia|]. intros i y Hi Hy. specialize (Hin i y Hi Hy).
          destruct (Hsplit i y Hi) as [_ H1].
          destruct (Nat.lt_trichotomy i mid) as [H|[H|H]]; [lia|subst i; congruence|].
          specialize (H1 H). exfalso.
          apply (to_lt_gt c TO) in Ec.
          pose proof (to_lt_trans c TO needle x y Ec H1) as H2.
          rewrite (to_antisym c TO needle y) in Hy. rewrite H2 in Hy. discriminate.
      + intros x Hx E. apply In_nth_error in Hx. destruct Hx as (i & Hi).
        specialize (Hin i x Hi E). lia.
  Qed.

  Lemma sv_binary_search_spec (l : list A) (needle : A) :
    StronglySorted (sle c) l ->
    match sv_binary_search cmp l needle with
    | Ret (Some i) => exists x, nth_error l i = Some x /\ c x needle = Eq
    | Ret None => forall x, In x l -> c x needle <> Eq
    | _ => False
    end.
  Proof.
    intros HS. apply sv_bsearch_loop_spec; [exact HS|lia|lia|].
    intros i x Hi _. split; [lia|]. apply nth_error_Some. congruence.
  Qed.

  Lemma sv_find_spec (l : list A) (needle : A) :
    StronglySorted (sle c) l ->
    match sv_find cmp l needle with
    | Ret (Some x) => In x l /\ c x needle = Eq
    | Ret None => forall x, In x l -> c x needle <> Eq
    | _ => False
    end.
  Proof.
    intros HS. pose proof (sv_binary_search_spec l needle HS) as H.
    unfold sv_find. destruct (sv_binary_search cmp l needle) as [[i|]| |]; simpl; auto.
    destruct H as (x & Hx & E). rewrite Hx. split; [|exact E].
    apply nth_error_In in Hx. exact Hx.
  Qed.
End SvSearch.

(** ** Byte sets *)
Lemma bset_insert_in x y l : In y (bset_insert x l) <-> y = x \/ In y l.
Proof.
  induction l as [|z l IH]; simpl; [intuition congruence|].
  destruct (byte_cmp x z) eqn:E; simpl.
  - apply byte_cmp_eq in E. subst. intuition congruence.
  - intuition congruence.
  - rewrite IH. intuition congruence.
Qed.

Lemma bset_from_iter_in y l : In y (bset_from_iter l) <-> In y l.
Proof.
  unfold bset_from_iter.
  assert (forall acc, In y (fold_left (fun acc x => bset_insert x acc) l acc) <->
                      In y l \/ In y acc) as H.
  { induction l as [|x l IH]; intros acc; simpl; [tauto|].
    rewrite IH, bset_insert_in. intuition congruence. }
  rewrite H. simpl. tauto.
Qed.

Lemma bset_contains_in l x : bset_contains l x = true <-> In x l.
Proof.
  unfold bset_contains. rewrite existsb_exists. split.
  - intros (y & Hy & E). apply byte_eqb_eq in E. congruence.
  - intros H. exists x. split; [exact H|apply byte_eqb_refl].
Qed.

Lemma bset_insert_sorted x l :
  StronglySorted byte_lt l -> StronglySorted byte_lt (bset_insert x l).
Proof.
  induction l as [|z l IH]; intros H; simpl; [constructor; constructor|].
  inversion H as [|? ? H1 H2]; subst. destruct (byte_cmp x z) eqn:E.
  - exact H.
  - apply byte_cmp_lt in E. constructor; [exact H|]. constructor; [exact E|].
    eapply Forall_impl; [|exact H2]. intros a Ha. exact (N.lt_trans _ _ _ E Ha).
  - apply byte_cmp_gt in E. constructor; [apply IH; exact H1|].
    apply Forall_forall. intros y Hy. apply bset_insert_in in Hy.
    destruct Hy as [->|Hy]; [exact E|]. rewrite Forall_forall in H2. apply H2. exact Hy.
Qed.

Lemma bset_from_iter_sorted l : StronglySorted byte_lt (bset_from_iter l).
Proof.
  unfold bset_from_iter.
  assert (forall acc, StronglySorted byte_lt acc ->
            StronglySorted byte_lt (fold_left (fun acc x => bset_insert x acc) l acc)) as H.
  { induction l as [|x l IH]; intros acc Ha; simpl; [exact Ha|].
    apply IH. apply bset_insert_sorted. exact Ha. }
  apply H. constructor.
Qed.

(** ** String maps *)
Definition str_lt (a b : str) : Prop := str_cmp a b = Lt.
Definition bmap_sorted (m : bmap) : Prop := StronglySorted (fun a b => str_lt (fst a) (fst b)) m.

Lemma bmap_get_insert k v m k' :
  bmap_sorted m ->
  bmap_get (bmap_insert k v m) k' = if str_eqb k' k then Some v else bmap_get m k'.
Proof.
  induction m as [|(k0, v0) m IH]; intros HS; simpl.
  - destruct (str_eqb k' k); reflexivity.
  - inversion HS as [|? ? S1 S2]; subst. destruct (str_cmp k k0) eqn:E; simpl.
    + apply str_cmp_eq in E. subst k0. destruct (str_eqb k' k); reflexivity.
    + destruct (str_eqb k' k); reflexivity.
    + rewrite (IH S1). destruct (str_eqb k' k0) eqn:E0; [|reflexivity].
      destruct (str_eqb k' k) eqn:E1; [|reflexivity].
      apply str_eqb_eq in E0. apply str_eqb_eq in E1. subst.
      rewrite str_cmp_refl in E. discriminate.
Qed.

Lemma bmap_insert_keys k v m x : In x (bmap_insert k v m) -> x = (k, v) \/ In x m.
Proof.
  induction m as [|(k0, v0) m IH]; simpl; [intuition congruence|].
  destruct (str_cmp k k0); simpl; intuition congruence.
Qed.

Lemma bmap_insert_sorted k v m : bmap_sorted m -> bmap_sorted (bmap_insert k v m).
Proof.
  unfold bmap_sorted. induction m as [|(k0, v0) m IH]; intros HS; simpl.
  - constructor; constructor.
  - inversion HS as [|? ? S1 S2]; subst. destruct (str_cmp k k0) eqn:E.
    + apply str_cmp_eq in E. subst. constructor; [exact S1|exact S2].
    + constructor; [exact HS|]. constructor; [exact E|].
      eapply Forall_impl; [|exact S2]. intros (k1, v1) H1. simpl in *.
      apply (str_cmp_lt_trans k k0 k1); assumption.
    + constructor; [apply IH; exact S1|].
      apply Forall_forall. intros x Hx. apply bmap_insert_keys in Hx.
      destruct Hx as [->|Hx]; simpl.
      * unfold str_lt. rewrite str_cmp_antisym, E. reflexivity.
      * rewrite Forall_forall in S2. apply (S2 x Hx).
Qed.

Lemma bmap_get_in m k v : bmap_sorted m -> (bmap_get m k = Some v <-> In (k, v) m).
Proof.
  induction m as [|(k0, v0) m IH]; intros HS; simpl; [split; [discriminate|tauto]|].
  inversion HS as [|? ? S1 S2]; subst. destruct (str_eqb k k0) eqn:E.
  - apply str_eqb_eq in E. subst k0. split.
    + intros H. inversion H. auto.
    + intros [H|H]; [congruence|]. exfalso. rewrite Forall_forall in S2.
      specialize (S2 _ H). simpl in S2. unfold str_lt in S2.
      rewrite str_cmp_refl in S2. discriminate.
  - apply str_eqb_neq in E. rewrite (IH S1). split; [auto|].
    intros [H|H]; [congruence|exact H].
Qed.

Lemma sv_pushes_new (A : Type) (c : A -> A -> comparison) :
  total_order c ->
  forall xs, exists r,
    Utils.sv_pushes (fun x y => Ret (c x y)) sv_new xs = Ret r /\
    StronglySorted (sle c) r /\ Permutation xs r /\
    (forall z, filter (fun y => match c z y with Eq => true | _ => false end) r =
               filter (fun y => match c z y with Eq => true | _ => false end) xs).
Proof. intros TO xs. apply (sv_pushes_sorted c TO xs []). constructor. Qed.
