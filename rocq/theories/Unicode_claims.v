(** * Proofs about UTF-8, C146 *)
From Verif Require Import Base Base_facts Grammar Spec_unicode.
Local Open Scope N_scope.

Lemma octet_to_N n : n < 256 -> Byte.to_N (octet n) = n.
Proof.
  intros H. unfold octet. destruct (Byte.of_N n) as [b|] eqn:E; [apply Byte.to_of_N, E|].
  apply Byte.of_N_None_iff in E. lia.
Qed.
Lemma octet_of b n : Byte.to_N b = n -> octet n = b.
Proof. intros <-. unfold octet. rewrite Byte.of_to_N. reflexivity. Qed.

(** The digits of a number in base 64. *)
Lemma digits n : exists a b c x y z,
  n / 64 = a /\ n mod 64 = x /\ n / 64 mod 64 = y /\ n / 4096 = b /\ n / 4096 mod 64 = z /\ n / 262144 = c /\
  n = 64 * a + x /\ a = 64 * b + y /\ b = 64 * c + z /\ x < 64 /\ y < 64 /\ z < 64.
Proof.
  exists (n / 64), (n / 4096), (n / 262144), (n mod 64), (n / 64 mod 64), (n / 4096 mod 64).
  assert (n / 64 / 64 = n / 4096) as E1 by (rewrite N.div_div by lia; reflexivity).
  assert (n / 4096 / 64 = n / 262144) as E2 by (rewrite N.div_div by lia; reflexivity).
  do 6 (split; [reflexivity|]). split; [apply N.div_mod; lia|]. split; [rewrite <- E1; apply N.div_mod; lia|].
  split; [rewrite <- E2; apply N.div_mod; lia|]. split; [|split]; apply N.mod_lt; lia.
Qed.
Ltac digs n :=
  let a := fresh "a" in let b := fresh "b" in let c := fresh "c" in
  let x := fresh "x" in let y := fresh "y" in let z := fresh "z" in
  destruct (digits n) as (a & b & c & x & y & z & -> & -> & -> & -> & -> & -> & ? & ? & ? & ? & ? & ?).

Lemma encode_char n : scalar n -> utf8_char (encode n) = true.
Proof.
  unfold scalar, encode. intros S. digs n.
  destruct (N.ltb_spec n 128); [|destruct (N.ltb_spec n 2048); [|destruct (N.ltb_spec n 65536)]]; cbn [utf8_char].
  - apply in_rng_spec. rewrite octet_to_N by lia. lia.
  - rewrite andb_true_iff, in_rng_spec, is_cont_spec, !octet_to_N by lia. lia.
  - rewrite !orb_true_iff, !andb_true_iff, !in_rng_spec, !is_cont_spec, !octet_to_N by lia. lia.
  - rewrite !orb_true_iff, !andb_true_iff, !in_rng_spec, !is_cont_spec, !octet_to_N by lia. lia.
Qed.

Lemma div_small a b c : c < b -> (a * b + c) / b = a.
Proof. intros H. rewrite N.div_add_l by lia. rewrite N.div_small by exact H. lia. Qed.
Lemma mod_small a b c : c < b -> (a * b + c) mod b = c.
Proof. intros H. rewrite N.add_comm, N.mod_add by lia. apply N.mod_small, H. Qed.

Lemma char_encode c : utf8_char c = true -> exists n, scalar n /\ encode n = c.
Proof.
  intros H. destruct c as [|b1 [|b2 [|b3 [|b4 [|b5 c]]]]]; cbn [utf8_char] in H; try discriminate.
  - apply in_rng_spec in H. exists (Byte.to_N b1). split; [left; lia|]. unfold encode.
    destruct (N.ltb_spec (Byte.to_N b1) 128); [|lia]. f_equal. apply octet_of. reflexivity.
  - bool_hyps. set (x := Byte.to_N b1 - 192). set (y := Byte.to_N b2 - 128).
    exists (x * 64 + y). split; [left; lia|]. unfold encode.
    destruct (N.ltb_spec (x * 64 + y) 128); [lia|]. destruct (N.ltb_spec (x * 64 + y) 2048); [|lia].
    rewrite div_small, mod_small by lia. f_equal; [|f_equal]; apply octet_of; lia.
  - set (x := Byte.to_N b1 - 224). set (y := Byte.to_N b2 - 128). set (z := Byte.to_N b3 - 128).
    rewrite !orb_true_iff, !andb_true_iff, !in_rng_spec, !is_cont_spec in H.
    exists ((x * 64 + y) * 64 + z). split; [unfold scalar; lia|]. unfold encode.
    destruct (N.ltb_spec ((x * 64 + y) * 64 + z) 128); [lia|]. destruct (N.ltb_spec ((x * 64 + y) * 64 + z) 2048); [lia|].
    destruct (N.ltb_spec ((x * 64 + y) * 64 + z) 65536); [|lia].
    change 4096 with (64 * 64). rewrite <- N.div_div by lia. rewrite !div_small, !mod_small by lia.
    f_equal; [|f_equal; [|f_equal]]; apply octet_of; lia.
  - set (x := Byte.to_N b1 - 240). set (y := Byte.to_N b2 - 128). set (z := Byte.to_N b3 - 128). set (u := Byte.to_N b4 - 128).
    rewrite !orb_true_iff, !andb_true_iff, !in_rng_spec, !is_cont_spec in H.
    exists (((x * 64 + y) * 64 + z) * 64 + u). split; [unfold scalar; lia|]. unfold encode.
    destruct (N.ltb_spec (((x * 64 + y) * 64 + z) * 64 + u) 128); [lia|]. destruct (N.ltb_spec (((x * 64 + y) * 64 + z) * 64 + u) 2048); [lia|].
    destruct (N.ltb_spec (((x * 64 + y) * 64 + z) * 64 + u) 65536); [lia|].
    change 262144 with (64 * 64 * 64). change 4096 with (64 * 64). rewrite <- !N.div_div by lia. rewrite !div_small, !mod_small by lia.
    f_equal; [|f_equal; [|f_equal; [|f_equal]]]; apply octet_of; lia.
Qed.

Lemma encode_inj m n : scalar m -> scalar n -> encode m = encode n -> m = n.
Proof.
  assert (forall a b, a < 256 -> b < 256 -> octet a = octet b -> a = b) as O.
  { intros a b A B E. apply (f_equal Byte.to_N) in E. rewrite !octet_to_N in E by assumption. exact E. }
  assert (forall a b (l l' : str), octet a :: l = octet b :: l' -> (a < 256 -> b < 256 -> a = b) /\ l = l') as C.
  { intros a b l l' E. injection E as E1 E2. auto. }
  unfold scalar, encode. intros M S. digs m. digs n.
  destruct (N.ltb_spec m 128); [|destruct (N.ltb_spec m 2048); [|destruct (N.ltb_spec m 65536)]];
  (destruct (N.ltb_spec n 128); [|destruct (N.ltb_spec n 2048); [|destruct (N.ltb_spec n 65536)]]); try discriminate; intros E.
  - apply C in E. destruct E as (E1 & E). specialize (E1 ltac:(lia) ltac:(lia)). clear O C M S. lia.
  - apply C in E. destruct E as (E1 & E). specialize (E1 ltac:(lia) ltac:(lia)). apply C in E. destruct E as (E2 & E). specialize (E2 ltac:(lia) ltac:(lia)). clear O C M S. lia.
  - apply C in E. destruct E as (E1 & E). specialize (E1 ltac:(lia) ltac:(lia)). apply C in E. destruct E as (E2 & E). specialize (E2 ltac:(lia) ltac:(lia)). apply C in E. destruct E as (E3 & E). specialize (E3 ltac:(lia) ltac:(lia)). clear O C M S. lia.
  - apply C in E. destruct E as (E1 & E). specialize (E1 ltac:(lia) ltac:(lia)). apply C in E. destruct E as (E2 & E). specialize (E2 ltac:(lia) ltac:(lia)). apply C in E. destruct E as (E3 & E). specialize (E3 ltac:(lia) ltac:(lia)). apply C in E. destruct E as (E4 & E). specialize (E4 ltac:(lia) ltac:(lia)). clear O C M S. lia.
Qed.
Lemma encode_nonempty n : encode n <> [].
Proof. unfold encode. destruct (n <? 128), (n <? 2048), (n <? 65536); discriminate. Qed.

Lemma encode_all_utf8 l : Forall scalar l -> utf8 (encode_all l).
Proof. induction 1 as [|n l S _ IH]; [constructor|]. cbn [encode_all flat_map]. constructor; [apply encode_char, S|exact IH]. Qed.

Theorem texts s : utf8 s <-> exists l, Forall scalar l /\ s = encode_all l.
Proof.
  split; [|intros (l & F & ->); apply encode_all_utf8, F].
  induction 1 as [|c s C _ (l & F & ->)]; [exists []; split; [constructor|reflexivity]|].
  destruct (char_encode c C) as (n & S & <-). exists (n :: l). split; [constructor; assumption|reflexivity].
Qed.

Theorem texts_unique l l' : Forall scalar l -> Forall scalar l' -> encode_all l = encode_all l' -> l = l'.
Proof.
  intros F. revert l'. induction F as [|n l S F IH]; intros l' F' E; destruct F' as [|n' l' S' F'].
  - reflexivity.
  - cbn [encode_all flat_map] in E. symmetry in E. apply app_eq_nil in E. destruct (encode_nonempty n' (proj1 E)).
  - cbn [encode_all flat_map] in E. apply app_eq_nil in E. destruct (encode_nonempty n (proj1 E)).
  - cbn [encode_all flat_map] in E. apply utf8_char_prefix in E; [|apply encode_char, S|apply encode_char, S'].
    destruct E as (E1 & E2). f_equal; [apply encode_inj; assumption|apply IH; assumption].
Qed.

Lemma encode_all_app a b : encode_all (a ++ b) = encode_all a ++ encode_all b.
Proof. apply flat_map_app. Qed.

Theorem boundaries l i : Forall scalar l ->
  (is_char_boundary (encode_all l) i = true <-> exists a b, l = a ++ b /\ i = length (encode_all a)).
Proof.
  intros F. split.
  - intros B. apply boundary_split in B. destruct B as (a & b & E & <- & H).
    pose proof (encode_all_utf8 l F) as U. rewrite E in U.
    destruct (utf8_cut a b U H) as (Ua & Ub). apply texts in Ua. apply texts in Ub.
    destruct Ua as (la & Fa & ->). destruct Ub as (lb & Fb & ->). exists la, lb. split; [|reflexivity].
    apply texts_unique; [exact F|apply Forall_app; split; assumption|]. rewrite encode_all_app. exact E.
  - intros (a & b & -> & ->). rewrite encode_all_app. apply boundary_app. right.
    apply Forall_app in F. apply utf8_head, encode_all_utf8. apply F.
Qed.

Theorem char_at a n b : Forall scalar (a ++ n :: b) ->
  char_range_at (encode_all (a ++ n :: b)) (length (encode_all a)) =
    Ret (encode n, length (encode_all (a ++ [n]))).
Proof.
  intros F. assert (is_char_boundary (encode_all (a ++ n :: b)) (length (encode_all a)) = true) as B.
  { apply boundaries; [exact F|]. eauto. }
  unfold char_range_at, slice_from. rewrite B. cbn [bind]. rewrite !encode_all_app.
  rewrite skipn_app, skipn_all, Nat.sub_diag. cbn [skipn app encode_all flat_map].
  apply Forall_app in F. destruct F as (_ & F). inversion F as [|? ? S Fb]; subst.
  destruct (utf8_char_shape _ (encode_char n S)) as (x & cs & E & _ & _ & L). rewrite app_nil_r, app_length.
  rewrite E in L |- *. cbn [app]. rewrite <- L. change (x :: cs ++ flat_map encode b) with ((x :: cs) ++ flat_map encode b).
  rewrite firstn_app, firstn_all, Nat.sub_diag. cbn [firstn]. rewrite app_nil_r. reflexivity.
Qed.
