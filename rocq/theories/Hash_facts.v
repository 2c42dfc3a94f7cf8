(** * The byte stream fed to the hasher determines the parser *)
From Coq Require Import Sorted.
From Verif Require Import Base Base_facts Utils Utils_facts Parsers Parsers_facts Pattern Spec.

Lemma byte_of_N_to_N v : Byte.to_N (byte_of_N v) = (v mod 256)%N.
Proof.
  unfold byte_of_N. assert (v mod 256 < 256)%N as H by (apply N.mod_lt; lia).
  destruct (Byte.of_N (v mod 256)) as [b|] eqn:E.
  - apply Byte.to_of_N in E. exact E.
  - apply Byte.of_N_None_iff in E. lia.
Qed.

Lemma le_bytes_length n v : length (le_bytes n v) = n.
Proof. revert v. induction n; intros v; simpl; auto. Qed.

Lemma le_bytes_inj n : forall v w,
  (v < 256 ^ N.of_nat n)%N -> (w < 256 ^ N.of_nat n)%N -> le_bytes n v = le_bytes n w -> v = w.
Proof.
  induction n as [|n IH]; intros v w Hv Hw H.
  - simpl in *. lia.
  - cbn [le_bytes] in H. injection H as H1 H2.
    apply (f_equal Byte.to_N) in H1. rewrite !byte_of_N_to_N in H1.
    rewrite Nat2N.inj_succ, N.pow_succ_r' in Hv, Hw.
    apply IH in H2.
    + rewrite (N.div_mod v 256), (N.div_mod w 256) by lia. congruence.
    + apply N.div_lt_upper_bound; lia.
    + apply N.div_lt_upper_bound; lia.
Qed.

Lemma hs_u64_inj v w : fits v -> fits w -> hs_u64 v = hs_u64 w -> v = w.
Proof.
  unfold fits, hs_u64. intros Hv Hw. apply le_bytes_inj.
  - change (256 ^ N.of_nat 8)%N with (2 ^ 64)%N. exact Hv.
  - change (256 ^ N.of_nat 8)%N with (2 ^ 64)%N. exact Hw.
Qed.

Lemma hs_u64_length v : length (hs_u64 v) = 8.
Proof. apply le_bytes_length. Qed.

Lemma app_inj_len {A} (a b c d : list A) :
  length a = length c -> a ++ b = c ++ d -> a = c /\ b = d.
Proof.
  revert c. induction a as [|x a IH]; intros [|y c] L H; simpl in *; try discriminate; [auto|].
  inversion H; subst. destruct (IH c) as [-> ->]; [lia|assumption|auto].
Qed.

(** UTF-8 contains no byte 0xFF. *)
Lemma utf8_no_ff s : utf8 s -> ~ In xff s.
Proof.
  induction 1 as [|c s Hc Hs IH]; [simpl; tauto|].
  rewrite in_app_iff. intros [H|H]; [|exact (IH H)].
  destruct (utf8_char_shape c Hc) as (b & cs & -> & _ & Hcs & Hw).
  destruct H as [->|H].
  - simpl in Hc. destruct cs as [|b2 [|b3 [|b4 [|b5 cs]]]]; simpl in Hc; discriminate.
  - rewrite forallb_forall in Hcs. specialize (Hcs _ H). discriminate.
Qed.

Lemma hs_str_inj s s' r r' :
  utf8 s -> utf8 s' -> hs_str s ++ r = hs_str s' ++ r' -> s = s' /\ r = r'.
Proof.
  intros Hs Hs'. apply utf8_no_ff in Hs. apply utf8_no_ff in Hs'. unfold hs_str.
  revert s' Hs'. induction s as [|x s IH]; intros [|y s'] Hs' H; simpl in H.
  - inversion H. auto.
  - inversion H; subst. exfalso. apply Hs'. left. reflexivity.
  - inversion H; subst. exfalso. apply Hs. left. reflexivity.
  - inversion H; subst. destruct (IH) with (s' := s') as [-> ->]; auto.
    + intros Hx. apply Hs. right. exact Hx.
    + intros Hx. apply Hs'. right. exact Hx.
Qed.

Lemma hs_u64_01 : hs_u64 0 <> hs_u64 1.
Proof. discriminate. Qed.

Lemma hs_opt_str_inj o o' r r' :
  opt_utf8 o -> opt_utf8 o' ->
  hs_opt hs_str o ++ r = hs_opt hs_str o' ++ r' -> o = o' /\ r = r'.
Proof.
  intros Ho Ho' H. destruct o as [s|], o' as [s'|]; unfold hs_opt in H; rewrite <- ?app_assoc in H.
  - apply app_inv_head in H. destruct (hs_str_inj s s' r r' Ho Ho' H) as [-> ->]. auto.
  - apply app_inj_len in H; [|reflexivity]. destruct H as [H _]. discriminate.
  - apply app_inj_len in H; [|reflexivity]. destruct H as [H _]. discriminate.
  - apply app_inv_head in H. auto.
Qed.

Lemma hs_opt_u64_inj o o' r r' :
  opt_fits o -> opt_fits o' ->
  hs_opt hs_u64 o ++ r = hs_opt hs_u64 o' ++ r' -> o = o' /\ r = r'.
Proof.
  intros Ho Ho' H. destruct o as [s|], o' as [s'|]; unfold hs_opt in H; rewrite <- ?app_assoc in H.
  - apply app_inv_head in H. apply app_inj_len in H; [|rewrite !hs_u64_length; reflexivity].
    destruct H as [H ->]. apply hs_u64_inj in H; [|exact Ho|exact Ho']. subst. auto.
  - apply app_inj_len in H; [|reflexivity]. destruct H as [H _]. discriminate.
  - apply app_inj_len in H; [|reflexivity]. destruct H as [H _]. discriminate.
  - apply app_inv_head in H. auto.
Qed.

(** The bounds start with a word that is 0 or 1. *)
Lemma hs_opt_u64_start (o : option N) r :
  exists b q, hs_opt hs_u64 o ++ r = b :: x00 :: x00 :: x00 :: x00 :: x00 :: x00 :: x00 :: q /\
              (b = x00 \/ b = x01).
Proof. destruct o; simpl; eexists; eexists; (split; [reflexivity|]); auto. Qed.

Definition bounds (mn mx : option N) : list byte := hs_opt hs_u64 mn ++ hs_opt hs_u64 mx.

Lemma bounds_length mn mx :
  length (bounds mn mx) = 16 \/ length (bounds mn mx) = 24 \/ length (bounds mn mx) = 32.
Proof. unfold bounds. rewrite app_length. destruct mn, mx; simpl; auto. Qed.

Lemma sorted_prefix_eq (S1 S2 : list byte) m1 x1 m2 x2 :
  StronglySorted byte_lt S1 -> S1 ++ bounds m1 x1 = S2 ++ bounds m2 x2 ->
  length S2 < length S1 -> False.
Proof.
  intros HS H L.
  assert (length S1 + length (bounds m1 x1) = length S2 + length (bounds m2 x2)) as HL.
  { rewrite <- !app_length. congruence. }
  assert (length S2 + 8 <= length S1) as L8.
  { destruct (bounds_length m1 x1) as [A|[A|A]], (bounds_length m2 x2) as [B|[B|B]]; lia. }
  (* S1 = S2 ++ first bytes of the bounds *)
  destruct (hs_opt_u64_start m2 (hs_opt hs_u64 x2)) as (b & q & E & Hb).
  unfold bounds in H at 2. rewrite E in H.
  assert (exists S', S1 = S2 ++ S') as (S' & ->).
  { apply (prefix_comparable S2 S1 (S1 ++ bounds m1 x1)).
    - rewrite H. eexists. reflexivity.
    - eexists. reflexivity.
    - lia. }
  rewrite <- app_assoc in H. apply app_inv_head in H.
  rewrite app_length in L8.
  destruct S' as [|c0 [|c1 [|c2 S']]]; simpl in L8; try lia.
  simpl in H. injection H as -> -> -> _.
  apply StronglySorted_app in HS. destruct HS as (_ & HS & _).
  inversion HS as [|? ? HS1 _]; subst. inversion HS1 as [|? ? _ F]; subst.
  inversion F as [|? ? F1 _]; subst. unfold byte_lt in F1. lia.
Qed.

Lemma set_bounds_inj (S1 S2 : list byte) m1 x1 m2 x2 :
  StronglySorted byte_lt S1 -> StronglySorted byte_lt S2 ->
  opt_fits m1 -> opt_fits x1 -> opt_fits m2 -> opt_fits x2 ->
  S1 ++ bounds m1 x1 = S2 ++ bounds m2 x2 -> S1 = S2 /\ m1 = m2 /\ x1 = x2.
Proof.
  intros H1 H2 Fm1 Fx1 Fm2 Fx2 H.
  destruct (Nat.lt_trichotomy (length S1) (length S2)) as [L|[L|L]].
  - exfalso. symmetry in H. apply (sorted_prefix_eq _ _ _ _ _ _ H2 H L).
  - apply app_inj_len in H; [|exact L]. destruct H as [-> H].
    unfold bounds in H. apply hs_opt_u64_inj in H; [|exact Fm1|exact Fm2].
    destruct H as [-> H].
    assert (hs_opt hs_u64 x1 ++ [] = hs_opt hs_u64 x2 ++ []) as H' by (rewrite !app_nil_r; exact H).
    apply hs_opt_u64_inj in H'; [|exact Fx1|exact Fx2]. destruct H' as [-> _]. auto.
  - exfalso. apply (sorted_prefix_eq _ _ _ _ _ _ H1 H L).
Qed.

(** Parsers as Rust can hold them: UTF-8 strings, usize bounds, a BTreeSet. *)
Lemma hs_set_inj s s' : valid_set s -> valid_set s' -> hs_set s = hs_set s' -> s = s'.
Proof.
  intros (N1 & S1 & M1 & X1) (N2 & S2 & M2 & X2) H. unfold hs_set in H.
  apply hs_opt_str_inj in H; [|exact N1|exact N2]. destruct H as [HN H].
  apply set_bounds_inj in H; auto. destruct H as (HS & HM & HX).
  destruct s, s'; simpl in *; congruence.
Qed.

Lemma hs_greedy_inj g g' :
  valid_parser (PGreedy g) -> valid_parser (PGreedy g') -> hs_greedy g = hs_greedy g' -> g = g'.
Proof.
  intros (N1 & E1) (N2 & E2) H. unfold hs_greedy in H.
  apply hs_opt_str_inj in H; [|exact N1|exact N2]. destruct H as [HN H].
  assert (hs_opt hs_str (gp_end_string g) ++ [] = hs_opt hs_str (gp_end_string g') ++ []) as H'
    by (rewrite !app_nil_r; exact H).
  apply hs_opt_str_inj in H'; [|exact E1|exact E2]. destruct H' as [HE _].
  destruct g, g'; simpl in *; congruence.
Qed.

Lemma hash_stream_inj p q :
  valid_parser p -> valid_parser q -> (hash_stream p = hash_stream q <-> p = q).
Proof.
  intros Hp Hq. split; [|congruence].
  destruct p as [s|s|g], q as [s'|s'|g']; simpl; intros H; try discriminate H.
  - repeat (injection H as H). apply hs_set_inj in H; [congruence|exact Hp|exact Hq].
  - repeat (injection H as H). apply hs_set_inj in H; [congruence|exact Hp|exact Hq].
  - repeat (injection H as H). apply hs_greedy_inj in H; [congruence|exact Hp|exact Hq].
Qed.

(** A structural comparison agreeing with it, for use in specifications. *)
Lemma set_new_valid set name mn mx :
  opt_utf8 name -> opt_fits mn -> opt_fits mx ->
  valid_set (set_set_max_length (set_set_min_length (set_set_name (set_new set) name) mn) mx).
Proof.
  intros Hn Hm Hx. repeat split; simpl; auto. apply bset_from_iter_sorted.
Qed.
