(** * Proofs of the statements in Properties_errors.v *)
From Coq Require Import Permutation DecimalNat.
From Verif Require Import Base Base_facts Pattern Grammar Grammar_claims Rustpeg Rustpeg_claims Source Errors Spec Spec_errors.

(** ** Hyphenated uuids *)
Definition unhex_digit (b : byte) : N :=
  match b with
  | x30 => 0 | x31 => 1 | x32 => 2 | x33 => 3 | x34 => 4 | x35 => 5 | x36 => 6 | x37 => 7 | x38 => 8
  | x39 => 9 | x61 => 10 | x62 => 11 | x63 => 12 | x64 => 13 | x65 => 14 | _ => 15
  end.
Lemma unhex_byte b :
  exists c d, hex_byte b = [c; d] /\ Byte.of_N (unhex_digit c * 16 + unhex_digit d) = Some b /\
    lower_hex c /\ lower_hex d.
Proof.
  do 2 eexists. split; [reflexivity|].
  destruct b; (split; [vm_compute; reflexivity|]); split; unfold lower_hex; vm_compute; tauto.
Qed.

Lemma hex_byte_inj a b : hex_byte a = hex_byte b -> a = b.
Proof.
  intros H. destruct (unhex_byte a) as (c & d & E & Ea & _). destruct (unhex_byte b) as (c' & d' & E' & Eb & _).
  rewrite E, E' in H. injection H as <- <-. rewrite Ea in Eb. injection Eb. trivial.
Qed.

Lemma hex_cons b s : hex (b :: s) = hex_byte b ++ hex s.
Proof. reflexivity. Qed.

Lemma hex_length s : length (hex s) = 2 * length s.
Proof.
  induction s as [|b s IH]; [reflexivity|]. rewrite hex_cons, app_length, IH. simpl. lia.
Qed.

Lemma hex_inj s t : hex s = hex t -> s = t.
Proof.
  revert t. induction s as [|b s IH]; intros [|c t] H; [reflexivity|discriminate H|discriminate H|].
  rewrite !hex_cons in H.
  assert (hex_byte b = hex_byte c /\ hex s = hex t) as [H1 H2].
  { revert H. destruct (unhex_byte b) as (x & y & -> & _). destruct (unhex_byte c) as (x' & y' & -> & _).
    simpl. intros H. injection H as <- <- H. auto. }
  rewrite (hex_byte_inj _ _ H1), (IH _ H2). reflexivity.
Qed.

Lemma hex_lower s : Forall lower_hex (hex s).
Proof.
  induction s as [|b s IH]; [constructor|]. rewrite hex_cons. apply Forall_app. split; [|exact IH].
  destruct (unhex_byte b) as (x & y & -> & _ & Hx & Hy). constructor; [exact Hx|constructor; [exact Hy|constructor]].
Qed.

Lemma app_same_length {A} (a b x y : list A) : length a = length b -> a ++ x = b ++ y -> a = b /\ x = y.
Proof.
  revert b. induction a as [|c a IH]; intros [|d b] L H; try discriminate L; simpl in *; [auto|].
  injection H as <- H. destruct (IH b) as [-> ->]; [lia|exact H|auto].
Qed.

Lemma hyphenated_shape u : sixteen_bytes u ->
  exists a b c d e, hyphenated u = a ++ $"-" ++ b ++ $"-" ++ c ++ $"-" ++ d ++ $"-" ++ e /\
    length a = 8 /\ length b = 4 /\ length c = 4 /\ length d = 4 /\ length e = 12 /\
    Forall lower_hex (a ++ b ++ c ++ d ++ e).
Proof.
  intros L. unfold sixteen_bytes in L. do 5 eexists. split; [reflexivity|].
  rewrite !hex_length, !firstn_length, !skipn_length, L.
  repeat split. rewrite !Forall_app. repeat split; apply hex_lower.
Qed.

Lemma hyphenated_length u : sixteen_bytes u -> length (hyphenated u) = 36.
Proof.
  intros L. destruct (hyphenated_shape u L) as (a & b & c & d & e & -> & H1 & H2 & H3 & H4 & H5 & _).
  rewrite !app_length, H1, H2, H3, H4, H5. reflexivity.
Qed.

Lemma hyphenated_inj u v : sixteen_bytes u -> sixteen_bytes v -> hyphenated u = hyphenated v -> u = v.
Proof.
  unfold sixteen_bytes, hyphenated. intros L M H.
  assert (forall x y n k, length x = 16 -> length y = 16 ->
            length (hex (firstn n (skipn k x))) = length (hex (firstn n (skipn k y)))) as E.
  { intros x y n k H1 H2. rewrite !hex_length, !firstn_length, !skipn_length, H1, H2. reflexivity. }
  apply app_same_length in H as [H1 H]; [|apply (E u v 4 0 L M)]. apply app_inv_head in H.
  apply app_same_length in H as [H2 H]; [|apply (E u v 2 4 L M)]. apply app_inv_head in H.
  apply app_same_length in H as [H3 H]; [|apply (E u v 2 6 L M)]. apply app_inv_head in H.
  apply app_same_length in H as [H4 H]; [|apply (E u v 2 8 L M)]. apply app_inv_head in H.
  apply hex_inj in H, H1, H2, H3, H4.
  do 17 (destruct u as [|? u]; try discriminate L). do 17 (destruct v as [|? v]; try discriminate M).
  simpl in *. injection H1 as -> -> -> ->. injection H2 as -> ->. injection H3 as -> ->. injection H4 as -> ->.
  injection H as -> -> -> -> -> ->. reflexivity.
Qed.

Lemma hyphenated_app u v x y : sixteen_bytes u -> sixteen_bytes v ->
  hyphenated u ++ x = hyphenated v ++ y -> u = v /\ x = y.
Proof.
  intros L M H. apply app_same_length in H; [|rewrite !hyphenated_length; trivial].
  destruct H as [H ->]. split; [apply hyphenated_inj; assumption|reflexivity].
Qed.

(** ** Test message errors *)
Lemma text_kind_uuid debug e e' :
  Forall sixteen_bytes (uuids_of e) -> Forall sixteen_bytes (uuids_of e') ->
  tm_error_text debug e = tm_error_text debug e' -> kind_of e = kind_of e' /\ uuids_of e = uuids_of e'.
Proof.
  intros U V H.
  destruct e, e'; try (exfalso; cbn in H; discriminate H); unfold tm_error_text in H; apply app_inv_head in H;
    simpl in U, V; inversion U; inversion V; subst;
    apply hyphenated_app in H as [<- H]; try assumption; split; try reflexivity.
  apply app_inv_head in H. inversion H3; inversion H7; subst.
  apply hyphenated_app in H as [<- H]; try assumption. reflexivity.
Qed.

Lemma debug_list_inj debug l l' x y : quoting debug ->
  join ($", ") (map debug l) ++ $"]" ++ x = join ($", ") (map debug l') ++ $"]" ++ y -> l = l' /\ x = y.
Proof.
  intros [Q D]. revert l'. induction l as [|a l IH]; intros [|b l'] H.
  - split; [reflexivity|]. simpl in H. injection H. trivial.
  - exfalso. destruct (Q b) as [t E]. simpl in H. destruct l'; simpl in H; rewrite E in H; discriminate H.
  - exfalso. destruct (Q a) as [t E]. simpl in H. destruct l; simpl in H; rewrite E in H; discriminate H.
  - assert (forall c k, join ($", ") (map debug (c :: k)) =
              debug c ++ match k with [] => [] | _ => $", " ++ join ($", ") (map debug k) end) as J.
    { intros c [|d k]; [symmetry; apply app_nil_r|reflexivity]. }
    rewrite !J, <- !app_assoc in H. apply D in H as [-> H].
    destruct l as [|a' l], l' as [|b' l'].
    + simpl in H. injection H. auto.
    + discriminate H.
    + discriminate H.
    + rewrite <- !app_assoc in H. apply app_inv_head in H. apply IH in H as [-> ->]. auto.
Qed.

Lemma debug_tags_inj debug o o' x y : quoting debug ->
  debug_tags debug o ++ x = debug_tags debug o' ++ y -> o = o' /\ x = y.
Proof.
  intros Q. destruct o as [l|], o' as [l'|]; unfold debug_tags; intros H; try discriminate H.
  - rewrite <- !app_assoc in H. apply app_inv_head in H.
    change ($"])") with ($"]" ++ $")") in H. rewrite <- !app_assoc in H.
    apply debug_list_inj in H as [-> H]; [|exact Q]. apply app_inv_head in H. auto.
  - apply app_inv_head in H. auto.
Qed.

Lemma text_inj debug e e' : quoting debug ->
  Forall sixteen_bytes (uuids_of e) -> Forall sixteen_bytes (uuids_of e') -> kind_of e <> KValue ->
  tm_error_text debug e = tm_error_text debug e' -> e = e'.
Proof.
  intros Q U V K H. destruct (text_kind_uuid debug e e' U V H) as [H1 H2].
  destruct e, e'; try discriminate H1; simpl in H2; injection H2; intros; subst; try (now contradiction K);
    unfold tm_error_text in H; repeat (apply app_inv_head in H).
  - subst. reflexivity.
  - apply app_inv_tail in H. subst. reflexivity.
  - apply app_inv_tail in H. subst. reflexivity.
  - apply debug_tags_inj in H as [-> H]; [|exact Q]. apply app_inv_head in H.
    assert (debug_tags debug got ++ [] = debug_tags debug got0 ++ []) as G by (rewrite !app_nil_r; exact H).
    apply debug_tags_inj in G as [-> _]; [|exact Q]. reflexivity.
Qed.

(** The pieces of a text that all have to be there. *)
Lemma contains_app_l s a t : contains s t -> contains (a ++ s) t.
Proof. intros (x & y & ->). exists (a ++ x), y. rewrite !app_assoc. reflexivity. Qed.
Lemma contains_here t b : contains (t ++ b) t.
Proof. exists [], b. reflexivity. Qed.
Lemma contains_all t : contains t t.
Proof. exists [], []. rewrite app_nil_r. reflexivity. Qed.
Lemma contains_app_r s b t : contains s t -> contains (s ++ b) t.
Proof. intros (x & y & ->). exists x, (y ++ b). rewrite !app_assoc. reflexivity. Qed.

Lemma join_contains sep l t : In t l -> contains (join sep l) t.
Proof.
  induction l as [|x l IH]; [intros []|]. intros [->|H]; destruct l as [|y l].
  - apply contains_all.
  - apply contains_here.
  - destruct H.
  - change (contains (x ++ sep ++ join sep (y :: l)) t). do 2 apply contains_app_l. auto.
Qed.

Ltac look := repeat first [apply contains_all | apply contains_here | apply contains_app_l].
Lemma text_complete debug e :
  (forall u, In u (uuids_of e) -> contains (tm_error_text debug e) (hyphenated u)) /\
  (forall t, In t (texts_of e) -> contains (tm_error_text debug e) t) /\
  (forall t, In t (tags_of e) -> contains (tm_error_text debug e) (debug t)).
Proof.
  assert (forall l t, In t l -> contains (debug_tags debug (Some l)) (debug t)) as T.
  { intros l t H. unfold debug_tags. apply contains_app_l, contains_app_r, join_contains, in_map, H. }
  repeat split; destruct e; simpl uuids_of; simpl texts_of; simpl tags_of; intros x H;
    simpl in H; unfold tm_error_text; try contradiction;
    repeat match goal with
    | [ H : _ \/ _ |- _ ] => destruct H as [<-|H]
    | [ H : False |- _ ] => destruct H
    end; try (look; fail).
  apply in_app_iff in H as [H|H].
  - destruct expected as [l|]; [|destruct H]. do 3 apply contains_app_l. apply contains_app_r, T, H.
  - destruct got as [l|]; [|destruct H]. do 5 apply contains_app_l. apply T, H.
Qed.

Lemma text_description debug e : kind_of e <> KNoMatch ->
  exists t, tm_error_text debug e = tm_error_description e ++ $": " ++ t.
Proof.
  intros K. destruct e; try (now contradiction K); unfold tm_error_text, tm_error_description.
  - change ($"A parsed value does not equal to its expected value: uuid=") with
      ($"A parsed value does not equal to its expected value" ++ $": " ++ $"uuid=").
    rewrite <- !app_assoc. eexists. reflexivity.
  - change ($"A parsed key in not found among the expected ones: uuid=") with
      ($"A parsed key in not found among the expected ones" ++ $": " ++ $"uuid=").
    rewrite <- !app_assoc. eexists. reflexivity.
  - change ($"The test message matched to an other pattern: expected_uuid=") with
      ($"The test message matched to an other pattern" ++ $": " ++ $"expected_uuid=").
    rewrite <- !app_assoc. eexists. reflexivity.
  - change ($"Unexpected tags found either in the parse result or among the expected ones: uuid=") with
      ($"Unexpected tags found either in the parse result or among the expected ones" ++ $": " ++ $"uuid=").
    rewrite <- !app_assoc. eexists. reflexivity.
Qed.

Lemma description_kind e e' : tm_error_description e = tm_error_description e' <-> kind_of e = kind_of e'.
Proof.
  split; destruct e, e'; intros H; try reflexivity; discriminate H.
Qed.

(** ** Parse errors *)
Lemma uint_text_inj d d' : uint_text d = uint_text d' -> d = d'.
Proof.
  revert d'. induction d; intros [] H; try discriminate H; try reflexivity;
    simpl in H; injection H as H; f_equal; auto.
Qed.
Lemma nat_text_inj n m : nat_text n = nat_text m -> n = m.
Proof. intros H. apply uint_text_inj in H. exact (Unsigned.to_uint_inj _ _ H). Qed.
Definition decimal (b : byte) : Prop := In b ($"0123456789").
Lemma uint_text_digits d : Forall decimal (uint_text d).
Proof. induction d; constructor; try assumption; unfold decimal; vm_compute; tauto. Qed.
Lemma digits_app a b x y : Forall decimal a -> Forall decimal b ->
  a ++ $":" ++ x = b ++ $":" ++ y -> a = b /\ x = y.
Proof.
  revert b. induction a as [|c a IH]; intros [|d b] A B H.
  - simpl in H. injection H. auto.
  - exfalso. inversion B as [|? ? B1 _]; subst. injection H as <- _. revert B1. unfold decimal. vm_compute.
    intuition discriminate.
  - exfalso. inversion A as [|? ? B1 _]; subst. injection H as -> _. revert B1. unfold decimal. vm_compute.
    intuition discriminate.
  - inversion A; inversion B; subst. injection H as <- H. destruct (IH b) as [-> ->]; auto.
Qed.

Lemma parse_text_position e it e' it' : parse_error_text e it = parse_error_text e' it' ->
  pe_line e = pe_line e' /\ pe_column e = pe_column e'.
Proof.
  unfold parse_error_text. intros H. apply app_inv_head in H.
  apply digits_app in H as [H1 H]; try apply uint_text_digits.
  change ($": expected ") with ($":" ++ $" expected ") in H. rewrite <- !app_assoc in H.
  apply digits_app in H as [H2 _]; try apply uint_text_digits.
  split; apply nat_text_inj; assumption.
Qed.

Lemma parse_text_lists e it x : In x it -> contains (parse_error_text e it) ($"`" ++ escape_default x ++ $"`").
Proof.
  intros H. unfold parse_error_text. do 5 apply contains_app_l. destruct it as [|y [|z it]]; [destruct H| |].
  - destruct H as [->|[]]. apply contains_all.
  - destruct H as [->|H].
    + change ($"one of `") with ($"one of " ++ $"`"). rewrite <- app_assoc. apply contains_app_l.
      exists [], (flat_map (fun y => $", `" ++ escape_default y ++ $"`") (z :: it)).
      rewrite <- !app_assoc. reflexivity.
    + do 3 apply contains_app_l. remember (z :: it) as l eqn:E. clear E z it.
      induction l as [|z l IH]; [destruct H|]. destruct H as [->|H].
      * cbn [flat_map]. apply contains_app_r. change ($", `") with ($", " ++ $"`").
        exists ($", "), []. rewrite <- !app_assoc, app_nil_r. reflexivity.
      * cbn [flat_map]. apply contains_app_l, IH, H.
Qed.

(** Escaping *)
Definition all_bytes : list byte :=
  flat_map (fun n => match Byte.of_nat n with Some b => [b] | None => [] end) (List.seq 0 256).
Lemma all_bytes_all b : In b all_bytes.
Proof.
  unfold all_bytes. apply in_flat_map. exists (Byte.to_nat b). split.
  - apply in_seq. pose proof (Byte.to_nat_bounded b). lia.
  - rewrite Byte.of_to_nat. left. reflexivity.
Qed.
Fixpoint prefixb (a b : str) : bool :=
  match a, b with
  | [], _ => true
  | x :: a', y :: b' => Byte.eqb x y && prefixb a' b'
  | _, _ => false
  end.
Lemma app_prefixb a b x y : a ++ x = b ++ y -> prefixb a b = true \/ prefixb b a = true.
Proof.
  revert b. induction a as [|c a IH]; intros [|d b] H; simpl; auto.
  injection H as <- H. rewrite (Byte.byte_dec_lb (x := c) eq_refl).
  simpl. apply IH, H.
Qed.
Lemma escape_prefix a b : prefixb (escape_default_byte a) (escape_default_byte b) = true -> a = b.
Proof.
  assert (forallb (fun a => forallb (fun b =>
            if prefixb (escape_default_byte a) (escape_default_byte b) then Byte.eqb a b else true)
            all_bytes) all_bytes = true) as H by (vm_compute; reflexivity).
  rewrite forallb_forall in H. specialize (H a (all_bytes_all a)).
  rewrite forallb_forall in H. specialize (H b (all_bytes_all b)). cbv beta in H.
  intros E. rewrite E in H. apply Byte.byte_dec_bl, H.
Qed.
Lemma escape_nonempty a : escape_default_byte a <> [].
Proof. destruct a; discriminate. Qed.
Lemma escape_inj s t : escape_default s = escape_default t -> s = t.
Proof.
  revert t. induction s as [|a s IH]; intros [|b t] H.
  - reflexivity.
  - exfalso. unfold escape_default in H. cbn [flat_map] in H. symmetry in H. apply app_eq_nil in H as [H _].
    exact (escape_nonempty _ H).
  - exfalso. unfold escape_default in H. cbn [flat_map] in H. apply app_eq_nil in H as [H _].
    exact (escape_nonempty _ H).
  - unfold escape_default in H. cbn [flat_map] in H.
    assert (a = b) as <-.
    { destruct (app_prefixb _ _ _ _ H) as [E|E]; apply escape_prefix in E; auto. }
    apply app_inv_head in H. rewrite (IH t H). reflexivity.
Qed.
Lemma escape_tick s : ~ In x60 s -> ~ In x60 (escape_default s).
Proof.
  intros N H. apply in_flat_map in H as (b & I & H). assert (b = x60) as ->; [|contradiction].
  clear -H. destruct b; try reflexivity; exfalso; vm_compute in H; intuition discriminate.
Qed.
Lemma tick_split a b x y : ~ In x60 a -> ~ In x60 b -> a ++ $"`" ++ x = b ++ $"`" ++ y -> a = b /\ x = y.
Proof.
  revert b. induction a as [|c a IH]; intros [|d b] A B H.
  - simpl in H. injection H. auto.
  - exfalso. injection H as <- _. apply B. left. reflexivity.
  - exfalso. injection H as -> _. apply A. left. reflexivity.
  - injection H as <- H. destruct (IH b) as [-> ->]; [firstorder|firstorder|exact H|auto].
Qed.

Definition listing (it : list str) : str :=
  match it with
  | [] => $"EOF"
  | [x] => $"`" ++ escape_default x ++ $"`"
  | x :: rest => $"one of `" ++ escape_default x ++ $"`" ++
                 flat_map (fun y => $", `" ++ escape_default y ++ $"`") rest
  end.
Lemma rest_inj l l' : Forall (fun x => ~ In x60 x) l -> Forall (fun x => ~ In x60 x) l' ->
  flat_map (fun y => $", `" ++ escape_default y ++ $"`") l =
  flat_map (fun y => $", `" ++ escape_default y ++ $"`") l' -> l = l'.
Proof.
  revert l'. induction l as [|x l IH]; intros [|x' l'] F F' H; [reflexivity|discriminate H|discriminate H|].
  cbn [flat_map] in H. rewrite <- !app_assoc in H. apply app_inv_head in H. inversion F; inversion F'; subst.
  apply tick_split in H as [H1 H]; try (apply escape_tick; assumption).
  apply escape_inj in H1. apply IH in H; try assumption. subst. reflexivity.
Qed.
Lemma listing_inj it it' : Forall (fun x => ~ In x60 x) it -> Forall (fun x => ~ In x60 x) it' ->
  listing it = listing it' -> it = it'.
Proof.
  intros F F' H. destruct it as [|x [|y l]], it' as [|x' [|y' l']]; try discriminate H; try reflexivity.
  - unfold listing in H. apply app_inv_head in H. inversion F; inversion F'; subst.
    apply app_inv_tail in H. apply escape_inj in H. subst. reflexivity.
  - unfold listing in H. apply app_inv_head in H. inversion F; inversion F'; subst.
    apply tick_split in H as [H1 H]; try (apply escape_tick; assumption).
    apply escape_inj in H1. apply rest_inj in H; try assumption. congruence.
Qed.

Fixpoint untickedb (e : peg) : bool :=
  match e with
  | Text m => negb (existsb (Byte.eqb x60) m)
  | AnyChar | Rule _ => true
  | Class c => negb (existsb (Byte.eqb x60) (class_text c))
  | Seq a b | Or a b | Sep a b => untickedb a && untickedb b
  | Opt a | Many a | Some_ a | Not a => untickedb a
  end.
Lemma run_unticked e s r m : run e s r m -> untickedb e = true -> Forall (fun q => ~ In x60 (snd q)) m.
Proof.
  assert (forall l, negb (existsb (Byte.eqb x60) l) = true -> ~ In x60 l) as N.
  { intros l H I. apply negb_true_iff in H. assert (existsb (Byte.eqb x60) l = true); [|congruence].
    apply existsb_exists. exists x60. split; [exact I|reflexivity]. }
  induction 1; cbn [untickedb]; intros U; try rewrite andb_true_iff in U;
    try solve [constructor]; try solve [constructor; [cbn [snd]; apply N; exact U|constructor]];
    try tauto; try (apply Forall_app; split; tauto).
  - apply IHrun. cbn [untickedb]. rewrite U. reflexivity.
  - apply IHrun. cbn [untickedb]. destruct U as [-> ->]. reflexivity.
  - apply IHrun. destruct n; reflexivity.
Qed.

Lemma compile_unticked s e : utf8 s -> compile s = Ret (Err e) -> Forall (fun x => ~ In x60 x) (pe_expected e).
Proof.
  intros U E. destruct (compile_rustpeg s U ltac:(congruence)) as (r & m & R & H). rewrite E in H.
  destruct H as (_ & _ & _ & _ & Hx & _). apply run_unticked in R; [|reflexivity].
  apply Forall_forall. intros x I. apply Hx in I. rewrite Forall_forall in R. exact (R _ I).
Qed.

Lemma compile_error_text s e it s' e' it' :
  utf8 s -> compile s = Ret (Err e) -> Permutation (pe_expected e) it ->
  utf8 s' -> compile s' = Ret (Err e') -> Permutation (pe_expected e') it' ->
  parse_error_text e it = parse_error_text e' it' ->
  pe_line e = pe_line e' /\ pe_column e = pe_column e' /\ Permutation (pe_expected e) (pe_expected e').
Proof.
  intros U E P U' E' P' H. destruct (parse_text_position _ _ _ _ H) as [L C].
  split; [exact L|]. split; [exact C|].
  assert (listing it = listing it') as T.
  { unfold parse_error_text in H. rewrite L, C in H. exact (app_inv_head _ _ _ (app_inv_head _ _ _ (app_inv_head _ _ _ (app_inv_head _ _ _ (app_inv_head _ _ _ H))))). }
  apply compile_unticked in E, E'; try assumption.
  apply listing_inj in T.
  - subst. rewrite P, P'. reflexivity.
  - apply (Permutation_Forall P E).
  - apply (Permutation_Forall P' E').
Qed.

Lemma compile_error_no_eof s e it : utf8 s -> compile s = Ret (Err e) -> Permutation (pe_expected e) it ->
  exists t, parse_error_text e it =
    $"error at " ++ nat_text (pe_line e) ++ $":" ++ nat_text (pe_column e) ++ $": expected " ++ t /\ t <> $"EOF".
Proof.
  intros U E P. exists (listing it). split; [reflexivity|]. intros H.
  destruct (compile_error s e U E) as (_ & _ & N & _). destruct it as [|x [|y l]]; [|discriminate H|discriminate H].
  symmetry in P. apply Permutation_nil in P. contradiction.
Qed.

(** ** Loading errors *)
Lemma build_text_kinds debug e e' :
  match e, e' with
  | (TestMessageError _ | UnsupportedFileExtension | NotUtf8FileName), (Io _ | DeserJson _ | DeserYaml _) => True
  | (Io _ | DeserJson _ | DeserYaml _), _ => True
  | TestMessageError x, TestMessageError y =>
      build_error_text debug e = build_error_text debug e' <-> tm_error_text debug x = tm_error_text debug y
  | _, _ => build_error_text debug e = build_error_text debug e' -> e = e'
  end.
Proof.
  destruct e as [x|x|x|x| |], e' as [y|y|y|y| |]; try exact I; try reflexivity;
    try (intros H; reflexivity); intros H; exfalso; try destruct x; try destruct y; discriminate H.
Qed.

Lemma debug_ascii_quoting : quoting debug_ascii.
Proof.
  assert (forall c t, escape_default_byte c ++ t <> [x22] /\ forall y, escape_default_byte c ++ t <> x22 :: y) as N.
  { intros c t. split; [|intros y]; destruct c; discriminate. }
  split; [intros s; eexists; reflexivity|]. unfold debug_ascii. intros a b x y H.
  rewrite <- !app_assoc in H. apply app_inv_head in H. revert b H.
  induction a as [|c a IH]; intros [|d b] H; unfold escape_default in H; cbn [flat_map] in H.
  - simpl in H. injection H. auto.
  - exfalso. simpl in H. rewrite <- !app_assoc in H. symmetry in H. exact (proj2 (N _ _) _ H).
  - exfalso. simpl in H. rewrite <- !app_assoc in H. exact (proj2 (N _ _) _ H).
  - rewrite <- !app_assoc in H. assert (c = d) as <-.
    { destruct (app_prefixb _ _ _ _ H) as [E|E]; apply escape_prefix in E; auto. }
    apply app_inv_head in H. apply IH in H as [-> ->]. auto.
Qed.
