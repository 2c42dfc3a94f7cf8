(** * Proofs about how error texts are written, C147 *)
From Coq Require Import Permutation Decimal DecimalFacts DecimalNat.
From Verif Require Import Base Base_facts Pattern Grammar Source Errors Spec Spec_errors Spec_messages Grammar_claims Rustpeg Rustpeg_claims Errors_claims.

Lemma join_listed show l : listed show l (join ($", ") (map show l)).
Proof.
  induction l as [|x [|y l] IH]; [constructor|constructor|]. cbn [map join] in *. constructor. exact IH.
Qed.
Lemma listed_unique show l t t' : listed show l t -> listed show l t' -> t = t'.
Proof.
  intros H. revert t'. induction H; intros t' H'; inversion H'; subst; try reflexivity. f_equal. f_equal. apply IHlisted. assumption.
Qed.
Lemma tags_shown debug o : shown_tags debug o (debug_tags debug o).
Proof.
  destruct o as [l|]; [|constructor]. replace (debug_tags debug (Some l)) with (fill ($"Some([{}])") [join ($", ") (map debug l)]) by reflexivity.
  constructor. apply join_listed.
Qed.
Lemma tags_shown_unique debug o t t' : shown_tags debug o t -> shown_tags debug o t' -> t = t'.
Proof.
  intros H H'. destruct H; inversion H'; subst; [reflexivity|]. f_equal. f_equal. eapply listed_unique; eassumption.
Qed.

Theorem text_template debug e a : arguments hyphenated debug e a ->
  tm_error_text debug e = fill (template (kind_of e)) a.
Proof.
  intros H. destruct H.
  1-4: rewrite <- (app_nil_r (tm_error_text _ _)); unfold tm_error_text; cbn; rewrite <- ?app_assoc; cbn; rewrite ?app_nil_r; reflexivity.
  rewrite (tags_shown_unique _ _ _ _ H (tags_shown debug x)), (tags_shown_unique _ _ _ _ H0 (tags_shown debug y)).
  unfold tm_error_text. cbn. rewrite ?app_nil_r. reflexivity.
Qed.
Theorem has_arguments debug e : exists a, arguments hyphenated debug e a.
Proof. destruct e; eexists; constructor; apply tags_shown. Qed.

(** ** Numerals *)
Lemma value_uint d acc : value acc (uint_text d) = Some (Nat.of_uint_acc d acc).
Proof.
  revert acc. induction d; intros acc; cbn [uint_text value Nat.of_uint_acc]; [reflexivity|..];
    change (digit_value _) with (Some 0) || change (digit_value _) with (Some 1) || change (digit_value _) with (Some 2)
    || change (digit_value _) with (Some 3) || change (digit_value _) with (Some 4) || change (digit_value _) with (Some 5)
    || change (digit_value _) with (Some 6) || change (digit_value _) with (Some 7) || change (digit_value _) with (Some 8)
    || change (digit_value _) with (Some 9); cbv iota beta; rewrite IHd; do 2 f_equal; rewrite Nat.tail_mul_spec; lia.
Qed.
Lemma nzhead_first d e : nzhead d <> D0 e.
Proof. induction d; cbn [nzhead]; [discriminate|exact IHd|..]; discriminate. Qed.
Lemma nat_numeral n : numeral n (nat_text n).
Proof.
  pose proof (Unsigned.to_of (Nat.to_uint n)) as T. rewrite Unsigned.of_to in T.
  unfold numeral, nat_text. split; [|split].
  - intros E. destruct (Nat.to_uint n); try discriminate E. discriminate T.
  - rewrite value_uint. f_equal. apply Unsigned.of_to.
  - intros (t & E). unfold unorm in T. pose proof (nzhead_first (Nat.to_uint n)) as Z.
    destruct (nzhead (Nat.to_uint n)) eqn:Ez; rewrite T in E |- *; try discriminate E; [reflexivity|]. exfalso. exact (Z _ eq_refl).
Qed.

(** ** Terminals *)
Fixpoint listed_peg (e : peg) : bool :=
  let known x := existsb (str_eqb x) terminals in
  match e with
  | Text m => known m
  | AnyChar | Rule _ => true
  | Class c => known (class_text c)
  | Seq a b | Or a b | Sep a b => listed_peg a && listed_peg b
  | Opt a | Many a | Some_ a | Not a => listed_peg a
  end.
Lemma run_listed e s r m : run e s r m -> listed_peg e = true -> Forall (fun q => In (snd q) terminals) m.
Proof.
  assert (forall x, existsb (str_eqb x) terminals = true -> In x terminals) as K.
  { intros x H. apply existsb_exists in H. destruct H as (y & I & E). apply str_eqb_eq in E. subst. exact I. }
  induction 1; cbn [listed_peg]; intros U; try rewrite andb_true_iff in U;
    try solve [constructor]; try solve [constructor; [cbn [snd]; apply K; exact U|constructor]];
    try tauto; try (apply Forall_app; split; tauto).
  - apply IHrun. cbn [listed_peg]. rewrite U. reflexivity.
  - apply IHrun. cbn [listed_peg]. destruct U as [-> ->]. reflexivity.
  - apply IHrun. destruct n; reflexivity.
Qed.
Theorem expected_terminals s e x : utf8 s -> compile s = Ret (Err e) -> In x (pe_expected e) -> In x terminals.
Proof.
  intros U E I. destruct (compile_rustpeg s U ltac:(congruence)) as (r & m & R & H). rewrite E in H.
  destruct H as (_ & _ & _ & _ & Hx & _). apply run_listed in R; [|reflexivity].
  apply Hx in I. rewrite Forall_forall in R. exact (R _ I).
Qed.
Lemma terminal_shown x : In x terminals -> $"`" ++ escape_default x ++ $"`" = shown x.
Proof.
  assert (forallb (fun x => str_eqb ($"`" ++ escape_default x ++ $"`") (shown x)) terminals = true) as H by (vm_compute; reflexivity).
  intros I. rewrite forallb_forall in H. apply str_eqb_eq, H, I.
Qed.

Theorem parse_error_written s e it : utf8 s -> compile s = Ret (Err e) -> Permutation (pe_expected e) it ->
  exists line column list,
    numeral (pe_line e) line /\ numeral (pe_column e) column /\ listed shown it list /\
    parse_error_text e it =
      fill (match it with [_] => $"error at {}:{}: expected {}" | _ => $"error at {}:{}: expected one of {}" end) [line; column; list].
Proof.
  intros U E P. exists (nat_text (pe_line e)), (nat_text (pe_column e)), (join ($", ") (map shown it)).
  split; [apply nat_numeral|]. split; [apply nat_numeral|]. split; [apply join_listed|].
  assert (Forall (fun x => In x terminals) it) as F.
  { apply Forall_forall. intros x I. apply (expected_terminals s e x U E). apply (Permutation_in x (Permutation_sym P) I). }
  destruct (compile_error s e U E) as (_ & _ & N & _).
  assert (it <> []) as Nit by (intros ->; apply Permutation_sym, Permutation_nil in P; contradiction).
  clear P. destruct it as [|x it]; [contradiction|]. inversion F as [|? ? Hx Fit]; subst.
  unfold parse_error_text. destruct it as [|y it].
  - rewrite (terminal_shown x Hx). cbn [map join]. cbn. rewrite app_nil_r. reflexivity.
  - assert (flat_map (fun z => $", `" ++ escape_default z ++ $"`") (y :: it) = $", " ++ join ($", ") (map shown (y :: it))) as J.
    { clear -Fit. revert y Fit. induction it as [|z it IH]; intros y Fit; inversion Fit as [|? ? Hy Fit']; subst.
      - cbn [flat_map map join]. rewrite app_nil_r, <- (terminal_shown y Hy). reflexivity.
      - specialize (IH z Fit'). cbn [flat_map] in IH |- *. rewrite IH. cbn [map join]. rewrite <- (terminal_shown y Hy).
        change ($", `") with ($", " ++ $"`"). rewrite <- !app_assoc. reflexivity. }
    cbn [map join]. rewrite J. change ($"one of `" ++ escape_default x ++ $"`" ++ $", " ++ join ($", ") (map shown (y :: it)))
      with ($"one of " ++ $"`" ++ escape_default x ++ $"`" ++ $", " ++ join ($", ") (map shown (y :: it))).
    replace ($"`" ++ escape_default x ++ $"`" ++ $", " ++ join ($", ") (map shown (y :: it)))
      with (shown x ++ $", " ++ join ($", ") (map shown (y :: it))) by (rewrite <- (terminal_shown x Hx), <- !app_assoc; reflexivity).
    cbn. rewrite ?app_nil_r. reflexivity.
Qed.
