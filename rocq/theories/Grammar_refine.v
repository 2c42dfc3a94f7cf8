(** * The rules of Grammar.v agree with Peg.v *)
From Verif Require Import Base Base_facts Utils Utils_facts Parsers Pattern Spec Grammar Peg.

(** ** Strings *)
Lemma strip_some m s r : strip m s = Some r <-> s = m ++ r.
Proof.
  revert s. induction m as [|x m IH]; intros s; simpl.
  - split; intros H; [inversion H|subst]; reflexivity.
  - destruct s as [|y s]; [split; discriminate|]. destruct (byte_eqb x y) eqn:E.
    + apply byte_eqb_eq in E. subst. rewrite IH. split; intros H; [subst; reflexivity|inversion H; reflexivity].
    + apply byte_eqb_neq in E. split; [discriminate|]. intros H. inversion H. congruence.
Qed.

Lemma strip_none m s : strip m s = None <-> prefixb m s = false.
Proof.
  destruct (strip m s) as [r|] eqn:E.
  - apply strip_some in E. split; [discriminate|]. intros H. assert (prefixb m s = true) by (apply prefixb_app; eauto).
    congruence.
  - split; [|reflexivity]. intros _. destruct (prefixb m s) eqn:P; [|reflexivity].
    apply prefixb_app in P. destruct P as (r & P). apply strip_some in P. congruence.
Qed.


Lemma utf8_first s : utf8 s -> s <> [] -> exists b cs r,
  s = (b :: cs) ++ r /\ utf8_char (b :: cs) = true /\ utf8 r /\ is_cont b = false /\
  forallb is_cont cs = true /\ utf8_width b = length (b :: cs).
Proof.
  intros H N. destruct H as [|c s Hc Hs]; [congruence|].
  destruct (utf8_char_shape c Hc) as (b & cs & -> & H1 & H2 & H3). exists b, cs, s. auto 10.
Qed.

Lemma utf8_boundary a b : utf8 a -> utf8 b -> is_char_boundary (a ++ b) (length a) = true.
Proof. intros _ H. apply boundary_app. right. apply utf8_head. exact H. Qed.

Lemma slice_mid a w r : utf8 a -> utf8 w -> utf8 r -> slice (a ++ w ++ r) (length a) (length a + length w) = Ret w.
Proof.
  intros Ha Hw Hr. unfold slice. rewrite (utf8_boundary a (w ++ r)); [|exact Ha|apply utf8_app; assumption].
  rewrite app_assoc, <- app_length, utf8_boundary; [|apply utf8_app; assumption|exact Hr].
  rewrite app_length. destruct (Nat.leb_spec (length a) (length a + length w)) as [_|L]; [|lia].
  cbn [andb]. f_equal. rewrite <- app_assoc, skipn_app, skipn_all, Nat.sub_diag. cbn [app skipn].
  replace (length a + length w - length a) with (length w) by lia.
  rewrite firstn_app, firstn_all, Nat.sub_diag. apply app_nil_r.
Qed.

(** ** Agreement *)
Section Refine.
  Variable input : str.

  (** What is known about the error bookkeeping. *)
  Definition okst (st : pstate) : Prop :=
    max_err_pos st <= length input /\ is_char_boundary input (max_err_pos st) = true /\
    (0 < max_err_pos st -> expected st <> []).
  Definition ext (st st' : pstate) : Prop :=
    (okst st -> okst st') /\ max_err_pos st <= max_err_pos st' /\
    (expected st <> [] -> expected st' <> []).

  Lemma ext_refl st : ext st st.
  Proof. unfold ext. auto. Qed.
  Lemma ext_trans a b c : ext a b -> ext b c -> ext a c.
  Proof. unfold ext. intros (A1 & A2 & A3) (B1 & B2 & B3). repeat split; auto; try lia; apply B1; apply A1; assumption. Qed.

  Ltac sp := repeat match goal with |- _ /\ _ => split end; auto using ext_refl, utf8_nil.

  Lemma hset_insert_nonempty x l : hset_insert x l <> [].
  Proof.
    unfold hset_insert. destruct (existsb (str_eqb x) l) eqn:E.
    - destruct l; discriminate.
    - destruct l; discriminate.
  Qed.

  Lemma ext_mark st pos e : is_char_boundary input pos = true -> ext st (mark_failure st pos e).
  Proof.
    intros B. unfold mark_failure. destruct (Nat.ltb_spec (max_err_pos st) pos) as [L|L]; cbn [max_err_pos expected].
    - rewrite Nat.eqb_refl. split; [|split]; cbn [max_err_pos expected]; try lia.
      + intros _. split; [apply boundary_le; exact B|]. split; [exact B|]. intros _. apply hset_insert_nonempty.
      + intros _. apply hset_insert_nonempty.
    - destruct (Nat.eqb_spec pos (max_err_pos st)) as [E|E]; [|apply ext_refl].
      split; [|split]; cbn [max_err_pos expected]; auto.
      + intros (O1 & O2 & O3). split; [exact O1|]. split; [exact O2|]. intros _. apply hset_insert_nonempty.
      + intros _. apply hset_insert_nonempty.
  Qed.

  (** A failure was recorded at [pos] or later. *)
  Definition marked (pos : nat) (st : pstate) : Prop := pos <= max_err_pos st /\ expected st <> [].

  Lemma mark_marks st pos e : okst st -> marked pos (mark_failure st pos e).
  Proof.
    intros (_ & _ & O). unfold marked, mark_failure.
    destruct (Nat.ltb_spec (max_err_pos st) pos) as [L|L]; cbn [max_err_pos].
    - rewrite Nat.eqb_refl. split; [reflexivity|apply hset_insert_nonempty].
    - destruct (Nat.eqb_spec pos (max_err_pos st)) as [E|E].
      + split; [exact L|apply hset_insert_nonempty].
      + split; [exact L|]. apply O. lia.
  Qed.

  Lemma marked_ext pos st st' : ext st st' -> marked pos st -> marked pos st'.
  Proof. intros (_ & X1 & X2) (M1 & M2). split; [lia|auto]. Qed.

  (** Where a rule starts: [pre] is behind, [rest] ahead. *)
  Definition at_ (pre rest : str) : Prop := input = pre ++ rest /\ utf8 pre /\ utf8 rest.

  Lemma at_boundary pre rest : at_ pre rest -> is_char_boundary input (length pre) = true.
  Proof. intros (-> & U1 & U2). apply utf8_boundary; assumption. Qed.

  Lemma at_move pre w rest : at_ pre (w ++ rest) -> utf8 w -> at_ (pre ++ w) rest.
  Proof.
    intros (E & U1 & U2) Uw. split; [rewrite <- app_assoc; exact E|]. split; [apply utf8_app; assumption|].
    apply (utf8_app_inv_r w); assumption.
  Qed.

  Definition agrees {A : Type} (pre rest : str) (st : pstate) (p : pres A) (o : rresult A) : Prop :=
    match p with
    | PMatch v rest' => exists w st', rest = w ++ rest' /\ utf8 w /\
        o = Ret (st', Some (length (pre ++ w), v)) /\ ext st st'
    | PFail => exists st', o = Ret (st', None) /\ ext st st'
    | PPanic => o = Panic
    end.
  Definition implements {A : Type} (r : rule A) (f : str -> pres A) : Prop :=
    forall pre rest st, at_ pre rest -> agrees pre rest st (f rest) (r st (length pre)).

  Lemma agrees_weaken {A} pre w rest st st' (p : pres A) o :
    utf8 w -> ext st st' -> agrees (pre ++ w) rest st' p o -> agrees pre (w ++ rest) st p o.
  Proof.
    intros Uw E H. destruct p as [v r'| |]; simpl in *.
    - destruct H as (w' & s' & -> & Uw' & -> & E'). exists (w ++ w'), s'. rewrite !app_assoc.
      split; [reflexivity|]. split; [apply utf8_app; assumption|]. split; [reflexivity|].
      apply (ext_trans _ st'); assumption.
    - destruct H as (s' & -> & E'). exists s'. split; [reflexivity|apply (ext_trans _ st'); assumption].
    - exact H.
  Qed.

  Lemma agrees_seq {A B} pre rest st (p : pres A) o (kp : A -> str -> pres B) k :
    at_ pre rest -> agrees pre rest st p o ->
    (forall w rest' v st', at_ (pre ++ w) rest' -> rest = w ++ rest' -> p = PMatch v rest' ->
       agrees (pre ++ w) rest' st' (kp v rest') (k st' (length (pre ++ w)) v)) ->
    agrees pre rest st (pbind p kp) (seq o k).
  Proof.
    intros Ha H K. destruct p as [v r'| |]; simpl in H; cbn [pbind].
    - destruct H as (w & s' & -> & Uw & -> & E). cbn [seq bind]. apply (agrees_weaken pre w r' st s'); auto.
      apply K; auto. apply at_move; assumption.
    - destruct H as (s' & -> & E). cbn [seq bind]. exists s'. auto.
    - rewrite H. reflexivity.
  Qed.

  Lemma agrees_choice {A} pre rest st (p q : pres A) o alt :
    agrees pre rest st p o -> (forall st', ext st st' -> agrees pre rest st' q (alt st')) ->
    agrees pre rest st (p_or p q) (choice o alt).
  Proof.
    intros H K. destruct p as [v r'| |]; simpl in H; cbn [p_or].
    - destruct H as (w & s' & -> & Uw & -> & E). exists w, s'. auto.
    - destruct H as (s' & -> & E). cbn [choice bind]. specialize (K s' E).
      apply (agrees_weaken pre [] rest st s'); [constructor|exact E|]. rewrite app_nil_r. exact K.
    - rewrite H. reflexivity.
  Qed.

  Lemma agrees_optional {A} pre rest st (p : pres A) o :
    agrees pre rest st p o -> agrees pre rest st (p_opt p rest) (optional o (length pre)).
  Proof.
    intros H. destruct p as [v r'| |]; simpl in H; cbn [p_opt].
    - destruct H as (w & s' & -> & Uw & -> & E). exists w, s'. auto.
    - destruct H as (s' & -> & E). exists [], s'. rewrite app_nil_r. split; [reflexivity|]. split; [constructor|]. split; [reflexivity|exact E].
    - rewrite H. reflexivity.
  Qed.

  Lemma agrees_done {A} pre rest st (v : A) : agrees pre rest st (PMatch v rest) (matched st (length pre) v).
  Proof. exists [], st. rewrite app_nil_r. split; [reflexivity|]. split; [constructor|]. split; [reflexivity|apply ext_refl]. Qed.

  Lemma agrees_slice {A} pre0 w pre rest st (p : pres A) k :
    at_ pre rest -> pre = pre0 ++ w -> utf8 pre0 -> agrees pre rest st p (k w) ->
    agrees pre rest st p (let* m := slice input (length pre0) (length pre) in k m).
  Proof.
    intros (E & U1 & U2) -> U0 H. rewrite E, <- app_assoc, app_length, slice_mid; auto.
    apply (utf8_app_inv_r pre0); assumption.
  Qed.

  (** ** Terminals *)
  Lemma slice_eq_ok m : utf8 m -> implements (fun st pos => slice_eq input st pos m) (p_str m).
  Proof.
    intros Um pre rest st Ha. pose proof Ha as (E & U1 & U2). unfold p_str, slice_eq.
    assert (firstn (length m) (skipn (length pre) input) = firstn (length m) rest) as Es.
    { rewrite E, skipn_app, skipn_all, Nat.sub_diag. reflexivity. }
    cbv zeta. rewrite Es. destruct (strip m rest) as [r|] eqn:S.
    - apply strip_some in S. subst rest. rewrite firstn_app, firstn_all, Nat.sub_diag, app_nil_r.
      assert (Nat.leb (length pre + length m) (length input) = true) as ->.
      { apply Nat.leb_le. rewrite E, !app_length. lia. }
      rewrite str_eqb_refl. cbn [andb]. exists m, st. rewrite app_length. sp.
    - apply strip_none in S.
      assert ((Nat.leb (length pre + length m) (length input) && str_eqb (firstn (length m) rest) m)%bool = false) as ->.
      { destruct (str_eqb (firstn (length m) rest) m) eqn:Eq; [|apply andb_false_r].
        apply str_eqb_eq in Eq. exfalso. assert (prefixb m rest = true); [|congruence].
        apply prefixb_app. exists (skipn (length m) rest). rewrite <- Eq at 1. symmetry. apply firstn_skipn. }
      eexists. split; [reflexivity|]. apply ext_mark. apply (at_boundary pre rest). exact Ha.
  Qed.

  (** A character class of ASCII characters. *)
  Definition p_class (ok : str -> bool) (s : str) : pres unit :=
    match s with
    | b :: r => if ok [b] then PMatch tt r else PFail
    | [] => PFail
    end.
  Definition ascii_class (ok : str -> bool) : Prop :=
    forall c, ok c = true -> exists b, c = [b] /\ ascii_byte b = true.

  Lemma char_range_ok pre b cs r :
    at_ pre ((b :: cs) ++ r) -> utf8_width b = length (b :: cs) ->
    char_range_at input (length pre) = Ret (b :: cs, length (pre ++ b :: cs)).
  Proof.
    intros Ha W. pose proof (at_boundary _ _ Ha) as B. destruct Ha as (E & U1 & U2).
    unfold char_range_at, slice_from. rewrite B. cbn [bind].
    assert (skipn (length pre) input = (b :: cs) ++ r) as ->.
    { rewrite E, skipn_app, skipn_all, Nat.sub_diag. reflexivity. }
    cbn [app]. rewrite W. change (b :: cs ++ r) with ((b :: cs) ++ r).
    rewrite firstn_app, firstn_all, Nat.sub_diag, app_nil_r, app_length. reflexivity.
  Qed.

  Lemma at_ltb pre rest : at_ pre rest -> Nat.ltb (length pre) (length input) = negb (is_empty rest).
  Proof.
    intros (E & _). rewrite E, app_length. destruct rest; simpl.
    - apply Nat.ltb_ge. lia.
    - apply Nat.ltb_lt. lia.
  Qed.

  Lemma char_class_ok ok name : ascii_class ok -> implements (char_class input ok name) (p_class ok).
  Proof.
    intros Hok pre rest st Ha. pose proof (at_boundary _ _ Ha) as B. pose proof Ha as (E & U1 & U2).
    unfold char_class. rewrite (at_ltb pre rest Ha). destruct rest as [|b0 rest0]; cbn [is_empty negb].
    - simpl. eexists. split; [reflexivity|]. apply ext_mark. exact B.
    - destruct (utf8_first _ U2 ltac:(discriminate)) as (b & cs & r & Er & Hc & Ur & C1 & C2 & W).
      rewrite Er in *. rewrite (char_range_ok pre b cs r Ha W). cbn [bind fst snd]. cbn [app p_class].
      destruct (ok [b]) eqn:O.
      + destruct (Hok _ O) as (b' & Eb & Ab). inversion Eb; subst b'.
        assert (cs = []) as ->.
        { unfold utf8_width in W. unfold ascii_byte in Ab. rewrite Ab in W. simpl in W. destruct cs; [reflexivity|simpl in W; lia]. }
        rewrite O. exists [b], st. simpl app. sp.
        apply (utf8_cons [b] []); [exact Hc|constructor].
      + assert (ok (b :: cs) = false) as ->.
        { destruct (ok (b :: cs)) eqn:O'; [|reflexivity]. destruct (Hok _ O') as (b' & Eb & _).
          inversion Eb; subst. congruence. }
        eexists. split; [reflexivity|]. apply ext_mark. exact B.
  Qed.

  (** ** Loops *)
  Lemma loop_strong {A} (step : rule A) (f : str -> pres A) :
    implements step f -> (forall s v s', f s = PMatch v s' -> length s' < length s) ->
    forall n rest, length rest < n -> forall fuel, length rest < fuel -> forall pre st acc, at_ pre rest ->
    match p_star f n rest with
    | PMatch vs rest' => exists w st', rest = w ++ rest' /\ utf8 w /\ ext st st' /\
        (exists st1, ext st st1 /\ step st1 (length (pre ++ w)) = Ret (st', None)) /\
        repeat_loop fuel step st (length pre) acc = Ret (st', (length (pre ++ w), acc ++ vs))
    | PFail => False
    | PPanic => repeat_loop fuel step st (length pre) acc = Panic
    end.
  Proof.
    intros Hs Hf. induction n as [|n IH]; intros rest L fuel L' pre st acc Ha; [lia|].
    destruct fuel as [|fuel]; [lia|]. cbn [p_star repeat_loop].
    specialize (Hs pre rest st Ha). pose proof (Hf rest) as Hl. destruct (f rest) as [v r| |]; simpl in Hs.
    - destruct Hs as (w & st1 & -> & Uw & E & X). rewrite E. cbn [bind].
      specialize (Hl v r eq_refl).
      specialize (IH r ltac:(lia) fuel ltac:(lia) (pre ++ w) st1 (acc ++ [v]) (at_move _ _ _ Ha Uw)).
      destruct (p_star f n r) as [vs r'| |]; cbn [pbind].
      + destruct IH as (w' & st2 & -> & Uw' & X' & (st3 & X3 & E3) & ->). exists (w ++ w'), st2.
        rewrite <- !app_assoc. split; [reflexivity|]. split; [apply utf8_app; assumption|].
        split; [apply (ext_trans _ st1); assumption|].
        split; [|reflexivity]. exists st3. split; [apply (ext_trans _ st1); assumption|].
        rewrite app_assoc. exact E3.
      + exact IH.
      + exact IH.
    - destruct Hs as (st1 & E & X). rewrite E. cbn [bind]. exists [], st1. rewrite !app_nil_r.
      sp. exists st. sp.
    - rewrite Hs. reflexivity.
  Qed.

  Lemma loop_ok {A} (step : rule A) (f : str -> pres A) :
    implements step f -> (forall s v s', f s = PMatch v s' -> length s' < length s) ->
    forall n rest, length rest < n -> forall fuel, length rest < fuel -> forall pre st acc, at_ pre rest ->
    match p_star f n rest with
    | PMatch vs rest' => exists w st', rest = w ++ rest' /\ utf8 w /\ ext st st' /\
        repeat_loop fuel step st (length pre) acc = Ret (st', (length (pre ++ w), acc ++ vs))
    | PFail => False
    | PPanic => repeat_loop fuel step st (length pre) acc = Panic
    end.
  Proof.
    intros Hs Hf n rest L fuel L' pre st acc Ha.
    pose proof (loop_strong step f Hs Hf n rest L fuel L' pre st acc Ha) as H.
    destruct (p_star f n rest) as [vs r| |]; auto. destruct H as (w & st' & H1 & H2 & H3 & _ & H5).
    exists w, st'. auto.
  Qed.

  Lemma star_enough {A} (f : str -> pres A) :
    (forall s v s', f s = PMatch v s' -> length s' < length s) ->
    forall n m s, length s < n -> length s < m -> p_star f n s = p_star f m s.
  Proof.
    intros Hf. induction n as [|n IH]; intros [|m] s L L'; try lia. cbn [p_star].
    pose proof (Hf s) as Hl. destruct (f s) as [v r| |]; try reflexivity.
    specialize (Hl v r eq_refl). rewrite (IH m r); [reflexivity|lia|lia].
  Qed.

  Lemma fuel_enough pre rest : at_ pre rest -> length rest < loop_fuel input.
  Proof. intros (E & _). unfold loop_fuel. rewrite E, app_length. lia. Qed.

  Lemma star_class ok n s : length s < n ->
    p_star (p_class ok) n s =
    let (a, r) := span (fun b => ok [b]) s in PMatch (map (fun _ => tt) a) r.
  Proof.
    revert s. induction n as [|n IH]; intros s L; [lia|]. destruct s as [|b s]; [reflexivity|].
    cbn [p_star p_class span]. destruct (ok [b]); [|reflexivity].
    rewrite IH by (simpl in L; lia). destruct (span _ s). reflexivity.
  Qed.

  Lemma p_class_shorter ok s v s' : p_class ok s = PMatch v s' -> length s' < length s.
  Proof.
    destruct s as [|b s]; [discriminate|]. simpl. destruct (ok [b]); [|discriminate].
    intros H. inversion H. lia.
  Qed.

  Lemma p_str_shorter m s v s' : m <> [] -> p_str m s = PMatch v s' -> length s' < length s.
  Proof.
    unfold p_str. intros N H. destruct (strip m s) as [r|] eqn:E; [|discriminate]. apply strip_some in E.
    inversion H; subst. rewrite app_length. destruct m; [congruence|simpl; lia].
  Qed.

  (** ** Names *)
  Definition p_ident_step (s : str) : pres unit :=
    match s with
    | b :: r => if ident_next [b] && negb (hyphen_first r) then PMatch tt r else PFail
    | [] => PFail
    end.

  Lemma class_next : ascii_class ident_next.
  Proof.
    intros c H. destruct c as [|b [|]]; try discriminate. exists b. split; [reflexivity|]. unfold ident_next in H.
    unfold ascii_byte. apply N.ltb_lt. repeat rewrite orb_true_iff in H. repeat rewrite in_rng_spec in H.
    repeat rewrite byte_eqb_eq in H.
    destruct H as [[[[[H|H]|H]|H]|H]|H]; try lia; subst; vm_compute; reflexivity.
  Qed.
  Lemma class_first : ascii_class ident_first.
  Proof.
    intros c H. apply class_next. destruct c as [|b [|]]; try discriminate. unfold ident_first in H. unfold ident_next.
    repeat rewrite orb_true_iff in *. tauto.
  Qed.
  Lemma class_hyphen : ascii_class is_hyphen.
  Proof.
    intros c H. apply class_next. destruct c as [|b [|]]; try discriminate. unfold is_hyphen in H. unfold ident_next.
    rewrite H. repeat rewrite orb_true_iff. tauto.
  Qed.
  Lemma class_digit : ascii_class is_digit.
  Proof.
    intros c H. apply class_next. destruct c as [|b [|]]; try discriminate. unfold is_digit in H. unfold ident_next.
    rewrite H. repeat rewrite orb_true_iff. tauto.
  Qed.

  Lemma identifier_step_ok : implements (identifier_step input) p_ident_step.
  Proof.
    intros pre rest st Ha. unfold identifier_step.
    pose proof (char_class_ok ident_next ($"[a-z-A-Z0-9_.]") class_next pre rest st Ha) as H.
    destruct rest as [|b r]; cbn [p_class p_ident_step] in *.
    - destruct H as (st' & -> & E). cbn [seq bind]. exists st'. auto.
    - destruct (ident_next [b]) eqn:Nb; cbn [andb].
      + destruct H as (w & st1 & Ew & Uw & E & X). change (b :: r) with ([b] ++ r) in Ew. symmetry in Ew.
        assert (w = [b]) as ->.
        { apply (f_equal (@rev byte)) in Ew. rewrite !rev_app_distr in Ew. apply app_inv_head in Ew.
          apply (f_equal (@rev byte)) in Ew. rewrite !rev_involutive in Ew. exact Ew. }
        rewrite E. cbn [seq bind].
        pose proof (char_class_ok is_hyphen ($"[-]") class_hyphen (pre ++ [b]) r st1 (at_move pre [b] r Ha Uw)) as H2.
        destruct r as [|c r]; cbn [p_class hyphen_first negb] in *.
        * destruct H2 as (st2 & -> & E2). cbn [bind]. exists [b], st2. sp; apply (ext_trans _ st1); assumption.
        * unfold is_hyphen at 1 in H2. destruct (byte_eqb c x2d); cbn [negb].
          -- destruct H2 as (w2 & st2 & _ & _ & -> & E2). cbn [bind]. exists st2.
             split; [reflexivity|apply (ext_trans _ st1); assumption].
          -- destruct H2 as (st2 & -> & E2). cbn [bind]. exists [b], st2.
             sp; apply (ext_trans _ st1); assumption.
      + destruct H as (st' & -> & E). cbn [seq bind]. exists st'. auto.
  Qed.

  Lemma p_ident_step_shorter s v s' : p_ident_step s = PMatch v s' -> length s' < length s.
  Proof.
    destruct s as [|b s]; [discriminate|]. simpl. destruct (_ && _)%bool; [|discriminate].
    intros H. inversion H. lia.
  Qed.

  Lemma star_ident n s : length s < n ->
    p_star p_ident_step n s = let (a, r) := ident_tail s in PMatch (map (fun _ => tt) a) r.
  Proof.
    revert s. induction n as [|n IH]; intros s L; [lia|]. destruct s as [|b s]; [reflexivity|].
    cbn [p_star p_ident_step ident_tail]. destruct (ident_next [b] && negb (hyphen_first s))%bool; [|reflexivity].
    rewrite IH by (simpl in L; lia). destruct (ident_tail s). reflexivity.
  Qed.

  Lemma ident_tail_app s : let (a, r) := ident_tail s in s = a ++ r.
  Proof.
    induction s as [|b s IH]; [reflexivity|]. cbn [ident_tail].
    destruct (ident_next [b] && negb (hyphen_first s))%bool; [|reflexivity].
    destruct (ident_tail s) as (a, r). simpl. congruence.
  Qed.
  Lemma span_app f s : let (a, r) := span f s in s = a ++ r.
  Proof.
    induction s as [|b s IH]; [reflexivity|]. cbn [span]. destruct (f b); [|reflexivity].
    destruct (span f s) as (a, r). simpl. congruence.
  Qed.

  Lemma identifier_ok : implements (parse_identifier input) p_ident.
  Proof.
    intros pre rest st Ha. pose proof Ha as (E0 & U1 & U2). unfold parse_identifier. cbv zeta.
    assert (p_ident rest = pbind (p_class ident_first rest) (fun _ s =>
              let (a, r) := ident_tail s in PMatch (firstn (length rest - length r) rest) r)) as ->.
    { destruct rest as [|b r]; [reflexivity|]. cbn [p_ident p_class]. destruct (ident_first [b]); [|reflexivity].
      cbn [pbind]. pose proof (ident_tail_app r) as T. destruct (ident_tail r) as (a, r'). subst r. f_equal.
      change (b :: a ++ r') with ((b :: a) ++ r'). rewrite app_length, Nat.add_sub, firstn_app, firstn_all, Nat.sub_diag.
      symmetry. apply app_nil_r. }
    apply agrees_seq; [exact Ha|apply char_class_ok; [exact class_first|exact Ha]|].
    intros w rest' v st' Ha' -> Hp.
    pose proof (loop_ok (identifier_step input) p_ident_step identifier_step_ok p_ident_step_shorter
                  (S (length rest')) rest' (Nat.lt_succ_diag_r _) (loop_fuel input) (fuel_enough _ _ Ha')
                  (pre ++ w) st' [] Ha') as HL.
    rewrite star_ident in HL by lia. pose proof (ident_tail_app rest') as T.
    destruct (ident_tail rest') as (a, r).
    destruct HL as (w' & st2 & Ew & Uw' & X & ->). cbn [bind].
    assert (Uw : utf8 w).
    { destruct Ha' as (_ & U & _). apply (utf8_app_inv_r pre); assumption. }
    rewrite Ew at 2 3. rewrite app_assoc, app_length, Nat.add_sub, firstn_app, firstn_all, Nat.sub_diag, app_nil_r.
    exists w', st2. split; [exact Ew|]. split; [exact Uw'|]. split; [|exact X].
    assert (input = pre ++ (w ++ w') ++ r) as Ei.
    { rewrite E0, Ew, !app_assoc. reflexivity. }
    rewrite <- (app_assoc pre w w'), (app_length pre (w ++ w')). rewrite Ei at 1.
    rewrite slice_mid; auto; [apply utf8_app; assumption|].
    apply (utf8_app_inv_r w'); [exact Uw'|]. rewrite <- Ew. apply Ha'.
  Qed.

  Lemma parser_name_ok : implements (parse_parser_name input) p_name.
  Proof.
    intros pre rest st Ha. unfold parse_parser_name, p_name. cbv zeta.
    apply agrees_seq; [exact Ha|apply slice_eq_ok; [apply ascii_utf8; reflexivity|exact Ha]|].
    intros w rest' v st' Ha' -> Hp.
    rewrite <- (match p_ident rest' as p return pbind p (fun v s => PMatch v s) = p with
                | PMatch _ _ => eq_refl | PFail => eq_refl | PPanic => eq_refl end).
    apply agrees_seq; [exact Ha'|apply identifier_ok; exact Ha'|].
    intros w' rest'' v' st'' Ha'' -> Hp'.
    apply (agrees_slice pre (w ++ w')); [exact Ha''|symmetry; apply app_assoc|apply Ha|apply agrees_done].
  Qed.

  (** ** Text up to a delimiter *)
  Definition p_not_then_any (m s : str) : pres unit :=
    if prefixb m s then PFail
    else match s with
         | [] => PFail
         | b :: _ => PMatch tt (skipn (utf8_width b) s)
         end.

  Lemma not_then_any_ok m : utf8 m -> implements (not_then_any input m) (p_not_then_any m).
  Proof.
    intros Um pre rest st Ha. pose proof (at_boundary _ _ Ha) as B. unfold not_then_any, p_not_then_any.
    pose proof (slice_eq_ok m Um pre rest st Ha) as H. unfold p_str in H.
    destruct (strip m rest) as [r|] eqn:S.
    - apply strip_some in S. assert (prefixb m rest = true) as -> by (apply prefixb_app; eauto).
      destruct H as (w & st1 & _ & _ & -> & X). cbn [bind]. exists st1. auto.
    - apply strip_none in S. rewrite S. destruct H as (st1 & -> & X). cbn [bind]. unfold any_char.
      rewrite (at_ltb pre rest Ha). destruct rest as [|b0 rest0]; cbn [is_empty negb].
      + eexists. split; [reflexivity|]. apply (ext_trans _ st1); [exact X|]. apply ext_mark. exact B.
      + pose proof Ha as (E & U1 & U2).
        destruct (utf8_first _ U2 ltac:(discriminate)) as (b & cs & r & Er & Hc & Ur & C1 & C2 & W).
        assert (b0 = b) as -> by (simpl in Er; congruence). rewrite W. rewrite Er in *.
        rewrite (char_range_ok pre b cs r Ha W). cbn [bind snd].
        rewrite skipn_app, skipn_all, Nat.sub_diag. cbn [app skipn].
        exists (b :: cs), st1. sp.
        rewrite <- (app_nil_r (b :: cs)). apply utf8_cons; [exact Hc|constructor].
  Qed.

  Lemma p_not_then_any_shorter m s v s' : p_not_then_any m s = PMatch v s' -> length s' < length s.
  Proof.
    unfold p_not_then_any. destruct (prefixb m s); [discriminate|]. destruct s as [|b s]; [discriminate|].
    intros H. inversion H. rewrite skipn_length. unfold utf8_width.
    repeat match goal with |- context [N.ltb ?x ?y] => destruct (N.ltb x y) end; simpl; lia.
  Qed.

  Lemma until_conts d m cs r : is_cont d = false -> forallb is_cont cs = true ->
    until (d :: m) (cs ++ r) = (cs ++ fst (until (d :: m) r), snd (until (d :: m) r)).
  Proof.
    intros Hd. induction cs as [|c cs IH]; simpl; intros H.
    - destruct (until (d :: m) r). reflexivity.
    - apply andb_true_iff in H. destruct H as (Hc & Hcs). simpl.
      assert (byte_eqb d c = false) as -> by (apply byte_eqb_neq; intros ->; congruence). cbn [andb].
      rewrite IH by exact Hcs. reflexivity.
  Qed.

  Lemma star_until d m n s : is_cont d = false -> utf8 s -> length s < n ->
    exists vs, p_star (p_not_then_any (d :: m)) n s = PMatch vs (snd (until (d :: m) s)) /\
      (vs = [] <-> fst (until (d :: m) s) = []).
  Proof.
    intros Hd. revert s. induction n as [|n IH]; intros s U L; [lia|]. cbn [p_star]. unfold p_not_then_any at 1.
    destruct (prefixb (d :: m) s) eqn:P.
    - exists []. assert (until (d :: m) s = ([], s)) as -> by (destruct s; cbn [until]; rewrite P; reflexivity).
      split; [reflexivity|tauto].
    - destruct s as [|b0 s0].
      + exists []. cbn [until]. rewrite P. split; [reflexivity|tauto].
      + destruct (utf8_first _ U ltac:(discriminate)) as (b & cs & r & Er & Hc & Ur & C1 & C2 & W).
        assert (b0 = b) as -> by (simpl in Er; congruence). rewrite W. rewrite Er in *.
        rewrite skipn_app, skipn_all, Nat.sub_diag. cbn [app skipn].
        destruct (IH r Ur) as (vs & E & _); [rewrite app_length in L; simpl in L; lia|]. rewrite E. cbn [pbind].
        exists (tt :: vs). cbn [until]. cbn [app] in P. rewrite P. rewrite (until_conts d m cs r Hd C2).
        split; [reflexivity|]. split; discriminate.
  Qed.

  Lemma until_app m s : let (a, r) := until m s in s = a ++ r.
  Proof.
    induction s as [|b s IH]; cbn [until]; destruct (prefixb m _); try reflexivity.
    destruct (until m s) as (a, r). simpl. congruence.
  Qed.

  Lemma chars_until_ok d m : utf8 (d :: m) -> is_cont d = false ->
    implements (chars_until input (d :: m)) (p_until (d :: m)).
  Proof.
    intros Um Hd pre rest st Ha. pose proof Ha as (E0 & U1 & U2). unfold chars_until, p_until. cbv zeta.
    pose proof (loop_ok (not_then_any input (d :: m)) (p_not_then_any (d :: m)) (not_then_any_ok _ Um)
                  (p_not_then_any_shorter _) (S (length rest)) rest (Nat.lt_succ_diag_r _) (loop_fuel input)
                  (fuel_enough _ _ Ha) pre st [] Ha) as HL.
    destruct (star_until d m (S (length rest)) rest Hd U2 (Nat.lt_succ_diag_r _)) as (vs & Es & Hv).
    rewrite Es in HL. pose proof (until_app (d :: m) rest) as T.
    destruct (until (d :: m) rest) as (a, r). cbn [fst snd] in *.
    destruct HL as (w & st1 & Ew & Uw & X & ->). cbn [bind]. cbn [app].
    assert (w = a) as ->.
    { rewrite T in Ew. apply app_inv_tail in Ew. congruence. }
    destruct vs as [|v0 vs]; cbn [length Nat.leb].
    - rewrite (proj1 Hv eq_refl). cbn [is_empty]. exists st1. auto.
    - destruct a as [|x a]; [destruct Hv as (_ & Hv); specialize (Hv eq_refl); discriminate|].
      cbn [is_empty]. rewrite E0, T, app_length, slice_mid; auto;
        [|apply (utf8_app_inv_r (x :: a)); [exact Uw|rewrite <- T; exact U2]].
      cbn [bind]. exists (x :: a), st1. rewrite app_length. auto.
  Qed.

  Lemma literal_ok : implements (parse_literal input) p_literal.
  Proof. apply chars_until_ok; [apply ascii_utf8|]; reflexivity. Qed.

  Lemma until_quote_ok : implements (parse_all_chars_until_quotation_mark input) (p_until quotation_mark).
  Proof. apply chars_until_ok; [apply ascii_utf8|]; reflexivity. Qed.

  Ltac next w r v st Ha Er :=
    apply agrees_seq; [eassumption| |intros w r v st Ha Er _].

  Lemma quote_ok m pre rest st : ascii m = true -> at_ pre rest ->
    agrees pre rest st (p_str m rest) (slice_eq input st (length pre) m).
  Proof. intros A Ha. apply (slice_eq_ok m (ascii_utf8 m A) pre rest st Ha). Qed.

  Lemma keyword_ok m : ascii m = true -> implements (keyword input m) (p_keyword m).
  Proof.
    intros A pre rest st Ha. unfold keyword, p_keyword. cbv zeta.
    apply agrees_seq; [exact Ha|apply quote_ok; assumption|]. intros w r v st' Ha' -> Hp.
    assert (w = m) as ->.
    { unfold p_str in Hp. destruct (strip m (w ++ r)) as [r0|] eqn:S; [|discriminate]. apply strip_some in S.
      inversion Hp; subst. apply app_inv_tail in S. exact S. }
    apply (agrees_slice pre m); [exact Ha'|reflexivity|apply Ha|apply agrees_done].
  Qed.

  Lemma string_ok : implements (parse_string input) p_string.
  Proof.
    intros pre rest st Ha. unfold parse_string, p_string. cbv zeta.
    next w1 r1 v1 st1 Ha1 E1; [apply quote_ok; [reflexivity|exact Ha]|].
    next w2 r2 v2 st2 Ha2 E2; [apply until_quote_ok; exact Ha1|].
    next w3 r3 v3 st3 Ha3 E3; [apply quote_ok; [reflexivity|exact Ha2]|].
    apply (agrees_slice pre (w1 ++ w2 ++ w3)); [exact Ha3|rewrite !app_assoc; reflexivity|apply Ha|apply agrees_done].
  Qed.

  (** ** Parameters *)
  Lemma star_space n s : length s < n ->
    p_star (p_str ($" ")) n s =
    let (a, r) := span (fun b => byte_eqb b x20) s in PMatch (map (fun _ => tt) a) r.
  Proof.
    revert s. induction n as [|n IH]; intros s L; [lia|]. destruct s as [|b s]; [reflexivity|].
    cbn [p_star span].
    assert (p_str ($" ") (b :: s) = if byte_eqb b x20 then PMatch tt s else PFail) as ->.
    { unfold p_str. cbn [strip]. change (String.list_byte_of_string " ") with [x20]. cbn [strip].
      destruct (byte_eqb b x20) eqn:E.
      - apply byte_eqb_eq in E. subst. reflexivity.
      - destruct (byte_eqb x20 b) eqn:E'; [|reflexivity]. apply byte_eqb_eq in E'. subst. discriminate. }
    destruct (byte_eqb b x20); [|reflexivity].
    rewrite IH by (simpl in L; lia). destruct (span _ s). reflexivity.
  Qed.

  Lemma comma_ok : implements (parse_comma input) p_comma.
  Proof.
    intros pre rest st Ha. unfold parse_comma, p_comma.
    next w1 r1 v1 st1 Ha1 E1; [apply quote_ok; [reflexivity|exact Ha]|].
    pose proof (loop_ok (fun st pos => slice_eq input st pos ($" ")) (p_str ($" "))
                  (slice_eq_ok ($" ") (ascii_utf8 ($" ") eq_refl))
                  (fun s v s' => p_str_shorter ($" ") s v s' ltac:(discriminate))
                  (S (length r1)) r1 (Nat.lt_succ_diag_r _) (loop_fuel input) (fuel_enough _ _ Ha1)
                  (pre ++ w1) st1 [] Ha1) as HL.
    rewrite star_space in HL by lia. destruct (span _ r1) as (a, r). cbn [snd].
    destruct HL as (w & st2 & Ew & Uw & X & ->). cbn [bind]. exists w, st2. auto.
  Qed.

  Lemma int_ok : implements (parse_int input) p_int.
  Proof.
    intros pre rest st Ha. pose proof Ha as (E0 & U1 & U2). unfold parse_int, p_int. cbv zeta.
    pose proof (loop_ok (char_class input is_digit ($"[0-9]")) (p_class is_digit)
                  (char_class_ok is_digit _ class_digit) (p_class_shorter is_digit)
                  (S (length rest)) rest (Nat.lt_succ_diag_r _) (loop_fuel input) (fuel_enough _ _ Ha)
                  pre st [] Ha) as HL.
    rewrite star_class in HL by lia. pose proof (span_app (fun b => is_digit [b]) rest) as T.
    destruct (span (fun b => is_digit [b]) rest) as (a, r).
    destruct HL as (w & st1 & Ew & Uw & X & ->). cbn [bind app]. rewrite map_length.
    assert (w = a) as -> by (rewrite T in Ew; apply app_inv_tail in Ew; congruence).
    destruct a as [|x a]; cbn [length Nat.leb is_empty].
    - exists st1. auto.
    - rewrite E0, T, app_length, slice_mid; auto;
        [|apply (utf8_app_inv_r (x :: a)); [exact Uw|rewrite <- T; exact U2]].
      cbn [bind]. destruct (usize_from_str (x :: a)) as [n|]; [|reflexivity].
      exists (x :: a), st1. rewrite app_length. auto.
  Qed.

  Lemma param1_ok kw : ascii kw = true -> implements (optional_param input (keyword input kw)) (p_param1 kw).
  Proof.
    intros A pre rest st Ha. unfold optional_param, p_param1. cbv zeta.
    next w1 r1 v1 st1 Ha1 E1; [apply keyword_ok; assumption|].
    next w2 r2 v2 st2 Ha2 E2; [apply quote_ok; [reflexivity|exact Ha1]|].
    next w3 r3 v3 st3 Ha3 E3; [apply int_ok; exact Ha2|].
    apply (agrees_slice pre (w1 ++ w2 ++ w3)); [exact Ha3|rewrite !app_assoc; reflexivity|apply Ha|apply agrees_done].
  Qed.

  Lemma param_ok : implements (parse_parser_BASE_optional_param input) p_param.
  Proof.
    intros pre rest st Ha. apply agrees_choice; [apply param1_ok; [reflexivity|exact Ha]|].
    intros st' _. apply param1_ok; [reflexivity|exact Ha].
  Qed.

  Lemma pbind_shorter {A B} (p : pres A) (k : A -> str -> pres B) (n : nat) :
    (forall v s, p = PMatch v s -> length s <= n) ->
    (forall v s w s', p = PMatch v s -> k v s = PMatch w s' -> length s' < length s) ->
    forall w s', pbind p k = PMatch w s' -> length s' < n.
  Proof.
    intros H1 H2 w s' H. destruct p as [v s| |]; try discriminate. simpl in H.
    specialize (H1 v s eq_refl). specialize (H2 v s w s' eq_refl H). lia.
  Qed.

  Lemma p_param1_shorter kw s v s' : p_param1 kw s = PMatch v s' -> length s' < length s.
  Proof.
    unfold p_param1, p_keyword. intros H.
    destruct (p_str kw s) as [u1 r1| |] eqn:E1; try discriminate. cbn [pbind] in H.
    destruct (p_str ($"=") r1) as [u2 r2| |] eqn:E2; try discriminate. cbn [pbind] in H.
    unfold p_int in H. pose proof (span_app (fun b => is_digit [b]) r2) as T.
    destruct (span (fun b => is_digit [b]) r2) as (a, r). destruct (is_empty a); [discriminate|].
    destruct (usize_from_str a); [|discriminate]. cbn [pbind] in H. inversion H; subst.
    apply p_str_shorter in E2; [|discriminate]. rewrite app_length in E2.
    unfold p_str in E1. destruct (strip kw s) as [r0|] eqn:S; [|discriminate]. inversion E1; subst.
    apply strip_some in S. subst. rewrite app_length. lia.
  Qed.
  Lemma p_param_shorter s v s' : p_param s = PMatch v s' -> length s' < length s.
  Proof.
    unfold p_param. intros H. destruct (p_param1 ($"min_len") s) eqn:E; cbn [p_or] in H; try discriminate.
    - rewrite H in E. apply p_param1_shorter in E. exact E.
    - apply p_param1_shorter in H. exact H.
  Qed.
  Lemma p_comma_shorter s v s' : p_comma s = PMatch v s' -> length s' < length s.
  Proof.
    unfold p_comma. intros H. destruct (p_str ($",") s) as [u r| |] eqn:E; try discriminate. cbn [pbind] in H.
    apply p_str_shorter in E; [|discriminate]. pose proof (span_app (fun b => byte_eqb b x20) r) as T.
    destruct (span _ r) as (a, r'). inversion H; subst. rewrite app_length in E. simpl. lia.
  Qed.
  Lemma p_more_shorter s v s' : p_more s = PMatch v s' -> length s' < length s.
  Proof.
    unfold p_more. intros H. destruct (p_comma s) as [u r| |] eqn:E; try discriminate. cbn [pbind] in H.
    apply p_comma_shorter in E. apply p_param_shorter in H. lia.
  Qed.

  (** Once there is a value, every round of the loop is a comma and a parameter. *)
  Lemma sep_loop_ok n : forall rest, length rest < n -> forall fuel, length rest < fuel ->
    forall pre st acc, acc <> [] -> at_ pre rest ->
    match p_star p_more n rest with
    | PMatch vs rest' => exists w st', rest = w ++ rest' /\ utf8 w /\ ext st st' /\
        repeat_sep_loop fuel (parse_comma input) (parse_parser_BASE_optional_param input) st (length pre) acc
        = Ret (st', (length (pre ++ w), acc ++ vs))
    | PFail => False
    | PPanic => repeat_sep_loop fuel (parse_comma input) (parse_parser_BASE_optional_param input) st (length pre) acc
                = Panic
    end.
  Proof.
    induction n as [|n IH]; intros rest L fuel L' pre st acc Na Ha; [lia|].
    destruct fuel as [|fuel]; [lia|]. cbn [p_star repeat_sep_loop].
    assert (is_empty acc = false) as -> by (destruct acc; [congruence|reflexivity]). cbn [negb].
    pose proof (comma_ok pre rest st Ha) as Hc. pose proof (p_comma_shorter rest) as Sc. unfold p_more at 1.
    destruct (p_comma rest) as [u r| |]; cbn [pbind].
    - destruct Hc as (w & st1 & -> & Uw & -> & X). cbn [bind]. specialize (Sc u r eq_refl).
      pose proof (at_move _ _ _ Ha Uw) as Ha1.
      pose proof (param_ok (pre ++ w) r st1 Ha1) as Hp. pose proof (p_param_shorter r) as Sp.
      destruct (p_param r) as [v r'| |].
      + destruct Hp as (w' & st2 & -> & Uw' & -> & X'). cbn [bind]. specialize (Sp v r' eq_refl).
        pose proof (at_move _ _ _ Ha1 Uw') as Ha2.
        specialize (IH r' ltac:(lia) fuel ltac:(lia) ((pre ++ w) ++ w') st2 (acc ++ [v])
                      ltac:(destruct acc; discriminate) Ha2).
        destruct (p_star p_more n r') as [vs r2| |]; cbn [pbind].
        * destruct IH as (w2 & st3 & -> & Uw2 & X2 & ->). exists (w ++ w' ++ w2), st3.
          rewrite <- !app_assoc. split; [reflexivity|].
          split; [apply utf8_app; [assumption|apply utf8_app; assumption]|].
          split; [|reflexivity]. apply (ext_trans _ st1); [assumption|]. apply (ext_trans _ st2); assumption.
        * exact IH.
        * exact IH.
      + destruct Hp as (st2 & -> & X'). cbn [bind]. exists [], st2. rewrite !app_nil_r.
        sp; apply (ext_trans _ st1); assumption.
      + rewrite Hp. reflexivity.
    - destruct Hc as (st1 & -> & X). cbn [bind]. exists [], st1. rewrite !app_nil_r.
      sp.
    - rewrite Hc. reflexivity.
  Qed.

  Lemma params_ok pre rest st : at_ pre rest ->
    match p_params rest with
    | PMatch vs rest' => exists w st', rest = w ++ rest' /\ utf8 w /\ ext st st' /\
        repeat_sep_loop (loop_fuel input) (parse_comma input) (parse_parser_BASE_optional_param input)
          st (length pre) [] = Ret (st', (length (pre ++ w), vs))
    | PFail => False
    | PPanic => repeat_sep_loop (loop_fuel input) (parse_comma input) (parse_parser_BASE_optional_param input)
                  st (length pre) [] = Panic
    end.
  Proof.
    intros Ha. pose proof (fuel_enough _ _ Ha) as HF. unfold loop_fuel in *. cbn [repeat_sep_loop is_empty negb].
    unfold matched. cbn [bind]. unfold p_params.
    pose proof (param_ok pre rest st Ha) as Hp. pose proof (p_param_shorter rest) as Sp.
    destruct (p_param rest) as [v r'| |].
    - destruct Hp as (w & st1 & -> & Uw & E & X). rewrite E. cbn [bind]. specialize (Sp v r' eq_refl).
      pose proof (sep_loop_ok (S (length r')) r' ltac:(lia) (length input) ltac:(lia) (pre ++ w) st1 ([] ++ [v])
                    ltac:(discriminate) (at_move _ _ _ Ha Uw)) as HL.
      destruct (p_star p_more (S (length r')) r') as [vs r2| |]; cbn [pbind].
      + destruct HL as (w2 & st2 & -> & Uw2 & X2 & ->). exists (w ++ w2), st2. rewrite <- !app_assoc.
        split; [reflexivity|]. split; [apply utf8_app; assumption|]. split; [|reflexivity].
        apply (ext_trans _ st1); assumption.
      + exact HL.
      + exact HL.
    - destruct Hp as (st1 & E & X). rewrite E. cbn [bind]. exists [], st1. rewrite !app_nil_r.
      sp.
    - rewrite Hp. reflexivity.
  Qed.

  Lemma p_params_nofail s : p_params s <> PFail.
  Proof.
    unfold p_params. destruct (p_param s) as [v r| |]; try discriminate.
    assert (forall n t, p_star p_more n t <> PFail) as H.
    { induction n as [|n IH]; intros t; cbn [p_star]; [discriminate|].
      destruct (p_more t) as [v' t'| |]; try discriminate.
      destruct (p_star p_more n t') eqn:E; try discriminate. intros _. apply (IH t'). exact E. }
    destruct (p_star p_more (S (length r)) r) eqn:E; try discriminate. exfalso. apply (H _ _ E).
  Qed.

  Lemma set_params_ok : implements (parse_parser_SET_optional_params input) p_set_params.
  Proof.
    intros pre rest st Ha. unfold parse_parser_SET_optional_params, p_set_params. cbv zeta.
    next w1 r1 v1 st1 Ha1 E1; [apply comma_ok; exact Ha|].
    pose proof (params_ok _ _ st1 Ha1) as HL. destruct (p_params r1) as [vs r2| |].
    - destruct HL as (w2 & st2 & -> & Uw2 & X & ->). cbn [bind].
      apply (agrees_weaken (pre ++ w1) w2 r2 st1 st2); auto.
      apply (agrees_slice pre (w1 ++ w2)); [apply at_move; assumption|rewrite app_assoc; reflexivity|apply Ha|apply agrees_done].
    - destruct HL.
    - rewrite HL. reflexivity.
  Qed.

  Lemma int_params_ok : implements (parse_parser_INT_optional_params input) p_int_params.
  Proof.
    intros pre rest st Ha. unfold parse_parser_INT_optional_params, p_int_params. cbv zeta.
    next w1 r1 v1 st1 Ha1 E1; [apply quote_ok; [reflexivity|exact Ha]|].
    pose proof (params_ok _ _ st1 Ha1) as HL. destruct (p_params r1) as [vs r2| |].
    - destruct HL as (w2 & st2 & -> & Uw2 & X & ->). cbn [bind pbind].
      apply (agrees_weaken (pre ++ w1) w2 r2 st1 st2); auto.
      pose proof (at_move _ _ _ Ha1 Uw2) as Ha2.
      next w3 r3 v3 st3 Ha3 E3; [apply quote_ok; [reflexivity|exact Ha2]|].
      apply (agrees_slice pre (w1 ++ w2 ++ w3)); [exact Ha3|rewrite !app_assoc; reflexivity|apply Ha|apply agrees_done].
    - destruct HL.
    - rewrite HL. reflexivity.
  Qed.

  (** ** Parsers and pieces *)
  Lemma set_ok : implements (parse_parser_SET input) p_set.
  Proof.
    intros pre rest st Ha. unfold parse_parser_SET, p_set. cbv zeta.
    next w1 r1 v1 st1 Ha1 E1; [apply keyword_ok; [reflexivity|exact Ha]|].
    next w2 r2 v2 st2 Ha2 E2; [apply quote_ok; [reflexivity|exact Ha1]|].
    next w3 r3 v3 st3 Ha3 E3; [apply string_ok; exact Ha2|].
    next w4 r4 v4 st4 Ha4 E4; [apply agrees_optional; apply set_params_ok; exact Ha3|].
    next w5 r5 v5 st5 Ha5 E5; [apply quote_ok; [reflexivity|exact Ha4]|].
    next w6 r6 v6 st6 Ha6 E6; [apply agrees_optional; apply parser_name_ok; exact Ha5|].
    apply (agrees_slice pre (w1 ++ w2 ++ w3 ++ w4 ++ w5 ++ w6));
      [exact Ha6|rewrite !app_assoc; reflexivity|apply Ha|apply agrees_done].
  Qed.

  Lemma int_parser_ok : implements (parse_parser_INT input) p_int_parser.
  Proof.
    intros pre rest st Ha. unfold parse_parser_INT, p_int_parser. cbv zeta.
    next w1 r1 v1 st1 Ha1 E1; [apply keyword_ok; [reflexivity|exact Ha]|].
    next w2 r2 v2 st2 Ha2 E2; [apply agrees_optional; apply int_params_ok; exact Ha1|].
    next w3 r3 v3 st3 Ha3 E3; [apply agrees_optional; apply parser_name_ok; exact Ha2|].
    apply (agrees_slice pre (w1 ++ w2 ++ w3)); [exact Ha3|rewrite !app_assoc; reflexivity|apply Ha|apply agrees_done].
  Qed.

  Lemma piece_parser_ok : implements (parse_piece_parser input) p_piece_parser.
  Proof.
    intros pre rest st Ha. unfold parse_piece_parser, p_piece_parser. cbv zeta.
    next w1 r1 v1 st1 Ha1 E1; [apply quote_ok; [reflexivity|exact Ha]|].
    next w2 r2 v2 st2 Ha2 E2.
    { apply agrees_choice; [apply set_ok; exact Ha1|]. intros st' _. apply int_parser_ok. exact Ha1. }
    next w3 r3 v3 st3 Ha3 E3; [apply quote_ok; [reflexivity|exact Ha2]|].
    apply (agrees_slice pre (w1 ++ w2 ++ w3)); [exact Ha3|rewrite !app_assoc; reflexivity|apply Ha|apply agrees_done].
  Qed.

  Lemma piece_literal_ok : implements (parse_piece_literal input) p_piece_literal.
  Proof.
    intros pre rest st Ha. unfold parse_piece_literal, p_piece_literal. cbv zeta.
    next w1 r1 v1 st1 Ha1 E1; [apply literal_ok; exact Ha|].
    apply (agrees_slice pre w1); [exact Ha1|reflexivity|apply Ha|apply agrees_done].
  Qed.

  Lemma greedy_ok : implements (parse_parser_GREEDY input) p_greedy.
  Proof.
    intros pre rest st Ha. unfold parse_parser_GREEDY, p_greedy. cbv zeta.
    next w1 r1 v1 st1 Ha1 E1; [apply quote_ok; [reflexivity|exact Ha]|].
    next w2 r2 v2 st2 Ha2 E2; [apply keyword_ok; [reflexivity|exact Ha1]|].
    next w3 r3 v3 st3 Ha3 E3; [apply agrees_optional; apply parser_name_ok; exact Ha2|].
    next w4 r4 v4 st4 Ha4 E4; [apply quote_ok; [reflexivity|exact Ha3]|].
    next w5 r5 v5 st5 Ha5 E5; [apply agrees_optional; apply literal_ok; exact Ha4|].
    apply (agrees_slice pre (w1 ++ w2 ++ w3 ++ w4 ++ w5));
      [exact Ha5|rewrite !app_assoc; reflexivity|apply Ha|]. destruct v5; apply agrees_done.
  Qed.

  Lemma piece_ok : implements (parse_pattern_piece input) p_piece.
  Proof.
    intros pre rest st Ha. unfold parse_pattern_piece, p_piece.
    apply agrees_choice; [apply greedy_ok; exact Ha|]. intros st1 _.
    apply agrees_choice; [apply piece_literal_ok; exact Ha|]. intros st2 _. apply piece_parser_ok. exact Ha.
  Qed.

  (** ** Failing pieces leave a mark *)
  Definition fails_marked {A} (r : rule A) : Prop :=
    forall pre rest st st', at_ pre rest -> okst st -> r st (length pre) = Ret (st', None) ->
      marked (length pre) st'.

  Lemma slice_eq_marks m : fails_marked (fun st pos => slice_eq input st pos m).
  Proof.
    intros pre rest st st' Ha O. unfold slice_eq. cbv zeta. destruct (_ && _)%bool; [discriminate|].
    intros E. inversion E; subst. apply mark_marks. exact O.
  Qed.

  Lemma seq_marks {A B} pre rest st st' (p : pres A) o (k : pstate -> nat -> A -> rresult B) :
    at_ pre rest -> okst st -> agrees pre rest st p o ->
    (forall st1, o = Ret (st1, None) -> marked (length pre) st1) ->
    (forall w rest' v st1, at_ (pre ++ w) rest' -> okst st1 ->
       k st1 (length (pre ++ w)) v = Ret (st', None) -> marked (length (pre ++ w)) st') ->
    seq o k = Ret (st', None) -> marked (length pre) st'.
  Proof.
    intros Ha O H M K E. destruct p as [v r'| |]; simpl in H.
    - destruct H as (w & s' & -> & Uw & -> & X). cbn [seq bind] in E.
      destruct (K w r' v s' (at_move _ _ _ Ha Uw) (proj1 X O) E) as (M1 & M2).
      split; [rewrite app_length in M1; lia|exact M2].
    - destruct H as (s' & -> & X). cbn [seq bind] in E. inversion E; subst. apply M. reflexivity.
    - rewrite H in E. discriminate.
  Qed.

  Lemma optional_nofail {A} (o : rresult A) pos st : optional o pos <> Ret (st, None).
  Proof. destruct o as [[st' [[p v]|]]| |]; simpl; discriminate. Qed.

  Lemma keyword_marks m : ascii m = true -> fails_marked (keyword input m).
  Proof.
    intros A pre rest st st' Ha O. unfold keyword. cbv zeta. intros E.
    refine (seq_marks _ _ _ _ _ _ _ Ha O (quote_ok m _ _ st A Ha) _ _ E).
    - intros st1. apply (slice_eq_marks m _ _ _ _ Ha O).
    - intros w r v st1 Ha1 O1 E1. exfalso. unfold matched in E1.
      destruct (slice input (length pre) (length (pre ++ w))); discriminate.
  Qed.

  Lemma greedy_marks : fails_marked (parse_parser_GREEDY input).
  Proof.
    intros pre rest st st' Ha O. unfold parse_parser_GREEDY. cbv zeta. intros E.
    refine (seq_marks _ _ _ _ _ _ _ Ha O (quote_ok parser_begin _ _ st eq_refl Ha) _ _ E).
    { intros st1. apply (slice_eq_marks _ _ _ _ _ Ha O). }
    clear E. intros w1 r1 v1 st1 Ha1 O1 E.
    refine (seq_marks _ _ _ _ _ _ _ Ha1 O1 (keyword_ok ($"GREEDY") eq_refl _ _ st1 Ha1) _ _ E).
    { intros st2. apply (keyword_marks ($"GREEDY") eq_refl _ _ _ _ Ha1 O1). }
    clear E. intros w2 r2 v2 st2 Ha2 O2 E.
    refine (seq_marks _ _ _ _ _ _ _ Ha2 O2 (agrees_optional _ _ _ _ _ (parser_name_ok _ _ st2 Ha2)) _ _ E).
    { intros st3 E'. exfalso. apply (optional_nofail _ _ _ E'). }
    clear E. intros w3 r3 v3 st3 Ha3 O3 E.
    refine (seq_marks _ _ _ _ _ _ _ Ha3 O3 (quote_ok ($"}") _ _ st3 eq_refl Ha3) _ _ E).
    { intros st4. apply (slice_eq_marks _ _ _ _ _ Ha3 O3). }
    clear E. intros w4 r4 v4 st4 Ha4 O4 E.
    refine (seq_marks _ _ _ _ _ _ _ Ha4 O4 (agrees_optional _ _ _ _ _ (literal_ok _ _ st4 Ha4)) _ _ E).
    { intros st5 E'. exfalso. apply (optional_nofail _ _ _ E'). }
    clear E. intros w5 r5 v5 st5 Ha5 O5 E. exfalso. unfold matched in E.
    destruct (slice input (length pre) _); discriminate.
  Qed.

  Lemma piece_marks : fails_marked (parse_pattern_piece input).
  Proof.
    intros pre rest st st' Ha O E. unfold parse_pattern_piece in E.
    pose proof (greedy_ok pre rest st Ha) as G. pose proof (greedy_marks pre rest st) as M.
    destruct (p_greedy rest) as [v r| |]; simpl in G.
    - destruct G as (w & s1 & _ & _ & Eg & _). rewrite Eg in E. discriminate.
    - destruct G as (s1 & Eg & X1). rewrite Eg in E. cbn [choice bind] in E. specialize (M s1 Ha O Eg).
      assert (okst s1) as O1 by (apply X1; exact O).
      assert (forall q : pres (list token),
        agrees pre rest s1 q (choice (parse_piece_literal input s1 (length pre))
                         (fun st => parse_piece_parser input st (length pre))) -> ext s1 st') as K.
      { intros q K. rewrite E in K. destruct q as [v r| |]; simpl in K.
        - destruct K as (w & s2 & _ & _ & K & _). discriminate.
        - destruct K as (s2 & K & X). inversion K; subst. exact X.
        - discriminate. }
      apply (marked_ext _ s1); [|exact M].
      apply (K (p_or (p_piece_literal rest) (p_piece_parser rest))).
      apply agrees_choice; [apply piece_literal_ok; exact Ha|]. intros s2 _. apply piece_parser_ok. exact Ha.
    - rewrite G in E. discriminate.
  Qed.

  (** ** The whole pattern *)
  Lemma p_piece_shorter s v s' : p_piece s = PMatch v s' -> length s' < length s.
  Proof.
    assert (forall A B (p : pres A) (k : A -> str -> pres B) n,
              (forall v s, p = PMatch v s -> length s < n) ->
              (forall v s w s', k v s = PMatch w s' -> length s' <= length s) ->
              forall w s', pbind p k = PMatch w s' -> length s' < n) as B1.
    { intros A B p k n H1 H2 w s0 H. destruct p as [v0 s1| |]; try discriminate. simpl in H.
      specialize (H1 v0 s1 eq_refl). specialize (H2 v0 s1 w s0 H). lia. }
    assert (forall A B (p : str -> pres A) (k : A -> str -> pres B),
              (forall s v s', p s = PMatch v s' -> length s' <= length s) ->
              (forall v s w s', k v s = PMatch w s' -> length s' <= length s) ->
              forall s w s', pbind (p s) k = PMatch w s' -> length s' <= length s) as B2.
    { intros A B p k H1 H2 s0 w s1 H. destruct (p s0) as [v0 s2| |] eqn:Ep; try discriminate. simpl in H.
      specialize (H1 _ _ _ Ep). specialize (H2 v0 s2 w s1 H). lia. }
    assert (forall m s v s', p_str m s = PMatch v s' -> length s' <= length s) as L1.
    { unfold p_str. intros m s0 v0 s1 H. destruct (strip m s0) as [r|] eqn:E; [|discriminate].
      apply strip_some in E. inversion H; subst. rewrite app_length. lia. }
    assert (forall A (p : str -> pres A), (forall s v s', p s = PMatch v s' -> length s' <= length s) ->
              forall s v s', p_opt (p s) s = PMatch v s' -> length s' <= length s) as Lo.
    { intros A p Hp s0 v0 s1 H. unfold p_opt in H. destruct (p s0) as [v1 r| |] eqn:E; try discriminate.
      - inversion H; subst. apply (Hp _ _ _ E).
      - inversion H; subst. lia. }
    assert (forall A B (p : A) s (v : B) s', PMatch v s = PMatch v s' -> length s' <= length s) as _ by
      (intros A B _ s0 v0 s1 H; inversion H; lia).
    assert (forall m s v s', p_until m s = PMatch v s' -> length s' <= length s) as L2.
    { intros m s0 v0 s1 H. unfold p_until in H. pose proof (until_app m s0) as T. destruct (until m s0) as (a, r).
      destruct (is_empty a); [discriminate|]. inversion H; subst. rewrite app_length. lia. }
    assert (forall m s v s', p_until m s = PMatch v s' -> length s' < length s) as L2'.
    { intros m s0 v0 s1 H. unfold p_until in H. pose proof (until_app m s0) as T. destruct (until m s0) as (a, r).
      destruct a as [|x a]; [discriminate|]. inversion H; subst. simpl. rewrite app_length. lia. }
    assert (forall m s v s', p_keyword m s = PMatch v s' -> length s' <= length s) as L3.
    { intros m. unfold p_keyword. apply (B2 _ _ (p_str m)); [apply L1|]. intros v0 s0 w s1 H. inversion H. lia. }
    assert (forall s v s', p_ident s = PMatch v s' -> length s' <= length s) as L4.
    { intros s0 v0 s1 H. destruct s0 as [|b s0]; [discriminate|]. cbn [p_ident] in H.
      destruct (ident_first [b]); [|discriminate]. pose proof (ident_tail_app s0) as T.
      destruct (ident_tail s0) as (a, r). inversion H; subst. simpl. rewrite app_length. lia. }
    assert (forall s v s', p_name s = PMatch v s' -> length s' <= length s) as L5.
    { unfold p_name. apply (B2 _ _ (p_str ($":"))); [apply L1|]. intros _. apply L4. }
    assert (forall s v s', p_comma s = PMatch v s' -> length s' <= length s) as L6.
    { intros s0 v0 s1 H. apply p_comma_shorter in H. lia. }
    assert (forall s v s', p_params s = PMatch v s' -> length s' <= length s) as L7.
    { assert (forall n s v s', p_star p_more n s = PMatch v s' -> length s' <= length s) as Ls.
      { induction n as [|n IH]; intros s0 v0 s1 H; cbn [p_star] in H; [discriminate|].
        destruct (p_more s0) as [v1 s2| |] eqn:E; try discriminate.
        - destruct (p_star p_more n s2) as [v3 s3| |] eqn:E2; try discriminate. cbn [pbind] in H.
          inversion H; subst. apply p_more_shorter in E. apply IH in E2. lia.
        - inversion H; subst. lia. }
      intros s0 v0 s1 H. unfold p_params in H. destruct (p_param s0) as [v1 s2| |] eqn:E; try discriminate.
      - destruct (p_star p_more (S (length s2)) s2) as [v3 s3| |] eqn:E2; try discriminate. cbn [pbind] in H.
        inversion H; subst. apply p_param_shorter in E. apply Ls in E2. lia.
      - inversion H; subst. lia. }
    assert (forall s v s', p_set_params s = PMatch v s' -> length s' <= length s) as L8.
    { unfold p_set_params. apply (B2 _ _ p_comma); [apply L6|]. intros _. apply L7. }
    assert (forall s v s', p_int_params s = PMatch v s' -> length s' <= length s) as L9.
    { unfold p_int_params. apply (B2 _ _ (p_str ($"("))); [apply L1|]. intros _.
      apply (B2 _ _ p_params); [apply L7|]. intros v0.
      apply (B2 _ _ (p_str ($")"))); [apply L1|]. intros _ s0 w s1 H. inversion H. lia. }
    assert (forall s v s', p_string s = PMatch v s' -> length s' <= length s) as L10.
    { unfold p_string. apply (B2 _ _ (p_str quotation_mark)); [apply L1|]. intros _.
      apply (B2 _ _ (p_until quotation_mark)); [apply L2|]. intros v0.
      apply (B2 _ _ (p_str quotation_mark)); [apply L1|]. intros _ s0 w s1 H. inversion H. lia. }
    assert (forall s v s', p_set s = PMatch v s' -> length s' <= length s) as L11.
    { unfold p_set. apply (B2 _ _ (p_keyword ($"SET"))); [apply L3|]. intros _.
      apply (B2 _ _ (p_str ($"("))); [apply L1|]. intros _.
      apply (B2 _ _ p_string); [apply L10|]. intros v0.
      apply (B2 _ _ (fun s => p_opt (p_set_params s) s)); [apply Lo; apply L8|]. intros v1.
      apply (B2 _ _ (p_str ($")"))); [apply L1|]. intros _.
      apply (B2 _ _ (fun s => p_opt (p_name s) s)); [apply Lo; apply L5|].
      intros v2 s0 w s1 H. inversion H. lia. }
    assert (forall s v s', p_int_parser s = PMatch v s' -> length s' <= length s) as L12.
    { unfold p_int_parser. apply (B2 _ _ (p_keyword ($"INT"))); [apply L3|]. intros _.
      apply (B2 _ _ (fun s => p_opt (p_int_params s) s)); [apply Lo; apply L9|]. intros v1.
      apply (B2 _ _ (fun s => p_opt (p_name s) s)); [apply Lo; apply L5|].
      intros v2 s0 w s1 H. inversion H. lia. }
    unfold p_piece. intros H. destruct (p_greedy s) as [v1 s1| |] eqn:Eg; cbn [p_or] in H; try discriminate.
    - rewrite H in Eg. clear H. revert v s' Eg. unfold p_greedy. apply B1.
      { intros v2 s2. apply p_str_shorter. discriminate. }
      intros _. apply (B2 _ _ (p_keyword ($"GREEDY"))); [apply L3|]. intros _.
      apply (B2 _ _ (fun s => p_opt (p_name s) s)); [apply Lo; apply L5|]. intros v2.
      apply (B2 _ _ (p_str ($"}"))); [apply L1|]. intros _.
      apply (B2 _ _ (fun s => p_opt (p_literal s) s)); [apply Lo; apply L2|].
      intros v3 s0 w s2 H. inversion H. lia.
    - destruct (p_piece_literal s) as [v1 s1| |] eqn:El; cbn [p_or] in H; try discriminate.
      + rewrite H in El. clear H. revert v s' El. unfold p_piece_literal. apply B1.
        { intros v2 s2. apply L2'. }
        intros v2 s0 w s2 H. inversion H. lia.
      + revert v s' H. unfold p_piece_parser. apply B1.
        { intros v2 s2. apply p_str_shorter. discriminate. }
        intros _. apply (B2 _ _ (fun s => p_or (p_set s) (p_int_parser s))).
        { intros s0 w s2 H. destruct (p_set s0) eqn:Es; cbn [p_or] in H; try discriminate.
          - rewrite H in Es. apply L11 in Es. exact Es.
          - apply L12 in H. exact H. }
        intros v2. apply (B2 _ _ (p_str ($"}"))); [apply L1|]. intros _ s0 w s2 H. inversion H. lia.
  Qed.
End Refine.

Theorem compile_spec s : utf8 s ->
  match p_star p_piece (S (length s)) s with
  | PMatch vs rest =>
      if is_empty rest && negb (is_empty vs) then compile s = Ret (Ok (concat vs))
      else exists st w, s = w ++ rest /\ utf8 w /\ compile s = Ret (Err (pattern_error s st)) /\
             okst s st /\ marked (length w) st
  | PFail => False
  | PPanic => compile s = Panic
  end.
Proof.
  intros U. unfold compile, parse_pattern. cbv zeta.
  assert (at_ s [] s) as Ha by (split; [reflexivity|split; [constructor|exact U]]).
  pose proof (loop_strong s (parse_pattern_piece s) p_piece (piece_ok s) p_piece_shorter (S (length s)) s
                (Nat.lt_succ_diag_r _) (loop_fuel s) (fuel_enough s _ _ Ha) [] pstate_new [] Ha) as H.
  cbn [length app] in H.
  destruct (p_star p_piece (S (length s)) s) as [vs rest| |].
  - destruct H as (w & st & Es & Uw & X & (st1 & X1 & E1) & ->). cbn [bind].
    assert (okst s pstate_new) as O0.
    { split; [simpl; lia|]. split; [reflexivity|]. simpl. lia. }
    assert (at_ s w rest) as Ha'.
    { split; [exact Es|]. split; [exact Uw|]. apply (utf8_app_inv_r w); [exact Uw|]. rewrite <- Es. exact U. }
    assert (marked (length w) st) as M.
    { apply (piece_marks s w rest st1 st Ha' (proj1 X1 O0) E1). }
    assert (okst s st) as O by (apply X; exact O0).
    destruct vs as [|v vs]; cbn [length Nat.leb is_empty negb].
    + rewrite andb_false_r. unfold failed. cbn [bind]. exists st, w. auto.
    + rewrite andb_true_r.
      assert (slice s 0 (length w) = Ret w) as ->.
      { rewrite Es. apply (slice_mid [] w rest); [constructor|exact Uw|apply Ha']. }
      cbn [bind]. unfold matched. cbn [bind]. rewrite flatten_vec_concat.
      destruct rest as [|b rest]; cbn [is_empty].
      * assert (Nat.eqb (length w) (length s) = true) as ->; [|reflexivity].
        apply Nat.eqb_eq. rewrite Es, app_length. simpl. lia.
      * assert (Nat.eqb (length w) (length s) = false) as ->.
        { apply Nat.eqb_neq. rewrite Es, app_length. simpl. lia. }
        exists st, w. auto.
  - exact H.
  - rewrite H. reflexivity.
Qed.
