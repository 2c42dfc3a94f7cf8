(** * The generated parser implements the grammar file *)
From Verif Require Import Base Base_facts Utils Utils_facts Parsers Pattern Spec Grammar Peg Grammar_refine
  Spec_grammar Grammar_claims Rustpeg.

(** ** The meaning of parsing expressions is a function *)
Lemma run_text_split m s s' m' o : run (Text m) s o m' -> s = m ++ s' -> o = Some s' /\ m' = [].
Proof.
  intros H E. inversion H; subst.
  - match goal with X : _ ++ _ = _ ++ _ |- _ => apply app_inv_head in X; subst end. auto.
  - exfalso. match goal with X : ~ prefix_of _ _ |- _ => apply X end. exists s'. reflexivity.
Qed.

Theorem run_unique e s r m : run e s r m -> forall r' m', run e s r' m' -> r = r' /\ m = m'.
Proof.
  induction 1 as
    [t s | t s N | c s U | | c b s I | c s N
    | a b s s' r m m' _ IH1 _ IH2 | a b s m _ IH
    | a b s s' m _ IH | a b s r m m' _ IH1 _ IH2
    | a s s' m _ IH | a s m _ IH
    | a s s' r m m' _ IH1 _ IH2 | a s m _ IH
    | a s r m _ IH | a sep s r m _ IH | a s m _ IH | a s s' m _ IH | n s r m _ IH];
    intros r0 m0 H.
  - destruct (run_text_split _ _ s _ _ H eq_refl) as (-> & ->). auto.
  - inversion H; subst; [|auto]. exfalso. apply N. eexists. reflexivity.
  - inversion H as [| |c' s' U' E0 E| | | | | | | | | | | | | | | |]; subst.
    + destruct (utf8_char_prefix c' c s' s U' U E) as [-> ->]. auto.
    + apply utf8_char_nonempty in U. destruct c; [congruence|discriminate].
  - inversion H as [| |c' s' U' E0 E| | | | | | | | | | | | | | | |]; subst; [|auto].
    apply utf8_char_nonempty in U'. destruct c'; [congruence|discriminate].
  - inversion H; subst; [auto|]. exfalso. match goal with X : forall b s', _ |- _ => exact (X b s eq_refl I) end.
  - inversion H; subst; [|auto]. exfalso. eapply N; [reflexivity|eassumption].
  - inversion H; subst.
    + match goal with X : run a s _ _ |- _ => apply IH1 in X; destruct X as [E1 ->]; injection E1 as -> end.
      match goal with X : run b _ _ _ |- _ => apply IH2 in X; destruct X as [-> ->] end. auto.
    + match goal with X : run a s _ _ |- _ => apply IH1 in X; destruct X; discriminate end.
  - inversion H; subst.
    + match goal with X : run a s _ _ |- _ => apply IH in X; destruct X; discriminate end.
    + match goal with X : run a s _ _ |- _ => apply IH in X; destruct X as [_ ->] end. auto.
  - inversion H; subst.
    + match goal with X : run a s _ _ |- _ => apply IH in X; destruct X as [-> ->] end. auto.
    + match goal with X : run a s _ _ |- _ => apply IH in X; destruct X; discriminate end.
  - inversion H; subst.
    + match goal with X : run a s _ _ |- _ => apply IH1 in X; destruct X; discriminate end.
    + match goal with X : run a s _ _ |- _ => apply IH1 in X; destruct X as [_ ->] end.
      match goal with X : run b s _ _ |- _ => apply IH2 in X; destruct X as [-> ->] end. auto.
  - inversion H; subst.
    + match goal with X : run a s _ _ |- _ => apply IH in X; destruct X as [-> ->] end. auto.
    + match goal with X : run a s _ _ |- _ => apply IH in X; destruct X; discriminate end.
  - inversion H; subst.
    + match goal with X : run a s _ _ |- _ => apply IH in X; destruct X; discriminate end.
    + match goal with X : run a s _ _ |- _ => apply IH in X; destruct X as [_ ->] end. auto.
  - inversion H; subst.
    + match goal with X : run a s _ _ |- _ => apply IH1 in X; destruct X as [E1 ->]; injection E1 as -> end.
      match goal with X : run (Many a) _ _ _ |- _ => apply IH2 in X; destruct X as [-> ->] end. auto.
    + match goal with X : run a s _ _ |- _ => apply IH1 in X; destruct X; discriminate end.
  - inversion H; subst.
    + match goal with X : run a s _ _ |- _ => apply IH in X; destruct X; discriminate end.
    + match goal with X : run a s _ _ |- _ => apply IH in X; destruct X as [_ ->] end. auto.
  - inversion H; subst. apply IH. assumption.
  - inversion H; subst. apply IH. assumption.
  - inversion H; subst.
    + match goal with X : run a s _ _ |- _ => apply IH in X; destruct X as [_ ->] end. auto.
    + match goal with X : run a s _ _ |- _ => apply IH in X; destruct X; discriminate end.
  - inversion H; subst.
    + match goal with X : run a s _ _ |- _ => apply IH in X; destruct X; discriminate end.
    + match goal with X : run a s _ _ |- _ => apply IH in X; destruct X as [_ ->] end. auto.
  - inversion H; subst. apply IH. assumption.
Qed.

(** Everything happens at suffixes of the text. *)
Definition suffix_of (t s : str) : Prop := exists w, s = w ++ t.
Lemma suffix_refl s : suffix_of s s.
Proof. exists []. reflexivity. Qed.
Lemma suffix_trans a b c : suffix_of a b -> suffix_of b c -> suffix_of a c.
Proof. intros (w & ->) (w' & ->). exists (w' ++ w). apply app_assoc. Qed.

Lemma run_suffix e s r m : run e s r m ->
  (forall s', r = Some s' -> suffix_of s' s) /\ (forall t x, In (t, x) m -> suffix_of t s).
Proof.
  assert (forall s (x : str), forall t y, In (t, y) [(s, x)] -> suffix_of t s) as One.
  { intros s0 x t y [E|[]]. injection E as -> _. apply suffix_refl. }
  assert (forall s (m : list (str * str)) s' (m' : list (str * str)), (forall t x, In (t, x) m -> suffix_of t s) -> suffix_of s' s ->
            (forall t x, In (t, x) m' -> suffix_of t s') -> forall t x, In (t, x) (m ++ m') -> suffix_of t s) as App.
  { intros s0 m0 s0' m0' H1 H2 H3 t x I. apply in_app_or in I. destruct I as [I|I]; [eapply H1; eassumption|].
    apply (suffix_trans _ s0'); [eapply H3; eassumption|assumption]. }
  induction 1 as
    [t s | t s N | c s U | | c b s I | c s N
    | a b s s' r m m' _ [IH1 IH1'] _ [IH2 IH2'] | a b s m _ [IH IH']
    | a b s s' m _ [IH IH'] | a b s r m m' _ [IH1 IH1'] _ [IH2 IH2']
    | a s s' m _ [IH IH'] | a s m _ [IH IH']
    | a s s' r m m' _ [IH1 IH1'] _ [IH2 IH2'] | a s m _ [IH IH']
    | a s r m _ [IH IH'] | a sep s r m _ [IH IH'] | a s m _ [IH IH'] | a s s' m _ [IH IH'] | n s r m _ [IH IH']];
    split; auto; try discriminate.
  all: first [refine (One _ _)|intros ? ? []; fail|idtac].
  - intros s' E. injection E as <-. exists t. reflexivity.
  - intros s' E. injection E as <-. exists c. reflexivity.
  - intros s' E. injection E as <-. exists [b]. reflexivity.
  - intros s2 E. apply (suffix_trans _ s'); auto.
  - apply (App _ _ s'); auto.
  - apply (App _ _ s); auto using suffix_refl.
  - intros s2 E. injection E as <-. apply suffix_refl.
  - intros s2 E. apply (suffix_trans _ s'); auto.
  - apply (App _ _ s'); auto.
  - intros s2 E. injection E as <-. apply suffix_refl.
  - intros s2 E. injection E as <-. apply suffix_refl.
Qed.

(** ** Simulation *)
Section Sim.
  Variable input : str.
  Local Notation at_ := (at_ input).

  Definition mark (st : pstate) (x : str * str) : pstate :=
    mark_failure st (length input - length (fst x)) (snd x).
  Definition marks (st : pstate) (m : list (str * str)) : pstate := fold_left mark m st.

  Lemma marks_app st m m' : marks st (m ++ m') = marks (marks st m) m'.
  Proof. apply fold_left_app. Qed.

  Lemma at_pos pre rest : at_ pre rest -> length input - length rest = length pre.
  Proof. intros (-> & _). rewrite app_length. lia. Qed.

  (** What a rule has done. *)
  Definition did {A : Type} (e : peg) (pre rest : str) (st st' : pstate) (o : option (nat * A)) : Prop :=
    match o with
    | Some (p, _) => exists w rest' m, rest = w ++ rest' /\ utf8 w /\ p = length (pre ++ w) /\
                       run e rest (Some rest') m /\ st' = marks st m
    | None => exists m, run e rest None m /\ st' = marks st m
    end.
  Definition sim {A : Type} (f : rule A) (e : peg) : Prop :=
    forall pre rest st st' o, at_ pre rest -> f st (length pre) = Ret (st', o) -> did e pre rest st st' o.

  Lemma did_seq {B} a b pre w rest st m st' (o : option (nat * B)) :
    utf8 w -> run a (w ++ rest) (Some rest) m -> did b (pre ++ w) rest (marks st m) st' o ->
    did (Seq a b) pre (w ++ rest) st st' o.
  Proof.
    intros Uw R D. destruct o as [[p v']|]; cbn [did] in *.
    - destruct D as (w' & r' & m' & -> & Uw' & -> & R' & ->). exists (w ++ w'), r', (m ++ m').
      rewrite !app_assoc. split; [reflexivity|]. split; [apply utf8_app; assumption|]. split; [reflexivity|].
      rewrite <- app_assoc. split; [econstructor; eassumption|symmetry; apply marks_app].
    - destruct D as (m' & R' & ->). exists (m ++ m'). split; [econstructor; eassumption|symmetry; apply marks_app].
  Qed.

  Lemma sim_seq {A B} (f : rule A) (k : pstate -> nat -> A -> rresult B) a b :
    sim f a -> (forall v, sim (fun st pos => k st pos v) b) -> sim (fun st pos => seq (f st pos) k) (Seq a b).
  Proof.
    intros Ha Hb pre rest st st' o At H. unfold seq in H.
    destruct (f st (length pre)) as [[s1 [[p v]|]]| |] eqn:E; try discriminate; cbn [bind] in H.
    - destruct (Ha _ _ _ _ _ At E) as (w & rest' & m & -> & Uw & -> & R & ->).
      pose proof (at_move _ _ _ _ At Uw) as At'. specialize (Hb v _ _ _ _ _ At' H).
      exact (did_seq a b pre w rest' st m st' o Uw R Hb).
    - injection H as <- <-. destruct (Ha _ _ _ _ _ At E) as (m & R & ->). exists m. split; [apply run_seq_fail; exact R|reflexivity].
  Qed.

  (** The last step computes the value. *)
  Definition finishes {A B} (k : pstate -> nat -> A -> rresult B) : Prop :=
    forall st pos v st' o, k st pos v = Ret (st', o) -> exists u, st' = st /\ o = Some (pos, u).
  Lemma sim_last {A B} (f : rule A) (k : pstate -> nat -> A -> rresult B) a :
    sim f a -> finishes k -> sim (fun st pos => seq (f st pos) k) a.
  Proof.
    intros Ha Hk pre rest st st' o At H. unfold seq in H.
    destruct (f st (length pre)) as [[s1 [[p v]|]]| |] eqn:E; try discriminate; cbn [bind] in H.
    - destruct (Hk _ _ _ _ _ H) as (u & -> & ->). exact (Ha _ _ _ _ _ At E).
    - injection H as <- <-. exact (Ha _ _ _ _ _ At E).
  Qed.
  Lemma finishes_slice {A B} a (g : A -> str -> B) :
    finishes (fun st pos v => let* m := slice input a pos in matched st pos (g v m)).
  Proof.
    intros st pos v st' o H. destruct (slice input a pos); try discriminate. cbn [bind matched] in H.
    injection H as <- <-. eauto.
  Qed.

  Lemma sim_rule {A} (f : rule A) n : sim f (rustpeg n) -> sim f (Rule n).
  Proof.
    intros H pre rest st st' o At E. specialize (H _ _ _ _ _ At E). destruct o as [[p v]|]; cbn [did] in *.
    - destruct H as (w & r & m & -> & U & -> & R & ->). exists w, r, m. auto 10 using run_rule.
    - destruct H as (m & R & ->). exists m. auto using run_rule.
  Qed.

  Lemma sim_or {A} (f g : rule A) a b : sim f a -> sim g b ->
    sim (fun st pos => choice (f st pos) (fun st => g st pos)) (Or a b).
  Proof.
    intros Ha Hb pre rest st st' o At H. unfold choice in H.
    destruct (f st (length pre)) as [[s1 [[p v]|]]| |] eqn:E; try discriminate; cbn [bind] in H.
    - injection H as <- <-. destruct (Ha _ _ _ _ _ At E) as (w & r & m & -> & U & -> & R & ->).
      exists w, r, m. auto 10 using run_or.
    - destruct (Ha _ _ _ _ _ At E) as (m & R & ->). specialize (Hb _ _ _ _ _ At H).
      destruct o as [[p v]|]; cbn [did] in *.
      + destruct Hb as (w & r & m' & -> & U & -> & R' & ->). exists w, r, (m ++ m').
        repeat split; auto; [eapply run_or_else; eassumption|symmetry; apply marks_app].
      + destruct Hb as (m' & R' & ->). exists (m ++ m'). split; [eapply run_or_else; eassumption|symmetry; apply marks_app].
  Qed.

  Lemma sim_opt {A} (f : rule A) a : sim f a -> sim (fun st pos => optional (f st pos) pos) (Opt a).
  Proof.
    intros Ha pre rest st st' o At H. unfold optional in H.
    destruct (f st (length pre)) as [[s1 [[p v]|]]| |] eqn:E; try discriminate; cbn [bind] in H; injection H as <- <-.
    - destruct (Ha _ _ _ _ _ At E) as (w & r & m & -> & U & -> & R & ->). exists w, r, m. auto 10 using run_opt.
    - destruct (Ha _ _ _ _ _ At E) as (m & R & ->). exists [], rest, m. rewrite app_nil_r.
      repeat split; auto using run_opt_none, utf8_nil.
  Qed.

  (** ** Terminals *)
  Lemma mark_at pre rest st x : at_ pre rest -> mark_failure st (length pre) x = marks st [(rest, x)].
  Proof. intros At. unfold marks. cbn [fold_left]. unfold mark. cbn [fst snd]. rewrite (at_pos _ _ At). reflexivity. Qed.

  Lemma prefixb_prefix m s : prefixb m s = true <-> prefix_of m s.
  Proof. apply prefixb_app. Qed.

  Lemma sim_text m : utf8 m -> sim (fun st pos => slice_eq input st pos m) (Text m).
  Proof.
    intros Um pre rest st st' o At H. unfold slice_eq in H. cbv zeta in H. pose proof At as (E & U1 & U2).
    assert (firstn (length m) (skipn (length pre) input) = firstn (length m) rest) as Es.
    { rewrite E, skipn_app, skipn_all, Nat.sub_diag. reflexivity. }
    rewrite Es in H.
    destruct (Nat.leb (length pre + length m) (length input)) eqn:L;
      [destruct (str_eqb (firstn (length m) rest) m) eqn:Q|]; cbn [andb] in H; injection H as <- <-.
    - apply str_eqb_eq in Q. exists m, (skipn (length m) rest), [].
      assert (rest = m ++ skipn (length m) rest) as R by (rewrite <- Q at 1; symmetry; apply firstn_skipn).
      split; [exact R|]. split; [exact Um|]. split; [symmetry; apply app_length|]. split; [|reflexivity].
      rewrite R at 1. constructor.
    - exists [(rest, m)]. split; [|apply mark_at; exact At]. constructor. intros (r & ->).
      rewrite firstn_app, firstn_all, Nat.sub_diag, app_nil_r, str_eqb_refl in Q. discriminate.
    - exists [(rest, m)]. split; [|apply mark_at; exact At]. constructor. intros (r & ->).
      apply Nat.leb_gt in L. rewrite E, !app_length in L. lia.
  Qed.

  Lemma sim_any : sim (any_char input) AnyChar.
  Proof.
    intros pre rest st st' o At H. unfold any_char in H. rewrite (at_ltb _ _ _ At) in H. pose proof At as (E & U1 & U2).
    destruct rest as [|b0 rest0]; cbn [is_empty negb] in H.
    - injection H as <- <-. exists [([], $"<character>")]. split; [constructor|apply mark_at; exact At].
    - destruct (utf8_first _ U2 ltac:(discriminate)) as (b & cs & r & Er & Hc & Ur & C1 & C2 & W).
      rewrite Er in *. rewrite (char_range_ok _ pre b cs r At W) in H. cbn [bind snd] in H. injection H as <- <-.
      exists (b :: cs), r, []. split; [reflexivity|]. split; [rewrite <- (app_nil_r (b :: cs)); constructor; [exact Hc|constructor]|].
      split; [reflexivity|]. split; [constructor; exact Hc|reflexivity].
  Qed.

  Lemma sim_class ok c : (forall b, ok [b] = true <-> in_class c b) -> ascii_class ok ->
    sim (char_class input ok (class_text c)) (Class c).
  Proof.
    intros Hc Hok pre rest st st' o At H. unfold char_class in H. rewrite (at_ltb _ _ _ At) in H. pose proof At as (E & U1 & U2).
    destruct rest as [|b0 rest0]; cbn [is_empty negb] in H.
    - injection H as <- <-. exists [([], class_text c)]. split; [constructor; discriminate|apply mark_at; exact At].
    - destruct (utf8_first _ U2 ltac:(discriminate)) as (b & cs & r & Er & Hch & Ur & C1 & C2 & W).
      rewrite Er in *. rewrite (char_range_ok _ pre b cs r At W) in H. cbn [bind fst snd] in H.
      destruct (ok (b :: cs)) eqn:O; injection H as <- <-.
      + destruct (Hok _ O) as (b' & Eb & Ab). injection Eb as -> ->.
        exists [b'], r, []. split; [reflexivity|]. split; [apply (utf8_cons [b'] []); [exact Hch|constructor]|].
        split; [reflexivity|]. split; [constructor; apply Hc; exact O|reflexivity].
      + exists [((b :: cs) ++ r, class_text c)]. split; [|apply mark_at; exact At]. constructor.
        intros b1 s1 E1 I. injection E1 as <- _. apply Hc in I. destruct (Hok _ I) as (b' & Eb & Ab). injection Eb as <-.
        assert (cs = []) as ->.
        { unfold utf8_width in W. unfold ascii_byte in Ab. rewrite Ab in W. simpl in W. destruct cs; [reflexivity|simpl in W; lia]. }
        congruence.
  Qed.

  (** ** Loops *)
  Lemma loop_sim {A} (step : rule A) e : sim step e ->
    forall fuel pre rest st acc st' p vs, at_ pre rest ->
    repeat_loop fuel step st (length pre) acc = Ret (st', (p, vs)) ->
    exists w rest' m, rest = w ++ rest' /\ utf8 w /\ p = length (pre ++ w) /\
      run (Many e) rest (Some rest') m /\ st' = marks st m /\
      ((run e rest None m /\ vs = acc) \/
       (run (Seq e (Many e)) rest (Some rest') m /\ length acc < length vs)).
  Proof.
    intros Hs. induction fuel as [|fuel IH]; intros pre rest st acc st' p vs At H; [discriminate|].
    cbn [repeat_loop] in H. destruct (step st (length pre)) as [[s1 [[q v]|]]| |] eqn:E; try discriminate; cbn [bind] in H.
    - destruct (Hs _ _ _ _ _ At E) as (w & r & m & -> & Uw & -> & R & ->).
      pose proof (at_move _ _ _ _ At Uw) as At'.
      destruct (IH _ _ _ _ _ _ _ At' H) as (w' & r' & m' & -> & Uw' & -> & R' & -> & D).
      exists (w ++ w'), r', (m ++ m'). rewrite !app_assoc. split; [reflexivity|]. split; [apply utf8_app; assumption|].
      split; [reflexivity|]. rewrite <- app_assoc. split; [eapply run_many; eassumption|].
      split; [symmetry; apply marks_app|]. right. split; [eapply run_seq; eassumption|].
      destruct D as [(_ & ->)|(_ & L)]; rewrite app_length in *; cbn [length] in *; lia.
    - injection H as <- <- <-. destruct (Hs _ _ _ _ _ At E) as (m & R & ->). exists [], rest, m. rewrite app_nil_r.
      repeat split; auto using run_many_done, utf8_nil.
  Qed.

  Lemma sep_sim {A} (sep : rule unit) (step : rule A) es e : sim sep es -> sim step e ->
    forall fuel pre rest st acc st' p vs, at_ pre rest -> acc <> [] ->
    repeat_sep_loop fuel sep step st (length pre) acc = Ret (st', (p, vs)) ->
    exists w rest' m, rest = w ++ rest' /\ utf8 w /\ p = length (pre ++ w) /\
      run (Many (Seq es e)) rest (Some rest') m /\ st' = marks st m.
  Proof.
    intros Hsep Hs. induction fuel as [|fuel IH]; intros pre rest st acc st' p vs At N H; [discriminate|].
    cbn [repeat_sep_loop] in H. assert (negb (is_empty acc) = true) as En by (destruct acc; [congruence|reflexivity]).
    rewrite En in H. destruct (sep st (length pre)) as [[s1 [[q v]|]]| |] eqn:E; try discriminate; cbn [bind] in H.
    - destruct (Hsep _ _ _ _ _ At E) as (w & r & m & -> & Uw & -> & R & ->).
      pose proof (at_move _ _ _ _ At Uw) as At'.
      destruct (step _ (length (pre ++ w))) as [[s2 [[q2 v2]|]]| |] eqn:E2; try discriminate; cbn [bind] in H.
      + destruct (Hs _ _ _ _ _ At' E2) as (w2 & r2 & m2 & -> & Uw2 & -> & R2 & ->).
        pose proof (at_move _ _ _ _ At' Uw2) as At2.
        assert (acc ++ [v2] <> []) as N2 by (destruct acc; discriminate).
        destruct (IH _ _ _ _ _ _ _ At2 N2 H)
          as (w' & r' & m' & -> & Uw' & -> & R' & ->).
        exists (w ++ w2 ++ w'), r', ((m ++ m2) ++ m'). rewrite !app_assoc. split; [reflexivity|].
        split; [repeat apply utf8_app; assumption|]. split; [reflexivity|]. rewrite <- !app_assoc.
        split; [rewrite (app_assoc m); eapply run_many; [eapply run_seq; eassumption|eassumption]|].
        rewrite !marks_app. reflexivity.
      + injection H as <- <- <-. destruct (Hs _ _ _ _ _ At' E2) as (m2 & R2 & ->).
        exists [], (w ++ r), (m ++ m2). rewrite app_nil_r. split; [reflexivity|]. split; [constructor|]. split; [reflexivity|].
        split; [apply run_many_done; eapply run_seq; eassumption|]. rewrite marks_app. reflexivity.
    - injection H as <- <- <-. destruct (Hsep _ _ _ _ _ At E) as (m & R & ->).
      exists [], rest, m. rewrite app_nil_r. repeat split; auto using utf8_nil, run_many_done, run_seq_fail.
  Qed.

  Lemma sep_sim_start {A} (sep : rule unit) (step : rule A) es e : sim sep es -> sim step e ->
    forall fuel pre rest st st' p vs, at_ pre rest ->
    repeat_sep_loop fuel sep step st (length pre) [] = Ret (st', (p, vs)) ->
    exists w rest' m, rest = w ++ rest' /\ utf8 w /\ p = length (pre ++ w) /\
      run (Sep e es) rest (Some rest') m /\ st' = marks st m.
  Proof.
    intros Hsep Hs [|fuel] pre rest st st' p vs At H; [discriminate|].
    cbn [repeat_sep_loop is_empty negb matched bind] in H.
    destruct (step st (length pre)) as [[s2 [[q2 v2]|]]| |] eqn:E2; try discriminate; cbn [bind] in H.
    - destruct (Hs _ _ _ _ _ At E2) as (w2 & r2 & m2 & -> & Uw2 & -> & R2 & ->).
      pose proof (at_move _ _ _ _ At Uw2) as At2.
      destruct (sep_sim sep step es e Hsep Hs _ _ _ _ [v2] _ _ _ At2 ltac:(discriminate) H) as (w' & r' & m' & -> & Uw' & -> & R' & ->).
      exists (w2 ++ w'), r', (m2 ++ m'). rewrite !app_assoc. split; [reflexivity|]. split; [apply utf8_app; assumption|].
      split; [reflexivity|]. rewrite <- app_assoc. split; [|rewrite marks_app; reflexivity].
      apply run_sep, run_opt. eapply run_seq; eassumption.
    - injection H as <- <- <-. destruct (Hs _ _ _ _ _ At E2) as (m2 & R2 & ->).
      exists [], rest, m2. rewrite app_nil_r. split; [reflexivity|]. split; [constructor|]. split; [reflexivity|].
      split; [apply run_sep, run_opt_none, run_seq_fail; exact R2|reflexivity].
  Qed.

  Lemma sim_some {A B} (step : rule A) e (k : nat -> pstate -> nat -> list A -> rresult B) :
    sim step e -> (forall start, finishes (k start)) ->
    sim (fun st pos => let start_pos := pos in
           let* x := repeat_loop (loop_fuel input) step st pos [] in
           match x with (st, (pos, vs)) => if Nat.leb 1 (length vs) then k start_pos st pos vs else failed st end) (Some_ e).
  Proof.
    intros Hs Hk pre rest st st' o At H. cbv zeta in H.
    destruct (repeat_loop (loop_fuel input) step st (length pre) []) as [(s1 & p & vs)| |] eqn:E; try discriminate; cbn [bind] in H.
    destruct (loop_sim step e Hs _ _ _ _ _ _ _ _ At E) as (w & r & m & -> & Uw & -> & R & -> & [(R' & ->)|(R' & L)]).
    - change (@failed B (marks st m) = Ret (st', o)) in H. unfold failed in H. injection H as <- <-. exists m. split; [apply run_some, run_seq_fail; exact R'|reflexivity].
    - destruct vs as [|v vs]; [cbn [length] in L; lia|]. cbn [length Nat.leb] in H.
      destruct (Hk _ _ _ _ _ _ H) as (u & -> & ->). exists w, r, m. auto 10 using run_some.
  Qed.

  (** ** Rules *)
  Ltac asc := apply ascii_utf8; vm_compute; reflexivity.
  Ltac text := apply sim_rule; apply sim_text; asc.

  Lemma sim_begin : sim (parse_PARSER_BEGIN input) (Rule R_PARSER_BEGIN). Proof. text. Qed.
  Lemma sim_end : sim (parse_PARSER_END input) (Rule R_PARSER_END). Proof. text. Qed.
  Lemma sim_params_begin : sim (parse_PARSER_PARAMS_BEGIN input) (Rule R_PARSER_PARAMS_BEGIN). Proof. text. Qed.
  Lemma sim_params_end : sim (parse_PARSER_PARAMS_END input) (Rule R_PARSER_PARAMS_END). Proof. text. Qed.

  Lemma sim_keyword m : utf8 m -> sim (keyword input m) (Text m).
  Proof.
    intros U. intros pre rest st st' o At H. unfold keyword in H. cbv zeta in H.
    refine (sim_last (fun st pos => slice_eq input st pos m) _ (Text m) (sim_text m U)
              (finishes_slice (length pre) (fun _ x => x)) pre rest st st' o At H).
  Qed.
  Lemma sim_min : sim (parse_MIN_LEN input) (Rule R_MIN_LEN). Proof. apply sim_rule, sim_keyword. asc. Qed.
  Lemma sim_max : sim (parse_MAX_LEN input) (Rule R_MAX_LEN). Proof. apply sim_rule, sim_keyword. asc. Qed.
  Lemma sim_INT : sim (parse_INT input) (Rule R_INT). Proof. apply sim_rule, sim_keyword. asc. Qed.
  Lemma sim_SET : sim (parse_SET input) (Rule R_SET). Proof. apply sim_rule, sim_keyword. asc. Qed.
  Lemma sim_GREEDY : sim (parse_GREEDY input) (Rule R_GREEDY). Proof. apply sim_rule, sim_keyword. asc. Qed.

  Definition class_first_items := [Between x61 x7a; Between x41 x5a; One x5f; One x2e].
  Definition class_next_items := [Between x61 x7a; One x2d; Between x41 x5a; Between x30 x39; One x5f; One x2e].

  Lemma in_class_cons i c b : in_class (i :: c) b <->
    match i with Between lo hi => (Byte.to_N lo <= Byte.to_N b <= Byte.to_N hi)%N | One x => b = x end \/ in_class c b.
  Proof.
    split.
    - intros (j & [<-|I] & H); [left; exact H|right; exists j; auto].
    - intros [H|(j & I & H)]; [exists i|exists j]; split; simpl; auto.
  Qed.
  Lemma in_class_nil b : in_class [] b <-> False.
  Proof. split; [intros (j & [] & _)|tauto]. Qed.
  Lemma in_rng_spec lo hi b : in_rng lo hi b = true <-> (lo <= Byte.to_N b <= hi)%N.
  Proof. unfold in_rng. rewrite andb_true_iff, !N.leb_le. tauto. Qed.

  Lemma first_items b : ident_first [b] = true <-> in_class class_first_items b.
  Proof.
    unfold ident_first, class_first_items. rewrite !in_class_cons, in_class_nil, !orb_true_iff, !in_rng_spec, !byte_eqb_eq.
    cbn. tauto.
  Qed.
  Lemma next_items b : ident_next [b] = true <-> in_class class_next_items b.
  Proof.
    unfold ident_next, class_next_items. rewrite !in_class_cons, in_class_nil, !orb_true_iff, !in_rng_spec, !byte_eqb_eq.
    cbn. tauto.
  Qed.
  Lemma hyphen_items b : is_hyphen [b] = true <-> in_class [One x2d] b.
  Proof. unfold is_hyphen. rewrite !in_class_cons, in_class_nil, byte_eqb_eq. tauto. Qed.
  Lemma digit_items b : Grammar.is_digit [b] = true <-> in_class [Between x30 x39] b.
  Proof. unfold Grammar.is_digit. rewrite !in_class_cons, in_class_nil, in_rng_spec. cbn. tauto. Qed.

  Lemma sim_not_step {A} (f : rule A) a pre rest st st' (o : option (nat * A)) :
    sim f a -> at_ pre rest -> f st (length pre) = Ret (st', o) ->
    match o with
    | Some _ => exists m, run (Not a) rest None m /\ st' = marks st m
    | None => exists m, run (Not a) rest (Some rest) m /\ st' = marks st m
    end.
  Proof.
    intros Hf At H. specialize (Hf _ _ _ _ _ At H). destruct o as [[p v]|].
    - destruct Hf as (w & r & m & -> & Uw & -> & R & ->). exists m. split; [eapply run_not_fail; exact R|reflexivity].
    - destruct Hf as (m & R & ->). exists m. split; [apply run_not; exact R|reflexivity].
  Qed.

  Lemma sim_identifier_step : sim (identifier_step input) (Seq (Class class_next_items) (Not (Class [One x2d]))).
  Proof.
    unfold identifier_step. apply sim_seq; [exact (sim_class ident_next class_next_items next_items class_next)|].
    intros _ pre rest st st' o At H. unfold bind in H.
    destruct (char_class input is_hyphen ($"[-]") st (length pre)) as [[s1 o1]| |] eqn:E; try discriminate.
    pose proof (sim_not_step _ _ _ _ _ _ _ (sim_class is_hyphen [One x2d] hyphen_items class_hyphen) At E) as N.
    destruct o1 as [[p v]|]; injection H as <- <-; cbn [did].
    - exact N.
    - destruct N as (m & R & ->). exists [], rest, m. rewrite app_nil_r. repeat split; auto using utf8_nil.
  Qed.

  Lemma sim_identifier : sim (parse_identifier input) (Rule R_identifier).
  Proof.
    apply sim_rule. intros pre rest st st' o At H. unfold parse_identifier in H. cbv zeta in H.
    refine (sim_seq _ _ (Class class_first_items) (Many (Seq (Class class_next_items) (Not (Class [One x2d]))))
              (sim_class ident_first class_first_items first_items class_first) _ pre rest st st' o At H).
    intros _ pre' rest' s1 s2 o' At' H'.
    destruct (repeat_loop (loop_fuel input) (identifier_step input) s1 (length pre') []) as [(s3 & p & vs)| |] eqn:E; try discriminate.
    cbn [bind] in H'. destruct (slice input (length pre) p) as [x| |]; try discriminate. cbn [bind matched] in H'.
    injection H' as <- <-.
    destruct (loop_sim _ _ sim_identifier_step _ _ _ _ _ _ _ _ At' E) as (w & r & m & -> & Uw & -> & R & -> & _).
    exists w, r, m. auto.
  Qed.

  Lemma sim_name : sim (parse_parser_name input) (Rule R_parser_name).
  Proof.
    apply sim_rule. intros pre rest st st' o At H. unfold parse_parser_name in H. cbv zeta in H.
    refine (sim_seq (fun st pos => slice_eq input st pos ($":")) _ (Text ($":")) (Rule R_identifier) (sim_text ($":") ltac:(asc)) _ pre rest st st' o At H).
    intros _. apply sim_last; [apply sim_identifier|]. apply (finishes_slice (length pre) (fun v _ => v)).
  Qed.

  Lemma sim_not_then_any m e : sim (fun st pos => slice_eq input st pos m) e ->
    sim (not_then_any input m) (Seq (Not e) AnyChar).
  Proof.
    intros Hm pre rest st st' o At H. unfold not_then_any in H. unfold bind in H.
    destruct (slice_eq input st (length pre) m) as [[s1 o1]| |] eqn:E; try discriminate.
    pose proof (sim_not_step _ _ _ _ _ _ _ Hm At E) as N.
    destruct o1 as [[p v]|].
    - injection H as <- <-. destruct N as (m' & R & ->). exists m'. split; [apply run_seq_fail; exact R|reflexivity].
    - destruct N as (m' & R & ->).
      refine (did_seq (Not e) AnyChar pre [] rest st m' st' o utf8_nil R _). rewrite app_nil_r.
      exact (sim_any _ _ _ _ _ At H).
  Qed.

  Lemma sim_until m e : sim (fun st pos => slice_eq input st pos m) e ->
    sim (chars_until input m) (Some_ (Seq (Not e) AnyChar)).
  Proof.
    intros Hm. intros pre rest st st' o At H. unfold chars_until in H.
    refine (sim_some (not_then_any input m) (Seq (Not e) AnyChar)
              (fun start st pos _ => let* x := slice input start pos in matched st pos x)
              (sim_not_then_any m e Hm) _ pre rest st st' o At H).
    intros start. apply (finishes_slice start (fun _ x => x)).
  Qed.
  Lemma sim_literal : sim (parse_literal input) (Rule R_literal).
  Proof. apply sim_rule. apply sim_until. exact sim_begin. Qed.
  Lemma sim_until_quote : sim (parse_all_chars_until_quotation_mark input) (Rule R_all_chars_until_quotation_mark).
  Proof. apply sim_rule. apply sim_until. apply sim_text. asc. Qed.

  Lemma sim_string : sim (parse_string input) (Rule R_string).
  Proof.
    apply sim_rule. intros pre rest st st' o At H. unfold parse_string in H. cbv zeta in H.
    refine (sim_seq (fun st pos => slice_eq input st pos quotation_mark) _ (Text [x22]) _ (sim_text [x22] ltac:(asc)) _ pre rest st st' o At H).
    intros _. apply sim_seq; [apply sim_until_quote|]. intros s.
    apply (sim_last (fun st pos => slice_eq input st pos quotation_mark)); [apply sim_text; asc|].
    apply (finishes_slice (length pre) (fun _ _ => s)).
  Qed.

  Lemma sim_comma : sim (parse_comma input) (Rule R_comma).
  Proof.
    apply sim_rule. unfold parse_comma.
    apply (sim_seq (fun st pos => slice_eq input st pos ($",")) _ (Text ($","))); [apply sim_text; asc|].
    intros _ pre rest st st' o At H.
    destruct (repeat_loop (loop_fuel input) (fun st pos => slice_eq input st pos ($" ")) st (length pre) []) as [(s3 & p & vs)| |] eqn:E; try discriminate.
    cbn [bind matched] in H. injection H as <- <-.
    destruct (loop_sim _ (Text ($" ")) (sim_text ($" ") ltac:(asc)) _ _ _ _ _ _ _ _ At E) as (w & r & m & -> & Uw & -> & R & -> & _).
    exists w, r, m. auto.
  Qed.

  Lemma sim_int : sim (parse_int input) (Rule R_int).
  Proof.
    apply sim_rule. intros pre rest st st' o At H. unfold parse_int in H.
    refine (sim_some (char_class input Grammar.is_digit ($"[0-9]")) (Class [Between x30 x39])
              (fun start st pos _ => let* x := slice input start pos in
                 match usize_from_str x with Some n => matched st pos n | None => Panic end)
              (sim_class Grammar.is_digit [Between x30 x39] digit_items class_digit) _ pre rest st st' o At H).
    intros start s pos v s' o' H'. destruct (slice input start pos) as [x| |]; try discriminate. cbn [bind] in H'.
    destruct (usize_from_str x); [|discriminate]. unfold matched in H'. injection H' as <- <-. eauto.
  Qed.

  Lemma sim_param1 (kw : rule str) n : sim kw (Rule n) ->
    sim (optional_param input kw) (Seq (Rule n) (Seq (Text ($"=")) (Rule R_int))).
  Proof.
    intros Hk pre rest st st' o At H. unfold optional_param in H. cbv zeta in H.
    refine (sim_seq kw _ (Rule n) _ Hk _ pre rest st st' o At H). intros name.
    apply (sim_seq (fun st pos => slice_eq input st pos ($"="))); [apply sim_text; asc|]. intros _.
    apply sim_last; [apply sim_int|]. apply (finishes_slice (length pre) (fun v _ => OptInt name v)).
  Qed.
  Lemma sim_param : sim (parse_parser_BASE_optional_param input) (Rule R_parser_BASE_optional_param).
  Proof. apply sim_rule. apply sim_or; apply sim_param1; [apply sim_min|apply sim_max]. Qed.

  Lemma sim_sep {B} (k : pstate -> nat -> list optional_parameter -> rresult B) b :
    (forall v, sim (fun st pos => k st pos v) b) ->
    sim (fun st pos => let* x := repeat_sep_loop (loop_fuel input) (parse_comma input) (parse_parser_BASE_optional_param input) st pos [] in
           match x with (st, (pos, params)) => k st pos params end)
      (Seq (Sep (Rule R_parser_BASE_optional_param) (Rule R_comma)) b).
  Proof.
    intros Hk pre rest st st' o At H. unfold bind in H.
    destruct (repeat_sep_loop (loop_fuel input) (parse_comma input) (parse_parser_BASE_optional_param input) st (length pre) []) as [(s1 & p & vs)| |] eqn:E; try discriminate.
    destruct (sep_sim_start _ _ _ _ sim_comma sim_param _ _ _ _ _ _ _ At E) as (w & r & m & -> & Uw & -> & R & ->).
    apply (did_seq _ _ _ _ _ _ m); auto. apply (Hk vs); [apply at_move; assumption|exact H].
  Qed.
  Lemma sim_sep_last {B} (k : pstate -> nat -> list optional_parameter -> rresult B) :
    finishes k ->
    sim (fun st pos => let* x := repeat_sep_loop (loop_fuel input) (parse_comma input) (parse_parser_BASE_optional_param input) st pos [] in
           match x with (st, (pos, params)) => k st pos params end)
      (Sep (Rule R_parser_BASE_optional_param) (Rule R_comma)).
  Proof.
    intros Hk pre rest st st' o At H. unfold bind in H.
    destruct (repeat_sep_loop (loop_fuel input) (parse_comma input) (parse_parser_BASE_optional_param input) st (length pre) []) as [(s1 & p & vs)| |] eqn:E; try discriminate.
    destruct (sep_sim_start _ _ _ _ sim_comma sim_param _ _ _ _ _ _ _ At E) as (w & r & m & -> & Uw & -> & R & ->).
    destruct (Hk _ _ _ _ _ H) as (u & -> & ->). exists w, r, m. auto.
  Qed.

  Lemma sim_set_params : sim (parse_parser_SET_optional_params input) (Rule R_parser_SET_optional_params).
  Proof.
    apply sim_rule. intros pre rest st st' o At H. unfold parse_parser_SET_optional_params in H. cbv zeta in H.
    refine (sim_seq _ _ (Rule R_comma) _ sim_comma _ pre rest st st' o At H). intros _.
    apply sim_sep_last. apply (finishes_slice (length pre) (fun v _ => v)).
  Qed.
  Lemma sim_int_params : sim (parse_parser_INT_optional_params input) (Rule R_parser_INT_optional_params).
  Proof.
    apply sim_rule. intros pre rest st st' o At H. unfold parse_parser_INT_optional_params in H. cbv zeta in H.
    refine (sim_seq _ _ (Rule R_PARSER_PARAMS_BEGIN) _ sim_params_begin _ pre rest st st' o At H). intros _.
    apply sim_sep. intros v. apply sim_last; [apply sim_params_end|]. apply (finishes_slice (length pre) (fun _ _ => v)).
  Qed.

  Lemma sim_parser_SET : sim (parse_parser_SET input) (Rule R_parser_SET).
  Proof.
    apply sim_rule. intros pre rest st st' o At H. unfold parse_parser_SET in H. cbv zeta in H.
    refine (sim_seq _ _ (Rule R_SET) _ sim_SET _ pre rest st st' o At H). intros _.
    apply sim_seq; [apply sim_params_begin|]. intros _. apply sim_seq; [apply sim_string|]. intros set.
    apply (sim_seq (fun st pos => optional (parse_parser_SET_optional_params input st pos) pos)); [apply sim_opt, sim_set_params|]. intros ps.
    apply sim_seq; [apply sim_params_end|]. intros _.
    apply (sim_last (fun st pos => optional (parse_parser_name input st pos) pos)); [apply sim_opt, sim_name|].
    apply (finishes_slice (length pre) (fun name _ => new_set set name ps)).
  Qed.
  Lemma sim_parser_INT : sim (parse_parser_INT input) (Rule R_parser_INT).
  Proof.
    apply sim_rule. intros pre rest st st' o At H. unfold parse_parser_INT in H. cbv zeta in H.
    refine (sim_seq _ _ (Rule R_INT) _ sim_INT _ pre rest st st' o At H). intros _.
    apply (sim_seq (fun st pos => optional (parse_parser_INT_optional_params input st pos) pos)); [apply sim_opt, sim_int_params|]. intros ps.
    apply (sim_last (fun st pos => optional (parse_parser_name input st pos) pos)); [apply sim_opt, sim_name|].
    apply (finishes_slice (length pre) (fun name _ => new_int name ps)).
  Qed.
  Lemma sim_parser : sim (parse_parser input) (Rule R_parser).
  Proof. apply sim_rule. apply sim_or; [apply sim_parser_SET|apply sim_parser_INT]. Qed.

  Lemma sim_piece_parser : sim (parse_piece_parser input) (Rule R_piece_parser).
  Proof.
    apply sim_rule. intros pre rest st st' o At H. unfold parse_piece_parser in H. cbv zeta in H.
    refine (sim_seq _ _ (Rule R_PARSER_BEGIN) _ sim_begin _ pre rest st st' o At H). intros _.
    apply sim_seq; [apply sim_parser|]. intros q. apply sim_last; [apply sim_end|].
    apply (finishes_slice (length pre) (fun _ _ => [Parser q])).
  Qed.
  Lemma sim_piece_literal : sim (parse_piece_literal input) (Rule R_piece_literal).
  Proof.
    apply sim_rule. intros pre rest st st' o At H. unfold parse_piece_literal in H. cbv zeta in H.
    refine (sim_last _ _ (Rule R_literal) sim_literal _ pre rest st st' o At H).
    apply (finishes_slice (length pre) (fun l _ => [Literal (unescape_literal l)])).
  Qed.
  Lemma sim_greedy : sim (parse_parser_GREEDY input) (Rule R_parser_GREEDY).
  Proof.
    apply sim_rule. intros pre rest st st' o At H. unfold parse_parser_GREEDY in H. cbv zeta in H.
    refine (sim_seq _ _ (Rule R_PARSER_BEGIN) _ sim_begin _ pre rest st st' o At H). intros _.
    apply sim_seq; [apply sim_GREEDY|]. intros _.
    apply (sim_seq (fun st pos => optional (parse_parser_name input st pos) pos)); [apply sim_opt, sim_name|]. intros name.
    apply sim_seq; [apply sim_end|]. intros _.
    apply (sim_last (fun st pos => optional (parse_literal input st pos) pos)); [apply sim_opt, sim_literal|].
    intros s pos v s' o' H'. destruct (slice input (length pre) pos); try discriminate.
    cbn [bind] in H'. unfold matched in H'. injection H' as <- <-. eauto.
  Qed.
  Lemma sim_piece : sim (parse_pattern_piece input) (Rule R_pattern_piece).
  Proof.
    apply sim_rule. apply (sim_or _ (fun st pos => choice (parse_piece_literal input st pos) (fun st => parse_piece_parser input st pos)));
      [apply sim_greedy|]. apply sim_or; [apply sim_piece_literal|apply sim_piece_parser].
  Qed.
  Lemma sim_pattern : sim (parse_pattern input) (Rule R_pattern).
  Proof.
    apply sim_rule. intros pre rest st st' o At H. unfold parse_pattern in H.
    refine (sim_some (parse_pattern_piece input) (Rule R_pattern_piece)
              (fun start st pos vs => let* x := slice input start pos in matched st pos (flatten_vec vs))
              sim_piece _ pre rest st st' o At H).
    intros start. apply (finishes_slice start (fun vs _ => flatten_vec vs)).
  Qed.
End Sim.

(** ** The furthest failure *)
Definition offset (s : str) (x : str * str) : nat := length s - length (fst x).

Lemma hset_in x l y : In y (hset_insert x l) <-> y = x \/ In y l.
Proof.
  unfold hset_insert. destruct (existsb (str_eqb x) l) eqn:E.
  - apply existsb_exists in E. destruct E as (z & I & E). apply str_eqb_eq in E. subst z.
    split; [auto|]. intros [->|H]; assumption.
  - rewrite in_app_iff. cbn [In]. split; [intros [H|[H|[]]]; auto|intros [H|H]; auto].
Qed.
Lemma hset_nodup x l : NoDup l -> NoDup (hset_insert x l).
Proof.
  intros H. unfold hset_insert. destruct (existsb (str_eqb x) l) eqn:E; [exact H|].
  assert (~ In x l) as N.
  { intros I. assert (existsb (str_eqb x) l = true); [|congruence]. apply existsb_exists. exists x. split; [exact I|apply str_eqb_refl]. }
  clear E. induction H as [|y l Ny H IH]; cbn [app]; [repeat constructor; intros []|].
  constructor; [|apply IH; intros I; apply N; right; exact I].
  intros I. apply in_app_or in I. destruct I as [I|[->|[]]]; [exact (Ny I)|apply N; left; reflexivity].
Qed.

(** What is known about the state after the failures [m]. *)
Definition tracked (s : str) (m : list (str * str)) (st : pstate) : Prop :=
  NoDup (expected st) /\
  (forall x, In x (expected st) <-> exists t, In (t, x) m /\ offset s (t, x) = max_err_pos st) /\
  (forall t x, In (t, x) m -> offset s (t, x) <= max_err_pos st).

Lemma tracked_marks s m : tracked s m (marks s pstate_new m).
Proof.
  induction m as [|(t, x) m IH] using rev_ind.
  - split; [constructor|]. split; [|intros t x []]. intros x. split; [intros []|intros (t & [] & _)].
  - rewrite marks_app. cbn [marks fold_left]. destruct IH as (N & I & M).
    set (st := marks s pstate_new m) in *. unfold mark, mark_failure. cbn [fst snd].
    change (length s - length t) with (offset s (t, x)).
    destruct (Nat.ltb_spec (max_err_pos st) (offset s (t, x))) as [L|L].
    + cbn [max_err_pos expected]. rewrite Nat.eqb_refl. cbn [max_err_pos expected]. split; [|split].
      * apply hset_nodup. constructor.
      * intros y. cbn [max_err_pos expected]. rewrite hset_in. split.
        { intros [->|[]]. exists t. split; [apply in_or_app; right; left; reflexivity|reflexivity]. }
        { intros (t' & J & E). left. apply in_app_or in J. destruct J as [J|[J|[]]]; [|injection J as _ ->; reflexivity].
          apply M in J. unfold offset in *. cbn [fst] in *. lia. }
      * intros t' y J. cbn [max_err_pos]. apply in_app_or in J. destruct J as [J|[J|[]]]; [apply M in J; lia|].
        injection J as <- <-. lia.
    + destruct (Nat.eqb_spec (offset s (t, x)) (max_err_pos st)) as [E|E]; (split; [|split]); cbn [max_err_pos expected].
      * apply hset_nodup. exact N.
      * intros y. rewrite hset_in, I. split.
        { intros [->|(t' & J & E')]; [exists t; split; [apply in_or_app; right; left; reflexivity|exact E]|].
          exists t'. split; [apply in_or_app; left; exact J|exact E']. }
        { intros (t' & J & E'). apply in_app_or in J. destruct J as [J|[J|[]]]; [right; eauto|left; congruence]. }
      * intros t' y J. apply in_app_or in J. destruct J as [J|[J|[]]]; [apply M in J; lia|]. injection J as <- <-. lia.
      * exact N.
      * intros y. rewrite I. split.
        { intros (t' & J & E'). exists t'. split; [apply in_or_app; left; exact J|exact E']. }
        { intros (t' & J & E'). apply in_app_or in J. destruct J as [J|[J|[]]]; [eauto|]. injection J as <- <-. contradiction. }
      * intros t' y J. apply in_app_or in J. destruct J as [J|[J|[]]]; [apply M in J; lia|]. injection J as <- <-. lia.
Qed.

Theorem compile_rustpeg s : utf8 s -> compile s <> Panic ->
  exists r m, run (Rule R_pattern) s r m /\
    match compile s with
    | Ret (Ok _) => r = Some []
    | Ret (Err e) => r <> Some [] /\ furthest s m (pe_offset e) (pe_expected e)
    | _ => False
    end.
Proof.
  intros U NP.
  assert (forall e, compile s = Ret (Err e) -> pe_expected e <> [] /\ pe_offset e <= length s) as NE.
  { intros e E. apply compile_error in E; [|exact U]. tauto. }
  assert (forall st, pe_offset (pattern_error s st) = max_err_pos st /\ pe_expected (pattern_error s st) = expected st) as PE.
  { intros st. unfold pattern_error. destruct (pos_to_line s (max_err_pos st)). split; reflexivity. }
  pose proof (compile_terminates s U) as NF.
  unfold compile in *. destruct (parse_pattern s pstate_new 0) as [[st o]| |] eqn:E; cbn [bind] in *.
  2: { congruence. }
  2: { congruence. }
  assert (at_ s [] s) as At by (split; [reflexivity|]; split; [constructor|exact U]).
  assert (forall m, run (Rule R_pattern) s None m \/ (exists r, run (Rule R_pattern) s (Some r) m) -> st = marks s pstate_new m ->
            Ret (Err (pattern_error s st)) = @Ret (result (list token) _) (Err (pattern_error s st)) ->
            pe_expected (pattern_error s st) <> [] /\ pe_offset (pattern_error s st) <= length s ->
            furthest s m (pe_offset (pattern_error s st)) (pe_expected (pattern_error s st))) as F.
  { intros m R -> _ (X1 & X2). destruct (PE (marks s pstate_new m)) as (P1 & P2). rewrite P1, P2 in *.
    destruct (tracked_marks s m) as (T1 & T2 & T3).
    assert (forall t x, In (t, x) m -> suffix_of t s) as Suf.
    { destruct R as [R|(r & R)]; apply run_suffix in R; apply R. }
    split; [exact X2|]. split; [exact X1|]. split; [exact T1|]. split.
    - intros x. rewrite T2. split.
      + intros (t & J & <-). destruct (Suf _ _ J) as (w & Es).
        assert (skipn (offset s (t, x)) s = t) as ->; [|exact J].
        unfold offset. cbn [fst]. rewrite Es at 2. rewrite Es, app_length.
        replace (length w + length t - length t) with (length w) by lia.
        rewrite skipn_app, skipn_all, Nat.sub_diag. reflexivity.
      + intros J. eexists. split; [exact J|]. unfold offset. cbn [fst]. rewrite skipn_length. lia.
    - intros t x J. specialize (T3 _ _ J). unfold offset in T3. cbn [fst] in T3. lia. }
  pose proof (sim_pattern s [] s pstate_new st o At E) as D.
  destruct o as [[p v]|]; cbn [did] in D.
  - destruct D as (w & r & m & Es & Uw & -> & R & Est). exists (Some r), m. split; [exact R|]. cbn [app] in *.
    destruct (Nat.eqb_spec (length w) (length s)) as [L|L].
    + rewrite Es, app_length in L. destruct r; [reflexivity|simpl in L; lia].
    + split; [intros K; injection K as ->; rewrite app_nil_r in Es; congruence|].
      apply F; eauto.
  - destruct D as (m & R & Est). exists None, m. split; [exact R|]. split; [discriminate|]. apply F; eauto.
Qed.
