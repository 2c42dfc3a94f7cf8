(** * What the error position says: the text before it begins a valid pattern *)
From Verif Require Import Base Base_facts Utils Utils_facts Parsers Pattern Spec Grammar Peg Grammar_refine
  Spec_grammar Grammar_syntax Grammar_claims Rustpeg Rustpeg_claims.

(** ** Rests

    [L T u]: at some place within an item, [u] can follow, where after the item
    any text satisfying [T] can follow.  [V u]: at that place [u] leads to a
    number that is too large. *)
Definition lang := (str -> Prop) -> str -> Prop.
Definition whole (L : lang) (u : str) : Prop := forall T : str -> Prop, T [] -> L T u.
Definition bad (x w : str) : Prop :=
  x = class_text [Rustpeg.One x2d] \/ x = [x22] /\ exists p, w = p ++ [x22].
Definition goes_on (L : lang) (w : str) : Prop := exists c, ascii c = true /\ whole L (w ++ c).
Definition expects (L : lang) (V : str -> Prop) (x w : str) : Prop :=
  bad x w \/ exists y c, stands_for x y /\ ascii (y ++ c) = true /\ (whole L (w ++ y ++ c) \/ V (w ++ y ++ c)).
Definition marks_ok (L : lang) (V : str -> Prop) (s : str) (m : list (str * str)) : Prop :=
  forall t x, In (t, x) m -> exists w, s = w ++ t /\ goes_on L w /\ expects L V x w.
Definition ok (e : peg) (L : lang) (V : str -> Prop) (L' : lang) (V' : str -> Prop) : Prop :=
  forall s r m, run e s r m -> ~ V s ->
    (forall s', r = Some s' -> exists w, s = w ++ s' /\ (forall T u, L' T u -> L T (w ++ u)) /\
       (forall u, V' u -> V (w ++ u))) /\
    marks_ok L V s m.
Definition never : str -> Prop := fun _ => False.
Definition after (w : str) (L : lang) : lang := fun T u => L T (w ++ u).
Definition after_v (w : str) (V : str -> Prop) : str -> Prop := fun u => V (w ++ u).

Implicit Types (L K : lang) (V W : str -> Prop).

Lemma ascii_app a b : ascii (a ++ b) = true <-> ascii a = true /\ ascii b = true.
Proof. unfold ascii. rewrite forallb_app. apply andb_true_iff. Qed.

Lemma bad_app p x w : bad x w -> bad x (p ++ w).
Proof. intros [->|(-> & q & ->)]; [left; reflexivity|]. right. split; [reflexivity|]. exists (p ++ q). apply app_assoc. Qed.

Lemma marks_app_ok L V s a b : marks_ok L V s a -> marks_ok L V s b -> marks_ok L V s (a ++ b).
Proof. intros A B t x I. apply in_app_or in I. destruct I; auto. Qed.
Lemma marks_nil_ok L V s : marks_ok L V s [].
Proof. intros t x []. Qed.
Lemma marks_shift L V L' V' w s m : (forall T u, L' T u -> L T (w ++ u)) -> (forall u, V' u -> V (w ++ u)) ->
  marks_ok L' V' s m -> marks_ok L V (w ++ s) m.
Proof.
  intros HL HV H t x I. destruct (H t x I) as (w' & -> & (c & A & C) & E).
  exists (w ++ w'). split; [apply app_assoc|]. split.
  - exists c. split; [exact A|]. intros T HT. rewrite <- app_assoc. apply HL, C, HT.
  - destruct E as [B|(y & c' & S & A' & E)]; [left; apply bad_app, B|]. right. exists y, c'. split; [exact S|].
    split; [exact A'|]. rewrite <- !app_assoc. destruct E as [E|E]; [left; intros T HT; apply HL, E, HT|right; apply HV, E].
Qed.
Lemma marks_one L V s x : goes_on L [] -> expects L V x [] -> marks_ok L V s [(s, x)].
Proof. intros G E t y [I|[]]. injection I as <- <-. exists []. auto. Qed.

Lemma ok_in e L V K W L' V' : (forall T u, K T u -> L T u) -> (forall u, W u -> V u) ->
  ok e K W L' V' -> ok e L V L' V'.
Proof.
  intros HL HV H s r m R N. destruct (H s r m R (fun X => N (HV s X))) as (A & B). split.
  - intros s' E. destruct (A s' E) as (w & -> & C & D). exists w. auto.
  - exact (marks_shift L V K W [] s m HL HV B).
Qed.
Lemma ok_out e L V L' V' K W : (forall T u, K T u -> L' T u) -> (forall u, W u -> V' u) ->
  ok e L V L' V' -> ok e L V K W.
Proof.
  intros HL HV H s r m R N. destruct (H s r m R N) as (A & B). split; [|exact B].
  intros s' E. destruct (A s' E) as (w & -> & C & D). exists w. auto.
Qed.
Lemma ok_seq a b L V L' V' L'' V'' : ok a L V L' V' -> ok b L' V' L'' V'' -> ok (Seq a b) L V L'' V''.
Proof.
  intros HA HB s r m R N. inversion R; subst.
  - match goal with X : run a s _ _ |- _ => destruct (HA _ _ _ X N) as (A1 & A2) end.
    destruct (A1 _ eq_refl) as (w & -> & A3 & A4).
    match goal with X : run b _ _ _ |- _ => destruct (HB _ _ _ X (fun Y => N (A4 _ Y))) as (B1 & B2) end.
    split; [|apply marks_app_ok; [exact A2|apply (marks_shift L V L' V'); assumption]].
    intros s'' E. destruct (B1 _ E) as (w' & -> & B3 & B4). exists (w ++ w'). rewrite <- app_assoc.
    split; [reflexivity|]. split; [intros T u X|intros u X]; rewrite <- app_assoc; auto.
  - match goal with X : run a s _ _ |- _ => destruct (HA _ _ _ X N) as (A1 & A2) end. split; [discriminate|exact A2].
Qed.
Lemma ok_or a b L V L' V' : ok a L V L' V' -> ok b L V L' V' -> ok (Or a b) L V L' V'.
Proof.
  intros HA HB s r m R N. inversion R; subst.
  - match goal with X : run a s _ _ |- _ => exact (HA _ _ _ X N) end.
  - match goal with X : run a s _ _ |- _ => destruct (HA _ _ _ X N) as (A1 & A2) end.
    match goal with X : run b s _ _ |- _ => destruct (HB _ _ _ X N) as (B1 & B2) end.
    split; [exact B1|apply marks_app_ok; assumption].
Qed.
Lemma ok_opt a L V L' V' : (forall T u, L' T u -> L T u) -> (forall u, V' u -> V u) ->
  ok a L V L' V' -> ok (Opt a) L V L' V'.
Proof.
  intros HL HV HA s r m R N. inversion R; subst.
  - match goal with X : run a s _ _ |- _ => exact (HA _ _ _ X N) end.
  - match goal with X : run a s _ _ |- _ => destruct (HA _ _ _ X N) as (A1 & A2) end.
    split; [|exact A2]. intros s' E. injection E as <-. exists []. auto.
Qed.
Lemma ok_many a L V : ok a L V L V -> ok (Many a) L V L V.
Proof.
  intros HA s r m R. remember (Many a) as e eqn:Ee. induction R; try discriminate; injection Ee as ->; intros N.
  - destruct (HA _ _ _ R1 N) as (A1 & A2). destruct (A1 _ eq_refl) as (w & -> & A3 & A4).
    destruct (IHR2 eq_refl (fun Y => N (A4 _ Y))) as (B1 & B2).
    split; [|apply marks_app_ok; [exact A2|apply (marks_shift L V L V); assumption]].
    intros s'' E. destruct (B1 _ E) as (w' & -> & B3 & B4). exists (w ++ w'). rewrite <- app_assoc.
    split; [reflexivity|]. split; [intros T u X|intros u X]; rewrite <- app_assoc; auto.
  - destruct (HA _ _ _ R N) as (A1 & A2). split; [|exact A2]. intros s' E. injection E as <-. exists []. auto.
Qed.
Lemma ok_rule n L V L' V' : ok (rustpeg n) L V L' V' -> ok (Rule n) L V L' V'.
Proof. intros H s r m R N. inversion R; subst. apply H; assumption. Qed.
Lemma ok_sep a b L V L' V' : ok (Opt (Seq a (Many (Seq b a)))) L V L' V' -> ok (Sep a b) L V L' V'.
Proof. intros H s r m R N. inversion R; subst. apply H; assumption. Qed.

Lemma ok_text m L V : ascii m = true -> match m with [] | x5b :: _ | x3c :: _ => False | _ => True end ->
  goes_on (after m L) [] -> ok (Text m) L V (after m L) (after_v m V).
Proof.
  intros A B (c & C & D) s r ms R N. inversion R; subst.
  - split; [|apply marks_nil_ok]. intros s' E. injection E as <-. exists m. auto.
  - split; [discriminate|]. apply marks_one.
    + exists (m ++ c). split; [apply ascii_app; auto|exact D].
    + right. exists m, c. split; [constructor; exact B|]. split; [apply ascii_app; auto|]. left. exact D.
Qed.

(** ** The end of an item *)
Definition done : lang := fun T => T.
Definition closing : lang := fun T u => exists v, u = $"}" ++ v /\ T v.

Lemma ok_close : ok (Rule R_PARSER_END) closing never done never.
Proof.
  apply ok_rule. refine (ok_out _ _ _ _ _ _ _ _ _ (ok_text ($"}") closing never eq_refl I _)).
  - intros T u H. exists u. auto.
  - intros u [].
  - exists []. split; [reflexivity|]. intros T H. exists []. auto.
Qed.

(** ** Names *)
Definition next_class := [Between x61 x7a; Rustpeg.One x2d; Between x41 x5a; Between x30 x39; Rustpeg.One x5f; Rustpeg.One x2e].
Definition first_class := [Between x61 x7a; Between x41 x5a; Rustpeg.One x5f; Rustpeg.One x2e].

Lemma in_first b : in_class first_class b <-> name_start b.
Proof. rewrite <- ident_first_spec. symmetry. apply first_items. Qed.
Lemma in_next b : in_class next_class b <-> name_char b \/ b = x2d.
Proof. rewrite <- ident_next_spec. symmetry. apply next_items. Qed.

Lemma name_snoc p b : name p -> name_char b -> name (p ++ [b]).
Proof.
  intros [c H|c d s H1 H2 H3] B; cbn [app]; constructor; auto.
  apply Forall_app. auto.
Qed.
Lemma name_hyphen p : name p -> length p = 1 -> name (p ++ [x2d]).
Proof. intros [c H|c d s H1 H2 H3] L; [|discriminate]. cbn [app]. constructor; auto. Qed.
Lemma letter_a : name_char x61.
Proof. left. left. left. vm_compute. split; discriminate. Qed.

Definition next_step := Seq (Class next_class) (Not (Class [Rustpeg.One x2d])).
Lemma run_next s r m : run (Many next_step) s r m -> forall p, name p -> (length p = 1 \/ hyphen_first s = false) ->
  (exists w s', r = Some s' /\ s = w ++ s' /\ name (p ++ w)) /\
  (forall t x, In (t, x) m -> exists w, s = w ++ t /\ name (p ++ w) /\ (x = class_text [Rustpeg.One x2d] \/ x = class_text next_class)).
Proof.
  remember (Many next_step) as e eqn:Ee. intros R. induction R; try discriminate; injection Ee as ->; intros p Np Hp.
  - clear IHR1. unfold next_step in R1. inversion R1; subst.
    match goal with X : run (Class _) _ _ _ |- _ => inversion X as [| | | |cl b s0 IC| | | | | | | | | | | | | |]; subst; clear X end.
    match goal with X : run (Not _) _ _ _ |- _ => inversion X; subst; clear X end.
    match goal with X : run (Class _) _ None _ |- _ => inversion X as [| | | | |cl' s1 NC| | | | | | | | | | | | |]; subst; clear X end.
    assert (hyphen_first s' = false) as Hh.
    { destruct s' as [|b' s']; [reflexivity|]. cbn [hyphen_first]. destruct (byte_eqb b' x2d) eqn:Eb; [|reflexivity].
      apply byte_eqb_eq in Eb. subst b'. exfalso. apply (NC x2d s' eq_refl). exists (Rustpeg.One x2d). split; [left; reflexivity|reflexivity]. }
    assert (name (p ++ [b])) as Nb.
    { apply in_next in IC. destruct IC as [IC| ->]; [apply name_snoc; assumption|].
      destruct Hp as [Hp|Hp]; [apply name_hyphen; assumption|discriminate]. }
    destruct (IHR2 eq_refl (p ++ [b]) Nb (or_intror Hh)) as ((w & s2 & -> & -> & Nw) & M).
    rewrite <- app_assoc in Nw. split; [exists (b :: w), s2; auto|].
    intros t x I. apply in_app_or in I. destruct I as [I|I].
    + cbn [app] in I. destruct I as [I|[]]. injection I as <- <-. exists [b]. auto.
    + destruct (M t x I) as (w' & E & Nw' & Hx). exists (b :: w'). cbn [app]. rewrite E. split; [reflexivity|].
      rewrite <- app_assoc in Nw'. auto.
  - split; [exists [], s; rewrite app_nil_r; auto|]. unfold next_step in R. inversion R; subst.
    + match goal with X : run (Class _) _ _ _ |- _ => inversion X as [| | | |cl b s0 IC| | | | | | | | | | | | | |]; subst; clear X end.
      match goal with X : run (Not _) _ None _ |- _ => inversion X; subst; clear X end.
      match goal with X : run (Class _) _ (Some _) _ |- _ => inversion X; subst; clear X end.
      intros t x [].
    + match goal with X : run (Class _) _ None _ |- _ => inversion X as [| | | | |cl' s1 NC| | | | | | | | | | | | |]; subst; clear X end.
      intros t x [I|[]]. injection I as <- <-. exists []. rewrite app_nil_r. auto.
Qed.

Lemma ok_identifier L V : (forall T n u, name n -> closing T u -> L T (n ++ u)) ->
  ok (Rule R_identifier) L V closing never.
Proof.
  intros HL. apply ok_rule. intros s r m R N.
  assert (forall p, name p -> goes_on L p) as G.
  { intros p Np. exists ($"}"). split; [reflexivity|]. intros T HT. apply HL; [exact Np|]. exists []. auto. }
  change (run (Seq (Class first_class) (Many next_step)) s r m) in R.
  assert (name [x61]) as Na by (constructor; apply in_first; exists (Between x61 x7a); split; [left; reflexivity|vm_compute; split; discriminate]).
  inversion R; subst.
  - match goal with X : run (Class _) _ _ _ |- _ => inversion X as [| | | |cl b s0 IC| | | | | | | | | | | | | |]; subst; clear X end.
    assert (name [b]) as Nb by (constructor; apply in_first; exact IC).
    match goal with X : run (Many _) _ _ _ |- _ => destruct (run_next _ _ _ X [b] Nb (or_introl eq_refl)) as ((w & s2 & -> & -> & Nw) & M) end.
    split.
    + intros s'' E. injection E as <-. exists (b :: w). split; [reflexivity|]. split; [|intros u []].
      intros T u Hu. exact (HL T (b :: w) u Nw Hu).
    + cbn [app]. intros t x I. destruct (M t x I) as (w' & E & Nw' & Hx). exists (b :: w'). cbn [app]. rewrite E.
      split; [reflexivity|]. split; [apply G; exact Nw'|]. destruct Hx as [-> | ->]; [left; left; reflexivity|].
      right. exists [x61], ($"}"). split; [|split; [reflexivity|]].
      * apply (stands_class ($"a-z-A-Z0-9_.")). apply in_next. left. exact letter_a.
      * left. intros T HT. pose proof (HL T (([b] ++ w') ++ [x61]) ($"}") (name_snoc _ _ Nw' letter_a)) as K.
        rewrite <- app_assoc in K. apply K. exists []. auto.
  - match goal with X : run (Class _) _ None _ |- _ => inversion X as [| | | | |cl' s1 NC| | | | | | | | | | | | |]; subst; clear X end.
    split; [discriminate|]. apply marks_one.
    + destruct (G [x61] Na) as (c & A & C). exists (x61 :: c). split; [exact A|exact C].
    + right. exists [x61], ($"}"). split; [|split; [reflexivity|]].
      * apply (stands_class ($"a-zA-Z_.")). apply in_first. inversion Na; assumption.
      * left. intros T HT. apply (HL T [x61]); [exact Na|]. exists []. auto.
Qed.

Lemma ok_name L V : (forall T nt n u, name_text nt n -> closing T u -> L T (nt ++ u)) ->
  ok (Opt (Rule R_parser_name)) L V closing never.
Proof.
  intros HL. apply ok_opt; [intros T u H; exact (HL T [] None u name_absent H)|intros u []|]. apply ok_rule.
  eapply ok_seq; [apply ok_text; [reflexivity|exact I|]|apply ok_identifier].
  - exists ($"a}"). split; [reflexivity|]. intros T HT. apply (HL T ($":a") (Some ($"a")) ($"}")).
    + apply (name_present ($"a")). constructor. left. left. vm_compute. split; discriminate.
    + exists []. auto.
  - intros T n u Nn Hu. unfold after. rewrite app_assoc. apply (HL T _ (Some n)); [constructor; exact Nn|exact Hu].
Qed.

(** ** Runs of characters *)
Lemma char_single c b : utf8_char c = true -> ascii_byte b = true -> In b c -> c = [b].
Proof.
  intros U A I. unfold ascii_byte in A. apply N.ltb_lt in A.
  destruct c as [|c0 [|c1 [|c2 [|c3 [|c4 c]]]]]; try discriminate; [destruct I as [<-|[]]; reflexivity| | |]; exfalso;
    unfold utf8_char, is_cont, in_rng in U; repeat rewrite ?orb_true_iff, ?andb_true_iff, ?N.leb_le in U;
    repeat (destruct I as [<-|I]; [lia|]); destruct I.
Qed.

(** The stop [m] begins nowhere within [w], which is followed by [s]. *)
Definition clean (m w s : str) : Prop := forall a b, w = a ++ b -> b <> [] -> ~ prefix_of m (b ++ s).
Lemma clean_nil m s : clean m [] s.
Proof. intros a b E N. symmetry in E. apply app_eq_nil in E. destruct E as [_ E]. contradiction. Qed.
Lemma clean_char m c w s : match m with b :: _ => ascii_byte b = true | [] => False end -> utf8_char c = true ->
  ~ prefix_of m (c ++ w ++ s) -> clean m w s -> clean m (c ++ w) s.
Proof.
  intros A U N C a b E Nb (z & P). destruct m as [|x m]; [contradiction|].
  apply app_eq_app in E. destruct E as (l & [(-> & E)|(-> & E)]).
  - destruct l as [|y l].
    + cbn [app] in E. subst b. rewrite app_nil_r in *. apply (C [] w eq_refl Nb). exists z. exact P.
    + destruct a as [|a0 a]; [apply N; exists z; cbn [app] in *; rewrite E in P; cbn [app] in P; rewrite <- app_assoc in P; exact P|].
      subst b. cbn [app] in P. injection P as -> P.
      assert (((a0 :: a) ++ x :: l) = [x]) as K by (apply (char_single _ x U A); apply in_or_app; right; left; reflexivity).
      destruct a; discriminate.
  - apply (C l b E Nb). exists z. exact P.
Qed.

(** Characters up to the stop [m]: at every mark, and at the end, the characters before. *)
Lemma run_stays m e s r ms : match m with b :: _ => ascii_byte b = true | [] => False end ->
  (forall s r ms, run e s r ms -> run (Text m) s r ms) ->
  run (Many (Seq (Not e) AnyChar)) s r ms ->
  (exists w s', r = Some s' /\ s = w ++ s' /\ (s' = [] \/ prefix_of m s') /\ clean m w s') /\
  (forall t x, In (t, x) ms -> exists w, s = w ++ t /\ clean m w t /\
     (x = m /\ ~ prefix_of m t \/ x = $"<character>" /\ t = [])).
Proof.
  intros Am He. remember (Many (Seq (Not e) AnyChar)) as a eqn:Ea. intros R. induction R; try discriminate; injection Ea as ->.
  - clear IHR1. inversion R1; subst.
    match goal with X : run (Not _) _ _ _ |- _ => inversion X; subst; clear X end.
    match goal with X : run e _ _ _ |- _ => apply He in X; inversion X as [|m0 s0 NP| | | | | | | | | | | | | | | | |]; subst; clear X end.
    match goal with X : run AnyChar _ _ _ |- _ => inversion X as [| |c s0 U| | | | | | | | | | | | | | | |]; subst; clear X end.
    destruct (IHR2 eq_refl) as ((w & s2 & -> & -> & F & C) & M). split.
    + exists (c ++ w), s2. split; [reflexivity|]. split; [apply app_assoc|]. split; [exact F|]. apply clean_char; assumption.
    + intros t x I. apply in_app_or in I. destruct I as [I|I].
      * destruct I as [I|[]]. injection I as <- <-. exists []. split; [reflexivity|]. split; [apply clean_nil|auto].
      * destruct (M t x I) as (w' & E & C' & Hx). exists (c ++ w'). rewrite E in *. split; [apply app_assoc|].
        split; [apply clean_char; assumption|exact Hx].
  - inversion R; subst.
    + match goal with X : run (Not _) _ _ _ |- _ => inversion X; subst; clear X end.
      match goal with X : run e _ _ _ |- _ => apply He in X; inversion X as [|m0 s0 NP| | | | | | | | | | | | | | | | |]; subst; clear X end.
      match goal with X : run AnyChar _ _ _ |- _ => inversion X; subst; clear X end.
      split; [exists [], []; auto using clean_nil|].
      intros t x [I|[I|[]]]; injection I as <- <-; exists []; auto using clean_nil.
    + match goal with X : run (Not _) _ _ _ |- _ => inversion X; subst; clear X end.
      match goal with X : run e _ _ _ |- _ => apply He in X; inversion X; subst; clear X end.
      split; [|intros t x []]. eexists [], _. split; [reflexivity|]. split; [reflexivity|].
      split; [right; eexists; reflexivity|apply clean_nil].
Qed.
(** One character at least. *)
Lemma run_stays_some m e s r ms : match m with b :: _ => ascii_byte b = true | [] => False end ->
  (forall s r ms, run e s r ms -> run (Text m) s r ms) ->
  run (Some_ (Seq (Not e) AnyChar)) s r ms ->
  (forall s', r = Some s' -> exists w, s = w ++ s' /\ w <> [] /\ (s' = [] \/ prefix_of m s') /\ clean m w s') /\
  (r = None -> s = [] \/ prefix_of m s) /\
  (forall t x, In (t, x) ms -> exists w, s = w ++ t /\ clean m w t /\
     (x = m /\ ~ prefix_of m t \/ x = $"<character>" /\ t = [])).
Proof.
  intros Am He R. inversion R; subst. match goal with X : run (Seq _ (Many _)) _ _ _ |- _ => inversion X as [| | | | | |? ? ? ? ? ? ? R1 R2|? ? ? ? R1| | | | | | | | | | |]; subst; clear X end.
  - pose proof (run_many _ _ _ _ _ _ R1 R2) as RM. apply (run_stays m e) in RM; [|assumption|assumption].
    destruct RM as (_ & M). split; [|split; [|exact M]].
    + inversion R1; subst.
      match goal with X : run (Not _) _ _ _ |- _ => inversion X; subst; clear X end.
      match goal with X : run e _ _ _ |- _ => apply He in X; inversion X as [|m0 s0 NP| | | | | | | | | | | | | | | | |]; subst; clear X end.
      match goal with X : run AnyChar _ _ _ |- _ => inversion X as [| |c s0 U| | | | | | | | | | | | | | | |]; subst; clear X end.
      intros s'' ->. apply (run_stays m e) in R2; [|assumption|assumption].
      destruct R2 as ((w & s2 & E & -> & F & C) & _). injection E as <-.
      exists (c ++ w). split; [apply app_assoc|]. split; [|split; [exact F|apply clean_char; assumption]].
      apply utf8_char_nonempty in U. destruct c; [contradiction|discriminate].
    + intros ->. apply (run_stays m e) in R2; [|assumption|assumption]. destruct R2 as ((w & s2 & E & _) & _). discriminate.
  - pose proof (run_many_done _ _ _ R1) as RM. apply (run_stays m e) in RM; [|assumption|assumption].
    destruct RM as ((w & s2 & E & Es & F & _) & M). injection E as <-. split; [discriminate|]. split; [|exact M]. auto.
Qed.

Lemma clean_quote w s : clean [x22] w s -> ~ In x22 w.
Proof.
  intros C I. apply in_split in I. destruct I as (a & b & ->).
  apply (C a (x22 :: b) eq_refl ltac:(discriminate)). exists (b ++ s). reflexivity.
Qed.
Lemma clean_begin w s : clean ($"%{") w s -> ~ occurs_in ($"%{") w.
Proof.
  intros C (a & b & ->). apply (C a ($"%{" ++ b) eq_refl ltac:(discriminate)). exists (b ++ s). apply app_assoc_reverse.
Qed.

(** ** Strings *)
Lemma ok_string L V L' V' : goes_on L' [] ->
  (forall T chars u, chars <> [] -> ~ In x22 chars -> L' T u -> L T ([x22] ++ chars ++ [x22] ++ u)) ->
  (forall chars u, chars <> [] -> ~ In x22 chars -> V' u -> V ([x22] ++ chars ++ [x22] ++ u)) ->
  ok (Rule R_string) L V L' V'.
Proof.
  intros (c & A & C) HL HV. apply ok_rule. intros s r m R N.
  change (run (Seq (Text [x22]) (Seq (Rule R_all_chars_until_quotation_mark) (Text [x22]))) s r m) in R.
  assert (forall w, w <> [] -> ~ In x22 w -> whole L ([x22] ++ w ++ [x22] ++ c)) as W.
  { intros w Nw Iw T HT. apply HL; auto. }
  assert (whole L ([x22] ++ $"a" ++ [x22] ++ c)) as Wa by (apply W; [discriminate|intros [E|[]]; discriminate]).
  assert (forall w, ~ In x22 w -> goes_on L ([x22] ++ w)) as G.
  { intros w Iw. exists ($"a" ++ [x22] ++ c). split; [repeat (apply ascii_app; split); [reflexivity|reflexivity|exact A]|].
    replace (([x22] ++ w) ++ $"a" ++ [x22] ++ c) with ([x22] ++ (w ++ $"a") ++ [x22] ++ c) by (rewrite <- !app_assoc; reflexivity).
    apply W; [destruct w; discriminate|]. intros I. apply in_app_or in I. destruct I as [I|[I|[]]]; [auto|discriminate]. }
  assert (forall w x, ~ In x22 w -> w <> [] \/ x <> [x22] -> x = [x22] \/ x = $"<character>" -> expects L V x ([x22] ++ w)) as X.
  { intros w x Iw Hx [-> | ->]; right.
    - exists [x22], c. split; [constructor; exact I|]. split; [apply ascii_app; split; [reflexivity|exact A]|]. left.
      rewrite <- app_assoc. apply W; [|exact Iw]. destruct Hx as [Hx|Hx]; [exact Hx|contradiction].
    - exists ($"a"), ([x22] ++ c). split; [apply (stands_any ($"a")); reflexivity|].
      split; [repeat (apply ascii_app; split); [reflexivity|reflexivity|exact A]|]. left.
      replace (([x22] ++ w) ++ $"a" ++ [x22] ++ c) with ([x22] ++ (w ++ $"a") ++ [x22] ++ c) by (rewrite <- !app_assoc; reflexivity).
      apply W; [destruct w; discriminate|]. intros I. apply in_app_or in I. destruct I as [I|[I|[]]]; [auto|discriminate]. }
  inversion R as [| | | | | |? ? ? ? ? ? ? R1 R2|? ? ? ? R1| | | | | | | | | | |]; subst.
  2: { inversion R1; subst. split; [discriminate|]. apply marks_one.
       - exists ([x22] ++ $"a" ++ [x22] ++ c). split; [repeat (apply ascii_app; split); try reflexivity; exact A|exact Wa].
       - right. exists [x22], ($"a" ++ [x22] ++ c). split; [constructor; exact I|].
         split; [repeat (apply ascii_app; split); try reflexivity; exact A|]. left. exact Wa. }
  inversion R1; subst. clear R1. cbn [app] in *.
  assert (forall s' r' m', run (Rule R_all_chars_until_quotation_mark) s' r' m' -> forall t x, In (t, x) m' ->
            exists w, x22 :: s' = w ++ t /\ goes_on L w /\ expects L V x w) as MM.
  { intros s0 r0 m0 R0 t x I. inversion R0 as [| | | | | | | | | | | | | | | | | |n s1 r1 m1 R1 ]; subst.
    apply (run_stays_some [x22] (Text [x22])) in R1; [|reflexivity|auto]. destruct R1 as (_ & _ & M).
    destruct (M t x I) as (w & -> & Cw & Hx). apply clean_quote in Cw. exists (x22 :: w). split; [reflexivity|].
    split; [apply (G w Cw)|]. destruct w as [|b w].
    - destruct Hx as [(-> & _)|(-> & _)]; [|apply (X [] _); [intros []|right; discriminate|auto]].
      left. right. split; [reflexivity|]. exists []. reflexivity.
    - apply (X (b :: w)); [exact Cw|left; discriminate|tauto]. }
  inversion R2 as [| | | | | |? ? ? ? ? ? ? R3 R4|? ? ? ? R3| | | | | | | | | | |]; subst.
  2: { split; [discriminate|]. intros t x I. exact (MM _ _ _ R3 t x I). }
  inversion R3 as [| | | | | | | | | | | | | | | | | |n s1 r1 m1 R5 ]; subst.
  apply (run_stays_some [x22] (Text [x22])) in R5; [|reflexivity|auto]. destruct R5 as (S & _ & _).
  destruct (S _ eq_refl) as (w & -> & Nw & F & Cw). apply clean_quote in Cw.
  split.
  - intros s'' ->. inversion R4; subst. exists ([x22] ++ w ++ [x22]). rewrite <- !app_assoc. split; [reflexivity|].
    split; [intros T u Hu|intros u Hu]; rewrite <- !app_assoc; [apply HL|apply HV]; auto.
  - intros t x I. apply in_app_or in I. destruct I as [I|I]; [exact (MM _ _ _ R3 t x I)|].
    inversion R4; subst; [destruct I|]. destruct I as [I|[]]. injection I as <- <-. exists (x22 :: w). split; [reflexivity|].
    split; [apply (G w Cw)|]. apply (X w); [exact Cw|left; exact Nw|auto].
Qed.

(** ** Numbers and commas *)
Definition digit_class := [Between x30 x39].
Lemma in_digit b : in_class digit_class b <-> digit b.
Proof. rewrite <- is_digit_spec. symmetry. apply digit_items. Qed.
Lemma digit_zero : digit x30.
Proof. vm_compute. split; discriminate. Qed.

Lemma run_digits s r m : run (Many (Class digit_class)) s r m ->
  (exists d s', r = Some s' /\ s = d ++ s' /\ Forall digit d /\ no_digit_first s') /\
  (forall t x, In (t, x) m -> exists d, s = d ++ t /\ Forall digit d /\ no_digit_first t /\ x = class_text digit_class).
Proof.
  remember (Many (Class digit_class)) as e eqn:Ee. intros R. induction R; try discriminate; injection Ee as ->.
  - clear IHR1. inversion R1 as [| | | |cl b s0 IC| | | | | | | | | | | | | |]; subst. apply in_digit in IC.
    destruct (IHR2 eq_refl) as ((d & s2 & -> & -> & D & F) & M). split.
    + exists (b :: d), s2. auto.
    + intros t x I. destruct (M t x I) as (d' & E & D' & K). exists (b :: d'). cbn [app]. rewrite E. auto.
  - inversion R as [| | | | |cl' s1 NC| | | | | | | | | | | | |]; subst.
    assert (no_digit_first s) as F.
    { destruct s as [|b s]; [exact I|]. cbn [no_digit_first]. intros D. apply (NC b s eq_refl). apply in_digit, D. }
    split; [exists [], s; auto|]. intros t x [I|[]]. injection I as <- <-. exists []. auto.
Qed.

Lemma fits_or d : fits (decimal d) \/ ~ fits (decimal d).
Proof. unfold fits. destruct (N.lt_ge_cases (decimal d) (2 ^ 64)); [left|right]; lia. Qed.
Lemma digits_ascii d : Forall digit d -> ascii d = true.
Proof. apply digits_are_ascii. Qed.

Lemma ok_int L V L' V' : goes_on L' [] ->
  (forall T d v u, number_text d v -> L' T u -> L T (d ++ u)) ->
  (forall d v u, number_text d v -> V' u -> V (d ++ u)) ->
  (forall d r, d <> [] -> Forall digit d -> ~ fits (decimal d) -> no_digit_first r -> V (d ++ r)) ->
  ok (Rule R_int) L V L' V'.
Proof.
  intros (c & A & C) HL HV HO. apply ok_rule. intros s r m R N.
  change (run (Some_ (Class digit_class)) s r m) in R. inversion R as [| | | | | | | | | | | | | |a0 s0 r0 m0 R0| | | |]; subst.
  assert (forall d, d <> [] -> Forall digit d -> fits (decimal d) -> whole L (d ++ c)) as W.
  { intros d Nd D F T HT. apply (HL T d (decimal d)); [constructor; assumption|apply C, HT]. }
  assert (Forall digit [x30]) as D0 by (constructor; [exact digit_zero|constructor]).
  assert (whole L ([x30] ++ c)) as W0 by (apply W; [discriminate|exact D0|vm_compute; reflexivity]).
  assert (forall d, d <> [] -> Forall digit d -> forall t, s = d ++ t -> no_digit_first t ->
            goes_on L d /\ expects L V (class_text digit_class) d) as K.
  { intros d Nd D t Es F. destruct (fits_or d) as [Fd|Fd]; [|exfalso; apply N; rewrite Es; apply HO; assumption]. split.
    - exists c. split; [exact A|apply W; assumption].
    - right. assert (Forall digit (d ++ [x30])) as D1 by (apply Forall_app; auto).
      assert (d ++ [x30] <> []) as N1 by (destruct d; discriminate).
      assert (stands_for (class_text digit_class) [x30]) as S by (apply (stands_class ($"0-9")), in_digit; exact digit_zero).
      destruct (fits_or (d ++ [x30])) as [F1|F1].
      + exists [x30], c. split; [exact S|]. split; [apply ascii_app; split; [reflexivity|exact A]|]. left.
        rewrite app_assoc. apply W; assumption.
      + exists [x30], []. split; [exact S|]. split; [reflexivity|]. right. rewrite app_nil_r.
        rewrite <- (app_nil_r (d ++ [x30])). apply HO; auto. exact I. }
  match goal with X : run (Seq _ (Many _)) _ _ _ |- _ => inversion X as [| | | | | |? ? ? ? ? ? ? R1 R2|? ? ? ? R1| | | | | | | | | | |]; subst; clear X end.
  - inversion R1 as [| | | |cl b s0 IC| | | | | | | | | | | | | |]; subst. apply in_digit in IC.
    destruct (run_digits _ _ _ R2) as ((d & s2 & -> & -> & D & F) & M). cbn [app] in *. split.
    + intros s'' E. injection E as <-. exists (b :: d). split; [reflexivity|].
      destruct (fits_or (b :: d)) as [Fd|Fd].
      2: { exfalso. apply N. apply (HO (b :: d)); [discriminate|auto|exact Fd|exact F]. }
      assert (number_text (b :: d) (decimal (b :: d))) as Nt by (constructor; [discriminate|auto|exact Fd]).
      split; [intros T u Hu; exact (HL T _ _ u Nt Hu)|intros u Hu; exact (HV _ _ u Nt Hu)].
    + intros t x I. destruct (M t x I) as (d' & E & D' & F' & ->). exists (b :: d'). split; [cbn [app]; rewrite E; reflexivity|].
      apply (K (b :: d') ltac:(discriminate) ltac:(auto) t); [cbn [app]; rewrite E; reflexivity|exact F'].
  - inversion R1 as [| | | | |cl' s1 NC| | | | | | | | | | | | |]; subst. split; [discriminate|]. apply marks_one.
    + exists ([x30] ++ c). split; [apply ascii_app; split; [reflexivity|exact A]|exact W0].
    + right. exists [x30], c. split; [constructor; apply in_digit; exact digit_zero|].
      split; [apply ascii_app; split; [reflexivity|exact A]|]. left. exact W0.
Qed.

Lemma ok_comma L V L' V' : goes_on L' [] ->
  (forall T c u, comma_text c -> L' T u -> L T (c ++ u)) ->
  (forall c u, comma_text c -> V' u -> V (c ++ u)) ->
  ok (Rule R_comma) L V L' V'.
Proof.
  intros (c & A & C) HL HV. apply ok_rule.
  set (K := fun T u => exists n v, u = repeat x20 n ++ v /\ L' T v).
  set (W := fun u => exists n v, u = repeat x20 n ++ v /\ V' v).
  assert (forall T u, K T u -> L T ($"," ++ u)) as KL.
  { intros T u (n & v & -> & H). rewrite app_assoc. apply HL; [constructor|exact H]. }
  apply (ok_seq _ _ L V K W).
  - refine (ok_out _ _ _ _ _ _ _ _ _ (ok_text ($",") L V eq_refl I _)).
    + exact KL.
    + intros u (n & v & -> & H). unfold after_v. rewrite app_assoc. apply HV; [constructor|exact H].
    + exists c. split; [exact A|]. intros T HT. apply KL. exists 0, c. split; [reflexivity|apply C, HT].
  - apply (ok_out _ _ _ K W); [intros T u H; exists 0, u; auto|intros u H; exists 0, u; auto|].
    apply ok_many. refine (ok_out _ _ _ _ _ _ _ _ _ (ok_text ($" ") K W eq_refl I _)).
    + intros T u (n & v & -> & H). exists (S n), v. auto.
    + intros u (n & v & -> & H). exists (S n), v. auto.
    + exists c. split; [exact A|]. intros T HT. exists 1, c. split; [reflexivity|apply C, HT].
Qed.

(** ** Bounds *)
Lemma ok_param1 kw n L V L' V' : rustpeg n = Text kw -> (kw = $"min_len" \/ kw = $"max_len") ->
  goes_on L' [] ->
  (forall T t b u, bound_text t b -> L' T u -> L T (t ++ u)) ->
  (forall t b u, bound_text t b -> V' u -> V (t ++ u)) ->
  (forall u r, bounds_overflow u -> no_digit_first r -> V (u ++ r)) ->
  ok (Seq (Rule n) (Seq (Text ($"=")) (Rule R_int))) L V L' V'.
Proof.
  intros En Hk G HL HV HO.
  assert (forall d v, number_text d v -> exists b, bound_text (kw ++ $"=" ++ d) b) as B.
  { intros d v H. destruct Hk as [-> | ->]; [exists (MinLen v)|exists (MaxLen v)]; rewrite app_assoc; constructor; exact H. }
  assert (number_text ($"0") (decimal ($"0"))) as N0.
  { constructor; [discriminate|constructor; [exact digit_zero|constructor]|vm_compute; reflexivity]. }
  assert (forall w, (exists d, kw ++ $"=" ++ $"0" = w ++ d /\ ascii d = true) -> goes_on (after w L) []) as Gw.
  { intros w (d & E & Ad). destruct G as (c & A & C). exists (d ++ c). split; [apply ascii_app; auto|].
    intros T HT. unfold after. cbn [app]. rewrite app_assoc, <- E. destruct (B _ _ N0) as (b & Hb).
    apply (HL T _ b); [exact Hb|apply C, HT]. }
  apply (ok_seq _ _ _ _ (after kw L) (after_v kw V)).
  - apply ok_rule. rewrite En. apply ok_text.
    + destruct Hk as [-> | ->]; reflexivity.
    + destruct Hk as [-> | ->]; exact I.
    + apply Gw. exists ($"=0"). split; [reflexivity|reflexivity].
  - apply (ok_seq _ _ _ _ (after (kw ++ $"=") L) (after_v (kw ++ $"=") V)).
    + refine (ok_out _ _ _ _ _ _ _ _ _ (ok_text ($"=") _ _ eq_refl I _)).
      * intros T u H. unfold after in *. rewrite <- app_assoc in H. exact H.
      * intros u H. unfold after_v in *. rewrite <- app_assoc in H. exact H.
      * destruct (Gw (kw ++ $"=")) as (c & A & C); [exists ($"0"); rewrite <- app_assoc; auto|]. exists c. split; [exact A|].
        intros T HT. specialize (C T HT). unfold after in *. rewrite <- app_assoc in C. exact C.
    + apply ok_int; [exact G| | |].
      * intros T d v u Hd Hu. unfold after. destruct (B d v Hd) as (b & Hb).
        replace ((kw ++ $"=") ++ d ++ u) with ((kw ++ $"=" ++ d) ++ u) by (rewrite <- !app_assoc; reflexivity). eauto.
      * intros d v u Hd Hu. unfold after_v. destruct (B d v Hd) as (b & Hb).
        replace ((kw ++ $"=") ++ d ++ u) with ((kw ++ $"=" ++ d) ++ u) by (rewrite <- !app_assoc; reflexivity). eauto.
      * intros d r Nd D F Fr. unfold after_v.
        replace ((kw ++ $"=") ++ d ++ r) with (((kw ++ $"=") ++ d) ++ r) by (rewrite <- !app_assoc; reflexivity).
        apply HO; [|exact Fr]. constructor; try assumption. destruct Hk as [-> | ->]; [left|right]; reflexivity.
Qed.
Lemma ok_param L V L' V' : goes_on L' [] ->
  (forall T t b u, bound_text t b -> L' T u -> L T (t ++ u)) ->
  (forall t b u, bound_text t b -> V' u -> V (t ++ u)) ->
  (forall u r, bounds_overflow u -> no_digit_first r -> V (u ++ r)) ->
  ok (Rule R_parser_BASE_optional_param) L V L' V'.
Proof.
  intros. apply ok_rule. apply ok_or.
  - apply (ok_param1 ($"min_len")); auto.
  - apply (ok_param1 ($"max_len")); auto.
Qed.

Lemma zero_bound : bound_text ($"min_len=0") (MinLen (decimal ($"0"))).
Proof.
  apply (bound_min ($"0")). constructor; [discriminate|constructor; [exact digit_zero|constructor]|vm_compute; reflexivity].
Qed.

Definition some_overflow (u : str) : Prop := exists v r, u = v ++ r /\ bounds_overflow v /\ no_digit_first r.
Lemma ok_bounds L V L' : goes_on L' [] ->
  (forall T t bs u, opt_bounds_text t bs -> L' T u -> L T (t ++ u)) ->
  (forall u, some_overflow u -> V u) ->
  ok (Sep (Rule R_parser_BASE_optional_param) (Rule R_comma)) L V L' never.
Proof.
  intros G HL HO. apply ok_sep.
  set (K := fun T u => exists t bs v, u = t ++ v /\ bounds_text t bs /\ L' T v).
  set (M := fun T u => L' T u \/ exists c t bs v, u = c ++ t ++ v /\ comma_text c /\ bounds_text t bs /\ L' T v).
  set (VM := fun u => exists c v, u = c ++ v /\ comma_text c /\ some_overflow v).
  assert (goes_on M []) as GM by (destruct G as (c & A & C); exists c; split; [exact A|intros T HT; left; apply C, HT]).
  assert (goes_on K []) as GK.
  { destruct G as (c & A & C). exists ($"min_len=0" ++ c). split; [apply ascii_app; split; [reflexivity|exact A]|].
    intros T HT. exists ($"min_len=0"), [MinLen (decimal ($"0"))], c. split; [reflexivity|]. split; [constructor; exact zero_bound|apply C, HT]. }
  assert (ok (Rule R_parser_BASE_optional_param) K some_overflow M VM) as P.
  { apply ok_param; [exact GM| | |].
    - intros T t b u Ht [H|(c & t' & bs & v & -> & Hc & Hb & Hv)].
      + exists t, [b], u. split; [reflexivity|]. split; [constructor; exact Ht|exact H].
      + exists (t ++ c ++ t'), (b :: bs), v. split; [rewrite <- !app_assoc; reflexivity|]. split; [constructor; assumption|exact Hv].
    - intros t b u Ht (c & v & -> & Hc & w & r & -> & Hw & Fr). exists (t ++ c ++ w), r.
      split; [rewrite <- !app_assoc; reflexivity|]. split; [eapply overflow_later; eassumption|exact Fr].
    - intros u r Hu Fr. exists u, r. auto. }
  apply ok_opt; [intros T u H; exact (HL T [] [] u bounds_none H)|intros u []|].
  apply (ok_in _ _ _ K some_overflow); [intros T u (t & bs & v & -> & Hb & Hv); eapply HL; [constructor; exact Hb|exact Hv]|exact HO|].
  apply (ok_seq _ _ _ _ M VM); [exact P|].
  apply (ok_out _ _ _ M VM); [intros T u H; left; exact H|intros u []|]. apply ok_many.
  apply (ok_seq _ _ _ _ K some_overflow); [|exact P]. apply ok_comma; [exact GK| |].
  - intros T c u Hc (t & bs & v & -> & Hb & Hv). right. exists c, t, bs, v. auto.
  - intros c u Hc Hu. exists c, u. auto.
Qed.

Definition comma_overflow (u : str) : Prop := exists c v, u = c ++ v /\ comma_text c /\ some_overflow v.
Lemma ok_set_params L V L' : goes_on L' [] ->
  (forall T t bs u, set_bounds_text t bs -> L' T u -> L T (t ++ u)) ->
  (forall u, comma_overflow u -> V u) ->
  ok (Opt (Rule R_parser_SET_optional_params)) L V L' never.
Proof.
  intros G HL HO. apply ok_opt; [intros T u H; exact (HL T [] [] u set_bounds_none H)|intros u []|]. apply ok_rule.
  set (K := fun T u => exists t bs v, u = t ++ v /\ opt_bounds_text t bs /\ L' T v).
  apply (ok_seq _ _ _ _ K some_overflow).
  - apply ok_comma.
    + destruct G as (c & A & C). exists c. split; [exact A|]. intros T HT. exists [], [], c.
      split; [reflexivity|]. split; [constructor|apply C, HT].
    + intros T c u Hc (t & bs & v & -> & Hb & Hv). rewrite app_assoc. eapply HL; [constructor; eassumption|exact Hv].
    + intros c u Hc Hu. apply HO. exists c, u. auto.
  - apply ok_bounds; [exact G| |auto]. intros T t bs u Hb Hu. exists t, bs, u. auto.
Qed.
Lemma ok_int_params L V L' : goes_on L' [] ->
  (forall T t bs u, int_bounds_text t bs -> L' T u -> L T (t ++ u)) ->
  (forall u, some_overflow u -> V ($"(" ++ u)) ->
  ok (Opt (Rule R_parser_INT_optional_params)) L V L' never.
Proof.
  intros G HL HO. apply ok_opt; [intros T u H; exact (HL T [] [] u int_bounds_none H)|intros u []|]. apply ok_rule.
  set (K := fun T u => exists t bs v, u = t ++ $")" ++ v /\ opt_bounds_text t bs /\ L' T v).
  set (M := fun T u => exists v, u = $")" ++ v /\ L' T v).
  assert (goes_on M []) as GM.
  { destruct G as (c & A & C). exists ($")" ++ c). split; [apply ascii_app; split; [reflexivity|exact A]|]. intros T HT. exists c. auto. }
  apply (ok_seq _ _ _ _ K some_overflow).
  - apply ok_rule. refine (ok_out _ _ _ _ _ _ _ _ _ (ok_text ($"(") L V eq_refl I _)).
    + intros T u (t & bs & v & -> & Hb & Hv). unfold after.
      replace ($"(" ++ t ++ $")" ++ v) with (($"(" ++ t ++ $")") ++ v) by (rewrite <- !app_assoc; reflexivity).
      eapply HL; [constructor; exact Hb|exact Hv].
    + intros u Hu. apply HO, Hu.
    + destruct G as (c & A & C). exists ($")" ++ c). split; [apply ascii_app; split; [reflexivity|exact A]|].
      intros T HT. apply (HL T ($"()") []); [|apply C, HT]. apply (int_bounds_some [] []). constructor.
  - apply (ok_seq _ _ _ _ M never).
    + apply ok_bounds; [exact GM| |auto]. intros T t bs u Hb (v & -> & Hv). exists t, bs, v. auto.
    + apply ok_rule. refine (ok_out _ _ _ _ _ _ _ _ _ (ok_text ($")") M never eq_refl I _)).
      * intros T u H. exists u. auto.
      * intros u [].
      * destruct G as (c & A & C). exists c. split; [exact A|]. intros T HT. exists c. split; [reflexivity|apply C, HT].
Qed.

(** ** Items *)
Definition items_l : lang := fun T u => exists t i v, u = t ++ v /\ item_text t i /\ is_text i = false /\ T v.
Definition item_over (u : str) : Prop := exists v r, u = v ++ r /\ item_overflow v /\ no_digit_first r.
Definition named : lang := fun T u => exists nt n v, u = nt ++ $"}" ++ v /\ name_text nt n /\ T v.

Lemma goes_closing : goes_on closing [].
Proof. exists ($"}"). split; [reflexivity|]. intros T HT. exists []. auto. Qed.
Lemma goes_named : goes_on named [].
Proof. exists ($"}"). split; [reflexivity|]. intros T HT. exists [], None, []. split; [reflexivity|]. split; [constructor|exact HT]. Qed.
Lemma named_closing T nt n u : name_text nt n -> closing T u -> named T (nt ++ u).
Proof. intros Hn (v & -> & Hv). exists nt, n, v. auto. Qed.

Lemma after_app a b L T u : after (a ++ b) L T u -> after b (after a L) T u.
Proof. unfold after. rewrite <- app_assoc. auto. Qed.
Lemma goes_after w c L : ascii c = true -> whole L (w ++ c) -> goes_on (after w L) [].
Proof. intros A C. exists c. split; [exact A|]. intros T HT. exact (C T HT). Qed.

Lemma ok_greedy_head : ok (Seq (Rule R_PARSER_BEGIN) (Seq (Rule R_GREEDY) (Seq (Opt (Rule R_parser_name)) (Rule R_PARSER_END))))
  items_l item_over done never.
Proof.
  assert (whole items_l ($"%{GREEDY}")) as W.
  { intros T HT. exists ($"%{GREEDY}"), (IGreedy None), []. split; [reflexivity|]. split; [|auto]. apply (text_greedy [] None). constructor. }
  apply (ok_seq _ _ _ _ (after ($"%{") items_l) (after_v ($"%{") item_over)).
  - apply ok_rule. apply ok_text; [reflexivity|exact I|]. apply (goes_after _ ($"GREEDY}")); [reflexivity|exact W].
  - apply (ok_seq _ _ _ _ (after ($"GREEDY") (after ($"%{") items_l)) (after_v ($"GREEDY") (after_v ($"%{") item_over))).
    + apply ok_rule. apply ok_text; [reflexivity|exact I|]. apply (goes_after _ ($"}")); [reflexivity|exact W].
    + apply (ok_seq _ _ _ _ closing never); [|apply ok_close]. apply ok_name.
      intros T nt n u Hn (v & -> & Hv). unfold after. exists ($"%{GREEDY" ++ nt ++ $"}"), (IGreedy n), v.
      split; [rewrite <- !app_assoc; reflexivity|]. split; [constructor; exact Hn|auto].
Qed.

Lemma ok_INT : ok (Rule R_parser_INT) (after ($"%{") items_l) (after_v ($"%{") item_over) closing never.
Proof.
  apply ok_rule.
  assert (forall T bt bs u, int_bounds_text bt bs -> named T u -> items_l T ($"%{INT" ++ bt ++ u)) as H.
  { intros T bt bs u Hb (nt & n & v & -> & Hn & Hv). exists ($"%{INT" ++ bt ++ nt ++ $"}"), (IInt bs n), v.
    split; [rewrite <- !app_assoc; reflexivity|]. split; [constructor; assumption|auto]. }
  apply (ok_seq _ _ _ _ (after ($"%{INT") items_l) (after_v ($"%{INT") item_over)).
  - apply ok_rule. refine (ok_text ($"INT") _ _ eq_refl I _).
    exists ($"}"). split; [reflexivity|]. intros T HT. apply (H T [] [] ($"}")); [constructor|]. exists [], None, []. split; [reflexivity|]. split; [constructor|exact HT].
  - apply (ok_seq _ _ _ _ named never).
    + apply ok_int_params; [apply goes_named| |].
      * intros T t bs u Hb Hu. exact (H T t bs u Hb Hu).
      * intros u (v & r & -> & Hv & Fr). exists ($"%{INT(" ++ v), r. split; [rewrite <- !app_assoc; reflexivity|].
        split; [constructor; exact Hv|exact Fr].
    + apply ok_name. intros T nt n u. apply named_closing.
Qed.

Lemma ok_SET : ok (Rule R_parser_SET) (after ($"%{") items_l) (after_v ($"%{") item_over) closing never.
Proof.
  apply ok_rule.
  assert (forall T chars bt bs u, chars <> [] -> ~ In x22 chars -> set_bounds_text bt bs -> named T u ->
            items_l T ($"%{SET(" ++ [x22] ++ chars ++ [x22] ++ bt ++ $")" ++ u)) as H.
  { intros T chars bt bs u Nc Ic Hb (nt & n & v & -> & Hn & Hv).
    exists ($"%{SET(""" ++ chars ++ $"""" ++ bt ++ $")" ++ nt ++ $"}"), (ISet chars bs n), v.
    split; [rewrite <- !app_assoc; reflexivity|]. split; [constructor; assumption|auto]. }
  assert (forall w c, ascii c = true -> w ++ c = $"%{SET(" ++ [x22] ++ $"a" ++ [x22] ++ $")}" -> whole items_l (w ++ c)) as W.
  { intros w c Ac E. rewrite E. intros T HT. apply (H T ($"a") [] [] ($"}")); [discriminate|intros [X|[]]; discriminate|constructor|].
    exists [], None, []. split; [reflexivity|]. split; [constructor|exact HT]. }
  set (M := fun T u => exists v, u = $")" ++ v /\ named T v).
  set (K := fun T u => exists bt bs v, u = bt ++ $")" ++ v /\ set_bounds_text bt bs /\ named T v).
  assert (goes_on M []) as GM.
  { destruct goes_named as (c & A & C). exists ($")" ++ c). split; [apply ascii_app; split; [reflexivity|exact A]|]. intros T HT. exists c. auto. }
  assert (goes_on K []) as GK.
  { destruct goes_named as (c & A & C). exists ($")" ++ c). split; [apply ascii_app; split; [reflexivity|exact A]|].
    intros T HT. exists [], [], c. split; [reflexivity|]. split; [constructor|apply C, HT]. }
  apply (ok_seq _ _ _ _ (after ($"%{SET") items_l) (after_v ($"%{SET") item_over)).
  { apply ok_rule. refine (ok_text ($"SET") _ _ eq_refl I _). apply (goes_after _ ($"(""a"")}")); [reflexivity|].
    apply (W ($"%{SET") ($"(""a"")}")); reflexivity. }
  apply (ok_seq _ _ _ _ (after ($"%{SET(") items_l) (after_v ($"%{SET(") item_over)).
  { apply ok_rule. refine (ok_text ($"(") _ _ eq_refl I _). apply (goes_after _ ($"""a"")}")); [reflexivity|].
    apply (W ($"%{SET(") ($"""a"")}")); reflexivity. }
  apply (ok_seq _ _ _ _ K comma_overflow).
  { apply ok_string; [exact GK| |].
    - intros T chars u Nc Ic (bt & bs & v & -> & Hb & Hv). exact (H T chars bt bs v Nc Ic Hb Hv).
    - intros chars u Nc Ic (c & v & -> & Hc & v' & r & -> & Hv & Fr).
      exists ($"%{SET(""" ++ chars ++ $"""" ++ c ++ v'), r. split; [rewrite <- !app_assoc; reflexivity|].
      split; [constructor; assumption|exact Fr]. }
  apply (ok_seq _ _ _ _ M never).
  { apply ok_set_params; [exact GM| |auto]. intros T t bs u Hb (v & -> & Hv). exists t, bs, v. auto. }
  apply (ok_seq _ _ _ _ named never).
  { apply ok_rule. refine (ok_out _ _ _ _ _ _ _ _ _ (ok_text ($")") M never eq_refl I _)).
    - intros T u Hu. exists u. auto.
    - intros u [].
    - destruct goes_named as (c & A & C). exists c. split; [exact A|]. intros T HT. exists c. split; [reflexivity|apply C, HT]. }
  apply ok_name. intros T nt n u. apply named_closing.
Qed.

Lemma ok_piece_parser : ok (Rule R_piece_parser) items_l item_over done never.
Proof.
  apply ok_rule.
  apply (ok_seq _ _ _ _ (after ($"%{") items_l) (after_v ($"%{") item_over)).
  - apply ok_rule. apply ok_text; [reflexivity|exact I|]. apply (goes_after _ ($"INT}")); [reflexivity|].
    intros T HT. exists ($"%{INT}"), (IInt [] None), []. split; [reflexivity|]. split; [|auto].
    apply (text_int [] [] [] None); constructor.
  - apply (ok_seq _ _ _ _ closing never); [|apply ok_close]. apply ok_rule. apply ok_or; [apply ok_SET|apply ok_INT].
Qed.

(** ** Sequences of items *)
Definition seq_of (Z : str -> Prop) (u : str) : Prop :=
  exists t is z, u = t ++ z /\ items_text t is /\ texts_apart is /\ Z z.
Definition no_brace (u : str) : Prop := match u with b :: _ => b <> x7b | [] => True end.
(** [u] instead of [s]. *)
Definition instead (Z : str -> Prop) (s u : str) : Prop := seq_of Z u /\ (follows s -> no_brace u).

Lemma seq_item Z t i u : item_text t i -> is_text i = false -> seq_of Z u -> seq_of Z (t ++ u).
Proof.
  intros Ht Hi (t' & is & z & -> & Hs & Ha & Hz). exists (t ++ t'), (i :: is), z.
  split; [apply app_assoc|]. split; [constructor; assumption|]. split; [|exact Hz].
  apply texts_apart_cons; [exact Ha|]. intros (X & _). congruence.
Qed.
Lemma seq_text Z t u : t <> [] -> ~ occurs_in ($"%{") t -> no_brace u -> seq_of Z u -> seq_of Z (t ++ u).
Proof.
  intros Nt Ot B (t' & is & z & -> & Hs & Ha & Hz).
  destruct Hs as [|t1 i s1 is1 Ht1 Hs1].
  - exists t, [IText t], z. split; [reflexivity|]. split; [apply one_item; constructor; assumption|]. split; [exact I|exact Hz].
  - destruct (is_text i) eqn:Hi.
    + destruct i; try discriminate. inversion Ht1 as [raw' Nr Or| | |]; subst.
      exists ((t ++ raw) ++ s1), (IText (t ++ raw) :: is1), z.
      split; [rewrite <- !app_assoc; reflexivity|]. split; [|split; [|exact Hz]].
      * constructor; [|exact Hs1]. constructor; [destruct t; [contradiction|discriminate]|].
        intros O. apply begin_in_app in O. destruct O as [O|[O|(a' & b' & _ & ->)]]; [exact (Ot O)|exact (Or O)|]. apply B. reflexivity.
      * destruct is1 as [|j is1]; [exact I|]. destruct Ha as (Ha1 & Ha2). split; [exact Ha1|exact Ha2].
    + exists (t ++ t1 ++ s1), (IText t :: i :: is1), z. split; [rewrite <- !app_assoc; reflexivity|].
      split; [constructor; [constructor; assumption|constructor; assumption]|]. split; [|exact Hz].
      split; [intros (_ & X); congruence|exact Ha].
Qed.

Definition nothing (z : str) : Prop := z = [].
Lemma overflow_seq s : pattern_overflow s <-> seq_of item_over s.
Proof.
  split.
  - intros (t & is & u & r & -> & Ht & Ha & Hu & F). exists t, is, (u ++ r). split; [reflexivity|]. split; [exact Ht|].
    split; [exact Ha|]. exists u, r. auto.
  - intros (t & is & z & -> & Ht & Ha & u & r & -> & Hu & F). exists t, is, u, r. auto.
Qed.

Definition top_mark (s x w : str) : Prop :=
  (exists c, ascii c = true /\ instead nothing s (w ++ c)) /\
  (bad x w \/ exists y c, stands_for x y /\ ascii (y ++ c) = true /\
     (instead nothing s (w ++ y ++ c) \/ instead item_over s (w ++ y ++ c))).
Definition top_marks (s : str) (m : list (str * str)) : Prop :=
  forall t x, In (t, x) m -> exists w, s = w ++ t /\ top_mark s x w.
Definition top_step (s s' : str) : Prop :=
  exists w, s = w ++ s' /\ forall Z u, instead Z s' u -> instead Z s (w ++ u).

Lemma top_marks_app s a b : top_marks s a -> top_marks s b -> top_marks s (a ++ b).
Proof. intros A B t x I. apply in_app_or in I. destruct I; auto. Qed.
Lemma top_marks_shift s s' w m : s = w ++ s' -> (forall Z u, instead Z s' u -> instead Z s (w ++ u)) ->
  top_marks s' m -> top_marks s m.
Proof.
  intros E H M t x I. destruct (M t x I) as (w' & -> & (c & A & C) & X). exists (w ++ w').
  split; [rewrite <- app_assoc; exact E|]. split.
  - exists c. split; [exact A|]. rewrite <- app_assoc. apply H, C.
  - destruct X as [X|(y & c' & S & A' & X)]; [left; apply bad_app, X|]. right. exists y, c'.
    split; [exact S|]. split; [exact A'|]. rewrite <- !app_assoc. destruct X as [X|X]; [left|right]; apply H, X.
Qed.
Lemma top_step_refl s : top_step s s.
Proof. exists []. auto. Qed.
Lemma top_step_trans a b c : top_step a b -> top_step b c -> top_step a c.
Proof.
  intros (w & -> & H) (w' & -> & H'). exists (w ++ w'). split; [apply app_assoc|].
  intros Z u X. rewrite <- app_assoc. auto.
Qed.

Lemma item_starts Z u : items_l Z u -> exists u', u = $"%{" ++ u'.
Proof. intros (t & i & v & -> & Ht & Hi & _). apply (item_head t i v Ht Hi). Qed.
Lemma items_instead Z s u : items_l (seq_of Z) u -> instead Z s u.
Proof.
  intros H. split.
  - destruct H as (t & i & v & -> & Ht & Hi & Hv). eapply seq_item; eassumption.
  - destruct (item_starts _ _ H) as (u' & ->). intros _. discriminate.
Qed.
Lemma overflow_starts v : item_overflow v -> exists v', v = $"%{" ++ v'.
Proof. intros []; eexists; reflexivity. Qed.

(** An expression that reads an item, in front of whatever comes. *)
Lemma ok_top e s r m : ok e items_l item_over done never -> run e s r m -> ~ pattern_overflow s ->
  (forall s', r = Some s' -> top_step s s') /\ top_marks s m.
Proof.
  intros H R N. assert (~ item_over s) as N'.
  { intros (v & r' & -> & Hv & F). apply N. exists [], [], v, r'. split; [reflexivity|]. split; [constructor|]. split; [exact I|auto]. }
  destruct (H s r m R N') as (A & M). split.
  - intros s' E. destruct (A s' E) as (w & -> & HL & _). exists w. split; [reflexivity|].
    intros Z u (Hu & _). apply items_instead. apply HL. exact Hu.
  - intros t x I. destruct (M t x I) as (w & -> & (c & Ac & C) & X). exists w. split; [reflexivity|]. split.
    + exists c. split; [exact Ac|]. apply items_instead. apply C. exists [], [], []. split; [reflexivity|].
      split; [constructor|]. split; [exact Logic.I|reflexivity].
    + destruct X as [X|(y & c' & S & A' & X)]; [left; exact X|]. right. exists y, c'. split; [exact S|]. split; [exact A'|].
      destruct X as [X|X].
      * left. apply items_instead. apply X. exists [], [], []. split; [reflexivity|].
        split; [constructor|]. split; [exact Logic.I|reflexivity].
      * right. split.
        { exists [], [], (w ++ y ++ c'). split; [reflexivity|]. split; [constructor|]. split; [exact Logic.I|exact X]. }
        { destruct X as (v & r' & E & Hv & _). rewrite E. destruct (overflow_starts v Hv) as (v' & ->). intros _. discriminate. }
Qed.

(** Plain text. *)
Lemma top_text s r m : run (Rule R_literal) s r m ->
  (forall s', r = Some s' -> top_step s s') /\ top_marks s m.
Proof.
  intros R. inversion R as [| | | | | | | | | | | | | | | | | |n s1 r1 m1 R1 ]; subst.
  change (run (Some_ (Seq (Not (Rule R_PARSER_BEGIN)) AnyChar)) s r m) in R1.
  apply (run_stays_some ($"%{") (Rule R_PARSER_BEGIN)) in R1; [|reflexivity|].
  2: { intros s0 r0 m0 R0. inversion R0; subst. assumption. }
  destruct R1 as (S & _ & M). split.
  - intros s' E. destruct (S s' E) as (w & -> & Nw & F & C). apply clean_begin in C as Ow. exists w. split; [reflexivity|].
    intros Z u (Hu & B). split.
    + apply seq_text; [exact Nw|exact Ow| |exact Hu]. apply B. destruct F as [->|(z & ->)]; [left; reflexivity|right; exists z; reflexivity].
    + intros [X|(z & X)]; [destruct w; [contradiction|discriminate]|]. exfalso.
      apply (C [] w eq_refl Nw). exists z. exact X.
  - intros t x I. destruct (M t x I) as (w & -> & C & Hx). apply clean_begin in C as Ow. exists w. split; [reflexivity|].
    assert (follows (w ++ t) -> w = []) as Fw.
    { destruct w as [|b w]; [reflexivity|]. intros [X|(z & X)]; [discriminate|]. exfalso.
      apply (C [] (b :: w) eq_refl ltac:(discriminate)). exists z. exact X. }
    assert (instead nothing (w ++ t) (w ++ $"%{INT}")) as Wi.
    { assert (seq_of nothing ($"%{INT}")) as X.
      { change ($"%{INT}") with ($"%{INT}" ++ []). apply (seq_item _ _ (IInt [] None)); [|reflexivity|].
        - apply (text_int [] [] [] None); constructor.
        - exists [], [], []. split; [reflexivity|]. split; [constructor|]. split; [exact Logic.I|reflexivity]. }
      destruct w as [|b w]; [split; [exact X|discriminate]|]. split; [|intros F; apply Fw in F; discriminate].
      apply seq_text; [discriminate|exact Ow|discriminate|exact X]. }
    assert (instead nothing (w ++ t) (w ++ $"a")) as Wa.
    { assert (seq_of nothing ($"a")) as X.
      { exists ($"a"), [IText ($"a")], []. split; [reflexivity|]. split; [|split; [exact Logic.I|reflexivity]].
        apply one_item. constructor; [discriminate|]. intros (p & q & E). destruct p as [|p0 [|p1 p]]; discriminate. }
      destruct w as [|b w]; [split; [exact X|discriminate]|]. split; [|intros F; apply Fw in F; discriminate].
      apply seq_text; [discriminate|exact Ow|discriminate|exact X]. }
    split; [exists ($"a"); auto|]. right. destruct Hx as [(-> & _)|(-> & _)].
    + exists ($"%{"), ($"INT}"). split; [constructor; exact Logic.I|]. split; [reflexivity|]. left. exact Wi.
    + exists ($"a"), []. split; [apply (stands_any ($"a")); reflexivity|]. split; [reflexivity|]. left. exact Wa.
Qed.

Lemma run_assoc a b c s r m : run (Seq a (Seq b c)) s r m -> run (Seq (Seq a b) c) s r m.
Proof.
  intros R. inversion R as [| | | | | |? ? ? ? ? ? ? R1 R2|? ? ? ? R1| | | | | | | | | | |]; subst.
  - inversion R2 as [| | | | | |? ? ? ? ? ? ? R3 R4|? ? ? ? R3| | | | | | | | | | |]; subst.
    + rewrite app_assoc. eapply run_seq; [eapply run_seq; eassumption|eassumption].
    + apply run_seq_fail. eapply run_seq; eassumption.
  - apply run_seq_fail, run_seq_fail. exact R1.
Qed.
Lemma ok_assoc a b c L V L' V' : ok (Seq a (Seq b c)) L V L' V' -> ok (Seq (Seq a b) c) L V L' V'.
Proof.
  intros H s r m R. apply H. clear H.
  inversion R as [| | | | | |? ? ? ? ? ? ? R1 R2|? ? ? ? R1| | | | | | | | | | |]; subst.
  - inversion R1 as [| | | | | |? ? ? ? ? ? ? R3 R4|? ? ? ? R3| | | | | | | | | | |]; subst.
    rewrite <- app_assoc. eapply run_seq; [eassumption|]. eapply run_seq; eassumption.
  - inversion R1 as [| | | | | |? ? ? ? ? ? ? R3 R4|? ? ? ? R3| | | | | | | | | | |]; subst.
    + eapply run_seq; [eassumption|]. apply run_seq_fail. assumption.
    + apply run_seq_fail. assumption.
Qed.

Lemma no_overflow_step s s' : top_step s s' -> ~ pattern_overflow s -> ~ pattern_overflow s'.
Proof.
  intros (w & -> & H) N O. apply N. apply overflow_seq. apply H. split; [apply overflow_seq, O|].
  intros [->|(z & ->)]; [exact I|discriminate].
Qed.

Lemma top_piece s r m : run (Rule R_pattern_piece) s r m -> ~ pattern_overflow s ->
  (forall s', r = Some s' -> top_step s s') /\ top_marks s m.
Proof.
  intros R N. inversion R as [| | | | | | | | | | | | | | | | | |n s1 r1 m1 R1 ]; subst. clear R. cbn [rustpeg] in R1.
  assert (forall r m, run (Rule R_parser_GREEDY) s r m -> (forall s', r = Some s' -> top_step s s') /\ top_marks s m) as Gr.
  { clear R1. intros r0 m0 R0. inversion R0 as [| | | | | | | | | | | | | | | | | |n s1 r1 m1 R1 ]; subst. clear R0. cbn [rustpeg] in R1.
    apply run_assoc, run_assoc, run_assoc in R1.
    assert (ok (Seq (Seq (Seq (Rule R_PARSER_BEGIN) (Rule R_GREEDY)) (Opt (Rule R_parser_name))) (Rule R_PARSER_END)) items_l item_over done never) as H
      by apply ok_assoc, ok_assoc, ok_greedy_head.
    inversion R1 as [| | | | | |? ? ? ? ? ? ? R2 R3|? ? ? ? R2| | | | | | | | | | |]; subst.
    - destruct (ok_top _ _ _ _ H R2 N) as (A & M). specialize (A _ eq_refl).
      assert (forall s2 r2 m2, run (Opt (Rule R_literal)) s2 r2 m2 -> (forall s', r2 = Some s' -> top_step s2 s') /\ top_marks s2 m2) as O.
      { intros s2 r2 m2 R4. inversion R4; subst.
        - match goal with X : run (Rule R_literal) _ _ _ |- _ => exact (top_text _ _ _ X) end.
        - match goal with X : run (Rule R_literal) _ _ _ |- _ => destruct (top_text _ _ _ X) as (_ & M2) end.
          split; [|exact M2]. intros s3 E. injection E as <-. apply top_step_refl. }
      destruct (O _ _ _ R3) as (A3 & M3). split.
      + intros s3 E. exact (top_step_trans _ _ _ A (A3 s3 E)).
      + apply top_marks_app; [exact M|]. destruct A as (w & -> & A). eapply top_marks_shift; [reflexivity|exact A|exact M3].
    - destruct (ok_top _ _ _ _ H R2 N) as (A & M). split; [discriminate|exact M]. }
  inversion R1 as [| | | | | | | |? ? ? ? ? R2|? ? ? ? ? ? R2 R3| | | | | | | | |]; subst; [exact (Gr _ _ R2)|].
  destruct (Gr _ _ R2) as (_ & M2). clear Gr R1 R2.
  assert (forall r m, run (Rule R_piece_literal) s r m -> (forall s', r = Some s' -> top_step s s') /\ top_marks s m) as Pl.
  { intros r9 m9 R0. inversion R0; subst. apply top_text. assumption. }
  inversion R3 as [| | | | | | | |? ? ? ? ? R4|? ? ? ? ? ? R4 R5| | | | | | | | |]; subst.
  - destruct (Pl _ _ R4) as (A & M). split; [exact A|apply top_marks_app; assumption].
  - destruct (Pl _ _ R4) as (_ & M4). destruct (ok_top _ _ _ _ ok_piece_parser R5 N) as (A & M5).
    split; [exact A|apply top_marks_app; [exact M2|apply top_marks_app; assumption]].
Qed.

Lemma top_pieces s r m : run (Many (Rule R_pattern_piece)) s r m -> ~ pattern_overflow s -> top_marks s m.
Proof.
  remember (Many (Rule R_pattern_piece)) as e eqn:Ee. intros R. induction R; try discriminate; injection Ee as ->; intros N.
  - destruct (top_piece _ _ _ R1 N) as (A & M). specialize (A _ eq_refl). apply top_marks_app; [exact M|].
    pose proof (IHR2 eq_refl (no_overflow_step _ _ A N)) as M2. destruct A as (w & -> & A).
    eapply top_marks_shift; [reflexivity|exact A|exact M2].
  - apply (top_piece _ _ _ R N).
Qed.
Lemma top_pattern s r m : run (Rule R_pattern) s r m -> ~ pattern_overflow s -> top_marks s m.
Proof.
  intros R N. inversion R as [| | | | | | | | | | | | | | | | | |n s1 r1 m1 R1 ]; subst. cbn [rustpeg] in R1.
  inversion R1 as [| | | | | | | | | | | | | |a0 s0 r0 m0 R2| | | |]; subst.
  inversion R2 as [| | | | | |? ? ? ? ? ? ? R3 R4|? ? ? ? R3| | | | | | | | | | |]; subst.
  - exact (top_pieces _ _ _ (run_many _ _ _ _ _ _ R3 R4) N).
  - exact (top_pieces _ _ _ (run_many_done _ _ _ R3) N).
Qed.

(** ** Errors *)
Lemma seq_compiles u : utf8 u -> u <> [] -> seq_of nothing u -> exists ts, compile u = Ret (Ok ts).
Proof.
  intros U Nu (t & is & z & -> & Ht & Ha & ->). rewrite app_nil_r in *.
  destruct (meaning_total is) as (ts & Hm). exists ts. apply (compile_accepts t ts U). exists is. split; [|exact Hm].
  split; [exact Ht|]. split; [|exact Ha]. intros ->. inversion Ht. subst. contradiction.
Qed.

Lemma error_marks s e : utf8 s -> compile s = Ret (Err e) ->
  utf8 (firstn (pe_offset e) s) /\ pe_expected e <> [] /\
  forall x, In x (pe_expected e) -> top_mark s x (firstn (pe_offset e) s).
Proof.
  intros U E. destruct (compile_error s e U E) as (L & B & N & _).
  assert (utf8 (firstn (pe_offset e) s)) as Uf.
  { apply boundary_split in B. destruct B as (a & b & Eab & <- & K). rewrite Eab, firstn_app, firstn_all, Nat.sub_diag. cbn [firstn]. rewrite app_nil_r.
    rewrite Eab in U. apply (utf8_cut a b U K). }
  split; [exact Uf|]. split; [exact N|].
  assert (~ pattern_overflow s) as NO by (intros O; apply (compile_panics s U) in O; congruence).
  destruct (compile_rustpeg s U ltac:(congruence)) as (r & m & R & H). rewrite E in H. destruct H as (_ & _ & _ & _ & Hx & _).
  intros x I. apply Hx in I. destruct (top_pattern s r m R NO _ _ I) as (w & Es & T).
  assert (w = firstn (pe_offset e) s) as ->; [|exact T].
  rewrite <- (firstn_skipn (pe_offset e) s) in Es at 1. apply app_inv_tail in Es. auto.
Qed.

Theorem error_viable s e : utf8 s -> compile s = Ret (Err e) ->
  exists c ts, ascii c = true /\ compile (firstn (pe_offset e) s ++ c) = Ret (Ok ts).
Proof.
  intros U E. destruct (error_marks s e U E) as (Uf & N & M).
  destruct (pe_expected e) as [|x l]; [contradiction|]. destruct (M x (or_introl eq_refl)) as ((c & A & C & _) & _).
  set (f := firstn (pe_offset e) s) in *. destruct (f ++ c) as [|b l'] eqn:Ef.
  - exists ($"a"), [Literal ($"a")]. apply app_eq_nil in Ef. destruct Ef as (-> & _). split; [reflexivity|]. vm_compute. reflexivity.
  - rewrite <- Ef in C. destruct (seq_compiles (f ++ c)) as (ts & Hts); [apply utf8_app; [exact Uf|apply ascii_utf8, A]|congruence|exact C|].
    exists c, ts. auto.
Qed.

Theorem error_expected s e x : utf8 s -> compile s = Ret (Err e) -> In x (pe_expected e) ->
  x <> $"[-]" -> ~ (x = [x22] /\ exists p, firstn (pe_offset e) s = p ++ [x22]) ->
  exists y c, stands_for x y /\ utf8 (y ++ c) /\
    forall e', compile (firstn (pe_offset e) s ++ y ++ c) <> Ret (Err e').
Proof.
  intros U E I N1 N2. destruct (error_marks s e U E) as (Uf & _ & M). destruct (M x I) as (_ & [[X|X]|(y & c & S & A & X)]).
  - contradiction.
  - contradiction.
  - exists y, c. split; [exact S|]. split; [apply ascii_utf8, A|].
    assert (utf8 (firstn (pe_offset e) s ++ y ++ c)) as Uu by (apply utf8_app; [exact Uf|apply ascii_utf8, A]).
    intros e' E'. destruct X as [(X & _)|(X & _)].
    + destruct (seq_compiles _ Uu) with (2 := X) as (ts & Hts); [|congruence].
      intros K. rewrite app_assoc in K. apply app_eq_nil in K. destruct K as (K & _). apply app_eq_nil in K. destruct K as (_ & ->).
      clear -S. remember (@nil byte) as n eqn:En. destruct S as [m H|cl b H|ch H]; [|discriminate|].
      * subst. exact H.
      * apply utf8_char_nonempty in H. contradiction.
    + apply overflow_seq in X. apply (compile_panics _ Uu) in X. congruence.
Qed.

(** ** A hyphen is expected where it cannot be

    After [%{INT:ab] the compiler expects a hyphen; but there it cannot be. *)
Lemma hyphen_only y : stands_for ($"[-]") y -> y = [x2d].
Proof.
  remember ($"[-]") as x eqn:Ex. intros S. destruct S as [m H|c b H|c H]; [subst m; vm_compute in H; destruct H| |discriminate].
  change ($"[-]") with (x5b :: [x2d] ++ [x5d]) in Ex. change ($"[") with [x5b] in Ex. change ($"]") with [x5d] in Ex.
  cbn [app] in Ex. injection Ex as Ex. change [x2d; x5d] with ([x2d] ++ [x5d]) in Ex. apply app_inj_tail in Ex. destruct Ex as (-> & _).
  destruct H as (i & [<-|[]] & ->). reflexivity.
Qed.

Lemma hyphen_expected :
  exists s e x, utf8 s /\ compile s = Ret (Err e) /\ In x (pe_expected e) /\
    forall y c, stands_for x y -> utf8 (y ++ c) ->
      exists e', compile (firstn (pe_offset e) s ++ y ++ c) = Ret (Err e').
Proof.
  exists ($"%{INT:ab"), {| pe_line := 1; pe_column := 9; pe_offset := 8;
    pe_expected := [$"[-]"; $"[a-z-A-Z0-9_.]"; $"}"] |}, ($"[-]").
  split; [apply ascii_utf8; reflexivity|]. split; [vm_compute; reflexivity|]. split; [left; reflexivity|].
  intros y c S U. apply hyphen_only in S. subst y. cbn [pe_offset].
  change (firstn 8 ($"%{INT:ab") ++ [x2d] ++ c) with ($"%{INT:ab-" ++ c).
  assert (utf8 ($"%{INT:ab-" ++ c)) as U'.
  { change ($"%{INT:ab-" ++ c) with ($"%{INT:ab" ++ [x2d] ++ c). apply utf8_app; [apply ascii_utf8; reflexivity|exact U]. }
  pose proof (compile_spec _ U') as C.
  assert (p_piece ($"%{INT:ab-" ++ c) = PFail) as E by reflexivity.
  cbn [p_star] in C. rewrite E in C. cbn [is_empty andb negb] in C.
  destruct C as (st & w & _ & _ & C & _). eauto.
Qed.
