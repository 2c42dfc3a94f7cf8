(** * What an error leaves out: every continuation begins with a listed terminal *)
From Verif Require Import Base Base_facts Utils Utils_facts Parsers Pattern Spec Grammar Peg Grammar_refine
  Spec_grammar Grammar_syntax Grammar_claims Rustpeg Rustpeg_claims Viable_claims.

(** ** Inversion of runs *)
Lemma inv_text k s r m : run (Text k) s r m ->
  (exists s', s = k ++ s' /\ r = Some s' /\ m = []) \/ (~ prefix_of k s /\ r = None /\ m = [(s, k)]).
Proof. intros R. inversion R; subst; [left; eauto|right; auto]. Qed.
Lemma inv_class c s r m : run (Class c) s r m ->
  (exists b s', s = b :: s' /\ in_class c b /\ r = Some s' /\ m = []) \/
  ((forall b s', s = b :: s' -> ~ in_class c b) /\ r = None /\ m = [(s, class_text c)]).
Proof. intros R. inversion R; subst; [left; eauto 6|right; auto]. Qed.
Lemma inv_any s r m : run AnyChar s r m ->
  (exists c s', s = c ++ s' /\ utf8_char c = true /\ r = Some s' /\ m = []) \/
  (s = [] /\ r = None /\ m = [([], $"<character>")]).
Proof. intros R. inversion R; subst; [left; eauto 6|right; auto]. Qed.
Lemma inv_seq a b s r m : run (Seq a b) s r m ->
  (exists s' m1 m2, run a s (Some s') m1 /\ run b s' r m2 /\ m = m1 ++ m2) \/ (run a s None m /\ r = None).
Proof. intros R. inversion R; subst; [left; eauto 8|right; auto]. Qed.
Lemma inv_or a b s r m : run (Or a b) s r m ->
  (exists s', run a s (Some s') m /\ r = Some s') \/
  (exists m1 m2, run a s None m1 /\ run b s r m2 /\ m = m1 ++ m2).
Proof. intros R. inversion R; subst; [left; eauto|right; eauto 8]. Qed.
Lemma inv_opt a s r m : run (Opt a) s r m ->
  (exists s', run a s (Some s') m /\ r = Some s') \/ (run a s None m /\ r = Some s).
Proof. intros R. inversion R; subst; [left; eauto|right; eauto]. Qed.
Lemma inv_many a s r m : run (Many a) s r m ->
  (exists s' m1 m2, run a s (Some s') m1 /\ run (Many a) s' r m2 /\ m = m1 ++ m2) \/
  (run a s None m /\ r = Some s).
Proof. intros R. inversion R; subst; [left; eauto 8|right; eauto]. Qed.
Lemma inv_not a s r m : run (Not a) s r m ->
  (run a s None m /\ r = Some s) \/ (exists s', run a s (Some s') m /\ r = None).
Proof. intros R. inversion R; subst; [left; eauto|right; eauto]. Qed.
Lemma inv_some a s r m : run (Some_ a) s r m -> run (Seq a (Many a)) s r m.
Proof. intros R. inversion R; subst. assumption. Qed.
Lemma inv_sep a b s r m : run (Sep a b) s r m -> run (Opt (Seq a (Many (Seq b a)))) s r m.
Proof. intros R. inversion R; subst. assumption. Qed.
Lemma inv_rule n s r m : run (Rule n) s r m -> run (rustpeg n) s r m.
Proof. intros R. inversion R; subst. assumption. Qed.
Lemma many_some a s r m : run (Many a) s r m -> exists s', r = Some s'.
Proof.
  remember (Many a) as e eqn:E. intros R. induction R; try discriminate; injection E as ->; eauto.
Qed.
Lemma opt_some a s r m : run (Opt a) s r m -> exists s', r = Some s'.
Proof. intros R. apply inv_opt in R. destruct R as [(s' & _ & ->)|(_ & ->)]; eauto. Qed.
Lemma sep_some a b s r m : run (Sep a b) s r m -> exists s', r = Some s'.
Proof. intros R. apply inv_sep, opt_some in R. exact R. Qed.

Lemma rest_le e s s' m : run e s (Some s') m -> length s' <= length s.
Proof. intros R. apply run_suffix in R. destruct (proj1 R _ eq_refl) as (w & ->). rewrite app_length. lia. Qed.
Lemma mark_le e s r m t x : run e s r m -> In (t, x) m -> length t <= length s.
Proof. intros R I. apply run_suffix in R. destruct (proj2 R _ _ I) as (w & ->). rewrite app_length. lia. Qed.

(** Every failure is noted, and successes note nothing beyond their end. *)
Definition noted (e : peg) : Prop := forall s m, run e s None m -> m <> [].
Definition tight (e : peg) : Prop := forall s s' m t x, run e s (Some s') m -> In (t, x) m -> length s' <= length t.
Definition shy (e : peg) : Prop := forall s m t x, run e s None m -> In (t, x) m -> length s <= length t.

Lemma noted_text k : noted (Text k).
Proof. intros s m R. apply inv_text in R. destruct R as [(s' & _ & R & _)|(_ & _ & ->)]; discriminate. Qed.
Lemma noted_class c : noted (Class c).
Proof. intros s m R. apply inv_class in R. destruct R as [(b & s' & _ & _ & R & _)|(_ & _ & ->)]; discriminate. Qed.
Lemma noted_seq a b : noted a -> noted b -> noted (Seq a b).
Proof.
  intros A B s m R. apply inv_seq in R. destruct R as [(s' & m1 & m2 & _ & R & ->)|(R & _)]; [|exact (A _ _ R)].
  intros E. apply app_eq_nil in E. exact (B _ _ R (proj2 E)).
Qed.
Lemma noted_or a b : noted b -> noted (Or a b).
Proof.
  intros B s m R. apply inv_or in R. destruct R as [(s' & _ & R)|(m1 & m2 & _ & R & ->)]; [discriminate|].
  intros E. apply app_eq_nil in E. exact (B _ _ R (proj2 E)).
Qed.
Lemma noted_rule n : noted (rustpeg n) -> noted (Rule n).
Proof. intros H s m R. apply inv_rule in R. exact (H _ _ R). Qed.
Lemma noted_many a : noted (Many a).
Proof. intros s m R. destruct (many_some _ _ _ _ R) as (s' & E). discriminate. Qed.
Lemma noted_opt a : noted (Opt a).
Proof. intros s m R. destruct (opt_some _ _ _ _ R) as (s' & E). discriminate. Qed.
Lemma noted_sep a b : noted (Sep a b).
Proof. intros s m R. destruct (sep_some _ _ _ _ _ R) as (s' & E). discriminate. Qed.
Lemma noted_some a : noted a -> noted (Some_ a).
Proof. intros A s m R. apply inv_some in R. exact (noted_seq _ _ A (noted_many a) _ _ R). Qed.

Lemma tight_text k : tight (Text k).
Proof. intros s s' m t x R. apply inv_text in R. destruct R as [(s0 & _ & _ & ->)|(_ & R & _)]; [intros []|discriminate]. Qed.
Lemma tight_class c : tight (Class c).
Proof. intros s s' m t x R. apply inv_class in R. destruct R as [(b & s0 & _ & _ & _ & ->)|(_ & R & _)]; [intros []|discriminate]. Qed.
Lemma tight_any : tight AnyChar.
Proof. intros s s' m t x R. apply inv_any in R. destruct R as [(b & s0 & _ & _ & _ & ->)|(_ & R & _)]; [intros []|discriminate]. Qed.
Lemma tight_seq a b : tight a -> tight b -> tight (Seq a b).
Proof.
  intros A B s s' m t x R I. apply inv_seq in R. destruct R as [(s1 & m1 & m2 & R1 & R2 & ->)|(_ & R)]; [|discriminate].
  apply in_app_or in I. destruct I as [I|I]; [|exact (B _ _ _ _ _ R2 I)].
  pose proof (A _ _ _ _ _ R1 I). apply rest_le in R2. lia.
Qed.
Lemma tight_many a : tight a -> shy a -> tight (Many a).
Proof.
  intros A H s s' m t x R. remember (Many a) as e eqn:E. remember (Some s') as r eqn:Er. revert s' Er.
  induction R; try discriminate; injection E as ->; intros s1 Er I.
  - apply in_app_or in I. destruct I as [I|I]; [|exact (IHR2 eq_refl _ Er I)]. subst r.
    pose proof (A _ _ _ _ _ R1 I). apply rest_le in R2. lia.
  - injection Er as <-. exact (H _ _ _ _ R I).
Qed.
Lemma tight_some a : tight a -> shy a -> tight (Some_ a).
Proof. intros A H s s' m t x R. apply inv_some in R. exact (tight_seq _ _ A (tight_many _ A H) _ _ _ _ _ R). Qed.
Lemma tight_rule n : tight (rustpeg n) -> tight (Rule n).
Proof. intros H s s' m t x R. apply inv_rule in R. exact (H _ _ _ _ _ R). Qed.
Lemma shy_text k : shy (Text k).
Proof.
  intros s m t x R. apply inv_text in R. destruct R as [(s' & _ & R & _)|(_ & _ & ->)]; [discriminate|].
  intros [I|[]]. injection I as <- <-. lia.
Qed.
Lemma shy_class c : shy (Class c).
Proof.
  intros s m t x R. apply inv_class in R. destruct R as [(b & s' & _ & _ & R & _)|(_ & _ & ->)]; [discriminate|].
  intros [I|[]]. injection I as <- <-. lia.
Qed.

Lemma first_char_unique c s c' s' : utf8_char c = true -> utf8_char c' = true -> c ++ s = c' ++ s' -> c = c' /\ s = s'.
Proof.
  intros C C' E. destruct (utf8_char_shape _ C) as (b & cs & -> & _ & _ & L). destruct (utf8_char_shape _ C') as (b' & cs' & -> & _ & _ & L').
  assert (b = b') as <- by (injection E; auto). rewrite <- L' in L. clear -E L.
  revert L E. generalize (b :: cs) (b :: cs'). intros x. induction x as [|x0 x IH]; intros [|z0 z] L E; try discriminate; [auto|].
  injection L as L. injection E as -> E. destruct (IH z L E) as (-> & ->). auto.
Qed.

(** ** Two texts with the same beginning

    [w ++ q] is read and found wrong, with nothing noted beyond [w]; [w ++ y] is
    the text to compare it with. *)
Section Cut.
Variables q y : str.
Hypothesis Uq : utf8 q.

Definition within (m : list (str * str)) : Prop := forall t x, In (t, x) m -> length q <= length t.
Definition early (m : list (str * str)) : Prop := forall t x, In (t, x) m -> length q < length t.
Definition cov (m : list (str * str)) : Prop := exists x z, In (q, x) m /\ stands_for x z /\ prefix_of z y.
Definition hyp : Prop :=
  (exists c z, q = c :: x2d :: z) /\ exists b z, y = b :: z /\ in_class next_class b.

Inductive rel (h : bool) (w : str) (r : option str) (m : list (str * str)) (r' : option str) : Prop :=
| rel_cov : cov m -> rel h w r m r'
| rel_hyp : hyp -> rel h w r m r'
| rel_over s' : r = Some s' -> length s' < length q -> rel h w r m r'
| rel_same w2 : r = Some (w2 ++ q) -> r' = Some (w2 ++ y) -> rel h w r m r'
| rel_fail : r = None -> r' = None -> rel h w r m r'
| rel_early : h = true -> r = None -> early m -> w <> [] \/ m = [] -> rel h w r m r'.
Definition sim (h : bool) (e : peg) : Prop := forall w r m r' m',
  run e (w ++ q) r m -> run e (w ++ y) r' m' -> within m -> rel h w r m r'.

Lemma within_l a b : within (a ++ b) -> within a.
Proof. intros H t x I. apply (H t x), in_or_app. auto. Qed.
Lemma within_r a b : within (a ++ b) -> within b.
Proof. intros H t x I. apply (H t x), in_or_app. auto. Qed.
Lemma early_app a b : early a -> early b -> early (a ++ b).
Proof. intros A B t x I. apply in_app_or in I. destruct I; eauto. Qed.
Lemma early_nil : early [].
Proof. intros t x []. Qed.
Lemma early_one w x : w <> [] -> early [(w ++ q, x)].
Proof. intros N t z [I|[]]. injection I as <- <-. rewrite app_length. destruct w; [contradiction|]. cbn [length]. lia. Qed.
Lemma cov_l a b : cov a -> cov (a ++ b).
Proof. intros (x & z & I & H). exists x, z. split; [apply in_or_app; auto|exact H]. Qed.
Lemma cov_r a b : cov b -> cov (a ++ b).
Proof. intros (x & z & I & H). exists x, z. split; [apply in_or_app; auto|exact H]. Qed.
Lemma not_beyond e s m : run e s None m -> noted e -> within m -> length s < length q -> False.
Proof.
  intros R N W L. pose proof (N _ _ R) as M. destruct m as [|(t, x) m]; [contradiction|].
  pose proof (mark_le _ _ _ _ t x R (or_introl eq_refl)). specialize (W t x (or_introl eq_refl)). lia.
Qed.
Lemma tight_early e s w m : tight e -> run e s (Some (w ++ q)) m -> w <> [] -> early m.
Proof.
  intros T R N t x I. pose proof (T _ _ _ _ _ R I) as L. rewrite app_length in L.
  destruct w; [contradiction|]. cbn [length] in L. lia.
Qed.
Lemma rest_nonempty e w w2 m : run e (w ++ q) (Some (w2 ++ q)) m -> w2 <> [] -> w <> [].
Proof.
  intros R N ->. apply rest_le in R. rewrite !app_length in R. destruct w2; [contradiction|]. cbn [length] in R. lia.
Qed.
Lemma rel_weaken h w r m r' : rel false w r m r' -> rel h w r m r'.
Proof.
  intros [H|H|s' H1 H2|w2 H1 H2|H1 H2|H _ _ _]; [apply rel_cov|apply rel_hyp|eapply rel_over|eapply rel_same|apply rel_fail|discriminate]; eauto.
Qed.
Lemma sim_weaken h e : sim false e -> sim h e.
Proof. intros H w r m r' m' R R' W. apply rel_weaken. exact (H _ _ _ _ _ R R' W). Qed.
Lemma sim_rule h n : sim h (rustpeg n) -> sim h (Rule n).
Proof. intros H w r m r' m' R R'. apply inv_rule in R. apply inv_rule in R'. exact (H _ _ _ _ _ R R'). Qed.

(** *** Terminals *)
Definition plain (k : str) : Prop := match k with [] | x5b :: _ | x3c :: _ => False | _ => True end.

Lemma cut_prefix k w s' : k ++ s' = w ++ q ->
  (exists w2, w = k ++ w2 /\ s' = w2 ++ q) \/ (length w < length k /\ length s' < length q).
Proof.
  intros E. destruct (Nat.le_gt_cases (length k) (length w)) as [L|L].
  - left. assert (firstn (length k) (k ++ s') = firstn (length k) (w ++ q)) as F by congruence.
    rewrite firstn_app, firstn_all, Nat.sub_diag, app_nil_r in F. rewrite firstn_app in F.
    replace (length k - length w) with 0 in F by lia. cbn [firstn] in F. rewrite app_nil_r in F.
    rewrite <- (firstn_skipn (length k) w) in E at 1. rewrite <- F in E. rewrite <- app_assoc in E. apply app_inv_head in E.
    exists (skipn (length k) w). split; [|exact E]. rewrite F at 1. symmetry. apply firstn_skipn.
  - right. split; [exact L|]. apply (f_equal (@length byte)) in E. rewrite !app_length in E. lia.
Qed.

Lemma sim_text h k : plain k -> h = true \/ length k = 1 -> sim h (Text k).
Proof.
  intros P H w r m r' m' R R' W. apply inv_text in R. destruct R as [(s' & E & -> & ->)|(N & -> & ->)].
  - symmetry in E. destruct (cut_prefix _ _ _ E) as [(w2 & -> & ->)|(_ & L)]; [|eapply rel_over; eauto].
    apply inv_text in R'. destruct R' as [(t' & E' & -> & _)|(N & _)].
    + rewrite <- app_assoc in E'. apply app_inv_head in E'. subst t'. eapply rel_same; reflexivity.
    + exfalso. apply N. exists (w2 ++ y). rewrite <- app_assoc. reflexivity.
  - apply inv_text in R'. destruct R' as [(t' & E' & -> & ->)|(_ & -> & _)]; [|apply rel_fail; reflexivity].
    destruct w as [|b w].
    + apply rel_cov. exists k, k. split; [left; reflexivity|]. split; [constructor; exact P|]. exists t'. exact E'.
    + destruct H as [->|H].
      * apply rel_early; [reflexivity|reflexivity|apply early_one; discriminate|left; discriminate].
      * exfalso. destruct k as [|c [|c' k]]; try discriminate. cbn [app] in E'. injection E' as -> _. apply N. eexists. reflexivity.
Qed.

(** Classes that are read as they are meant. *)
Definition readable (c : list class_item) : Prop := exists t, class_text c = $"[" ++ t ++ $"]" /\ read_class t = c.
Lemma stands_item c b : readable c -> in_class c b -> stands_for (class_text c) [b].
Proof. intros (t & -> & <-) H. apply stands_class, H. Qed.
Lemma read_next : readable next_class.
Proof. exists ($"a-z-A-Z0-9_."). split; reflexivity. Qed.
Lemma read_first : readable first_class.
Proof. exists ($"a-zA-Z_."). split; reflexivity. Qed.
Lemma read_digit : readable digit_class.
Proof. exists ($"0-9"). split; reflexivity. Qed.
Lemma read_hyphen : readable [Rustpeg.One x2d].
Proof. exists ($"-"). split; reflexivity. Qed.

Lemma sim_class c : readable c -> sim false (Class c).
Proof.
  intros Rc w r m r' m' R R' W. apply inv_class in R. destruct w as [|b w]; cbn [app] in *.
  - destruct R as [(b & s' & E & _ & -> & ->)|(N & -> & ->)].
    + eapply rel_over; [reflexivity|]. rewrite E. cbn [length]. lia.
    + apply inv_class in R'. destruct R' as [(b & t' & E & I & -> & _)|(_ & -> & _)]; [|apply rel_fail; reflexivity].
      apply rel_cov. exists (class_text c), [b]. split; [left; reflexivity|]. split; [apply stands_item; assumption|]. exists t'. exact E.
  - apply inv_class in R'. destruct R as [(b1 & s' & E & I & -> & ->)|(N & -> & ->)]; [injection E as <- <-|];
      destruct R' as [(b2 & t' & E' & I' & -> & _)|(N' & -> & _)].
    + injection E' as <- <-. eapply rel_same; reflexivity.
    + exfalso. exact (N' _ _ eq_refl I).
    + exfalso. injection E' as <- <-. exact (N _ _ eq_refl I').
    + apply rel_fail; reflexivity.
Qed.

(** *** Compositions *)
Lemma sim_seq h a b : sim h a -> sim h b -> noted b -> (h = true -> tight a) -> sim h (Seq a b).
Proof.
  intros A B N T w r m r' m' R R' W. apply inv_seq in R. apply inv_seq in R'.
  assert (exists ra ma, run a (w ++ y) ra ma /\
    match ra with None => r' = None | Some t => exists mb, run b t r' mb end) as (ra & ma & Ra & Rb).
  { destruct R' as [(t & m1 & m2 & R1 & R2 & _)|(R1 & ->)]; [exists (Some t), m1; eauto|exists None, m'; auto]. }
  destruct R as [(s' & m1 & m2 & R1 & R2 & ->)|(R1 & ->)].
  - destruct (A _ _ _ _ _ R1 Ra (within_l _ _ W)) as [H|H|s0 H1 H2|w2 H1 H2|H1 H2|_ H1 _ _]; try discriminate.
    + apply rel_cov, cov_l, H.
    + apply rel_hyp, H.
    + injection H1 as <-. destruct r as [s1|].
      * eapply rel_over; [reflexivity|]. apply rest_le in R2. lia.
      * exfalso. exact (not_beyond _ _ _ R2 N (within_r _ _ W) H2).
    + injection H1 as ->. subst ra. destruct Rb as (mb & Rb).
      destruct (B _ _ _ _ _ R2 Rb (within_r _ _ W)) as [H|H|s0 H1 H2|w3 H1 H2|H1 H2|E H1 H2 H3].
      * apply rel_cov, cov_r, H.
      * apply rel_hyp, H.
      * eapply rel_over; eauto.
      * eapply rel_same; eauto.
      * apply rel_fail; assumption.
      * subst r. assert (w2 <> []) as Nw by (destruct H3 as [H3|H3]; [exact H3|destruct (N _ _ R2 H3)]).
        apply rel_early; [exact E|reflexivity| |left; exact (rest_nonempty _ _ _ _ R1 Nw)].
        apply early_app; [exact (tight_early _ _ _ _ (T E) R1 Nw)|exact H2].
  - destruct (A _ _ _ _ _ R1 Ra W) as [H|H|s0 H1 H2|w2 H1 H2|H1 H2|E H1 H2 H3]; try discriminate.
    + apply rel_cov, H.
    + apply rel_hyp, H.
    + subst ra. apply rel_fail; [reflexivity|exact Rb].
    + apply rel_early; auto.
Qed.

(** After a terminal failures may go unnoted. *)
Lemma sim_seq_text k b : plain k -> sim true b -> sim true (Seq (Text k) b).
Proof.
  intros P B w r m r' m' R R' W. apply inv_seq in R. apply inv_seq in R'.
  assert (exists ra ma, run (Text k) (w ++ y) ra ma /\
    match ra with None => r' = None | Some t => exists mb, run b t r' mb end) as (ra & ma & Ra & Rb).
  { destruct R' as [(t & m1 & m2 & R1 & R2 & _)|(R1 & ->)]; [exists (Some t), m1; eauto|exists None, m'; auto]. }
  assert (sim true (Text k)) as A by (apply sim_text; auto).
  destruct R as [(s' & m1 & m2 & R1 & R2 & ->)|(R1 & ->)].
  - assert (m1 = []) as -> by (apply inv_text in R1; destruct R1 as [(? & _ & _ & ->)|(_ & X & _)]; [reflexivity|discriminate]).
    destruct (A _ _ _ _ _ R1 Ra (within_l _ _ W)) as [H|H|s0 H1 H2|w2 H1 H2|H1 H2|_ H1 _ _]; try discriminate.
    + destruct H as (x & z & [] & _).
    + apply rel_hyp, H.
    + injection H1 as <-. destruct r as [s1|].
      * eapply rel_over; [reflexivity|]. apply rest_le in R2. lia.
      * destruct m2 as [|(t, x) m2].
        { apply rel_early; [reflexivity|reflexivity|apply early_nil|right; reflexivity]. }
        exfalso. pose proof (mark_le _ _ _ _ t x R2 (or_introl eq_refl)). specialize (W t x (or_introl eq_refl)). lia.
    + injection H1 as ->. subst ra. destruct Rb as (mb & Rb).
      destruct (B _ _ _ _ _ R2 Rb (within_r _ _ W)) as [H|H|s0 H1 H2|w3 H1 H2|H1 H2|E H1 H2 H3].
      * apply rel_cov, cov_r, H.
      * apply rel_hyp, H.
      * eapply rel_over; eauto.
      * eapply rel_same; eauto.
      * apply rel_fail; assumption.
      * apply rel_early; [exact E|exact H1|exact H2|]. destruct H3 as [H3|H3]; [left; exact (rest_nonempty _ _ _ _ R1 H3)|right; exact H3].
  - destruct (A _ _ _ _ _ R1 Ra W) as [H|H|s0 H1 H2|w2 H1 H2|H1 H2|E H1 H2 H3]; try discriminate.
    + apply rel_cov, H.
    + apply rel_hyp, H.
    + subst ra. apply rel_fail; [reflexivity|exact Rb].
    + apply rel_early; auto.
Qed.

Lemma sim_many a : sim false a -> sim false (Many a).
Proof.
  intros A w r m r' m' R. remember (Many a) as e eqn:E. remember (w ++ q) as s eqn:Es. revert w r' m' Es.
  induction R; try discriminate; injection E as ->; intros w r' m2 Es R' W; subst s; apply inv_many in R'.
  - assert (exists ra ma, run a (w ++ y) ra ma /\
      match ra with None => True | Some t => exists mb, run (Many a) t r' mb end) as (ra & ma & Ra & Rb).
    { destruct R' as [(t & m3 & m4 & R3 & R4 & _)|(R3 & _)]; [exists (Some t), m3; eauto|exists None, m2; auto]. }
    destruct (A _ _ _ _ _ R1 Ra (within_l _ _ W)) as [H|H|s0 H1 H2|w2 H1 H2|H1 H2|X _ _ _]; try discriminate.
    + apply rel_cov, cov_l, H.
    + apply rel_hyp, H.
    + injection H1 as <-. destruct (many_some _ _ _ _ R2) as (s1 & ->).
      eapply rel_over; [reflexivity|]. apply rest_le in R2. lia.
    + injection H1 as ->. subst ra. destruct Rb as (mb & Rb).
      destruct (IHR2 eq_refl _ _ _ eq_refl Rb (within_r _ _ W)) as [H|H|s0 H1 H2|w3 H1 H2|H1 H2|X _ _ _]; try discriminate.
      * apply rel_cov, cov_r, H.
      * apply rel_hyp, H.
      * eapply rel_over; eauto.
      * eapply rel_same; eauto.
      * apply rel_fail; assumption.
  - assert (exists ra ma, run a (w ++ y) ra ma /\ (ra = None -> r' = Some (w ++ y))) as (ra & ma & Ra & Rb).
    { destruct R' as [(t & m3 & m4 & R3 & R4 & _)|(R3 & ->)]; [exists (Some t), m3; split; [exact R3|discriminate]|exists None, m2; auto]. }
    destruct (A _ _ _ _ _ R Ra W) as [H|H|s0 H1 H2|w2 H1 H2|H1 H2|X _ _ _]; try discriminate.
    + apply rel_cov, H.
    + apply rel_hyp, H.
    + eapply rel_same; [reflexivity|auto].
Qed.
Lemma sim_some a : sim false a -> sim false (Some_ a).
Proof.
  intros A w r m r' m' R R'. apply inv_some in R. apply inv_some in R'. revert w r m r' m' R R'.
  change (sim false (Seq a (Many a))). apply sim_seq; [exact A|apply sim_many, A|apply noted_many|discriminate].
Qed.

(** *** Bounds *)
Lemma sim_comma : sim false (Rule R_comma).
Proof.
  apply sim_rule. apply sim_seq; [apply sim_text; [exact I|auto]| |apply noted_many|discriminate].
  apply sim_many, sim_text; [exact I|auto].
Qed.
Lemma tight_comma : tight (Rule R_comma).
Proof. apply tight_rule, tight_seq; [apply tight_text|]. apply tight_many; [apply tight_text|apply shy_text]. Qed.
Lemma noted_comma : noted (Rule R_comma).
Proof. apply noted_rule, noted_seq; [apply noted_text|apply noted_many]. Qed.

Definition value : peg := Seq (Text ($"=")) (Rule R_int).
Lemma sim_value : sim false value.
Proof.
  apply sim_seq; [apply sim_text; [exact I|auto]| | |discriminate].
  - apply sim_rule, sim_some, sim_class, read_digit.
  - apply noted_rule, noted_some, noted_class.
Qed.
Lemma tight_value : tight value.
Proof. apply tight_seq; [apply tight_text|]. apply tight_rule, tight_some; [apply tight_class|apply shy_class]. Qed.
Lemma noted_value : noted value.
Proof. apply noted_seq; [apply noted_text|]. apply noted_rule, noted_some, noted_class. Qed.

Definition bound1 (k : str) : peg := Seq (Text k) value.
Lemma noted_bound1 k : noted (bound1 k).
Proof. apply noted_seq; [apply noted_text|exact noted_value]. Qed.
Lemma tight_bound1 k : tight (bound1 k).
Proof. apply tight_seq; [apply tight_text|exact tight_value]. Qed.
(** The cut is within a keyword. *)
Lemma bound1_cut k w r m : w <> [] -> length w < length k -> run (bound1 k) (w ++ q) r m -> within m ->
  (exists s', r = Some s' /\ length s' < length q) \/ (r = None /\ early m).
Proof.
  intros Nw L R W. apply inv_seq in R. destruct R as [(s' & m1 & m2 & R1 & R2 & ->)|(R1 & ->)].
  - apply inv_text in R1. destruct R1 as [(s0 & E & E2 & ->)|(_ & X & _)]; [injection E2 as <-|discriminate].
    symmetry in E. destruct (cut_prefix _ _ _ E) as [(w2 & -> & _)|(_ & L')]; [rewrite app_length in L; lia|].
    left. destruct r as [s1|]; [|exfalso; exact (not_beyond _ _ _ R2 noted_value W L')].
    exists s1. split; [reflexivity|]. apply rest_le in R2. lia.
  - right. split; [reflexivity|]. apply inv_text in R1. destruct R1 as [(? & _ & X & _)|(_ & _ & ->)]; [discriminate|].
    apply early_one, Nw.
Qed.
Lemma bound1_far k w r m r' m' : length k <= length w -> plain k ->
  run (bound1 k) (w ++ q) r m -> run (bound1 k) (w ++ y) r' m' -> within m -> rel false w r m r'.
Proof.
  intros L P R R' W. apply inv_seq in R. apply inv_seq in R'.
  destruct R as [(s' & m1 & m2 & R1 & R2 & ->)|(R1 & ->)].
  - apply inv_text in R1. destruct R1 as [(s0 & E & E2 & ->)|(_ & X & _)]; [injection E2 as <-|discriminate].
    symmetry in E. destruct (cut_prefix _ _ _ E) as [(w2 & -> & ->)|(L' & _)]; [|lia]. cbn [app] in *.
    destruct R' as [(t & m3 & m4 & R3 & R4 & _)|(R3 & _)]; apply inv_text in R3.
    + destruct R3 as [(t0 & E' & E2 & _)|(_ & X & _)]; [injection E2 as <-|discriminate].
      rewrite <- app_assoc in E'. apply app_inv_head in E'. subst t.
      destruct (sim_value _ _ _ _ _ R2 R4 W) as [H|H|s0 H1 H2|w3 H1 H2|H1 H2|X _ _ _]; try discriminate.
      * apply rel_cov, H. * apply rel_hyp, H. * eapply rel_over; eauto. * eapply rel_same; eauto. * apply rel_fail; assumption.
    + destruct R3 as [(t0 & E' & E2 & _)|(X & _)]; [discriminate|]. exfalso. apply X. exists (w2 ++ y). symmetry. apply app_assoc.
  - apply inv_text in R1. destruct R1 as [(? & _ & X & _)|(N & _ & ->)]; [discriminate|].
    apply rel_fail; [reflexivity|]. destruct R' as [(t & m3 & m4 & R3 & R4 & _)|(R3 & X)]; [|exact X].
    exfalso. apply N. apply inv_text in R3. destruct R3 as [(t0 & E' & _)|(_ & X & _)]; [|discriminate].
    assert (firstn (length k) (w ++ y) = k) as F by (rewrite E', firstn_app, firstn_all, Nat.sub_diag; cbn [firstn]; apply app_nil_r).
    rewrite firstn_app in F. replace (length k - length w) with 0 in F by lia. cbn [firstn] in F. rewrite app_nil_r in F.
    exists (skipn (length k) w ++ q). rewrite app_assoc. f_equal.
    transitivity (firstn (length k) w ++ skipn (length k) w); [symmetry; apply firstn_skipn|congruence].
Qed.

Definition bound : peg := Rule R_parser_BASE_optional_param.
Lemma inv_bound s r m : run bound s r m ->
  (exists s', run (bound1 ($"min_len")) s (Some s') m /\ r = Some s') \/
  (exists m1 m2, run (bound1 ($"min_len")) s None m1 /\ run (bound1 ($"max_len")) s r m2 /\ m = m1 ++ m2).
Proof.
  assert (forall n k, rustpeg n = Text k -> forall s r m, run (Seq (Rule n) value) s r m -> run (bound1 k) s r m) as U.
  { intros n k E s0 r0 m0 R. apply inv_seq in R. destruct R as [(s' & m1 & m2 & R1 & R2 & ->)|(R1 & ->)];
      apply inv_rule in R1; rewrite E in R1; [eapply run_seq; eassumption|apply run_seq_fail, R1]. }
  intros R. apply inv_rule, inv_or in R. cbn [rustpeg] in R.
  destruct R as [(s' & R & E)|(m1 & m2 & R1 & R2 & E)].
  - left. exists s'. split; [|exact E]. apply (U R_MIN_LEN); [reflexivity|exact R].
  - right. exists m1, m2. split; [apply (U R_MIN_LEN); [reflexivity|exact R1]|]. split; [|exact E].
    apply (U R_MAX_LEN); [reflexivity|exact R2].
Qed.
Lemma bound_m s s' m : run bound s (Some s') m -> exists z, s = x6d :: z.
Proof.
  intros R. apply inv_bound in R. assert (forall k s s' m, run (bound1 (x6d :: k)) s (Some s') m -> exists z, s = x6d :: z) as K.
  { intros k t t' m0 R0. apply inv_seq in R0. destruct R0 as [(s0 & m1 & m2 & R1 & _ & _)|(_ & R1)]; [|discriminate].
    apply inv_text in R1. destruct R1 as [(s1 & -> & _)|(_ & X & _)]; [|discriminate]. eexists. reflexivity. }
  destruct R as [(s0 & R & _)|(m1 & m2 & _ & R & _)]; exact (K _ _ _ _ R).
Qed.
Lemma noted_bound : noted bound.
Proof.
  intros s m R. apply inv_bound in R. destruct R as [(s' & _ & X)|(m1 & m2 & _ & R & ->)]; [discriminate|].
  intros E. apply app_eq_nil in E. exact (noted_bound1 _ _ _ R (proj2 E)).
Qed.
Lemma tight_bound : tight bound.
Proof.
  intros s s' m t x R I. apply inv_bound in R. destruct R as [(s0 & R & E)|(m1 & m2 & R1 & R2 & ->)].
  - injection E as <-. exact (tight_bound1 _ _ _ _ _ _ R I).
  - apply in_app_or in I. destruct I as [I|I]; [|exact (tight_bound1 _ _ _ _ _ _ R2 I)].
    apply inv_seq in R2. destruct R2 as [(s0 & m3 & m4 & R3 & R4 & _)|(_ & X)]; [|discriminate].
    apply inv_text in R3. destruct R3 as [(s2 & -> & E & _)|(_ & X & _)]; [injection E as <-|discriminate].
    apply rest_le in R4. apply inv_seq in R1. destruct R1 as [(s3 & m5 & m6 & R5 & _ & _)|(R5 & _)]; apply inv_text in R5.
    + destruct R5 as [(s4 & X & _)|(_ & X & _)]; discriminate.
    + destruct R5 as [(s4 & X & _)|(_ & _ & ->)]; [discriminate|]. destruct I as [I|[]]. injection I as <- _.
      change (length s' <= length ($"max_len" ++ s0)). rewrite app_length. lia.
Qed.
Lemma sim_bound : sim true bound.
Proof.
  intros w r m r' m' R R' W. apply inv_bound in R. destruct w as [|b w].
  - (** at the cut *)
    assert (forall k, plain k -> sim true (bound1 k)) as S.
    { intros k P. apply sim_seq; [apply sim_text; auto|apply sim_weaken, sim_value|exact noted_value|intros _; apply tight_text]. }
    apply inv_bound in R'.
    assert (exists ra ma, run (bound1 ($"min_len")) ([] ++ y) ra ma /\
      match ra with Some t => r' = Some t | None => exists mb, run (bound1 ($"max_len")) ([] ++ y) r' mb end) as (ra & ma & Ra & Rb).
    { destruct R' as [(t & R1 & ->)|(m1 & m2 & R1 & R2 & _)]; [exists (Some t), m'; auto|exists None, m1; eauto]. }
    destruct R as [(s' & R & ->)|(m1 & m2 & R1 & R2 & ->)].
    + destruct (S ($"min_len") I _ _ _ _ _ R Ra W) as [H|H|s0 H1 H2|w2 H1 H2|H1 H2|E H1 H2 H3]; try discriminate.
      * apply rel_cov, H.
      * apply rel_hyp, H.
      * eapply rel_over; eauto.
      * subst ra. eapply rel_same; [exact H1|exact Rb].
    + destruct (S ($"min_len") I _ _ _ _ _ R1 Ra (within_l _ _ W)) as [H|H|s0 H1 H2|w2 H1 H2|H1 H2|E H1 H2 H3]; try discriminate.
      * apply rel_cov, cov_l, H.
      * apply rel_hyp, H.
      * subst ra. destruct Rb as (mb & Rb).
        destruct (S ($"max_len") I _ _ _ _ _ R2 Rb (within_r _ _ W)) as [H|H|s0 H3 H4|w2 H3 H4|H3 H4|E H3 H4 H5].
        { apply rel_cov, cov_r, H. } { apply rel_hyp, H. } { eapply rel_over; eauto. } { eapply rel_same; eauto. }
        { apply rel_fail; assumption. }
        destruct H5 as [H5|H5]; [contradiction|]. subst r. destruct (noted_bound1 _ _ _ R2 H5).
      * destruct H3 as [H3|H3]; [contradiction|]. destruct (noted_bound1 _ _ _ R1 H3).
  - destruct (Nat.le_gt_cases 7 (length (b :: w))) as [L|L].
    + (** after the keyword *)
      apply rel_weaken. apply inv_bound in R'.
      assert (exists ra ma, run (bound1 ($"min_len")) ((b :: w) ++ y) ra ma /\
        match ra with Some t => r' = Some t | None => exists mb, run (bound1 ($"max_len")) ((b :: w) ++ y) r' mb end) as (ra & ma & Ra & Rb).
      { destruct R' as [(t & R1 & ->)|(m1 & m2 & R1 & R2 & _)]; [exists (Some t), m'; auto|exists None, m1; eauto]. }
      destruct R as [(s' & R & ->)|(m1 & m2 & R1 & R2 & ->)].
      * destruct (bound1_far ($"min_len") _ _ _ _ _ L I R Ra W) as [H|H|s0 H1 H2|w2 H1 H2|H1 H2|E _ _ _]; try discriminate.
        { apply rel_cov, H. } { apply rel_hyp, H. } { eapply rel_over; eauto. }
        subst ra. eapply rel_same; [exact H1|exact Rb].
      * destruct (bound1_far ($"min_len") _ _ _ _ _ L I R1 Ra (within_l _ _ W)) as [H|H|s0 H1 H2|w2 H1 H2|H1 H2|E _ _ _]; try discriminate.
        { apply rel_cov, cov_l, H. } { apply rel_hyp, H. }
        subst ra. destruct Rb as (mb & Rb).
        destruct (bound1_far ($"max_len") _ _ _ _ _ L I R2 Rb (within_r _ _ W)) as [H|H|s0 H3 H4|w2 H3 H4|H3 H4|E _ _ _]; try discriminate.
        { apply rel_cov, cov_r, H. } { apply rel_hyp, H. } { eapply rel_over; eauto. } { eapply rel_same; eauto. }
        apply rel_fail; assumption.
    + destruct R as [(s' & R & ->)|(m1 & m2 & R1 & R2 & ->)].
      * destruct (bound1_cut ($"min_len") (b :: w) _ _ ltac:(discriminate) L R W) as [(s0 & E & X)|(X & _)]; [|discriminate].
        eapply rel_over; eauto.
      * destruct (bound1_cut ($"min_len") (b :: w) _ _ ltac:(discriminate) L R1 (within_l _ _ W)) as [(s0 & E & X)|(_ & X)]; [discriminate|].
        destruct (bound1_cut ($"max_len") (b :: w) _ _ ltac:(discriminate) L R2 (within_r _ _ W)) as [(s0 & E & X2)|(E & X2)]; [eapply rel_over; eauto|].
        apply rel_early; [reflexivity|exact E|apply early_app; assumption|left; discriminate].
Qed.

Definition more : peg := Seq (Rule R_comma) bound.
Lemma sim_more : sim true more.
Proof. apply sim_seq; [apply sim_weaken, sim_comma|exact sim_bound|exact noted_bound|intros _; exact tight_comma]. Qed.
Lemma tight_more : tight more.
Proof. apply tight_seq; [exact tight_comma|exact tight_bound]. Qed.
Lemma noted_more : noted more.
Proof. apply noted_seq; [exact noted_comma|exact noted_bound]. Qed.
Lemma comma_first s s' m : run (Rule R_comma) s (Some s') m -> exists z, s = x2c :: z.
Proof.
  intros R. apply inv_rule, inv_seq in R. destruct R as [(s0 & m1 & m2 & R1 & _ & _)|(_ & X)]; [|discriminate].
  apply inv_text in R1. destruct R1 as [(s1 & -> & _)|(_ & X & _)]; [|discriminate]. eexists. reflexivity.
Qed.
Lemma more_first s s' m : run more s (Some s') m -> exists z, s = x2c :: z.
Proof.
  intros R. apply inv_seq in R. destruct R as [(s0 & m1 & m2 & R1 & _ & _)|(_ & X)]; [|discriminate].
  exact (comma_first _ _ _ R1).
Qed.

Definition close : peg := Rule R_PARSER_PARAMS_END.
Lemma sim_close : sim false close.
Proof. apply sim_rule, sim_text; [exact I|auto]. Qed.
Lemma noted_close : noted close.
Proof. apply noted_rule, noted_text. Qed.
Lemma tight_close : tight close.
Proof. apply tight_rule, tight_text. Qed.
Lemma close_other b w z r m : b <> x29 -> run close (b :: w ++ z) r m -> r = None /\ m = [((b :: w) ++ z, $")")].
Proof.
  intros N R. apply inv_rule, inv_text in R. destruct R as [(s' & X & _)|(_ & -> & ->)]; [|auto].
  injection X as X _. contradiction.
Qed.
(** A reading of an optional part that went astray is followed by a failure. *)
Lemma astray b w m z r m2 : b <> x29 -> early m -> run close ((b :: w) ++ q) r m2 -> rel true (b :: w) r (m ++ m2) z.
Proof.
  intros N E R. apply close_other in R; [|exact N]. destruct R as (-> & ->).
  apply rel_early; [reflexivity|reflexivity|apply early_app; [exact E|apply early_one; discriminate]|left; discriminate].
Qed.

Lemma sim_more_close : sim true (Seq (Many more) close).
Proof.
  intros w r m r' m' R R' W. apply inv_seq in R. apply inv_seq in R'.
  destruct R as [(s1 & m1 & m2 & R1 & R2 & ->)|(R1 & _)]; [|destruct (many_some _ _ _ _ R1); discriminate].
  destruct R' as [(t1 & n1 & n2 & S1 & S2 & ->)|(S1 & _)]; [|destruct (many_some _ _ _ _ S1); discriminate].
  remember (Many more) as e eqn:E. remember (w ++ q) as s eqn:Es. remember (Some s1) as o eqn:Eo. revert w s1 t1 n1 Es Eo R2 S1 S2 W.
  induction R1; try discriminate; injection E as ->; intros w s1 t1 n1 Es Eo R2 S1 S2 W; subst s; apply inv_many in S1.
  - subst r0. rewrite <- app_assoc in *.
    assert (exists ra ma, run more (w ++ y) ra ma /\
      match ra with None => True | Some t => exists mb, run (Many more) t (Some t1) mb end) as (ra & ma & Ra & Rb).
    { destruct S1 as [(t & m3 & m4 & R3 & R4 & _)|(R3 & _)]; [exists (Some t), m3; eauto|exists None, n1; auto]. }
    destruct (sim_more _ _ _ _ _ R1_1 Ra (within_l _ _ W)) as [H|H|s0 H1 H2|w2 H1 H2|H1 H2|_ H1 _ _]; try discriminate.
    + apply rel_cov, cov_l, H.
    + apply rel_hyp, H.
    + injection H1 as <-. apply rest_le in R1_2. destruct r as [s2|].
      * eapply rel_over; [reflexivity|]. apply rest_le in R2. lia.
      * exfalso. eapply not_beyond; [exact R2|exact noted_close|exact (within_r _ _ (within_r _ _ W))|lia].
    + injection H1 as ->. subst ra. destruct Rb as (mb & Rb).
      destruct (IHR1_2 eq_refl _ _ _ _ eq_refl eq_refl R2 Rb S2 (within_r _ _ W)) as [H|H|s0 H1 H2|w3 H1 H2|H1 H2|_ H1 H2 H3].
      * apply rel_cov, cov_r, H.
      * apply rel_hyp, H.
      * eapply rel_over; eauto.
      * eapply rel_same; eauto.
      * apply rel_fail; assumption.
      * subst r. assert (w2 <> []) as Nw.
        { destruct H3 as [H3|H3]; [exact H3|]. apply app_eq_nil in H3. destruct (noted_close _ _ R2 (proj2 H3)). }
        apply rel_early; [reflexivity|reflexivity| |left; exact (rest_nonempty _ _ _ _ R1_1 Nw)].
        apply early_app; [exact (tight_early _ _ _ _ tight_more R1_1 Nw)|exact H2].
  - injection Eo as <-.
    destruct S1 as [(t & m3 & m4 & R3 & R4 & _)|(R3 & ET)].
    + destruct (sim_more _ _ _ _ _ R1 R3 (within_l _ _ W)) as [H|H|s0 H1 H2|w2 H1 H2|H1 H2|_ H1 H2 H3]; try discriminate.
      * apply rel_cov, cov_l, H.
      * apply rel_hyp, H.
      * destruct (more_first _ _ _ R3) as (z & Ez). destruct w as [|b w].
        { exfalso. destruct H3 as [H3|H3]; [contradiction|]. exact (noted_more _ _ R1 H3). }
        injection Ez as -> _. apply astray; [discriminate|exact H2|exact R2].
    + injection ET as ->.
      destruct (sim_close _ _ _ _ _ R2 S2 (within_r _ _ W)) as [H|H|s0 H1 H2|w2 H1 H2|H1 H2|X _ _ _]; try discriminate.
      * apply rel_cov, cov_r, H.
      * apply rel_hyp, H.
      * eapply rel_over; eauto.
      * eapply rel_same; eauto.
      * apply rel_fail; assumption.
Qed.

Definition bounds : peg := Sep bound (Rule R_comma).
Lemma sim_bounds_close : sim true (Seq bounds close).
Proof.
  intros w r m r' m' R R' W. apply inv_seq in R. apply inv_seq in R'.
  destruct R as [(s1 & m1 & m2 & R1 & R2 & ->)|(R1 & _)]; [|destruct (sep_some _ _ _ _ _ R1); discriminate].
  destruct R' as [(t1 & n1 & n2 & S1 & S2 & ->)|(S1 & _)]; [|destruct (sep_some _ _ _ _ _ S1); discriminate].
  apply inv_sep, inv_opt in R1. apply inv_sep, inv_opt in S1. fold more in R1, S1.
  assert (forall s m, run (Seq bound (Many more)) s None m -> run bound s None m) as NF.
  { intros s m R. apply inv_seq in R. destruct R as [(s' & m3 & m4 & _ & R & _)|(R & _)]; [|exact R].
    destruct (many_some _ _ _ _ R). discriminate. }
  destruct R1 as [(s0 & R1 & E)|(R1 & E)].
  - injection E as <-. apply inv_seq in R1. destruct R1 as [(s0 & ma & mb & R1 & R3 & ->)|(_ & X)]; [|discriminate].
    rewrite <- app_assoc in *.
    assert (exists ra pa, run bound (w ++ y) ra pa /\
      match ra with None => True | Some t => exists pb, run (Many more) t (Some t1) pb end) as (ra & pa & Ra & Rb).
    { destruct S1 as [(t & S1 & E)|(S1 & _)].
      - injection E as <-. apply inv_seq in S1. destruct S1 as [(t & m3 & m4 & S3 & S4 & _)|(_ & X)]; [|discriminate]. exists (Some t), m3. eauto.
      - exists None, n1. split; [apply NF, S1|exact Logic.I]. }
    destruct (sim_bound _ _ _ _ _ R1 Ra (within_l _ _ W)) as [H|H|s2 H1 H2|w2 H1 H2|H1 H2|_ H1 _ _]; try discriminate.
    + apply rel_cov, cov_l, H.
    + apply rel_hyp, H.
    + injection H1 as <-. apply rest_le in R3. destruct r as [s2|].
      * eapply rel_over; [reflexivity|]. apply rest_le in R2. lia.
      * exfalso. eapply not_beyond; [exact R2|exact noted_close|exact (within_r _ _ (within_r _ _ W))|lia].
    + injection H1 as ->. subst ra. destruct Rb as (pb & Rb).
      destruct (sim_more_close _ _ _ _ _ (run_seq _ _ _ _ _ _ _ R3 R2) (run_seq _ _ _ _ _ _ _ Rb S2) (within_r _ _ W))
        as [H|H|s2 H1 H2|w3 H1 H2|H1 H2|_ H1 H2 H3].
      * apply rel_cov, cov_r, H.
      * apply rel_hyp, H.
      * eapply rel_over; eauto.
      * eapply rel_same; eauto.
      * apply rel_fail; assumption.
      * subst r. assert (w2 <> []) as Nw.
        { destruct H3 as [H3|H3]; [exact H3|]. apply app_eq_nil in H3. destruct (noted_close _ _ R2 (proj2 H3)). }
        apply rel_early; [reflexivity|reflexivity| |left; exact (rest_nonempty _ _ _ _ R1 Nw)].
        apply early_app; [exact (tight_early _ _ _ _ tight_bound R1 Nw)|exact H2].
  - injection E as ->. apply NF in R1. destruct S1 as [(t & S1 & E)|(S1 & E)].
    + injection E as <-. apply inv_seq in S1. destruct S1 as [(t & m3 & m4 & S3 & S4 & _)|(_ & X)]; [|discriminate].
      destruct (sim_bound _ _ _ _ _ R1 S3 (within_l _ _ W)) as [H|H|s2 H1 H2|w2 H1 H2|H1 H2|_ H1 H2 H3]; try discriminate.
      * apply rel_cov, cov_l, H.
      * apply rel_hyp, H.
      * destruct (bound_m _ _ _ S3) as (z & Ez). destruct w as [|b w].
        { exfalso. destruct H3 as [H3|H3]; [contradiction|]. exact (noted_bound _ _ R1 H3). }
        injection Ez as -> _. apply astray; [discriminate|exact H2|exact R2].
    + injection E as ->.
      destruct (sim_close _ _ _ _ _ R2 S2 (within_r _ _ W)) as [H|H|s2 H1 H2|w2 H1 H2|H1 H2|X _ _ _]; try discriminate.
      * apply rel_cov, cov_r, H.
      * apply rel_hyp, H.
      * eapply rel_over; eauto.
      * eapply rel_same; eauto.
      * apply rel_fail; assumption.
Qed.
Lemma noted_bounds_close : noted (Seq bounds close).
Proof. apply noted_seq; [apply noted_sep|exact noted_close]. Qed.

Lemma tight_more_close : tight (Seq (Many more) close).
Proof.
  intros s s' m t x R I. apply inv_seq in R. destruct R as [(s1 & m1 & m2 & R1 & R2 & ->)|(_ & X)]; [|discriminate].
  apply inv_rule, inv_text in R2. destruct R2 as [(s2 & E & E2 & ->)|(_ & X & _)]; [injection E2 as <-|discriminate].
  rewrite app_nil_r in I. remember (Many more) as e eqn:Ee. remember (Some s1) as o eqn:Eo. revert s1 E Eo.
  induction R1; try discriminate; injection Ee as ->; intros s1 E Eo; subst.
  - apply in_app_or in I. destruct I as [I|I]; [|exact (IHR1_2 eq_refl I _ eq_refl eq_refl)].
    pose proof (tight_more _ _ _ _ _ R1_1 I). apply rest_le in R1_2. rewrite app_length in R1_2. lia.
  - injection Eo as ->. apply inv_seq in R1. destruct R1 as [(s2 & m1 & m2 & R1 & _ & _)|(R1 & _)].
    + destruct (comma_first _ _ _ R1) as (z & X). discriminate.
    + apply inv_rule, inv_seq in R1. destruct R1 as [(s2 & m1 & m2 & _ & R1 & _)|(R1 & _)]; [destruct (many_some _ _ _ _ R1); discriminate|].
      pose proof (shy_text _ _ _ _ _ R1 I) as L. simpl in L. lia.
Qed.
Lemma tight_bounds_close : tight (Seq bounds close).
Proof.
  intros s s' m t x R I. apply inv_seq in R. destruct R as [(s1 & m1 & m2 & R1 & R2 & ->)|(_ & X)]; [|discriminate].
  apply inv_sep, inv_opt in R1. fold more in R1. destruct R1 as [(s0 & R1 & E)|(R1 & E)]; injection E as ->.
  - apply inv_seq in R1. destruct R1 as [(s2 & ma & mb & R1 & R3 & ->)|(_ & X)]; [|discriminate].
    rewrite <- app_assoc in I. apply in_app_or in I. pose proof (run_seq _ _ _ _ _ _ _ R3 R2) as R4.
    destruct I as [I|I]; [|exact (tight_more_close _ _ _ _ _ R4 I)].
    pose proof (tight_bound _ _ _ _ _ R1 I). apply rest_le in R4. lia.
  - apply inv_rule, inv_text in R2. destruct R2 as [(s2 & E & E2 & ->)|(_ & X & _)]; [injection E2 as <-|discriminate].
    rewrite app_nil_r in I. apply inv_seq in R1. destruct R1 as [(s3 & ma & mb & _ & R1 & _)|(R1 & _)]; [destruct (many_some _ _ _ _ R1); discriminate|].
    assert (forall k m, run (bound1 (x6d :: k)) s None m -> forall t x, In (t, x) m -> length s <= length t) as K.
    { intros k m0 R t0 x0 I0. apply inv_seq in R. destruct R as [(s3 & ma & mb & R & _ & _)|(R & _)]; [|exact (shy_text _ _ _ _ _ R I0)].
      apply inv_text in R. destruct R as [(s4 & E' & _)|(_ & X & _)]; [|discriminate]. rewrite E in E'. discriminate. }
    assert (length s <= length t) as L; [|rewrite E, app_length in L; lia].
    apply inv_bound in R1. destruct R1 as [(s3 & _ & X)|(ma & mb & R3 & R4 & ->)]; [discriminate|].
    apply in_app_or in I. destruct I as [I|I]; [exact (K _ _ R3 _ _ I)|exact (K _ _ R4 _ _ I)].
Qed.

(** *** Names *)
Definition brace : peg := Rule R_PARSER_END.
Lemma sim_brace : sim false brace.
Proof. apply sim_rule, sim_text; [exact I|auto]. Qed.
Lemma noted_brace : noted brace.
Proof. apply noted_rule, noted_text. Qed.
Lemma brace_other b z r m : b <> x7d -> run brace (b :: z) r m -> r = None /\ m = [(b :: z, $"}")].
Proof.
  intros N R. apply inv_rule, inv_text in R. destruct R as [(s' & X & _)|(_ & -> & ->)]; [|auto].
  injection X as X _. contradiction.
Qed.
Definition hyphen : peg := Class [Rustpeg.One x2d].
Lemma in_hyphen b : in_class [Rustpeg.One x2d] b <-> b = x2d.
Proof.
  split; [intros (i & [<-|[]] & H); exact H|]. intros ->. exists (Rustpeg.One x2d). split; [left|]; reflexivity.
Qed.
Lemma next_not_brace b : in_class next_class b -> b <> x7d.
Proof.
  intros H ->. apply in_next in H. destruct H as [[[[H|H]|[H|H]]|H]|H]; try discriminate;
    vm_compute in H; destruct H as [H1 H2]; first [apply H1; reflexivity|apply H2; reflexivity].
Qed.
Lemma inv_next s r m : run next_step s r m ->
  (exists b s', s = b :: s' /\ in_class next_class b /\ (forall z, s' <> x2d :: z) /\ r = Some s' /\ m = [(s', class_text [Rustpeg.One x2d])]) \/
  (exists b s', s = b :: x2d :: s' /\ in_class next_class b /\ r = None /\ m = []) \/
  ((forall b s', s = b :: s' -> ~ in_class next_class b) /\ r = None /\ m = [(s, class_text next_class)]).
Proof.
  intros R. apply inv_seq in R. destruct R as [(s1 & m1 & m2 & R1 & R2 & ->)|(R1 & ->)]; apply inv_class in R1.
  - destruct R1 as [(b & s' & -> & B & E & ->)|(_ & X & _)]; [injection E as ->|discriminate].
    apply inv_not in R2. destruct R2 as [(R2 & ->)|(s2 & R2 & ->)]; apply inv_class in R2.
    + destruct R2 as [(c & s2 & _ & _ & X & _)|(N & _ & ->)]; [discriminate|]. left. exists b, s'. split; [reflexivity|].
      split; [exact B|]. split; [intros z ->; apply (N _ _ eq_refl), in_hyphen; reflexivity|]. auto.
    + destruct R2 as [(c & s3 & -> & C & _ & ->)|(_ & X & _)]; [|discriminate]. apply in_hyphen in C. subst c.
      right. left. exists b, s3. auto.
  - destruct R1 as [(b & s' & _ & _ & X & _)|(N & _ & ->)]; [discriminate|]. right. right. auto.
Qed.
Lemma tight_next : tight next_step.
Proof.
  intros s s' m t x R I. apply inv_next in R. destruct R as [(b & s1 & _ & _ & _ & E & ->)|[(b & s1 & _ & _ & X & _)|(_ & X & _)]]; try discriminate.
  injection E as ->. destruct I as [I|[]]. injection I as <- _. lia.
Qed.
Lemma shy_next : shy next_step.
Proof.
  intros s m t x R I. apply inv_next in R. destruct R as [(b & s1 & _ & _ & _ & E & _)|[(b & s1 & _ & _ & _ & ->)|(_ & _ & ->)]]; [discriminate|destruct I|].
  destruct I as [I|[]]. injection I as <- _. lia.
Qed.

Lemma sim_next_brace : sim true (Seq (Many next_step) brace).
Proof.
  intros w r m r' m' R R' W. apply inv_seq in R. apply inv_seq in R'.
  destruct R as [(s1 & m1 & m2 & R1 & R2 & ->)|(R1 & _)]; [|destruct (many_some _ _ _ _ R1); discriminate].
  destruct R' as [(t1 & n1 & n2 & S1 & S2 & ->)|(S1 & _)]; [|destruct (many_some _ _ _ _ S1); discriminate].
  remember (Many next_step) as e eqn:E. remember (w ++ q) as s eqn:Es. remember (Some s1) as o eqn:Eo. revert w s1 t1 n1 Es Eo R2 S1 S2 W.
  induction R1; try discriminate; injection E as ->; intros w s1 t1 n1 Es Eo R2 S1 S2 W; subst s; apply inv_many in S1.
  - subst r0. rewrite <- app_assoc in *. pose proof R1_1 as R3. apply inv_next in R3.
    destruct R3 as [(b & s2 & Ew & B & Nh & E & Em)|[(b & s2 & _ & _ & X & _)|(_ & X & _)]]; try discriminate.
    injection E as <-. destruct w as [|b' w].
    { cbn [app] in Ew. assert (length s' < length q) as L by (rewrite Ew; cbn [length]; lia). apply rest_le in R1_2. destruct r as [s3|].
      - eapply rel_over; [reflexivity|]. apply rest_le in R2. lia.
      - exfalso. eapply not_beyond; [exact R2|exact noted_brace|exact (within_r _ _ (within_r _ _ W))|lia]. }
    injection Ew as <- Ew. destruct S1 as [(t & m3 & m4 & S3 & S4 & _)|(S3 & _)]; apply inv_next in S3.
    + destruct S3 as [(b & t2 & Ew' & _ & _ & E & _)|[(b & t2 & _ & _ & X & _)|(_ & X & _)]]; try discriminate.
      injection E as <-. injection Ew' as _ <-. subst s'.
      destruct (IHR1_2 eq_refl _ _ _ _ eq_refl eq_refl R2 S4 S2 (within_r _ _ W)) as [H|H|s0 H1 H2|w3 H1 H2|H1 H2|_ H1 H2 H3].
      * apply rel_cov, cov_r, H.
      * apply rel_hyp, H.
      * eapply rel_over; eauto.
      * eapply rel_same; eauto.
      * apply rel_fail; assumption.
      * subst r. assert (w <> []) as Nw.
        { destruct H3 as [H3|H3]; [exact H3|]. apply app_eq_nil in H3. destruct (noted_brace _ _ R2 (proj2 H3)). }
        apply rel_early; [reflexivity|reflexivity| |left; discriminate].
        apply early_app; [exact (tight_early _ _ _ _ tight_next R1_1 Nw)|exact H2].
    + destruct S3 as [(b & t2 & _ & _ & _ & X & _)|[(b & t2 & Ew' & _ & _ & _)|(Nb & _ & _)]]; [discriminate| |exfalso; exact (Nb _ _ eq_refl B)].
      injection Ew' as <- Ew'. destruct w as [|c w].
      * apply rel_cov. exists (class_text [Rustpeg.One x2d]), [x2d]. split; [|split].
        { apply in_or_app. left. rewrite Em. left. cbn [app] in Ew. subst s'. reflexivity. }
        { apply stands_item; [exact read_hyphen|]. apply in_hyphen. reflexivity. }
        { exists t2. exact Ew'. }
      * exfalso. injection Ew' as -> _. subst s'. exact (Nh _ eq_refl).
  - injection Eo as <-. pose proof R1 as R3. apply inv_next in R3.
    assert (forall b, (exists z, w ++ q = b :: z) -> in_class next_class b -> w <> [] -> early m -> rel true w r (m ++ m2) r') as A.
    { intros b (z & Ez) B Nw Em. destruct w as [|c w]; [contradiction|]. injection Ez as -> _.
      apply brace_other in R2; [|apply next_not_brace, B]. destruct R2 as (-> & ->).
      apply rel_early; [reflexivity|reflexivity|apply early_app; [exact Em|apply (early_one (b :: w)); discriminate]|left; discriminate]. }
    destruct S1 as [(t & m3 & m4 & S3 & S4 & _)|(S3 & ET)].
    + apply inv_next in S3. destruct S3 as [(b & t2 & Ew & B & Nh & E & _)|[(b & t2 & _ & _ & X & _)|(_ & X & _)]]; try discriminate.
      destruct w as [|c w].
      * cbn [app] in Ew. destruct R3 as [(b' & s2 & _ & _ & _ & X & _)|[(b' & s2 & Eq' & _ & _ & _)|(_ & _ & ->)]]; [discriminate| |].
        { apply rel_hyp. split; [exists b', s2; exact Eq'|exists b, t2; auto]. }
        { apply rel_cov. exists (class_text next_class), [b]. split; [left; reflexivity|]. split; [apply (stands_item _ _ read_next B)|]. exists t2. exact Ew. }
      * injection Ew as -> _. apply (A b); [eexists; reflexivity|exact B|discriminate|].
        destruct R3 as [(b' & s2 & _ & _ & _ & X & _)|[(b' & s2 & _ & _ & _ & ->)|(Nb & _ & _)]]; [discriminate|apply early_nil|].
        exfalso. exact (Nb _ _ eq_refl B).
    + injection ET as ->.
      destruct (sim_brace _ _ _ _ _ R2 S2 (within_r _ _ W)) as [H|H|s0 H1 H2|w2 H1 H2|H1 H2|X _ _ _]; try discriminate.
      * apply rel_cov, cov_r, H.
      * apply rel_hyp, H.
      * eapply rel_over; eauto.
      * eapply rel_same; eauto.
      * apply rel_fail; assumption.
Qed.

Definition name_close : peg := Seq (Opt (Rule R_parser_name)) brace.
Lemma noted_name_close : noted name_close.
Proof. apply noted_seq; [apply noted_opt|exact noted_brace]. Qed.
(** A name is a colon, a first character and more. *)
Lemma inv_name_close s r m : run name_close s r m ->
  (exists z, s = x3a :: z /\
     ((exists b z', z = b :: z' /\ in_class first_class b /\ run (Seq (Many next_step) brace) z' r m) \/
      ((forall b z', z = b :: z' -> ~ in_class first_class b) /\ r = None /\ m = [(z, class_text first_class); (s, $"}")]))) \/
  ((forall z, s <> x3a :: z) /\ exists m', run brace s r m' /\ m = (s, $":") :: m').
Proof.
  intros R. apply inv_seq in R. destruct R as [(s1 & m1 & m2 & R1 & R2 & ->)|(R1 & _)]; [|destruct (opt_some _ _ _ _ R1); discriminate].
  apply inv_opt in R1.
  assert (forall r0 m0, run (Rule R_parser_name) s r0 m0 ->
    (exists z, s = x3a :: z /\ run (Rule R_identifier) z r0 m0) \/ ((forall z, s <> x3a :: z) /\ r0 = None /\ m0 = [(s, $":")])) as K.
  { intros r0 m0 R0. apply inv_rule, inv_seq in R0. destruct R0 as [(s3 & m3 & m4 & R3 & R4 & ->)|(R3 & ->)]; apply inv_text in R3.
    - destruct R3 as [(s4 & -> & E & ->)|(_ & X & _)]; [injection E as ->|discriminate]. left. exists s4. split; [reflexivity|exact R4].
    - destruct R3 as [(s4 & _ & X & _)|(N & _ & ->)]; [discriminate|]. right. split; [|auto]. intros z ->. apply N. exists z. reflexivity. }
  assert (forall z r0 m0, run (Rule R_identifier) z r0 m0 ->
    (exists b z', z = b :: z' /\ in_class first_class b /\ run (Many next_step) z' r0 m0) \/
    ((forall b z', z = b :: z' -> ~ in_class first_class b) /\ r0 = None /\ m0 = [(z, class_text first_class)])) as J.
  { intros z r0 m0 R0. apply inv_rule in R0. change (run (Seq (Class first_class) (Many next_step)) z r0 m0) in R0.
    apply inv_seq in R0. destruct R0 as [(s3 & m3 & m4 & R3 & R4 & ->)|(R3 & ->)]; apply inv_class in R3.
    - destruct R3 as [(b & s4 & -> & B & E & ->)|(_ & X & _)]; [injection E as ->|discriminate]. left. exists b, s4. auto.
    - destruct R3 as [(b & s4 & _ & _ & X & _)|(N & _ & ->)]; [discriminate|]. right. auto. }
  destruct R1 as [(s0 & R1 & E)|(R1 & E)]; injection E as ->; apply K in R1.
  - destruct R1 as [(z & -> & R1)|(_ & X & _)]; [|discriminate]. left. exists z. split; [reflexivity|]. left.
    apply J in R1. destruct R1 as [(b & z' & -> & B & R1)|(_ & X & _)]; [|discriminate]. exists b, z'. split; [reflexivity|].
    split; [exact B|]. eapply run_seq; eassumption.
  - destruct R1 as [(z & -> & R1)|(N & _ & ->)].
    + left. exists z. split; [reflexivity|]. right. apply J in R1.
      destruct R1 as [(b & z' & _ & _ & R1)|(N & _ & ->)]; [destruct (many_some _ _ _ _ R1); discriminate|].
      apply brace_other in R2; [|discriminate]. destruct R2 as (-> & ->). auto.
    + right. split; [exact N|]. exists m2. auto.
Qed.
Lemma tight_name_close : tight name_close.
Proof.
  intros s s' m t x R I. apply inv_name_close in R.
  destruct R as [(z & -> & [(b & z' & -> & _ & R)|(_ & X & _)])|(_ & m' & R & ->)]; [|discriminate|].
  - refine (tight_seq _ _ (tight_many _ tight_next shy_next) _ _ _ _ _ _ R I). apply tight_rule, tight_text.
  - apply inv_rule, inv_text in R. destruct R as [(s2 & -> & E & ->)|(_ & X & _)]; [injection E as ->|discriminate].
    destruct I as [I|[]]. injection I as <- _. cbn [length app]. change (length s2 <= length ($"}" ++ s2)). rewrite app_length. lia.
Qed.
Lemma sim_name_close : sim true name_close.
Proof.
  intros w r m r' m' R R' W. apply inv_name_close in R. apply inv_name_close in R'. destruct w as [|c w]; cbn [app] in *.
  - destruct R as [(z & Ez & R)|(_ & mb & R & ->)].
    + assert (length z < length q) as L by (rewrite Ez; cbn [length]; lia).
      destruct R as [(b & z' & -> & _ & R)|(_ & _ & ->)].
      * destruct r as [s3|].
        { eapply rel_over; [reflexivity|]. apply rest_le in R. cbn [length] in L. lia. }
        exfalso. eapply not_beyond; [exact R|apply noted_seq; [apply noted_many|exact noted_brace]|exact W|cbn [length] in L; lia].
      * exfalso. specialize (W _ _ (or_introl eq_refl)). lia.
    + destruct R' as [(z & Ez & _)|(_ & mb' & R' & _)].
      * apply rel_cov. exists ($":"), ($":"). split; [left; reflexivity|]. split; [constructor; exact I|]. exists z. exact Ez.
      * destruct (sim_brace [] _ _ _ _ R R' (within_r [_] _ W)) as [H|H|s0 H1 H2|w2 H1 H2|H1 H2|X _ _ _]; try discriminate.
        { apply rel_cov, (cov_r [_]), H. } { apply rel_hyp, H. } { eapply rel_over; eauto. } { eapply rel_same; eauto. } { apply rel_fail; assumption. }
  - destruct R as [(z & Ez & R)|(N & mb & R & ->)].
    + injection Ez as -> <-. destruct R' as [(z & Ez & R')|(N & _)]; [injection Ez as <-|exfalso; exact (N _ eq_refl)].
      destruct w as [|c w]; cbn [app] in *.
      * destruct R as [(b & z & Ez & _ & R)|(N & -> & ->)].
        { assert (length z < length q) as L by (rewrite Ez; cbn [length]; lia). destruct r as [s3|].
          - eapply rel_over; [reflexivity|]. apply rest_le in R. lia.
          - exfalso. eapply not_beyond; [exact R|apply noted_seq; [apply noted_many|exact noted_brace]|exact W|exact L]. }
        { destruct R' as [(b & z & Ez & B & _)|(_ & -> & _)]; [|apply rel_fail; reflexivity].
          apply rel_cov. exists (class_text first_class), [b]. split; [left; reflexivity|]. split; [apply (stands_item _ _ read_first B)|]. exists z. exact Ez. }
      * destruct R as [(b & z & Ez & B & R)|(N & -> & ->)].
        { injection Ez as <- <-. destruct R' as [(b & z & Ez & _ & R')|(N & _)]; [injection Ez as <- <-|exfalso; exact (N _ _ eq_refl B)].
          destruct (sim_next_brace _ _ _ _ _ R R' W) as [H|H|s0 H1 H2|w2 H1 H2|H1 H2|X H1 H2 H3].
          { apply rel_cov, H. } { apply rel_hyp, H. } { eapply rel_over; eauto. } { eapply rel_same; eauto. } { apply rel_fail; assumption. }
          apply rel_early; auto. left. discriminate. }
        { destruct R' as [(b & z & Ez & B & _)|(_ & -> & _)]; [|apply rel_fail; reflexivity].
          exfalso. injection Ez as <- _. exact (N _ _ eq_refl B). }
    + destruct R' as [(z & Ez & _)|(_ & mb' & R' & _)].
      * exfalso. injection Ez as -> _. exact (N _ eq_refl).
      * destruct (sim_brace (c :: w) _ _ _ _ R R' (within_r [_] _ W)) as [H|H|s0 H1 H2|w2 H1 H2|H1 H2|X _ _ _]; try discriminate.
        { apply rel_cov, (cov_r [_]), H. } { apply rel_hyp, H. } { eapply rel_over; eauto. } { eapply rel_same; eauto. } { apply rel_fail; assumption. }
Qed.

(** *** The bounds of SET *)
Definition set_close : peg := Seq (Opt (Rule R_parser_SET_optional_params)) close.
Lemma inv_set_close s r m : run set_close s r m ->
  (exists s' m1 m2, run (Rule R_comma) s (Some s') m1 /\ run (Seq bounds close) s' r m2 /\ m = m1 ++ m2) \/
  (exists m1 m2, run (Rule R_comma) s None m1 /\ run close s r m2 /\ m = m1 ++ m2).
Proof.
  intros R. apply inv_seq in R. destruct R as [(s1 & m1 & m2 & R1 & R2 & ->)|(R1 & _)]; [|destruct (opt_some _ _ _ _ R1); discriminate].
  apply inv_opt in R1. destruct R1 as [(s0 & R1 & E)|(R1 & E)]; injection E as ->; apply inv_rule, inv_seq in R1.
  - destruct R1 as [(s2 & m3 & m4 & R3 & R4 & ->)|(_ & X)]; [|discriminate]. left. exists s2, m3, (m4 ++ m2).
    split; [exact R3|]. split; [eapply run_seq; eassumption|symmetry; apply app_assoc].
  - destruct R1 as [(s2 & m3 & m4 & R3 & R4 & ->)|(R1 & _)]; [destruct (sep_some _ _ _ _ _ R4); discriminate|].
    right. exists m1, m2. auto.
Qed.
Lemma noted_set_close : noted set_close.
Proof. apply noted_seq; [apply noted_opt|exact noted_close]. Qed.
Lemma tight_set_close : tight set_close.
Proof.
  intros s s' m t x R I. apply inv_set_close in R. destruct R as [(s1 & m1 & m2 & R1 & R2 & ->)|(m1 & m2 & R1 & R2 & ->)];
    apply in_app_or in I; destruct I as [I|I].
  - pose proof (tight_comma _ _ _ _ _ R1 I). apply rest_le in R2. lia.
  - exact (tight_bounds_close _ _ _ _ _ R2 I).
  - apply inv_rule, inv_seq in R1. destruct R1 as [(s2 & m3 & m4 & _ & R4 & _)|(R1 & _)]; [destruct (many_some _ _ _ _ R4); discriminate|].
    pose proof (shy_text _ _ _ _ _ R1 I). apply rest_le in R2. lia.
  - exact (tight_close _ _ _ _ _ R2 I).
Qed.
Lemma sim_set_close : sim true set_close.
Proof.
  intros w r m r' m' R R' W. apply inv_set_close in R. apply inv_set_close in R'.
  assert (exists ra pa, run (Rule R_comma) (w ++ y) ra pa /\
    match ra with None => exists pb, run close (w ++ y) r' pb | Some t => exists pb, run (Seq bounds close) t r' pb end) as (ra & pa & Ra & Rb).
  { destruct R' as [(t & p1 & p2 & S1 & S2 & _)|(p1 & p2 & S1 & S2 & _)]; [exists (Some t), p1|exists None, p1]; eauto. }
  destruct R as [(s1 & m1 & m2 & R1 & R2 & ->)|(m1 & m2 & R1 & R2 & ->)].
  - destruct (sim_comma _ _ _ _ _ R1 Ra (within_l _ _ W)) as [H|H|s2 H1 H2|w2 H1 H2|H1 H2|X _ _ _]; try discriminate.
    + apply rel_cov, cov_l, H.
    + apply rel_hyp, H.
    + injection H1 as <-. destruct r as [s2|].
      * eapply rel_over; [reflexivity|]. apply rest_le in R2. lia.
      * exfalso. exact (not_beyond _ _ _ R2 noted_bounds_close (within_r _ _ W) H2).
    + injection H1 as ->. subst ra. destruct Rb as (pb & Rb).
      destruct (sim_bounds_close _ _ _ _ _ R2 Rb (within_r _ _ W)) as [H|H|s2 H1 H2|w3 H1 H2|H1 H2|_ H1 H2 H3].
      * apply rel_cov, cov_r, H.
      * apply rel_hyp, H.
      * eapply rel_over; eauto.
      * eapply rel_same; eauto.
      * apply rel_fail; assumption.
      * subst r. assert (w2 <> []) as Nw by (destruct H3 as [H3|H3]; [exact H3|destruct (noted_bounds_close _ _ R2 H3)]).
        apply rel_early; [reflexivity|reflexivity| |left; exact (rest_nonempty _ _ _ _ R1 Nw)].
        apply early_app; [exact (tight_early _ _ _ _ tight_comma R1 Nw)|exact H2].
  - destruct (sim_comma _ _ _ _ _ R1 Ra (within_l _ _ W)) as [H|H|s2 H1 H2|w2 H1 H2|H1 H2|X _ _ _]; try discriminate.
    + apply rel_cov, cov_l, H.
    + apply rel_hyp, H.
    + subst ra. destruct Rb as (pb & Rb). apply rel_weaken.
      destruct (sim_close _ _ _ _ _ R2 Rb (within_r _ _ W)) as [H|H|s2 H3 H4|w2 H3 H4|H3 H4|X _ _ _]; try discriminate.
      * apply rel_cov, cov_r, H.
      * apply rel_hyp, H.
      * eapply rel_over; eauto.
      * eapply rel_same; eauto.
      * apply rel_fail; assumption.
Qed.

(** *** INT *)
Definition int_rest : peg := Seq (Opt (Rule R_parser_INT_optional_params)) name_close.
Lemma inv_int_rest s r m : run int_rest s r m ->
  (exists z, s = x28 :: z /\
     ((exists s' m1 m2, run (Seq bounds close) z (Some s') m1 /\ run name_close s' r m2 /\ m = m1 ++ m2) \/
      (exists m1, run (Seq bounds close) z None m1 /\ r = None /\ m = m1 ++ [(s, $":"); (s, $"}")]))) \/
  ((forall z, s <> x28 :: z) /\ exists m', run name_close s r m' /\ m = (s, $"(") :: m').
Proof.
  intros R. apply inv_seq in R. destruct R as [(s1 & m1 & m2 & R1 & R2 & ->)|(R1 & _)]; [|destruct (opt_some _ _ _ _ R1); discriminate].
  apply inv_opt in R1. destruct R1 as [(s0 & R1 & E)|(R1 & E)]; injection E as ->; apply inv_rule, inv_seq in R1.
  - destruct R1 as [(s2 & m3 & m4 & R3 & R4 & ->)|(_ & X)]; [|discriminate].
    apply inv_rule, inv_text in R3. destruct R3 as [(s3 & -> & E & ->)|(_ & X & _)]; [injection E as ->|discriminate].
    left. exists s3. split; [reflexivity|]. left. exists s0, m4, m2. auto.
  - destruct R1 as [(s2 & m3 & m4 & R3 & R4 & ->)|(R3 & _)]; apply inv_rule, inv_text in R3.
    + destruct R3 as [(s3 & -> & E & ->)|(_ & X & _)]; [injection E as ->|discriminate].
      left. exists s3. split; [reflexivity|]. right. exists m4. split; [exact R4|].
      apply inv_name_close in R2. destruct R2 as [(z & X & _)|(_ & m' & R2 & ->)]; [discriminate|].
      apply brace_other in R2; [|discriminate]. destruct R2 as (-> & ->). auto.
    + destruct R3 as [(s3 & _ & X & _)|(N & _ & ->)]; [discriminate|]. right. split; [intros z ->; apply N; exists z; reflexivity|].
      exists m2. auto.
Qed.
Lemma noted_int_rest : noted int_rest.
Proof. apply noted_seq; [apply noted_opt|exact noted_name_close]. Qed.
Lemma tight_int_rest : tight int_rest.
Proof.
  intros s s' m t x R I. apply inv_int_rest in R.
  destruct R as [(z & -> & [(s1 & m1 & m2 & R1 & R2 & ->)|(m1 & _ & X & _)])|(_ & m' & R & ->)]; [|discriminate|].
  - apply in_app_or in I. destruct I as [I|I]; [|exact (tight_name_close _ _ _ _ _ R2 I)].
    pose proof (tight_bounds_close _ _ _ _ _ R1 I). apply rest_le in R2. lia.
  - destruct I as [I|I]; [|exact (tight_name_close _ _ _ _ _ R I)]. injection I as <- _. exact (rest_le _ _ _ _ R).
Qed.
Lemma sim_int_rest : sim true int_rest.
Proof.
  intros w r m r' m' R R' W. apply inv_int_rest in R. apply inv_int_rest in R'. destruct w as [|c w]; cbn [app] in *.
  - destruct R as [(z & Ez & R)|(_ & mb & R & ->)].
    + assert (length z < length q) as L by (rewrite Ez; cbn [length]; lia).
      destruct R as [(s1 & m1 & m2 & R1 & R2 & ->)|(m1 & R1 & _ & ->)].
      * apply rest_le in R1. destruct r as [s3|].
        { eapply rel_over; [reflexivity|]. apply rest_le in R2. lia. }
        exfalso. eapply not_beyond; [exact R2|exact noted_name_close|exact (within_r _ _ W)|lia].
      * exfalso. exact (not_beyond _ _ _ R1 noted_bounds_close (within_l _ _ W) L).
    + destruct R' as [(z & Ez & _)|(_ & mb' & R' & _)].
      * apply rel_cov. exists ($"("), ($"("). split; [left; reflexivity|]. split; [constructor; exact I|]. exists z. exact Ez.
      * destruct (sim_name_close [] _ _ _ _ R R' (within_r [_] _ W)) as [H|H|s0 H1 H2|w2 H1 H2|H1 H2|X H1 H2 H3].
        { apply rel_cov, (cov_r [_]), H. } { apply rel_hyp, H. } { eapply rel_over; eauto. } { eapply rel_same; eauto. } { apply rel_fail; assumption. }
        exfalso. destruct H3 as [H3|H3]; [contradiction|]. subst r. exact (noted_name_close _ _ R H3).
  - destruct R as [(z & Ez & R)|(N & mb & R & ->)].
    + injection Ez as -> <-. destruct R' as [(z & Ez & R')|(N & _)]; [injection Ez as <-|exfalso; exact (N _ eq_refl)].
      assert (exists ra pa, run (Seq bounds close) (w ++ y) ra pa /\
        match ra with None => r' = None | Some t => exists pb, run name_close t r' pb end) as (ra & pa & Ra & Rb).
      { destruct R' as [(t & p1 & p2 & S1 & S2 & _)|(p1 & S1 & S2 & _)]; [exists (Some t), p1|exists None, p1]; eauto. }
      destruct R as [(s1 & m1 & m2 & R1 & R2 & ->)|(m1 & R1 & -> & ->)].
      * destruct (sim_bounds_close _ _ _ _ _ R1 Ra (within_l _ _ W)) as [H|H|s2 H1 H2|w2 H1 H2|H1 H2|_ H1 _ _]; try discriminate.
        { apply rel_cov, cov_l, H. } { apply rel_hyp, H. }
        { injection H1 as <-. destruct r as [s2|].
          - eapply rel_over; [reflexivity|]. apply rest_le in R2. lia.
          - exfalso. exact (not_beyond _ _ _ R2 noted_name_close (within_r _ _ W) H2). }
        injection H1 as ->. subst ra. destruct Rb as (pb & Rb).
        destruct (sim_name_close _ _ _ _ _ R2 Rb (within_r _ _ W)) as [H|H|s0 H1 H2|w3 H1 H2|H1 H2|X H1 H2 H3].
        { apply rel_cov, cov_r, H. } { apply rel_hyp, H. } { eapply rel_over; eauto. } { eapply rel_same; eauto. } { apply rel_fail; assumption. }
        subst r. assert (w2 <> []) as Nw by (destruct H3 as [H3|H3]; [exact H3|destruct (noted_name_close _ _ R2 H3)]).
        apply rel_early; [reflexivity|reflexivity| |left; discriminate].
        apply early_app; [exact (tight_early _ _ _ _ tight_bounds_close R1 Nw)|exact H2].
      * destruct (sim_bounds_close _ _ _ _ _ R1 Ra (within_l _ _ W)) as [H|H|s2 H1 H2|w2 H1 H2|H1 H2|_ H1 H2 H3]; try discriminate.
        { apply rel_cov, cov_l, H. } { apply rel_hyp, H. } { subst ra. apply rel_fail; auto. }
        apply rel_early; [reflexivity|reflexivity| |left; discriminate]. apply early_app; [exact H2|].
        intros t x [I|[I|[]]]; injection I as <- _; cbn [length]; rewrite app_length; lia.
    + destruct R' as [(z & Ez & _)|(_ & mb' & R' & _)].
      * exfalso. injection Ez as -> _. exact (N _ eq_refl).
      * destruct (sim_name_close (c :: w) _ _ _ _ R R' (within_r [_] _ W)) as [H|H|s0 H1 H2|w2 H1 H2|H1 H2|X H1 H2 H3].
        { apply rel_cov, (cov_r [_]), H. } { apply rel_hyp, H. } { eapply rel_over; eauto. } { eapply rel_same; eauto. } { apply rel_fail; assumption. }
        apply rel_early; [reflexivity|exact H1| |left; discriminate].
        intros t x [I|I]; [injection I as <- _; cbn [length]; rewrite app_length; lia|exact (H2 _ _ I)].
Qed.

(** *** Strings *)
Lemma cut_char c s' w : utf8_char c = true -> c ++ s' = w ++ q -> w <> [] -> exists w2, w = c ++ w2 /\ s' = w2 ++ q.
Proof.
  intros C E Nw. destruct (cut_prefix _ _ _ E) as [H|(L & _)]; [exact H|]. exfalso.
  assert (exists d, c = w ++ d /\ q = d ++ s') as (d & -> & Eq').
  { exists (skipn (length w) c). assert (firstn (length w) (w ++ q) = firstn (length w) (c ++ s')) as F by congruence.
    rewrite firstn_app, firstn_all, Nat.sub_diag in F. cbn [firstn] in F. rewrite app_nil_r in F.
    rewrite firstn_app in F. replace (length w - length c) with 0 in F by lia. cbn [firstn] in F. rewrite app_nil_r in F.
    split; [rewrite F at 1; symmetry; apply firstn_skipn|].
    rewrite <- (firstn_skipn (length w) c), <- F, <- app_assoc in E. apply app_inv_head in E. symmetry. exact E. }
  destruct d as [|d0 d]; [rewrite app_nil_r in L; lia|]. cbn [app] in Eq'.
  assert (utf8_char (w ++ d0 :: d) = true /\ utf8 (d0 :: d ++ s')) as (C1 & U) by (rewrite <- Eq'; auto).
  clear -C1 U Nw. inversion U as [|c0 s0 Hc Us E0].
  destruct (utf8_char_shape _ Hc) as (b & cs & -> & K & _). cbn [app] in E0. injection E0 as -> _.
  destruct (utf8_char_shape _ C1) as (b' & cs' & Ew & _ & K' & _). destruct w as [|w0 w]; [contradiction|].
  injection Ew as _ <-. rewrite forallb_app in K'. cbn [forallb] in K'. rewrite K in K'. cbn [andb] in K'. rewrite andb_false_r in K'. discriminate.
Qed.

Definition quoted : peg := Seq (Not (Text [x22])) AnyChar.
Lemma inv_quoted s r m : run quoted s r m ->
  (exists z, s = x22 :: z /\ r = None /\ m = []) \/
  (s = [] /\ r = None /\ m = [([], [x22]); ([], $"<character>")]) \/
  (exists c s', s = c ++ s' /\ utf8_char c = true /\ (forall z, s <> x22 :: z) /\ r = Some s' /\ m = [(s, [x22])]).
Proof.
  intros R. apply inv_seq in R. destruct R as [(s1 & m1 & m2 & R1 & R2 & ->)|(R1 & ->)]; apply inv_not in R1.
  - destruct R1 as [(R1 & E)|(s2 & _ & X)]; [injection E as ->|discriminate]. apply inv_text in R1.
    destruct R1 as [(s2 & _ & X & _)|(N & _ & ->)]; [discriminate|].
    assert (forall z, s <> x22 :: z) as Nz by (intros z ->; apply N; exists z; reflexivity).
    apply inv_any in R2. destruct R2 as [(c & s' & -> & C & -> & ->)|(-> & -> & ->)].
    + right. right. exists c, s'. auto.
    + right. left. auto.
  - destruct R1 as [(_ & X)|(s2 & R1 & _)]; [discriminate|]. apply inv_text in R1.
    destruct R1 as [(s3 & -> & _ & ->)|(_ & X & _)]; [|discriminate]. left. exists s3. auto.
Qed.
Definition quote : peg := Text [x22].
Lemma sim_quote : sim false quote.
Proof. apply sim_text; [exact I|auto]. Qed.
Lemma char_nonempty c : utf8_char c = true -> c <> [].
Proof. destruct c; discriminate. Qed.
(** One more character of both texts, away from the cut. *)
Lemma quoted_far c s' w r' m' : utf8_char c = true -> c ++ s' = w ++ q -> w <> [] -> (forall z, w ++ q <> x22 :: z) ->
  run quoted (w ++ y) r' m' -> exists w2, w = c ++ w2 /\ s' = w2 ++ q /\ r' = Some (w2 ++ y).
Proof.
  intros C E Nw Nz R. destruct (cut_char _ _ _ C E Nw) as (w2 & -> & ->). exists w2. split; [reflexivity|]. split; [reflexivity|].
  assert (forall z, (c ++ w2) ++ y <> x22 :: z) as Nz'.
  { intros z X. destruct c as [|b c]; [discriminate C|]. injection X as -> _. exact (Nz _ eq_refl). }
  apply inv_quoted in R. destruct R as [(z & X & _)|[(X & _)|(c' & t' & E' & C' & _ & -> & _)]].
  - destruct (Nz' _ X).
  - exfalso. apply Nw. apply app_eq_nil in X. exact (proj1 X).
  - f_equal. rewrite <- app_assoc in E'. destruct (first_char_unique _ _ _ _ C C' E') as (_ & X). symmetry. exact X.
Qed.
Lemma sim_quoted_many : sim false (Seq (Many quoted) quote).
Proof.
  intros w r m r' m' R R' W. apply inv_seq in R. apply inv_seq in R'.
  destruct R as [(s1 & m1 & m2 & R1 & R2 & ->)|(R1 & _)]; [|destruct (many_some _ _ _ _ R1); discriminate].
  destruct R' as [(t1 & n1 & n2 & S1 & S2 & ->)|(S1 & _)]; [|destruct (many_some _ _ _ _ S1); discriminate].
  remember (Many quoted) as e eqn:E. remember (w ++ q) as s eqn:Es. remember (Some s1) as o eqn:Eo. revert w s1 t1 n1 Es Eo R2 S1 S2 W.
  induction R1; try discriminate; injection E as ->; intros w s1 t1 n1 Es Eo R2 S1 S2 W; subst s; apply inv_many in S1.
  - subst r0. rewrite <- app_assoc in *. pose proof R1_1 as R3. apply inv_quoted in R3.
    destruct R3 as [(z & _ & X & _)|[(_ & X & _)|(c & s2 & Ew & C & Nz & E & Em)]]; try discriminate.
    injection E as <-. destruct w as [|b w].
    { cbn [app] in Ew. assert (length s' < length q) as L by (rewrite Ew, app_length; destruct c; [discriminate C|cbn [length]; lia]).
      apply rest_le in R1_2. destruct r as [s3|].
      - eapply rel_over; [reflexivity|]. apply rest_le in R2. lia.
      - exfalso. eapply not_beyond; [exact R2|apply noted_text|exact (within_r _ _ (within_r _ _ W))|lia]. }
    assert (exists ra pa, run quoted ((b :: w) ++ y) ra pa /\
      match ra with None => True | Some t => exists pb, run (Many quoted) t (Some t1) pb end) as (ra & pa & Ra & Rb).
    { destruct S1 as [(t & m3 & m4 & S3 & S4 & _)|(S3 & _)]; [exists (Some t), m3; eauto|exists None, n1; auto]. }
    symmetry in Ew. destruct (quoted_far _ _ _ _ _ C Ew ltac:(discriminate) Nz Ra) as (w2 & _ & -> & ->).
    destruct Rb as (pb & Rb).
    destruct (IHR1_2 eq_refl _ _ _ _ eq_refl eq_refl R2 Rb S2 (within_r _ _ W)) as [H|H|s0 H1 H2|w3 H1 H2|H1 H2|X _ _ _]; try discriminate.
    + apply rel_cov, cov_r, H.
    + apply rel_hyp, H.
    + eapply rel_over; eauto.
    + eapply rel_same; eauto.
    + apply rel_fail; assumption.
  - injection Eo as <-. pose proof R1 as R3. apply inv_quoted in R3.
    destruct R3 as [(z & Ez & _ & ->)|[(Ez & _ & ->)|(c & s2 & _ & _ & _ & X & _)]]; [| |discriminate].
    + (** a quotation mark *)
      destruct w as [|b w].
      * cbn [app] in *. rewrite Ez in R2. apply inv_text in R2. destruct R2 as [(s3 & E & -> & ->)|(N & _)].
        { injection E as <-. eapply rel_over; [reflexivity|]. rewrite Ez. cbn [length]. lia. }
        exfalso. apply N. exists z. reflexivity.
      * injection Ez as -> <-. destruct S1 as [(t & m3 & m4 & S3 & S4 & _)|(S3 & ET)].
        { apply inv_quoted in S3. destruct S3 as [(z & _ & X & _)|[(X & _)|(c & t2 & _ & _ & Nz & _)]]; try discriminate. destruct (Nz _ eq_refl). }
        injection ET as ->. destruct (sim_quote _ _ _ _ _ R2 S2 (within_r _ _ W)) as [H|H|s0 H1 H2|w2 H1 H2|H1 H2|X _ _ _]; try discriminate.
        { apply rel_cov, cov_r, H. } { apply rel_hyp, H. } { eapply rel_over; eauto. } { eapply rel_same; eauto. } { apply rel_fail; assumption. }
    + (** the end *)
      apply app_eq_nil in Ez. destruct Ez as (-> & Ez). cbn [app] in *.
      destruct S1 as [(t & m3 & m4 & S3 & S4 & _)|(S3 & ET)]; apply inv_quoted in S3.
      * destruct S3 as [(z & _ & X & _)|[(_ & X & _)|(c & t2 & Ey & C & _)]]; try discriminate.
        apply rel_cov. exists ($"<character>"), c. split; [right; left; rewrite Ez; reflexivity|]. split; [constructor; exact C|]. exists t2. exact Ey.
      * injection ET as ->. destruct (sim_quote [] _ _ _ _ R2 S2 (within_r [_; _] _ W)) as [H|H|s0 H1 H2|w2 H1 H2|H1 H2|X _ _ _]; try discriminate.
        { apply rel_cov, (cov_r [_; _]), H. } { apply rel_hyp, H. } { eapply rel_over; eauto. } { eapply rel_same; eauto. } { apply rel_fail; assumption. }
Qed.
Lemma tight_quoted_many : tight (Seq (Many quoted) quote).
Proof.
  intros s s' m t x R I. apply inv_seq in R. destruct R as [(s1 & m1 & m2 & R1 & R2 & ->)|(_ & X)]; [|discriminate].
  apply inv_text in R2. destruct R2 as [(s2 & E & E2 & ->)|(_ & X & _)]; [injection E2 as <-|discriminate].
  rewrite app_nil_r in I. remember (Many quoted) as e eqn:Ee. remember (Some s1) as o eqn:Eo. revert s1 E Eo.
  induction R1; try discriminate; injection Ee as ->; intros s1 E Eo; subst.
  - apply in_app_or in I. destruct I as [I|I]; [|exact (IHR1_2 eq_refl I _ eq_refl eq_refl)].
    apply rest_le in R1_2. apply inv_quoted in R1_1.
    destruct R1_1 as [(z & _ & X & _)|[(_ & X & _)|(c & s2 & -> & C & _ & E & ->)]]; try discriminate. injection E as <-.
    destruct I as [I|[]]. injection I as <- _. rewrite app_length in *. cbn [length] in *. lia.
  - injection Eo as ->. apply inv_quoted in R1.
    destruct R1 as [(z & _ & _ & ->)|[(X & _)|(c & s2 & _ & _ & _ & X & _)]]; [destruct I|discriminate|discriminate].
Qed.

Definition string_rest : peg := Seq (Rule R_all_chars_until_quotation_mark) quote.
Lemma inv_string_rest s r m : run string_rest s r m ->
  (exists s' m1 m2, run quoted s (Some s') m1 /\ run (Seq (Many quoted) quote) s' r m2 /\ m = m1 ++ m2) \/
  (run quoted s None m /\ r = None).
Proof.
  intros R. apply inv_seq in R. destruct R as [(s1 & m1 & m2 & R1 & R2 & ->)|(R1 & ->)];
    apply inv_rule, inv_some in R1; fold quoted in R1; apply inv_seq in R1.
  - destruct R1 as [(s2 & m3 & m4 & R3 & R4 & ->)|(_ & X)]; [|discriminate]. left. exists s2, m3, (m4 ++ m2).
    split; [exact R3|]. split; [eapply run_seq; eassumption|symmetry; apply app_assoc].
  - destruct R1 as [(s2 & m3 & m4 & R3 & R4 & ->)|(R1 & _)]; [destruct (many_some _ _ _ _ R4); discriminate|]. right. auto.
Qed.
Lemma sim_string_rest : sim true string_rest.
Proof.
  intros w r m r' m' R R' W. apply inv_string_rest in R. apply inv_string_rest in R'.
  assert (exists ra pa, run quoted (w ++ y) ra pa /\
    match ra with None => r' = None | Some t => exists pb, run (Seq (Many quoted) quote) t r' pb end) as (ra & pa & Ra & Rb).
  { destruct R' as [(t & m3 & m4 & S3 & S4 & _)|(S3 & ->)]; [exists (Some t), m3; eauto|exists None, m'; auto]. }
  destruct R as [(s1 & m1 & m2 & R1 & R2 & ->)|(R1 & ->)].
  - pose proof R1 as R3. apply inv_quoted in R3. destruct R3 as [(z & _ & X & _)|[(_ & X & _)|(c & s2 & Ew & C & Nz & E & Em)]]; try discriminate.
    injection E as <-. destruct w as [|b w].
    { cbn [app] in Ew. assert (length s1 < length q) as L by (rewrite Ew, app_length; destruct c; [discriminate C|cbn [length]; lia]).
      destruct r as [s3|].
      - eapply rel_over; [reflexivity|]. apply rest_le in R2. lia.
      - exfalso. eapply not_beyond; [exact R2|apply noted_seq; [apply noted_many|apply noted_text]|exact (within_r _ _ W)|lia]. }
    symmetry in Ew. destruct (quoted_far _ _ _ _ _ C Ew ltac:(discriminate) Nz Ra) as (w2 & _ & -> & ->). destruct Rb as (pb & Rb).
    destruct (sim_quoted_many _ _ _ _ _ R2 Rb (within_r _ _ W)) as [H|H|s0 H1 H2|w3 H1 H2|H1 H2|X _ _ _]; try discriminate.
    + apply rel_cov, cov_r, H.
    + apply rel_hyp, H.
    + eapply rel_over; eauto.
    + eapply rel_same; eauto.
    + apply rel_fail; assumption.
  - apply inv_quoted in R1. destruct R1 as [(z & Ez & _ & ->)|[(Ez & _ & ->)|(c & s2 & _ & _ & _ & X & _)]]; [| |discriminate].
    + apply rel_early; [reflexivity|reflexivity|apply early_nil|right; reflexivity].
    + apply app_eq_nil in Ez. destruct Ez as (-> & Ez). cbn [app] in *. apply inv_quoted in Ra.
      destruct Ra as [(z & Ey & _)|[(_ & -> & _)|(c & t2 & Ey & C & _)]].
      * apply rel_cov. exists [x22], [x22]. split; [left; rewrite Ez; reflexivity|]. split; [constructor; exact I|]. exists z. exact Ey.
      * apply rel_fail; auto.
      * apply rel_cov. exists ($"<character>"), c. split; [right; left; rewrite Ez; reflexivity|]. split; [constructor; exact C|]. exists t2. exact Ey.
Qed.
Lemma tight_string_rest : tight string_rest.
Proof.
  intros s s' m t x R I. apply inv_string_rest in R. destruct R as [(s1 & m1 & m2 & R1 & R2 & ->)|(_ & X)]; [|discriminate].
  apply in_app_or in I. destruct I as [I|I]; [|exact (tight_quoted_many _ _ _ _ _ R2 I)].
  apply rest_le in R2. apply inv_quoted in R1. destruct R1 as [(z & _ & X & _)|[(_ & X & _)|(c & s2 & -> & C & _ & E & ->)]]; try discriminate.
  injection E as <-. destruct I as [I|[]]. injection I as <- _. rewrite app_length. lia.
Qed.

(** *** SET *)
Definition set_rest : peg :=
  Seq (Text ($"(")) (Seq (Seq quote string_rest) (Seq set_close name_close)).
Lemma sim_set_rest : sim true set_rest.
Proof.
  apply sim_seq_text; [exact I|]. apply sim_seq.
  - apply sim_seq_text; [exact I|exact sim_string_rest].
  - apply sim_seq; [exact sim_set_close|exact sim_name_close|exact noted_name_close|intros _; exact tight_set_close].
  - apply noted_seq; [exact noted_set_close|exact noted_name_close].
  - intros _. apply tight_seq; [apply tight_text|exact tight_string_rest].
Qed.
Lemma tight_set_rest : tight set_rest.
Proof.
  apply tight_seq; [apply tight_text|]. apply tight_seq.
  - apply tight_seq; [apply tight_text|exact tight_string_rest].
  - apply tight_seq; [exact tight_set_close|exact tight_name_close].
Qed.

(** *** Pieces *)
Definition piece : peg := Rule R_pattern_piece.
Definition literal : peg := Rule R_literal.
Definition lit_step : peg := Seq (Not (Rule R_PARSER_BEGIN)) AnyChar.
Lemma inv_begin s r m : run (Rule R_PARSER_BEGIN) s r m ->
  (exists z, s = $"%{" ++ z /\ r = Some z /\ m = []) \/ (~ prefix_of ($"%{") s /\ r = None /\ m = [(s, $"%{")]).
Proof. intros R. apply inv_rule, inv_text in R. exact R. Qed.
Lemma inv_lit_step s r m : run lit_step s r m ->
  (prefix_of ($"%{") s /\ r = None /\ m = []) \/
  (s = [] /\ r = None /\ m = [([], $"%{"); ([], $"<character>")]) \/
  (exists c s', s = c ++ s' /\ utf8_char c = true /\ ~ prefix_of ($"%{") s /\ r = Some s' /\ m = [(s, $"%{")]).
Proof.
  intros R. apply inv_seq in R. destruct R as [(s1 & m1 & m2 & R1 & R2 & ->)|(R1 & ->)]; apply inv_not in R1.
  - destruct R1 as [(R1 & E)|(s2 & _ & X)]; [injection E as ->|discriminate]. apply inv_begin in R1.
    destruct R1 as [(s2 & _ & X & _)|(N & _ & ->)]; [discriminate|].
    apply inv_any in R2. destruct R2 as [(c & s' & -> & C & -> & ->)|(-> & -> & ->)].
    + right. right. exists c, s'. auto.
    + right. left. auto.
  - destruct R1 as [(_ & X)|(s2 & R1 & _)]; [discriminate|]. apply inv_begin in R1.
    destruct R1 as [(s3 & -> & _ & ->)|(_ & X & _)]; [|discriminate]. left. split; [exists s3; reflexivity|auto].
Qed.
Lemma tight_lit_step : tight lit_step.
Proof.
  intros s s' m t x R I. apply inv_lit_step in R. destruct R as [(_ & X & _)|[(_ & X & _)|(c & s2 & -> & C & _ & E & ->)]]; try discriminate.
  injection E as ->. destruct I as [I|[]]. injection I as <- _. rewrite app_length. lia.
Qed.
Lemma shy_lit_step : shy lit_step.
Proof.
  intros s m t x R I. apply inv_lit_step in R. destruct R as [(_ & _ & ->)|[(-> & _ & _)|(c & s2 & _ & _ & _ & X & _)]]; [destruct I|cbn [length]; lia|discriminate].
Qed.
Lemma inv_literal s r m : run literal s r m -> run (Seq lit_step (Many lit_step)) s r m.
Proof. intros R. apply inv_rule, inv_some in R. exact R. Qed.
Lemma tight_literal : tight literal.
Proof.
  intros s s' m t x R. apply inv_literal in R. revert s s' m t x R.
  apply tight_seq; [exact tight_lit_step|apply tight_many; [exact tight_lit_step|exact shy_lit_step]].
Qed.
Lemma literal_none s m : run literal s None m -> run lit_step s None m.
Proof.
  intros R. apply inv_literal, inv_seq in R. destruct R as [(s1 & m1 & m2 & _ & R2 & _)|(R1 & _)]; [|exact R1].
  destruct (many_some _ _ _ _ R2). discriminate.
Qed.
Lemma prefix_cut k w z z' : length k <= length w -> prefix_of k (w ++ z) -> prefix_of k (w ++ z').
Proof.
  intros L (s & E). assert (firstn (length k) (w ++ z) = k) as F by (rewrite E, firstn_app, firstn_all, Nat.sub_diag; cbn [firstn]; apply app_nil_r).
  rewrite firstn_app in F. replace (length k - length w) with 0 in F by lia. cbn [firstn] in F. rewrite app_nil_r in F.
  exists (skipn (length k) w ++ z'). rewrite app_assoc. f_equal.
  transitivity (firstn (length k) w ++ skipn (length k) w); [symmetry; apply firstn_skipn|congruence].
Qed.
Lemma lit_far c s' w r' m' : utf8_char c = true -> c ++ s' = w ++ q -> 2 <= length w -> ~ prefix_of ($"%{") (w ++ q) ->
  run lit_step (w ++ y) r' m' -> exists w2, w = c ++ w2 /\ s' = w2 ++ q /\ r' = Some (w2 ++ y).
Proof.
  intros C E L Np R. assert (w <> []) as Nw by (intros ->; cbn [length] in L; lia).
  destruct (cut_char _ _ _ C E Nw) as (w2 & -> & ->). exists w2. split; [reflexivity|]. split; [reflexivity|].
  apply inv_lit_step in R. destruct R as [(X & _)|[(X & _)|(c' & t' & E' & C' & _ & -> & _)]].
  - exfalso. apply Np. exact (prefix_cut ($"%{") _ _ _ L X).
  - exfalso. apply Nw. apply app_eq_nil in X. exact (proj1 X).
  - f_equal. rewrite <- app_assoc in E'. destruct (first_char_unique _ _ _ _ C C' E') as (_ & X). symmetry. exact X.
Qed.
Lemma suffix_long e w w2 m : run e (w ++ q) (Some (w2 ++ q)) m -> length w2 <= length w.
Proof. intros R. apply rest_le in R. rewrite !app_length in R. lia. Qed.
Lemma lits_same w w2 m r' m' : run (Many lit_step) (w ++ q) (Some (w2 ++ q)) m -> 2 <= length w2 ->
  run (Many lit_step) (w ++ y) r' m' -> r' = Some (w2 ++ y).
Proof.
  intros R L. remember (Many lit_step) as e eqn:E. remember (w ++ q) as s eqn:Es. remember (Some (w2 ++ q)) as o eqn:Eo.
  revert w r' m' Es Eo. induction R; try discriminate; injection E as ->; intros w r' m2 Es Eo S; subst; apply inv_many in S.
  - pose proof (suffix_long _ _ _ _ (run_many _ _ _ _ _ _ R1 R2)) as L2.
    apply inv_lit_step in R1. destruct R1 as [(_ & X & _)|[(_ & X & _)|(c & s2 & Ew & C & Np & E & _)]]; try discriminate.
    injection E as <-. symmetry in Ew.
    destruct S as [(t & m3 & m4 & S3 & S4 & _)|(S3 & _)]; destruct (lit_far _ _ _ _ _ C Ew (Nat.le_trans _ _ _ L L2) Np S3) as (w3 & _ & -> & Et).
    + injection Et as ->. exact (IHR2 eq_refl _ _ _ eq_refl eq_refl S4).
    + discriminate.
  - injection Eo as Eo. apply app_inv_tail in Eo. subst w2.
    apply inv_lit_step in R. destruct R as [(P & _)|[(X & _)|(c & s2 & _ & _ & _ & X & _)]]; [| |discriminate].
    + destruct S as [(t & m3 & m4 & S3 & S4 & _)|(S3 & ->)]; [|reflexivity]. exfalso.
      apply inv_lit_step in S3. destruct S3 as [(_ & X & _)|[(_ & X & _)|(c & s2 & _ & _ & Np & _)]]; try discriminate.
      apply Np. exact (prefix_cut ($"%{") _ _ _ L P).
    + exfalso. apply app_eq_nil in X. destruct X as (-> & _). cbn [length] in L. lia.
Qed.
Lemma literal_same w w2 m r' m' : run literal (w ++ q) (Some (w2 ++ q)) m -> 2 <= length w2 ->
  run literal (w ++ y) r' m' -> r' = Some (w2 ++ y).
Proof.
  intros R L S. apply inv_literal in R. apply inv_literal, inv_seq in S. pose proof (suffix_long _ _ _ _ R) as L2.
  apply inv_seq in R. destruct R as [(s' & m1 & m2 & R1 & R2 & _)|(_ & X)]; [|discriminate].
  apply inv_lit_step in R1. destruct R1 as [(_ & X & _)|[(_ & X & _)|(c & s2 & Ew & C & Np & E & _)]]; try discriminate.
  injection E as <-. symmetry in Ew.
  destruct S as [(t & m3 & m4 & S3 & S4 & _)|(S3 & _)]; destruct (lit_far _ _ _ _ _ C Ew (Nat.le_trans _ _ _ L L2) Np S3) as (w3 & _ & -> & Et); [|discriminate].
  injection Et as ->. exact (lits_same _ _ _ _ _ R2 L S4).
Qed.
Lemma opt_literal_same w w2 m r' m' : run (Opt literal) (w ++ q) (Some (w2 ++ q)) m -> 2 <= length w2 ->
  run (Opt literal) (w ++ y) r' m' -> r' = Some (w2 ++ y).
Proof.
  intros R L S. apply inv_opt in R. apply inv_opt in S. destruct R as [(s' & R & E)|(R & E)]; injection E as E.
  - subst s'. destruct S as [(t & S & ->)|(S & _)]; [exact (literal_same _ _ _ _ _ R L S)|].
    pose proof (literal_same _ _ _ _ _ R L S). discriminate.
  - apply app_inv_tail in E. subst w2. destruct S as [(t & S & _)|(_ & ->)]; [|reflexivity]. exfalso.
    apply literal_none, inv_lit_step in R. destruct R as [(P & _)|[(X & _)|(c & s2 & _ & _ & _ & X & _)]]; [| |discriminate].
    + apply inv_literal, inv_seq in S. destruct S as [(t1 & m1 & m2 & S & _ & _)|(_ & X)]; [|discriminate].
      apply inv_lit_step in S. destruct S as [(_ & X & _)|[(_ & X & _)|(c & s2 & _ & _ & Np & _)]]; try discriminate.
      apply Np. exact (prefix_cut ($"%{") _ _ _ L P).
    + apply app_eq_nil in X. destruct X as (-> & _). cbn [length] in L. lia.
Qed.

(** Pieces that are text. *)
Lemma inv_piece_text s r m : run piece s r m -> ~ prefix_of ($"%{") s ->
  exists m1 m2, run literal s r m1 /\ m = (s, $"%{") :: m1 ++ m2 /\ (r <> None -> m2 = []).
Proof.
  intros R Np. apply inv_rule, inv_or in R.
  assert (forall r0 m0, run (Rule R_parser_GREEDY) s r0 m0 -> r0 = None /\ m0 = [(s, $"%{")]) as G.
  { intros r0 m0 R0. apply inv_rule, inv_seq in R0. destruct R0 as [(s1 & m1 & m2 & R1 & _ & _)|(R1 & ->)]; apply inv_begin in R1.
    - destruct R1 as [(z & -> & _)|(_ & X & _)]; [|discriminate]. exfalso. apply Np. exists z. reflexivity.
    - destruct R1 as [(z & _ & X & _)|(_ & _ & ->)]; [discriminate|auto]. }
  destruct R as [(s' & R & ->)|(m1 & m2 & R1 & R2 & ->)]; [apply G in R; destruct R; discriminate|].
  apply G in R1. destruct R1 as (_ & ->). apply inv_or in R2. destruct R2 as [(s' & R2 & ->)|(m3 & m4 & R3 & R4 & ->)]; apply inv_rule in R2 || apply inv_rule in R3.
  - exists m2, []. split; [exact R2|]. split; [rewrite app_nil_r; reflexivity|auto].
  - apply inv_rule, inv_seq in R4. destruct R4 as [(s1 & m5 & m6 & R5 & _ & _)|(R5 & ->)]; apply inv_begin in R5.
    { destruct R5 as [(z & -> & _)|(_ & X & _)]; [|discriminate]. exfalso. apply Np. exists z. reflexivity. }
    exists m3, m4. split; [exact R3|]. split; [reflexivity|]. intros X. contradiction.
Qed.

(** Pieces that begin with a percent sign and a brace. *)
Lemma inv_keyword n k s r m : rustpeg n = Text k -> run (Rule n) s r m ->
  (exists z, s = k ++ z /\ r = Some z /\ m = []) \/ (~ prefix_of k s /\ r = None /\ m = [(s, k)]).
Proof. intros E R. apply inv_rule in R. rewrite E in R. apply inv_text in R. exact R. Qed.
Lemma run_group a b c s r m : run (Seq (Seq a b) c) s r m -> run (Seq a (Seq b c)) s r m.
Proof.
  intros R. apply inv_seq in R. destruct R as [(s1 & m1 & m2 & R1 & R2 & ->)|(R1 & ->)]; apply inv_seq in R1.
  - destruct R1 as [(s2 & m3 & m4 & R3 & R4 & ->)|(_ & X)]; [|discriminate]. rewrite <- app_assoc.
    eapply run_seq; [exact R3|]. eapply run_seq; eassumption.
  - destruct R1 as [(s2 & m3 & m4 & R3 & R4 & ->)|(R1 & _)]; [|apply run_seq_fail, R1].
    eapply run_seq; [exact R3|]. apply run_seq_fail. exact R4.
Qed.

Lemma not_two_keywords z k k' : prefix_of k z -> prefix_of k' z -> In k [$"GREEDY"; $"SET"; $"INT"] -> In k' [$"GREEDY"; $"SET"; $"INT"] -> k = k'.
Proof.
  intros (a & ->) (b & E) I J. destruct I as [<-|[<-|[<-|[]]]]; destruct J as [<-|[<-|[<-|[]]]]; try reflexivity; discriminate E.
Qed.

Lemma inv_piece_begin z r m : run piece ($"%{" ++ z) r m ->
  (exists z1, z = $"GREEDY" ++ z1 /\
     ((exists z2 m1 m2, run name_close z1 (Some z2) m1 /\ run (Opt literal) z2 r m2 /\ m = m1 ++ m2) \/
      (exists m1, run name_close z1 None m1 /\ r = None /\ m = m1 ++ [(z, $"SET"); (z, $"INT")]))) \/
  (exists z1 m1 m2, z = $"SET" ++ z1 /\ run set_rest z1 r m1 /\ m = (z, $"GREEDY") :: m1 ++ m2 /\
     (m2 = [(z, $"INT")] /\ r = None \/ m2 = [] /\ (r = None -> m1 <> []))) \/
  (exists z1 m1, z = $"INT" ++ z1 /\ run int_rest z1 r m1 /\ m = (z, $"GREEDY") :: (z, $"SET") :: m1) \/
  ((forall k, In k [$"GREEDY"; $"SET"; $"INT"] -> ~ prefix_of k z) /\ r = None /\
   m = [(z, $"GREEDY"); (z, $"SET"); (z, $"INT")]).
Proof.
  intros R. apply inv_rule, inv_or in R.
  assert (forall r0 m0, run (Rule R_parser_GREEDY) ($"%{" ++ z) r0 m0 ->
    (exists z1, z = $"GREEDY" ++ z1 /\ run (Seq name_close (Opt literal)) z1 r0 m0) \/
    (~ prefix_of ($"GREEDY") z /\ r0 = None /\ m0 = [(z, $"GREEDY")])) as G.
  { intros r0 m0 R0. apply inv_rule, inv_seq in R0. destruct R0 as [(s1 & m1 & m2 & R1 & R2 & ->)|(R1 & _)]; apply inv_begin in R1.
    2: { destruct R1 as [(z0 & _ & X & _)|(N & _)]; [discriminate|]. exfalso. apply N. exists z. reflexivity. }
    destruct R1 as [(z0 & E & E2 & ->)|(_ & X & _)]; [injection E2 as ->|discriminate]. apply app_inv_head in E. subst z0. cbn [app].
    apply inv_seq in R2. destruct R2 as [(s2 & m3 & m4 & R3 & R4 & ->)|(R3 & ->)]; apply (inv_keyword _ ($"GREEDY")) in R3; try reflexivity.
    - destruct R3 as [(z1 & -> & E2 & ->)|(_ & X & _)]; [injection E2 as ->|discriminate]. left. exists z1. split; [reflexivity|].
      cbn [app]. apply run_assoc. exact R4.
    - destruct R3 as [(z1 & _ & X & _)|(N & _ & ->)]; [discriminate|]. right. auto. }
  assert (forall r0 m0, run (Rule R_piece_literal) ($"%{" ++ z) r0 m0 -> r0 = None /\ m0 = []) as Li.
  { intros r0 m0 R0. apply inv_rule, inv_literal, inv_seq in R0. destruct R0 as [(s1 & m1 & m2 & R1 & _ & _)|(R1 & ->)]; apply inv_lit_step in R1.
    - destruct R1 as [(_ & X & _)|[(X & _)|(c & s2 & _ & _ & Np & _)]]; try discriminate. exfalso. apply Np. exists z. reflexivity.
    - destruct R1 as [(_ & _ & ->)|[(X & _)|(c & s2 & _ & _ & _ & X & _)]]; try discriminate. auto. }
  assert (forall r0 m0, run (Rule R_piece_parser) ($"%{" ++ z) r0 m0 ->
    (exists z1 m1 m2, z = $"SET" ++ z1 /\ run set_rest z1 r0 m1 /\ m0 = m1 ++ m2 /\
       (m2 = [(z, $"INT")] /\ r0 = None \/ m2 = [] /\ (r0 = None -> m1 <> []))) \/
    (exists z1 m1, z = $"INT" ++ z1 /\ run int_rest z1 r0 m1 /\ m0 = (z, $"SET") :: m1) \/
    (~ prefix_of ($"SET") z /\ ~ prefix_of ($"INT") z /\ r0 = None /\ m0 = [(z, $"SET"); (z, $"INT")])) as Pa.
  { intros r0 m0 R0. apply inv_rule, inv_seq in R0. destruct R0 as [(s1 & m1 & m2 & R1 & R2 & ->)|(R1 & _)]; apply inv_begin in R1.
    2: { destruct R1 as [(z0 & _ & X & _)|(N & _)]; [discriminate|]. exfalso. apply N. exists z. reflexivity. }
    destruct R1 as [(z0 & E & E2 & ->)|(_ & X & _)]; [injection E2 as ->|discriminate]. apply app_inv_head in E. subst z0. cbn [app].
    assert (forall r1 m1, run (Rule R_parser_SET) z r1 m1 ->
      (exists z1, z = $"SET" ++ z1 /\ run (Seq (Rule R_PARSER_PARAMS_BEGIN) (Seq (Rule R_string) (Seq (Opt (Rule R_parser_SET_optional_params))
         (Seq (Rule R_PARSER_PARAMS_END) (Opt (Rule R_parser_name)))))) z1 r1 m1) \/
      (~ prefix_of ($"SET") z /\ r1 = None /\ m1 = [(z, $"SET")])) as Se.
    { intros r1 m1 R0. apply inv_rule, inv_seq in R0. destruct R0 as [(s2 & m3 & m4 & R3 & R4 & ->)|(R3 & ->)]; apply (inv_keyword _ ($"SET")) in R3; try reflexivity.
      - destruct R3 as [(z1 & -> & E2 & ->)|(_ & X & _)]; [injection E2 as ->|discriminate]. left. exists z1. auto.
      - destruct R3 as [(z1 & _ & X & _)|(N & _ & ->)]; [discriminate|]. right. auto. }
    assert (forall r1 m1, run (Rule R_parser_INT) z r1 m1 ->
      (exists z1, z = $"INT" ++ z1 /\ run (Seq (Opt (Rule R_parser_INT_optional_params)) (Opt (Rule R_parser_name))) z1 r1 m1) \/
      (~ prefix_of ($"INT") z /\ r1 = None /\ m1 = [(z, $"INT")])) as In_.
    { intros r1 m1 R0. apply inv_rule, inv_seq in R0. destruct R0 as [(s2 & m3 & m4 & R3 & R4 & ->)|(R3 & ->)]; apply (inv_keyword _ ($"INT")) in R3; try reflexivity.
      - destruct R3 as [(z1 & -> & E2 & ->)|(_ & X & _)]; [injection E2 as ->|discriminate]. left. exists z1. auto.
      - destruct R3 as [(z1 & _ & X & _)|(N & _ & ->)]; [discriminate|]. right. auto. }
    (** [set_rest] has the braces elsewhere. *)
    assert (forall z1 r1 m1, run (Seq (Seq (Rule R_PARSER_PARAMS_BEGIN) (Seq (Rule R_string) (Seq (Opt (Rule R_parser_SET_optional_params))
       (Seq (Rule R_PARSER_PARAMS_END) (Opt (Rule R_parser_name)))))) brace) z1 r1 m1 -> run set_rest z1 r1 m1) as Re.
    { assert (forall a b b', (forall s r m, run b s r m -> run b' s r m) -> forall s r m, run (Seq a b) s r m -> run (Seq a b') s r m) as MR.
      { intros a b b' H s0 r1 m1 R0. apply inv_seq in R0. destruct R0 as [(s2 & m3 & m4 & R3 & R4 & ->)|(R3 & ->)]; [eapply run_seq; eauto|apply run_seq_fail, R3]. }
      assert (forall a a' b, (forall s r m, run a s r m -> run a' s r m) -> forall s r m, run (Seq a b) s r m -> run (Seq a' b) s r m) as ML.
      { intros a a' b H s0 r1 m1 R0. apply inv_seq in R0. destruct R0 as [(s2 & m3 & m4 & R3 & R4 & ->)|(R3 & ->)]; [eapply run_seq; eauto|apply run_seq_fail; auto]. }
      intros z1 r1 m1 R0. apply run_group in R0. unfold set_rest. revert z1 r1 m1 R0.
      intros z1 r1 m1 R0. apply (ML (Rule R_PARSER_PARAMS_BEGIN) (Text ($"("))); [intros s0 r3 m3 R3; apply inv_rule in R3; exact R3|].
      revert z1 r1 m1 R0. apply MR. intros s0 r1 m1 R0. apply run_group in R0.
      apply (ML (Rule R_string) (Seq quote string_rest)); [intros s2 r3 m3 R3; apply inv_rule in R3; exact R3|].
      revert s0 r1 m1 R0. apply MR. intros s0 r1 m1 R0. apply run_group in R0. apply run_assoc.
      revert s0 r1 m1 R0. apply MR. intros s0 r1 m1 R0. apply run_group in R0. exact R0. }
    apply inv_seq in R2. destruct R2 as [(s2 & m3 & m4 & R3 & R4 & ->)|(R3 & ->)]; apply inv_rule, inv_or in R3.
    - destruct R3 as [(s3 & R3 & E2)|(m5 & m6 & R5 & R6 & ->)].
      + injection E2 as <-. apply Se in R3. destruct R3 as [(z1 & -> & R3)|(_ & X & _)]; [|discriminate].
        left. exists z1, (m3 ++ m4), []. split; [reflexivity|]. split; [apply Re; eapply run_seq; eassumption|].
        split; [symmetry; apply app_nil_r|]. right. split; [reflexivity|]. intros -> X. apply app_eq_nil in X. exact (noted_brace _ _ R4 (proj2 X)).
      + apply Se in R5. apply In_ in R6. destruct R6 as [(z1 & -> & R6)|(_ & X & _)]; [|discriminate].
        destruct R5 as [(z2 & X & _)|(_ & _ & ->)]; [discriminate X|]. right. left. exists z1, (m6 ++ m4). split; [reflexivity|].
        split; [|reflexivity]. apply run_group. eapply run_seq; eassumption.
    - destruct R3 as [(s3 & _ & X)|(m5 & m6 & R5 & R6 & ->)]; [discriminate|]. apply Se in R5. apply In_ in R6.
      destruct R5 as [(z1 & -> & R5)|(Ns & _ & ->)].
      + destruct R6 as [(z2 & X & _)|(_ & _ & ->)]; [discriminate X|]. left. exists z1, m5, [($"SET" ++ z1, $"INT")].
        split; [reflexivity|]. split; [apply Re, run_seq_fail, R5|]. auto.
      + destruct R6 as [(z2 & -> & R6)|(Ni & _ & ->)].
        * right. left. exists z2, m6. split; [reflexivity|]. split; [|reflexivity]. apply run_group, run_seq_fail. exact R6.
        * right. right. auto. }
  destruct R as [(s' & R & ->)|(m1 & m2 & R1 & R2 & ->)].
  - apply G in R. destruct R as [(z1 & -> & R)|(_ & X & _)]; [|discriminate]. left. exists z1. split; [reflexivity|]. left.
    apply inv_seq in R. destruct R as [(s2 & m3 & m4 & R3 & R4 & ->)|(_ & X)]; [|discriminate]. exists s2, m3, m4. auto.
  - apply G in R1. apply inv_or in R2. destruct R2 as [(s' & R2 & _)|(m3 & m4 & R3 & R4 & ->)]; [apply Li in R2; destruct R2; discriminate|].
    apply Li in R3. destruct R3 as (_ & ->). cbn [app]. apply Pa in R4. destruct R1 as [(z1 & -> & R1)|(Ng & _ & ->)].
    + left. exists z1. split; [reflexivity|]. right. exists m1.
      split; [apply inv_seq in R1; destruct R1 as [(s2 & m5 & m6 & _ & R6 & _)|(R1 & _)]; [destruct (opt_some _ _ _ _ R6); discriminate|exact R1]|].
      destruct R4 as [(z2 & m5 & m6 & X & _)|[(z2 & m5 & X & _)|(_ & _ & -> & ->)]]; [discriminate X|discriminate X|auto].
    + right. destruct R4 as [(z2 & m5 & m6 & -> & R4 & -> & H)|[(z2 & m5 & -> & R4 & ->)|(Ns & Ni & -> & ->)]].
      * left. exists z2, m5, m6. auto.
      * right. left. exists z2, m5. auto.
      * right. right. split; [|auto]. intros k [<-|[<-|[<-|[]]]]; assumption.
Qed.

(** The text after a keyword. *)
Lemma piece_greedy z r m : run piece ($"%{" ++ $"GREEDY" ++ z) r m -> exists r1 m1, run name_close z r1 m1 /\
  match r1 with None => r = None | Some t => exists m2, run (Opt literal) t r m2 end.
Proof.
  intros R. apply inv_piece_begin in R. destruct R as [(z1 & E & R)|[(z1 & m1 & m2 & X & _)|[(z1 & m1 & X & _)|(N & _)]]].
  - apply app_inv_head in E. subst z1. destruct R as [(z2 & m1 & m2 & R1 & R2 & _)|(m1 & R & -> & _)]; [exists (Some z2), m1; eauto|exists None, m1; auto].
  - discriminate X.
  - discriminate X.
  - destruct (N ($"GREEDY")); [left; reflexivity|exists z; reflexivity].
Qed.
Lemma piece_set z r m : run piece ($"%{" ++ $"SET" ++ z) r m -> exists m1, run set_rest z r m1.
Proof.
  intros R. apply inv_piece_begin in R. destruct R as [(z1 & X & _)|[(z1 & m1 & m2 & E & R & _)|[(z1 & m1 & X & _)|(N & _)]]].
  - discriminate X.
  - apply app_inv_head in E. subst z1. eauto.
  - discriminate X.
  - destruct (N ($"SET")); [right; left; reflexivity|exists z; reflexivity].
Qed.
Lemma piece_int z r m : run piece ($"%{" ++ $"INT" ++ z) r m -> exists m1, run int_rest z r m1.
Proof.
  intros R. apply inv_piece_begin in R. destruct R as [(z1 & X & _)|[(z1 & m1 & m2 & X & _)|[(z1 & m1 & E & R & _)|(N & _)]]].
  - discriminate X.
  - discriminate X.
  - apply app_inv_head in E. subst z1. eauto.
  - destruct (N ($"INT")); [right; right; left; reflexivity|exists z; reflexivity].
Qed.
Lemma begins s : prefix_of ($"%{") s \/ ~ prefix_of ($"%{") s.
Proof.
  destruct s as [|b [|c s]]; try (right; intros (z & E); discriminate E).
  destruct (Byte.byte_eq_dec b x25) as [->|N]; [|right; intros (z & E); injection E as E _; contradiction].
  destruct (Byte.byte_eq_dec c x7b) as [->|N]; [left; exists s; reflexivity|right; intros (z & E); injection E as E _; contradiction].
Qed.

Lemma tight_opt_literal : tight (Opt literal).
Proof.
  intros s s' m t x R I. apply inv_opt in R. destruct R as [(s1 & R & E)|(R & E)]; injection E as ->.
  - exact (tight_literal _ _ _ _ _ R I).
  - apply literal_none in R. exact (shy_lit_step _ _ _ _ R I).
Qed.
Lemma tight_piece : tight piece.
Proof.
  intros s s' m t x R I. destruct (begins s) as [(z & ->)|Np].
  - pose proof R as L. apply inv_piece_begin in R. destruct R as [(z1 & -> & [(z2 & m1 & m2 & R1 & R2 & ->)|(m1 & _ & X & _)])|[(z1 & m1 & m2 & E & R & -> & H)|[(z1 & m1 & E & R & ->)|(_ & X & _)]]]; try discriminate.
    + apply in_app_or in I. destruct I as [I|I]; [|exact (tight_opt_literal _ _ _ _ _ R2 I)].
      pose proof (tight_name_close _ _ _ _ _ R1 I). apply rest_le in R2. lia.
    + destruct H as [(_ & X)|(-> & _)]; [discriminate|]. rewrite app_nil_r in I. destruct I as [I|I]; [|exact (tight_set_rest _ _ _ _ _ R I)].
      injection I as <- _. apply rest_le in R. rewrite E, app_length. lia.
    + destruct I as [I|[I|I]]; [| |exact (tight_int_rest _ _ _ _ _ R I)]; injection I as <- _; apply rest_le in R; rewrite E, app_length; lia.
  - destruct (inv_piece_text _ _ _ R Np) as (m1 & m2 & R1 & -> & H). rewrite H in I by discriminate. rewrite app_nil_r in I.
    destruct I as [I|I]; [|exact (tight_literal _ _ _ _ _ R1 I)]. injection I as <- _. exact (rest_le _ _ _ _ R).
Qed.

(** A piece that fails begins with a percent sign and a brace, and its failure is noted after them. *)
Lemma piece_fails s m : run piece s None m -> s <> [] ->
  exists z, s = $"%{" ++ z /\ exists t x, In (t, x) m /\ length t <= length z.
Proof.
  intros R Ns. destruct (begins s) as [(z & ->)|Np].
  - exists z. split; [reflexivity|]. apply inv_piece_begin in R.
    destruct R as [(z1 & -> & [(z2 & m1 & m2 & _ & R2 & _)|(m1 & R1 & _ & ->)])|[(z1 & m1 & m2 & _ & _ & -> & _)|[(z1 & m1 & _ & _ & ->)|(_ & _ & ->)]]].
    + destruct (opt_some _ _ _ _ R2). discriminate.
    + exists ($"GREEDY" ++ z1), ($"SET"). split; [apply in_or_app; right; left; reflexivity|lia].
    + exists z, ($"GREEDY"). split; [left; reflexivity|lia].
    + exists z, ($"GREEDY"). split; [left; reflexivity|lia].
    + exists z, ($"GREEDY"). split; [left; reflexivity|lia].
  - exfalso. destruct (inv_piece_text _ _ _ R Np) as (m1 & m2 & R1 & _ & _). apply literal_none, inv_lit_step in R1.
    destruct R1 as [(P & _)|[(E & _)|(c & s2 & _ & _ & _ & X & _)]]; [contradiction|contradiction|discriminate].
Qed.
Lemma tail_long s s1 m : run (Many piece) s (Some s1) m -> s1 <> [] -> within m -> length q + 2 <= length s.
Proof.
  intros R N1. remember (Many piece) as e eqn:E. remember (Some s1) as o eqn:Eo. induction R; try discriminate; injection E as ->; intros W; subst.
  - specialize (IHR2 eq_refl eq_refl (within_r _ _ W)). apply rest_le in R1. lia.
  - injection Eo as <-. destruct (piece_fails _ _ R N1) as (z & -> & t & x & I & L). specialize (W _ _ I). rewrite app_length. change (length ($"%{")) with 2. lia.
Qed.

Lemma align k w z : k ++ z = w ++ q -> length q <= length z -> exists w1, w = k ++ w1 /\ z = w1 ++ q.
Proof. intros E L. destruct (cut_prefix _ _ _ E) as [H|(_ & X)]; [exact H|lia]. Qed.
Lemma drop_begin w z : w ++ q = $"%{" ++ z -> 2 <= length w -> exists w1, w = $"%{" ++ w1 /\ z = w1 ++ q.
Proof.
  intros E L. symmetry in E. destruct (cut_prefix _ _ _ E) as [H|(X & _)]; [exact H|change (length ($"%{")) with 2 in X; lia].
Qed.

Lemma piece_same w w2 m r' m' : run piece (w ++ q) (Some (w2 ++ q)) m -> 2 <= length w2 -> within m ->
  run piece (w ++ y) r' m' -> cov m \/ hyp \/ r' = Some (w2 ++ y).
Proof.
  intros R L W S. pose proof (suffix_long _ _ _ _ R) as L2. destruct (begins (w ++ q)) as [(z & Ez)|Np].
  - destruct (drop_begin _ _ Ez ltac:(lia)) as (w1 & -> & ->). rewrite <- app_assoc in R, S. apply inv_piece_begin in R.
    destruct R as [(z1 & E & [(z2 & m1 & m2 & R1 & R2 & ->)|(m1 & _ & X & _)])|[(z1 & m1 & m2 & E & R & -> & H)|[(z1 & m1 & E & R & ->)|(_ & X & _)]]]; try discriminate.
    + assert (length q <= length z2) as Lz by (apply rest_le in R2; rewrite app_length in R2; lia).
      destruct (align ($"GREEDY") w1 z1 (eq_sym E)) as (w3 & -> & ->); [apply rest_le in R1; lia|].
      rewrite <- app_assoc in S. apply piece_greedy in S. destruct S as (r1 & m3 & S1 & S2).
      destruct (sim_name_close _ _ _ _ _ R1 S1 (within_l _ _ W)) as [H|H|s0 H1 H2|w4 H1 H2|H1 H2|X H1 H2 H3]; try discriminate.
      * left. apply cov_l, H.
      * right. left. exact H.
      * injection H1 as ->. lia.
      * injection H1 as ->. subst r1. destruct S2 as (m4 & S2). right. right. exact (opt_literal_same _ _ _ _ _ R2 L S2).
    + destruct H as [(_ & X)|(-> & _)]; [discriminate|]. rewrite app_nil_r in W |- *.
      destruct (align ($"SET") w1 z1 (eq_sym E)) as (w3 & -> & ->); [apply rest_le in R; rewrite app_length in R; lia|].
      rewrite <- app_assoc in S. apply piece_set in S. destruct S as (m3 & S).
      destruct (sim_set_rest _ _ _ _ _ R S (within_r [_] _ W)) as [H|H|s0 H1 H2|w4 H1 H2|H1 H2|X H1 H2 H3]; try discriminate.
      * left. apply (cov_r [_]), H.
      * right. left. exact H.
      * injection H1 as <-. rewrite app_length in H2. lia.
      * injection H1 as H1. apply app_inv_tail in H1. subst w4. auto.
    + destruct (align ($"INT") w1 z1 (eq_sym E)) as (w3 & -> & ->); [apply rest_le in R; rewrite app_length in R; lia|].
      rewrite <- app_assoc in S. apply piece_int in S. destruct S as (m3 & S).
      destruct (sim_int_rest _ _ _ _ _ R S (within_r [_; _] _ W)) as [H|H|s0 H1 H2|w4 H1 H2|H1 H2|X H1 H2 H3]; try discriminate.
      * left. apply (cov_r [_; _]), H.
      * right. left. exact H.
      * injection H1 as <-. rewrite app_length in H2. lia.
      * injection H1 as H1. apply app_inv_tail in H1. subst w4. auto.
  - right. right. destruct (inv_piece_text _ _ _ R Np) as (m1 & m2 & R1 & _ & _).
    assert (~ prefix_of ($"%{") (w ++ y)) as Np' by (intros X; apply Np; refine (prefix_cut ($"%{") _ _ _ _ X); change (length ($"%{")) with 2; lia).
    destruct (inv_piece_text _ _ _ S Np') as (m3 & m4 & S1 & _ & _). exact (literal_same _ _ _ _ _ R1 L S1).
Qed.

Lemma set_unmarked z : run set_rest z None [] -> prefix_of ($"(""""") z.
Proof.
  intros R. apply inv_seq in R. destruct R as [(s1 & m1 & m2 & R1 & R2 & E)|(R1 & _)]; [|destruct (noted_text _ _ _ R1 eq_refl)].
  symmetry in E. apply app_eq_nil in E. destruct E as (-> & ->). apply inv_text in R1.
  destruct R1 as [(s2 & -> & E & _)|(_ & X & _)]; [injection E as <-|discriminate].
  apply inv_seq in R2. destruct R2 as [(s2 & m1 & m2 & _ & R2 & E)|(R1 & _)].
  { symmetry in E. apply app_eq_nil in E. destruct E as (_ & ->).
    destruct (noted_seq _ _ noted_set_close noted_name_close _ _ R2 eq_refl). }
  apply inv_seq in R1. destruct R1 as [(s2 & m1 & m2 & R1 & R2 & E)|(R1 & _)]; [|destruct (noted_text _ _ _ R1 eq_refl)].
  symmetry in E. apply app_eq_nil in E. destruct E as (-> & ->). apply inv_text in R1.
  destruct R1 as [(s3 & -> & E & _)|(_ & X & _)]; [injection E as <-|discriminate].
  apply inv_string_rest in R2. destruct R2 as [(s3 & m1 & m2 & R1 & R2 & E)|(R1 & _)].
  { symmetry in E. apply app_eq_nil in E. destruct E as (_ & ->).
    destruct (noted_seq _ _ (noted_many quoted) (noted_text _) _ _ R2 eq_refl). }
  apply inv_quoted in R1. destruct R1 as [(z & -> & _)|[(_ & _ & X)|(c & s3 & _ & _ & _ & X & _)]]; try discriminate.
  exists z. reflexivity.
Qed.

Definition empty_set : Prop := prefix_of ($"SET(""""") q /\ prefix_of ($"SET") y.

Lemma early_cons w x m : w <> [] -> early m -> early ((w ++ q, x) :: m).
Proof. intros N H. apply (early_app [_]); [apply early_one, N|exact H]. Qed.

Lemma last_piece w m t m' : run piece ($"%{" ++ w ++ q) None m -> within m ->
  run piece ($"%{" ++ w ++ y) (Some t) m' -> cov m \/ hyp \/ empty_set \/ early m.
Proof.
  intros R W S. pose proof S as S0. apply inv_piece_begin in R.
  destruct R as [(z1 & E & [(z2 & m1 & m2 & _ & R2 & _)|(m1 & R1 & _ & ->)])|[(z1 & m1 & m2 & E & R & -> & H)|[(z1 & m1 & E & R & ->)|(_ & _ & ->)]]].
  - destruct (opt_some _ _ _ _ R2). discriminate.
  - destruct (align ($"GREEDY") w z1 (eq_sym E)) as (w1 & -> & ->).
    { destruct (Nat.le_gt_cases (length q) (length z1)) as [H|H]; [exact H|]. destruct (not_beyond _ _ _ R1 noted_name_close (within_l _ _ W) H). }
    rewrite <- app_assoc in S. apply piece_greedy in S. destruct S as (r1 & m3 & S1 & S2).
    destruct (sim_name_close _ _ _ _ _ R1 S1 (within_l _ _ W)) as [H|H|s0 H1 H2|w4 H1 H2|H1 H2|X H1 H2 H3]; try discriminate.
    + left. apply cov_l, H.
    + right. left. exact H.
    + subst r1. discriminate S2.
    + right. right. right. apply early_app; [exact H2|]. do 2 (apply early_cons; [discriminate|]). apply early_nil.
  - destruct (Nat.le_gt_cases (length q) (length z1)) as [L|L].
    + destruct (align ($"SET") w z1 (eq_sym E) L) as (w1 & -> & ->).
      rewrite <- app_assoc in S. apply piece_set in S. destruct S as (m3 & S).
      destruct (sim_set_rest _ _ _ _ _ R S (within_l _ _ (within_r [_] _ W))) as [X|X|s0 H1 H2|w4 H1 H2|H1 H2|X H1 H2 H3]; try discriminate.
      * left. apply (cov_r [_]), cov_l, X.
      * right. left. exact X.
      * right. right. right. apply early_cons; [discriminate|]. apply early_app; [exact H2|].
        destruct H as [(-> & _)|(-> & _)]; [|apply early_nil]. apply early_cons; [discriminate|apply early_nil].
    + (** nothing noted after the keyword *)
      assert (m1 = []) as ->.
      { destruct m1 as [|(t1, x1) m1]; [reflexivity|]. exfalso.
        pose proof (mark_le _ _ _ _ t1 x1 R (or_introl eq_refl)). specialize (W t1 x1 (or_intror (or_introl eq_refl))). lia. }
      destruct H as [(-> & _)|(_ & H)]; [|destruct (H eq_refl eq_refl)]. cbn [app] in *. destruct w as [|b w].
      2: { right. right. right. do 2 (apply (early_cons (b :: w)); [discriminate|]). apply early_nil. }
      cbn [app] in *. apply inv_piece_begin in S0.
      destruct S0 as [(z & Ey & _)|[(z & _ & _ & Ey & _)|[(z & _ & Ey & _)|(_ & X & _)]]]; [| | |discriminate].
      * left. exists ($"GREEDY"), ($"GREEDY"). split; [left; reflexivity|]. split; [constructor; exact I|exists z; exact Ey].
      * right. right. left. split; [|exists z; exact Ey]. apply set_unmarked in R. destruct R as (z0 & ->). exists z0. exact E.
      * left. exists ($"INT"), ($"INT"). split; [right; left; reflexivity|]. split; [constructor; exact I|exists z; exact Ey].
  - destruct (align ($"INT") w z1 (eq_sym E)) as (w1 & -> & ->).
    { destruct (Nat.le_gt_cases (length q) (length z1)) as [H|H]; [exact H|]. destruct (not_beyond _ _ _ R noted_int_rest (within_r [_; _] _ W) H). }
    rewrite <- app_assoc in S. apply piece_int in S. destruct S as (m3 & S).
    destruct (sim_int_rest _ _ _ _ _ R S (within_r [_; _] _ W)) as [H|H|s0 H1 H2|w4 H1 H2|H1 H2|X H1 H2 H3]; try discriminate.
    + left. apply (cov_r [_; _]), H.
    + right. left. exact H.
    + right. right. right. do 2 (apply early_cons; [discriminate|]). exact H2.
  - destruct w as [|b w].
    2: { right. right. right. do 3 (apply (early_cons (b :: w)); [discriminate|]). apply early_nil. }
    left. cbn [app] in *. apply inv_piece_begin in S0.
    destruct S0 as [(z & Ey & _)|[(z & _ & _ & Ey & _)|[(z & _ & Ey & _)|(_ & X & _)]]]; [| | |discriminate].
    + exists ($"GREEDY"), ($"GREEDY"). split; [left; reflexivity|]. split; [constructor; exact I|exists z; exact Ey].
    + exists ($"SET"), ($"SET"). split; [right; left; reflexivity|]. split; [constructor; exact I|exists z; exact Ey].
    + exists ($"INT"), ($"INT"). split; [right; right; left; reflexivity|]. split; [constructor; exact I|exists z; exact Ey].
Qed.

Lemma all_pieces w s1 m m' : run (Many piece) (w ++ q) (Some s1) m -> s1 <> [] -> within m ->
  run (Many piece) (w ++ y) (Some []) m' -> cov m \/ hyp \/ empty_set \/ early m.
Proof.
  intros R N1. remember (Many piece) as e eqn:E. remember (w ++ q) as s eqn:Es. remember (Some s1) as o eqn:Eo. revert w m' Es.
  induction R; try discriminate; injection E as ->; intros w m2 Es W S; subst; apply inv_many in S.
  - pose proof (tail_long _ _ _ R2 N1 (within_r _ _ W)) as L.
    assert (exists w2, s' = w2 ++ q /\ 2 <= length w2) as (w2 & -> & L2).
    { pose proof (run_suffix _ _ _ _ R1) as (X & _). destruct (X _ eq_refl) as (v & Ev). symmetry in Ev.
      destruct (align v w s' Ev ltac:(lia)) as (w2 & _ & ->). exists w2. split; [reflexivity|]. rewrite app_length in L. lia. }
    assert (forall r0 m0, run piece (w ++ y) r0 m0 -> cov m \/ hyp \/ r0 = Some (w2 ++ y)) as P.
    { intros r0 m0 S0. exact (piece_same _ _ _ _ _ R1 L2 (within_l _ _ W) S0). }
    destruct S as [(t & m3 & m4 & S3 & S4 & _)|(S3 & _)]; destruct (P _ _ S3) as [H|[H|H]]; auto; try (left; apply cov_l, H); try discriminate.
    injection H as ->. destruct (IHR2 eq_refl eq_refl _ _ eq_refl (within_r _ _ W) S4) as [H|[H|[H|H]]]; auto.
    + left. apply cov_r, H.
    + right. right. right. apply early_app; [|exact H]. apply (tight_early _ _ _ _ tight_piece R1). intros ->. cbn [length] in L2. lia.
  - injection Eo as <-. pose proof (tail_long _ _ _ (run_many_done _ _ _ R) N1 W) as L. rewrite app_length in L.
    destruct (piece_fails _ _ R N1) as (z & Ez & _). destruct (drop_begin _ _ Ez ltac:(lia)) as (w1 & -> & ->).
    rewrite <- app_assoc in R. destruct S as [(t & m3 & m4 & S3 & S4 & _)|(_ & X)]; [|discriminate X].
    rewrite <- app_assoc in S3. exact (last_piece _ _ _ _ R W S3).
Qed.
End Cut.

(** ** The list of expected terminals is complete

    Whatever may follow the part of the text before the error begins with one of the listed terminals, but for
    two cases. *)
Theorem error_complete s e y ts : utf8 s -> utf8 y -> compile s = Ret (Err e) ->
  compile (firstn (pe_offset e) s ++ y) = Ret (Ok ts) ->
  exists x z, stands_for x z /\ prefix_of z y /\
    (In x (pe_expected e) \/
     (x = $"SET" /\ prefix_of ($"SET(""""") (skipn (pe_offset e) s)) \/
     (x = $"[a-z-A-Z0-9_.]" /\ exists c z', skipn (pe_offset e) s = c :: x2d :: z')).
Proof.
  intros U Uy E Et. destruct (error_marks s e U E) as (Uf & N & _).
  assert (utf8 (skipn (pe_offset e) s)) as Uq.
  { pose proof U as U'. rewrite <- (firstn_skipn (pe_offset e) s) in U'. exact (utf8_app_inv_r _ _ Uf U'). }
  destruct (compile_rustpeg s U ltac:(congruence)) as (r & m & R & H). rewrite E in H.
  destruct H as (Nr & Lo & _ & _ & Hx & Hw). 
  destruct (compile_rustpeg (firstn (pe_offset e) s ++ y)) as (r' & m' & R' & H'); [apply utf8_app; assumption|congruence|].
  rewrite Et in H'. subst r'.
  set (w := firstn (pe_offset e) s) in *. set (q := skipn (pe_offset e) s) in *.
  assert (s = w ++ q) as Es by (symmetry; apply firstn_skipn).
  assert (length q = length s - pe_offset e) as Lq by apply skipn_length.
  assert (within q m) as W by (intros t x I; specialize (Hw _ _ I); lia).
  assert (exists x, In (q, x) m) as (x0 & I0).
  { destruct (pe_expected e) as [|x l]; [contradiction|]. exists x. apply Hx. left. reflexivity. }
  apply inv_rule, inv_some in R. apply inv_rule, inv_some in R'. fold piece in R, R'.
  assert (run (Many piece) (w ++ y) (Some []) m') as S.
  { apply inv_seq in R'. destruct R' as [(t & m3 & m4 & S3 & S4 & ->)|(_ & X)]; [|discriminate]. eapply run_many; eassumption. }
  assert (s = [] \/ s <> []) as [Z|Z] by (destruct s; [left; reflexivity|right; discriminate]).
  - (** the empty text *)
    assert (w = [] /\ q = []) as (Ew & Eq_) by (rewrite Z in Es; symmetry in Es; apply app_eq_nil in Es; exact Es).
    rewrite Ew in *. cbn [app] in *. inversion Uy as [Ey|c y' C Uy' Ey].
    + rewrite <- Ey in Et. vm_compute in Et. discriminate.
    + exists ($"<character>"), c. split; [constructor; exact C|]. split; [exists y'; reflexivity|]. left. apply Hx.
      apply inv_seq in R. destruct R as [(s1 & m1 & m2 & R1 & _ & _)|(R1 & _)].
      * destruct (inv_piece_text _ _ _ R1) as (m3 & m4 & R3 & _ & _); [rewrite Z; intros (z & X); discriminate X|].
        apply inv_literal, inv_seq in R3. destruct R3 as [(s2 & m5 & m6 & R3 & _ & _)|(_ & X)]; [|discriminate].
        apply inv_lit_step in R3. destruct R3 as [(_ & X & _)|[(_ & X & _)|(c' & s3 & X & C' & _)]]; try discriminate.
        rewrite Z in X. symmetry in X. apply app_eq_nil in X. destruct X as (-> & _). discriminate C'.
      * destruct (inv_piece_text _ _ _ R1) as (m3 & m4 & R3 & -> & _); [rewrite Z; intros (z & X); discriminate X|].
        apply literal_none, inv_lit_step in R3. destruct R3 as [((z & X) & _)|[(_ & _ & ->)|(c' & s3 & _ & _ & _ & X & _)]]; [rewrite Z in X; discriminate X| |discriminate].
        fold q. rewrite Eq_. right. right. left. reflexivity.
  - assert (exists s1, run (Many piece) (w ++ q) (Some s1) m /\ s1 <> []) as (s1 & R1 & N1).
    { rewrite <- Es. apply inv_seq in R. destruct R as [(t & m3 & m4 & S3 & S4 & ->)|(S3 & ->)].
      - destruct (many_some _ _ _ _ S4) as (s1 & ->). exists s1. split; [eapply run_many; eassumption|]. intros ->. apply Nr. reflexivity.
      - exists s. split; [apply run_many_done, S3|exact Z]. }
    destruct (all_pieces q y Uq w s1 m m' R1 N1 W S) as [(x & z & I & H1 & H2)|[(H1 & b & z & Ey & H2)|[(H1 & H2)|H]]].
    + exists x, z. split; [exact H1|]. split; [exact H2|]. left. apply Hx, I.
    + exists ($"[a-z-A-Z0-9_.]"), [b]. split; [exact (stands_item _ _ read_next H2)|].
      split; [exists z; exact Ey|]. right. right. auto.
    + exists ($"SET"), ($"SET"). split; [constructor; exact I|]. split; [exact H2|]. right. left. auto.
    + specialize (H _ _ I0). lia.
Qed.

(** ** The error is where the text cannot be continued *)
Fixpoint honest (e : peg) : Prop :=
  match e with
  | Text k => plain k
  | AnyChar | Rule _ => True
  | Class c => readable c
  | Seq a b | Or a b | Sep a b => honest a /\ honest b
  | Opt a | Many a | Some_ a | Not a => honest a
  end.
Lemma honest_rules n : honest (rustpeg n).
Proof.
  destruct n; cbn [rustpeg honest]; repeat split; try exact I;
    first [exact read_next|exact read_first|exact read_digit|exact read_hyphen].
Qed.
Lemma brackets_inj a b : $"[" ++ a ++ $"]" = $"[" ++ b ++ $"]" -> a = b.
Proof.
  intros E. apply app_inv_head in E. change ($"]") with [x5d] in E. apply app_inj_tail in E. exact (proj1 E).
Qed.
(** Nothing is expected that is there. *)
Lemma text_honest k t z : plain k -> ~ prefix_of k t -> stands_for k z -> ~ prefix_of z t.
Proof.
  intros P N S. remember k as x eqn:E. destruct S as [k' H|c b H|c H]; subst k.
  - exact N.
  - exfalso. exact P.
  - exfalso. exact P.
Qed.
Lemma class_honest c t z : readable c -> (forall b t', t = b :: t' -> ~ in_class c b) -> stands_for (class_text c) z -> ~ prefix_of z t.
Proof.
  intros (u & Eu & <-) N S. rewrite Eu in S. remember ($"[" ++ u ++ $"]") as x eqn:E. destruct S as [k H|v b H|d H].
  - subst k. destruct H.
  - apply brackets_inj in E. subst v. intros (t' & ->). exact (N _ _ eq_refl H).
  - discriminate E.
Qed.
Lemma any_honest z : stands_for ($"<character>") z -> ~ prefix_of z [].
Proof.
  intros S. remember ($"<character>") as x eqn:E. destruct S as [k H|v b H|d H].
  - subst k. destruct H.
  - intros (t & X). discriminate X.
  - intros (t & X). symmetry in X. apply app_eq_nil in X. destruct X as (-> & _). discriminate H.
Qed.
Lemma marks_honest e s r m : run e s r m -> honest e -> forall t x z, In (t, x) m -> stands_for x z -> ~ prefix_of z t.
Proof.
  induction 1; cbn [honest]; intros He t0 x0 z0 J S; try (destruct J; fail).
  - destruct J as [J|[]]. injection J as <- <-. exact (text_honest _ _ _ He H S).
  - destruct J as [J|[]]. injection J as <- <-. exact (any_honest _ S).
  - destruct J as [J|[]]. injection J as <- <-. exact (class_honest _ _ _ He H S).
  - apply in_app_or in J. destruct He, J as [J|J]; eauto.
  - destruct He. eauto.
  - destruct He. eauto.
  - apply in_app_or in J. destruct He, J as [J|J]; eauto.
  - eauto.
  - eauto.
  - apply in_app_or in J. destruct J as [J|J]; eauto.
  - eauto.
  - apply (IHrun (conj He He) _ _ _ J S).
  - apply (IHrun (conj (proj1 He) (conj (proj2 He) (proj1 He))) _ _ _ J S).
  - eauto.
  - eauto.
  - exact (IHrun (honest_rules n) _ _ _ J S).
Qed.
Lemma expected_honest s e x z : utf8 s -> compile s = Ret (Err e) -> In x (pe_expected e) -> stands_for x z ->
  ~ prefix_of z (skipn (pe_offset e) s).
Proof.
  intros U E I S. destruct (compile_rustpeg s U ltac:(congruence)) as (r & m & R & H). rewrite E in H.
  destruct H as (_ & _ & _ & _ & Hx & _). exact (marks_honest _ _ _ _ R Logic.I _ _ _ (proj1 (Hx _) I) S).
Qed.

Lemma prefixes a b s : prefix_of a s -> prefix_of b s -> prefix_of a b \/ prefix_of b a.
Proof.
  revert b s. induction a as [|x a IH]; intros b s (u & ->) (v & E); [left; exists b; reflexivity|].
  destruct b as [|y b]; [right; exists (x :: a); reflexivity|]. cbn [app] in E. injection E as <- E.
  destruct (IH b (a ++ u)) as [(t & ->)|(t & ->)]; [exists u; reflexivity|exists v; exact E|left|right]; exists t; reflexivity.
Qed.
Lemma prefix_trans (a b s : str) : prefix_of a b -> prefix_of b s -> prefix_of a s.
Proof. intros (u & ->) (v & ->). exists (u ++ v). symmetry. apply app_assoc. Qed.

Theorem error_stuck s e c r z ts : utf8 s -> compile s = Ret (Err e) ->
  skipn (pe_offset e) s = c ++ r -> utf8_char c = true -> utf8 z ->
  compile (firstn (pe_offset e) s ++ c ++ z) = Ret (Ok ts) ->
  (exists k, In k (pe_expected e) /\ prefix_of c k /\ prefix_of k (c ++ z) /\ ~ prefix_of k (c ++ r)) \/
  prefix_of ($"SET(""""") (c ++ r) \/
  (exists b r', c ++ r = b :: x2d :: r').
Proof.
  intros U E Eq_ C Uz Et.
  destruct (error_complete s e (c ++ z) ts U ltac:(constructor; assumption) E Et) as (x & k & S & P & [I|[(_ & H)|(_ & b & r' & H)]]).
  2: { right. left. rewrite <- Eq_. exact H. }
  2: { right. right. exists b, r'. rewrite <- Eq_. exact H. }
  pose proof (expected_honest s e x k U E I S) as Np. rewrite Eq_ in Np.
  assert (prefix_of c (c ++ z)) as Pc by (exists z; reflexivity).
  destruct (prefixes _ _ _ P Pc) as [K|K].
  { exfalso. apply Np. apply (prefix_trans _ _ _ K). exists r. reflexivity. }
  destruct S as [k H|t b H|d H].
  - left. exists k. auto.
  - exfalso. apply Np. destruct K as (u & K). destruct c as [|b' c]; [discriminate C|]. injection K as -> _. exists (c ++ r). reflexivity.
  - exfalso. apply Np. destruct P as (u & P). destruct (first_char_unique _ _ _ _ C H P) as (-> & _). exists r. reflexivity.
Qed.
