(** * The order in which patterns are added *)
From Coq Require Import Sorted Permutation.
From Verif Require Import Base Base_facts Utils Utils_facts Parsers Pattern Spec TrieSpec
  TrieSpec_facts TrieSpec_props TrieSpec_cases TableSpec Table_content Spec_order.

(** ** Sorted maps are determined by what they map to *)
Lemma sorted_lt_neq (k : str) ks : Forall (str_lt k) ks -> ~ In k ks.
Proof.
  intros H Hi. rewrite Forall_forall in H. specialize (H k Hi). unfold str_lt in H.
  rewrite str_cmp_refl in H. discriminate.
Qed.

Lemma lookup_neq {A} k k' (e : A) K : k <> k' -> lookup k ((k', e) :: K) = lookup k K.
Proof.
  intros H. cbn [lookup]. destruct (str_eqb k k') eqn:E; [|reflexivity]. apply str_eqb_eq in E. contradiction.
Qed.

Lemma lookup_eq {A} k (e : A) K : lookup k ((k, e) :: K) = Some e.
Proof. cbn [lookup]. rewrite str_eqb_refl. reflexivity. Qed.

Lemma lookup_keys {A} k (K : list (str * A)) : lookup k K <> None <-> In k (keys K).
Proof.
  induction K as [|(k', e) K IH]; [simpl; tauto|]. cbn [lookup]. destruct (str_eqb k k') eqn:E.
  - apply str_eqb_eq in E. subst. simpl. split; [auto|discriminate].
  - rewrite IH. simpl. split; [auto|]. intros [->|H]; [rewrite str_eqb_refl in E; discriminate|exact H].
Qed.

Lemma sorted_ext : forall K K' : list (str * entry),
  sorted_keys K -> sorted_keys K' -> (forall k, lookup k K = lookup k K') -> K = K'.
Proof.
  assert (forall K, (forall k, lookup k K = @None entry) -> K = []) as Hnil.
  { intros [|(k, e) K] H; [reflexivity|]. specialize (H k). rewrite lookup_eq in H. discriminate. }
  induction K as [|(k, e) K IH]; intros K' HS HS' H.
  { symmetry. apply Hnil. intros k. rewrite <- H. reflexivity. }
  destruct K' as [|(k', e') K']; [apply Hnil; exact H|].
  inversion HS as [|? ? S1 F1]; subst. inversion HS' as [|? ? S2 F2]; subst.
  assert (k = k') as ->.
  { assert (k = k' \/ In k (keys K')) as [E|I1].
    { destruct (str_eqb k k') eqn:E; [left; apply str_eqb_eq; exact E|right].
      apply lookup_keys. specialize (H k). rewrite lookup_eq in H. cbn [lookup] in H. rewrite E in H. congruence. }
    { exact E. }
    assert (k' = k \/ In k' (keys K)) as [E|I2].
    { destruct (str_eqb k' k) eqn:E; [left; apply str_eqb_eq; exact E|right].
      apply lookup_keys. specialize (H k'). rewrite lookup_eq in H. cbn [lookup] in H. rewrite E in H. congruence. }
    { auto. }
    rewrite Forall_forall in F1, F2. specialize (F1 k' I2). specialize (F2 k I1).
    pose proof (str_cmp_lt_trans k k' k F1 F2) as X. rewrite str_cmp_refl in X. discriminate. }
  f_equal.
  - pose proof (H k') as E. rewrite !lookup_eq in E. congruence.
  - apply IH; [exact S1|exact S2|]. intros k. destruct (str_eqb k k') eqn:E.
    + apply str_eqb_eq in E. subst k. 
      assert (lookup k' K = None) as ->.
      { destruct (lookup k' K) eqn:X; [|reflexivity]. exfalso. apply (sorted_lt_neq k' (keys K) F1).
        apply lookup_keys. congruence. }
      destruct (lookup k' K') eqn:X; [|reflexivity]. exfalso. apply (sorted_lt_neq k' (keys K') F2).
      apply lookup_keys. congruence.
    + specialize (H k). cbn [lookup] in H. rewrite E in H. exact H.
Qed.

Lemma lookup_mid {A} (X Y : list (str * A)) k e :
  ~ In k (keys X) -> lookup k (X ++ (k, e) :: Y) = Some e.
Proof. intros H. rewrite lookup_app, (lookup_none k X H), lookup_eq. reflexivity. Qed.

Lemma lookup_mid_neq {A} (X Y : list (str * A)) k k' e :
  k' <> k -> lookup k' (X ++ (k, e) :: Y) = lookup k' (X ++ Y).
Proof. intros H. rewrite !lookup_app, lookup_neq by exact H. reflexivity. Qed.

Lemma sorted_mid K X Y k e :
  K = X ++ (k, e) :: Y -> sorted_keys K -> ~ In k (keys X).
Proof.
  intros -> HS. unfold sorted_keys in HS. rewrite keys_app in HS. cbn [keys map fst] in HS. intros Hi.
  induction X as [|(x, e') X IH]; [destruct Hi|]. simpl in HS. inversion HS as [|? ? S1 F1]; subst.
  destruct Hi as [E|Hi]; [|exact (IH S1 Hi)]. simpl in E, F1. subst x. rewrite Forall_forall in F1.
  specialize (F1 k). assert (str_lt k k) as X0 by (apply F1; apply in_or_app; right; left; reflexivity).
  unfold str_lt in X0. rewrite str_cmp_refl in X0. discriminate.
Qed.

Definition entry0 (o : option entry) : entry := match o with Some e => e | None => (None, None) end.

Lemma lookup_upsert k l f K :
  sorted_keys K ->
  lookup k (upsert l f K) = if str_eqb k l then Some (f (entry0 (lookup l K))) else lookup k K.
Proof.
  intros HS. destruct (str_eqb k l) eqn:E.
  - apply str_eqb_eq in E. subst k. destruct (upsert_split l f K) as (A & C & [(E1 & E2)|(e & E1 & E2)]).
    + pose proof (upsert_sorted l f K HS) as HS'. rewrite E1.
      pose proof (sorted_mid _ A C l _ E1 HS') as Hn. rewrite lookup_mid by exact Hn.
      assert (lookup l K = None) as ->; [|reflexivity].
      rewrite E2, lookup_app, (lookup_none l A Hn). apply lookup_none. intros Hi.
      unfold sorted_keys in HS'. rewrite E1, keys_app in HS'. cbn [keys map fst] in HS'.
      clear -HS' Hi. induction A as [|a A IH]; simpl in HS'; inversion HS' as [|? ? S F]; subst.
      * apply (sorted_lt_neq l (keys C) F Hi).
      * apply IH. exact S.
    + rewrite E1, E2. pose proof (sorted_mid _ A C l e E2 HS) as Hn. rewrite !lookup_mid by exact Hn. reflexivity.
  - apply lookup_upsert_other. intros ->. rewrite str_eqb_refl in E. discriminate.
Qed.

(** ** Routing *)
Definition has_child (e : entry) : bool := match snd e with Some _ => true | None => false end.

Definition route (K : list (str * entry)) (l : str) : option str :=
  option_map fst (find (fun x => (has_child (snd x) && routes (keys K) (fst x) l)%bool) K).

Lemma routes_unique ks k k' l :
  In k ks -> In k' ks -> routes ks k l = true -> routes ks k' l = true -> k = k'.
Proof.
  intros I I' R R'. apply routes_spec in R, R'.
  destruct R as (_ & (r & E & _) & N). destruct R' as (_ & (r' & E' & _) & N'). subst l.
  specialize (N k' I'). specialize (N' k I).
  assert (forall a b r r' : str, a ++ r = b ++ r' -> (exists w, b = a ++ w) \/ (exists w, a = b ++ w)) as Hpre.
  { clear. induction a as [|x a IH]; intros [|y b] r r' E; simpl in E;
      [left; exists []; reflexivity|left; exists (y :: b); reflexivity|right; exists (x :: a); reflexivity|].
    inversion E as [[E0 E1]]; subst y. destruct (IH b r r' E1) as [(w & ->)|(w & ->)]; [left|right]; exists w; reflexivity. }
  destruct (Hpre k k' r r' E') as [(w & ->)|(w & ->)].
  - destruct w as [|x w]; [rewrite app_nil_r; reflexivity|]. exfalso.
    assert (proper_prefixb k (k ++ x :: w) = true) as X; [|congruence].
    apply proper_prefixb_spec. exists (x :: w). split; [reflexivity|discriminate].
  - destruct w as [|x w]; [rewrite app_nil_r; reflexivity|]. exfalso.
    assert (proper_prefixb k' (k' ++ x :: w) = true) as X; [|congruence].
    apply proper_prefixb_spec. exists (x :: w). split; [reflexivity|discriminate].
Qed.

Lemma lookup_In_sorted K k e : sorted_keys K -> In (k, e) K -> lookup k K = Some e.
Proof.
  intros HS Hi. apply in_split in Hi. destruct Hi as (X & Y & E). rewrite E.
  apply lookup_mid. apply (sorted_mid K X Y k e E HS).
Qed.

Lemma route_some K l k :
  sorted_keys K ->
  (route K l = Some k <->
   (exists po c, lookup k K = Some (po, Some c)) /\ routes (keys K) k l = true).
Proof.
  intros HS. unfold route. split.
  - destruct (find _ K) as [(k', (po, co))|] eqn:E; [|discriminate]. cbn [option_map fst]. intros H. inversion H; subst k'.
    apply find_some in E. destruct E as (Hi & E). apply andb_true_iff in E. destruct E as (E1 & E2). cbn [fst snd] in *.
    split; [|exact E2]. destruct co as [c|]; [|discriminate]. exists po, c. apply lookup_In_sorted; assumption.
  - intros ((po & c & El) & R). pose proof (lookup_in _ _ _ El) as Hi.
    destruct (find _ K) as [(k', e')|] eqn:E.
    + apply find_some in E. destruct E as (Hi' & E). apply andb_true_iff in E. destruct E as (_ & E2). cbn [fst snd] in *.
      cbn [option_map fst]. f_equal. apply (routes_unique (keys K) k' k l); auto.
      * apply lookup_keys. rewrite (lookup_In_sorted K k' e' HS Hi'). discriminate.
      * apply lookup_keys. congruence.
    + exfalso. apply (find_none _ K E) in Hi. cbn [fst snd has_child] in Hi. rewrite R in Hi. discriminate.
Qed.

Lemma route_none K l :
  sorted_keys K ->
  (route K l = None <-> forall k po c, lookup k K = Some (po, Some c) -> routes (keys K) k l = false).
Proof.
  intros HS. split.
  - intros H k po c El. destruct (routes (keys K) k l) eqn:R; [|reflexivity].
    assert (route K l = Some k) by (apply route_some; eauto). congruence.
  - intros H. destruct (route K l) as [k|] eqn:E; [|reflexivity].
    apply (route_some K l k HS) in E. destruct E as ((po & c & El) & R). rewrite (H k po c El) in R. discriminate.
Qed.

(** ** [enter] by lookup *)
Definition down (l : str) (f : entry -> entry) (e : entry) : entry :=
  (fst e, option_map (fun c => enter c l f) (snd e)).

Definition entered (K : list (str * entry)) (l : str) (f : entry -> entry) (k : str) : option entry :=
  match route K l with
  | Some k0 => if str_eqb k k0 then option_map (down (skipn (length k0) l) f) (lookup k0 K) else lookup k K
  | None => if str_eqb k l then Some (f (entry0 (lookup l K))) else lookup k K
  end.

Lemma enter_lookup K P l f :
  sorted_keys K ->
  exists K', enter (Level K P) l f = Level K' P /\ sorted_keys K' /\
    forall k, lookup k K' = entered K l f k.
Proof.
  intros HS. pose proof (enter_sorted K P l f HS) as HS'. rewrite enter_unfold in *.
  destruct (enter_literals enter (keys K) K l f) as [K'|] eqn:E; cbn [lits_of] in HS'.
  - exists K'. split; [reflexivity|]. split; [exact HS'|]. intros k.
    apply enter_literals_some in E. destruct E as (A & k0 & po & c & C & EK & R & ->).
    assert (lookup k0 K = Some (po, Some c)) as El.
    { rewrite EK. apply lookup_mid. exact (sorted_mid K A C k0 _ EK HS). }
    assert (route K l = Some k0) as Er by (apply route_some; eauto).
    unfold entered. rewrite Er, El. cbn [option_map down fst snd].
    pose proof (sorted_mid K A C k0 _ EK HS) as Hn.
    destruct (str_eqb k k0) eqn:Ek.
    + apply str_eqb_eq in Ek. subst k. apply lookup_mid. exact Hn.
    + assert (k <> k0) by (intros ->; rewrite str_eqb_refl in Ek; discriminate).
      rewrite EK. rewrite !lookup_mid_neq by assumption. reflexivity.
  - exists (upsert l f K). split; [reflexivity|]. split; [exact HS'|]. intros k.
    assert (route K l = None) as Er.
    { apply route_none; [exact HS|]. intros k0 po c El. destruct (routes (keys K) k0 l) eqn:R; [|reflexivity].
      apply lookup_in in El. apply in_split in El. destruct El as (A & C & EK). exfalso.
      rewrite EK in E at 2. rewrite enter_literals_app in E.
      destruct (enter_literals enter (keys K) A l f); [discriminate|].
      cbn [enter_literals] in E. rewrite R in E. discriminate. }
    unfold entered. rewrite Er. apply lookup_upsert. exact HS.
Qed.

Lemma entered_keys K l f k :
  sorted_keys K ->
  (entered K l f k <> None <-> In k (keys K) \/ (route K l = None /\ k = l)).
Proof.
  intros HS. unfold entered. destruct (route K l) as [k0|] eqn:Er.
  - apply (route_some K l k0 HS) in Er. destruct Er as ((po & c & El) & _).
    destruct (str_eqb k k0) eqn:E.
    + apply str_eqb_eq in E. subst k. rewrite El. cbn [option_map]. rewrite <- lookup_keys, El.
      split; [left; discriminate|discriminate].
    + rewrite lookup_keys. split; [auto|]. intros [H|(H & _)]; [exact H|discriminate].
  - destruct (str_eqb k l) eqn:E.
    + apply str_eqb_eq in E. subst k. split; [auto|discriminate].
    + rewrite lookup_keys. split; [auto|]. intros [H|(_ & ->)]; [exact H|rewrite str_eqb_refl in E; discriminate].
Qed.

(** ** Hereditarily sorted levels *)
Inductive lsorted : level -> Prop :=
| lsorted_level K P :
    sorted_keys K -> (forall k po c, lookup k K = Some (po, Some c) -> lsorted c) -> lsorted (Level K P).

Definition esorted (e : entry) : Prop := forall c, snd e = Some c -> lsorted c.
Definition fsorted (f : entry -> entry) : Prop := forall e, esorted e -> esorted (f e).

Lemma enter_lsorted L : lsorted L -> forall l f, fsorted f -> lsorted (enter L l f).
Proof.
  induction L as [K P IHK _] using level_nested_ind. intros HL l f Hf.
  inversion HL as [? ? HS HC]; subst.
  destruct (enter_lookup K P l f HS) as (K' & -> & HS' & HE). constructor; [exact HS'|].
  intros k po c. rewrite HE. unfold entered. destruct (route K l) as [k0|].
  - destruct (str_eqb k k0); [|apply HC].
    destruct (lookup k0 K) as [(po', [c'|])|] eqn:El; cbn [option_map down fst snd]; intros H; inversion H; subst.
    apply (IHK k0 po c'); [apply lookup_in; exact El|exact (HC k0 po c' El)|exact Hf].
  - destruct (str_eqb k l); [|apply HC]. intros H. inversion H as [E]. apply (Hf (entry0 (lookup l K))).
    + intros c0 E0. destruct (lookup l K) as [(po', co')|] eqn:El; cbn [entry0 snd] in E0; [|discriminate].
      subst co'. exact (HC l po' c0 El).
    + rewrite E. reflexivity.
Qed.

(** ** Incomparable literals commute *)
Definition unrelated (a b : str) : Prop := prefixb a b = false /\ prefixb b a = false.

Lemma unrelated_sym a b : unrelated a b -> unrelated b a.
Proof. unfold unrelated. tauto. Qed.

Lemma unrelated_neq a b : unrelated a b -> a <> b.
Proof.
  intros (H & _) ->. assert (prefixb b b = true); [|congruence].
  apply prefixb_app. exists []. rewrite app_nil_r. reflexivity.
Qed.

(** Entering [l2] does not change where [l1] goes. *)
Lemma route_stays K P l1 l2 f K' :
  sorted_keys K -> unrelated l1 l2 -> (forall e, has_child e = true -> has_child (f e) = true) ->
  enter (Level K P) l2 f = Level K' P -> route K' l1 = route K l1.
Proof.
  intros HS HU Hf E. destruct (enter_lookup K P l2 f HS) as (K2 & E2 & HS' & HE).
  assert (K2 = K') as -> by congruence. clear E2.
  assert (forall k, In k (keys K') <-> In k (keys K) \/ (route K l2 = None /\ k = l2)) as HK.
  { intros k. rewrite <- lookup_keys, HE. apply entered_keys. exact HS. }
  destruct (route K l1) as [k|] eqn:R1.
  - apply (route_some K l1 k HS) in R1. destruct R1 as ((po & c & El) & R).
    apply (route_some K' l1 k HS'). split.
    + rewrite HE. unfold entered. destruct (route K l2) as [k2|].
      * destruct (str_eqb k k2) eqn:Ek; [|eauto]. apply str_eqb_eq in Ek. subst k2. rewrite El.
        exists po, (enter c (skipn (length k) l2) f). reflexivity.
      * destruct (str_eqb k l2) eqn:Ek; [|eauto]. apply str_eqb_eq in Ek. subst k. exfalso.
        apply routes_spec in R. destruct R as (_ & (r & -> & _) & _). destruct HU as (_ & HU).
        assert (prefixb l2 (l2 ++ r) = true); [|congruence]. apply prefixb_app. eauto.
    + apply routes_spec in R. destruct R as (R1 & R2 & R3). apply routes_spec. split; [exact R1|]. split; [exact R2|].
      intros k' Hk'. apply HK in Hk'. destruct Hk' as [Hk'|(Hn & ->)]; [exact (R3 k' Hk')|].
      destruct (proper_prefixb k l2) eqn:Ep; [|reflexivity]. apply proper_prefixb_spec in Ep. exfalso.
      assert (route K l2 = Some k) as X; [|congruence]. apply route_some; [exact HS|]. split; [eauto|].
      apply routes_spec. split; [exact R1|]. split; [exact Ep|exact R3].
  - apply (route_none K' l1 HS'). intros k po c El. rewrite (route_none K l1 HS) in R1.
    destruct (routes (keys K') k l1) eqn:R; [|reflexivity]. exfalso.
    apply routes_spec in R. destruct R as (Q1 & Q2 & Q3).
    assert (routes (keys K) k l1 = true) as R.
    { apply routes_spec. split; [exact Q1|]. split; [exact Q2|]. intros k' Hk'. apply Q3. apply HK. auto. }
    rewrite HE in El. unfold entered in El. destruct (route K l2) as [k2|] eqn:R2.
    + destruct (str_eqb k k2) eqn:Ek.
      * apply str_eqb_eq in Ek. subst k2. apply (route_some K l2 k HS) in R2.
        destruct R2 as ((po' & c' & El') & _). rewrite (R1 k po' c' El') in R. discriminate.
      * rewrite (R1 k po c El) in R. discriminate.
    + destruct (str_eqb k l2) eqn:Ek.
      * apply str_eqb_eq in Ek. subst k. destruct Q2 as (r & -> & _). destruct HU as (_ & HU).
        assert (prefixb l2 (l2 ++ r) = true); [|congruence]. apply prefixb_app. eauto.
      * rewrite (R1 k po c El) in R. discriminate.
Qed.

Lemma prefixb_skip k a b r1 r2 :
  a = k ++ r1 -> b = k ++ r2 -> unrelated a b -> unrelated (skipn (length k) a) (skipn (length k) b).
Proof.
  intros -> -> (H1 & H2). rewrite !skipn_app, !skipn_all, !Nat.sub_diag. simpl.
  rewrite !prefixb_app_same in *. split; assumption.
Qed.

Lemma down_down_comm c l1 l2 f g e :
  snd e = Some c -> enter (enter c l1 f) l2 g = enter (enter c l2 g) l1 f ->
  down l2 g (down l1 f e) = down l1 f (down l2 g e).
Proof. destruct e as (po, co). simpl. intros -> H. unfold down. simpl. rewrite H. reflexivity. Qed.

Lemma enter_commute L : lsorted L -> forall l1 l2 f g,
  unrelated l1 l2 ->
  (forall e, has_child e = true -> has_child (f e) = true) ->
  (forall e, has_child e = true -> has_child (g e) = true) ->
  enter (enter L l1 f) l2 g = enter (enter L l2 g) l1 f.
Proof.
  induction L as [K P IHK _] using level_nested_ind. intros HL l1 l2 f g HU Hf Hg.
  inversion HL as [? ? HS HC]; subst.
  destruct (enter_lookup K P l1 f HS) as (K1 & E1 & S1 & H1).
  destruct (enter_lookup K P l2 g HS) as (K2 & E2 & S2 & H2).
  rewrite E1, E2.
  destruct (enter_lookup K1 P l2 g S1) as (K12 & E12 & S12 & H12).
  destruct (enter_lookup K2 P l1 f S2) as (K21 & E21 & S21 & H21).
  rewrite E12, E21. f_equal. apply sorted_ext; [exact S12|exact S21|]. intros k.
  rewrite H12, H21. unfold entered at 1 2.
  rewrite (route_stays K P l2 l1 f K1 HS (unrelated_sym _ _ HU) Hf E1).
  rewrite (route_stays K P l1 l2 g K2 HS HU Hg E2).
  pose proof (unrelated_neq _ _ HU) as Hneq.
  assert (str_eqb l1 l2 = false) as N12 by (apply Bool.not_true_iff_false; rewrite str_eqb_eq; exact Hneq).
  assert (str_eqb l2 l1 = false) as N21 by (apply Bool.not_true_iff_false; rewrite str_eqb_eq; congruence).
  (* no routing key is one of the literals *)
  assert (forall k l l', route K l = Some k -> unrelated l l' -> str_eqb k l' = false) as HR.
  { intros k0 l l' R U. apply (route_some K l k0 HS) in R. destruct R as (_ & R). apply routes_spec in R.
    destruct R as (_ & (r & -> & _) & _). apply Bool.not_true_iff_false. rewrite str_eqb_eq. intros ->.
    destruct U as (_ & U). assert (prefixb l' (l' ++ r) = true); [|congruence]. apply prefixb_app. eauto. }
  assert (forall a b : str, str_eqb a b = str_eqb b a) as Hsym.
  { intros a b. destruct (str_eqb a b) eqn:X.
    - apply str_eqb_eq in X. subst. rewrite str_eqb_refl. reflexivity.
    - destruct (str_eqb b a) eqn:Y; [|reflexivity]. apply str_eqb_eq in Y. subst. rewrite str_eqb_refl in X. discriminate. }
  destruct (route K l1) as [k1|] eqn:R1, (route K l2) as [k2|] eqn:R2;
    rewrite !H1, !H2; unfold entered; rewrite ?R1, ?R2.
  - destruct (str_eqb k2 k1) eqn:E.
    + apply str_eqb_eq in E. subst k2. rewrite str_eqb_refl. destruct (str_eqb k k1); [|reflexivity].
      pose proof R1 as R1'. pose proof R2 as R2'.
      apply (route_some K l1 k1 HS) in R1'. apply (route_some K l2 k1 HS) in R2'.
      destruct R1' as ((po & c & El) & Ra). destruct R2' as (_ & Rb). rewrite El. cbn [option_map]. f_equal.
      apply routes_spec in Ra, Rb. destruct Ra as (_ & (r1 & Er1 & _) & _). destruct Rb as (_ & (r2 & Er2 & _) & _).
      apply (down_down_comm c); [reflexivity|].
      apply (IHK k1 po c); [apply lookup_in; exact El|exact (HC k1 po c El)| |exact Hf|exact Hg].
      exact (prefixb_skip k1 l1 l2 r1 r2 Er1 Er2 HU).
    + rewrite (Hsym k1 k2), E. destruct (str_eqb k k2) eqn:Ek; [|reflexivity].
      apply str_eqb_eq in Ek. subst k. rewrite E. reflexivity.
  - rewrite (Hsym l2 k1), (HR k1 l1 l2 R1 HU). destruct (str_eqb k l2) eqn:Ek; [|reflexivity].
    apply str_eqb_eq in Ek. subst k. rewrite (Hsym l2 k1), (HR k1 l1 l2 R1 HU). reflexivity.
  - rewrite (HR k2 l2 l1 R2 (unrelated_sym _ _ HU)), (Hsym l1 k2), (HR k2 l2 l1 R2 (unrelated_sym _ _ HU)).
    destruct (str_eqb k k2) eqn:Ek; [|reflexivity].
    apply str_eqb_eq in Ek. subst k. rewrite (HR k2 l2 l1 R2 (unrelated_sym _ _ HU)). reflexivity.
  - rewrite N21, N12. destruct (str_eqb k l2) eqn:Ek; [|reflexivity].
    apply str_eqb_eq in Ek. subst k. rewrite N21. reflexivity.
Qed.

(** ** The same literal twice *)
Lemma upsert_compose l f g h K :
  (forall e, g (f e) = h e) -> upsert l g (upsert l f K) = upsert l h K.
Proof.
  intros H. induction K as [|(k, e) K IH]; simpl.
  - rewrite str_cmp_refl, H. reflexivity.
  - destruct (str_cmp l k) eqn:E; simpl.
    + rewrite E, H. reflexivity.
    + rewrite str_cmp_refl, H. reflexivity.
    + rewrite E, IH. reflexivity.
Qed.

Lemma enter_compose L : forall l f g h,
  (forall e, g (f e) = h e) -> enter (enter L l f) l g = enter L l h.
Proof.
  induction L as [K P IHK _] using level_nested_ind; intros l f g h Hfg.
  rewrite (enter_unfold K P l f). destruct (enter_literals enter (keys K) K l f) as [K'|] eqn:E.
  - apply enter_literals_first in E. destruct E as (A & k & po & c & C & EK & R & HA & ->).
    rewrite !enter_unfold.
    assert (forall c', keys (A ++ (k, (po, Some c')) :: C) = keys K) as Ek
      by (intros c'; subst K; rewrite !keys_app; reflexivity).
    rewrite Ek. rewrite EK at 3.
    assert (forall c' h, enter_literals enter (keys K) (A ++ (k, (po, Some c')) :: C) l h =
            Some (A ++ (k, (po, Some (enter c' (skipn (length k) l) h))) :: C)) as Ee.
    { intros c' h'. rewrite enter_literals_skip by apply HA. cbn [enter_literals]. rewrite R. reflexivity. }
    rewrite !Ee. rewrite (IHK k po c) with (h := h) by (subst K; try apply in_elt; exact Hfg). reflexivity.
  - rewrite !enter_unfold.
    assert (enter_literals enter (keys K) K l h = None) as ->.
    { destruct (enter_literals enter (keys K) K l h) as [K'|] eqn:E'; [|reflexivity].
      apply enter_literals_first in E'. destruct E' as (A & k & po & c & C & EK & R & HA & _).
      rewrite EK in E at 2. rewrite enter_literals_skip in E by apply HA.
      cbn [enter_literals] in E. rewrite R in E. discriminate. }
    rewrite enter_literals_none; [rewrite (upsert_compose l f g h) by exact Hfg; reflexivity|].
    intros k Hk. destruct (routes (keys (upsert l f K)) k l) eqn:R; [|reflexivity].
    apply routes_spec in R. destruct R as (_ & (r & Er & Nr) & Hno).
    assert (proper_prefixb k l = false) as Hp by (apply Hno; apply upsert_keys; auto).
    assert (proper_prefixb k l = true) by (apply proper_prefixb_spec; eauto). congruence.
Qed.

Lemma at_parser_compose P x f g h :
  (forall e, g (f e) = h e) -> at_parser (at_parser P x f) x g = at_parser P x h.
Proof.
  intros H. induction P as [|(y, e) P IH]; simpl.
  - destruct (parser_eq_dec x x); [|congruence]. rewrite H. reflexivity.
  - destruct (parser_eq_dec y x) as [->|Hn]; simpl.
    + destruct (parser_eq_dec x x); [|congruence]. rewrite H. reflexivity.
    + destruct (parser_eq_dec y x); [congruence|]. rewrite IH. reflexivity.
Qed.

(** ** Independent patterns commute *)
Lemma put_child rest p e : has_child e = true -> has_child (put rest p e) = true.
Proof. unfold put, has_child. destruct (is_empty rest); simpl; auto. Qed.

Lemma put_one_ends rest rest' p q e :
  one_ends rest rest' -> put rest' q (put rest p e) = put rest p (put rest' q e).
Proof. unfold put. intros [(-> & H)|(H & ->)]; [destruct rest'|destruct rest]; try contradiction; reflexivity. Qed.

Lemma s_insert_sorted toks : forall L p, lsorted L -> lsorted (s_insert toks L p).
Proof.
  assert (lsorted level_empty) as H0 by (constructor; [constructor|discriminate]).
  induction toks as [|tok rest IH]; intros L p HL; [exact HL|].
  assert (fsorted (put rest p)) as Hf.
  { intros e He c. unfold put. destruct (is_empty rest); simpl; [apply He|].
    intros H. inversion H. apply IH. exact H0. }
  destruct tok as [x|l]; cbn [s_insert].
  - destruct HL as [K P HS HC]. constructor; assumption.
  - apply enter_lsorted; assumption.
Qed.

Lemma s_adds_lsorted ps : lsorted (s_adds ps).
Proof.
  induction ps as [|p ps IH] using rev_ind; [constructor; [constructor|discriminate]|].
  rewrite s_adds_snoc. apply s_insert_sorted. exact IH.
Qed.

Lemma incomparable_unrelated l m : l <> m -> incomparable l m -> unrelated l m.
Proof.
  intros N H. split; apply Bool.not_true_iff_false; rewrite prefixb_app; intros (r & E).
  - apply N. rewrite E, (H r) by auto. rewrite app_nil_r. reflexivity.
  - apply N. rewrite E, (H r) by auto. rewrite app_nil_r. reflexivity.
Qed.

Lemma s_add_commute L p q :
  lsorted L -> independent p q -> s_add (s_add L p) q = s_add (s_add L q) p.
Proof.
  intros HL HI. unfold independent in HI. unfold s_add.
  destruct (pat_tokens p) as [|[x|l] rest] eqn:Ep, (pat_tokens q) as [|[y|m] rest'] eqn:Eq0;
    try reflexivity.
  - destruct HI as (-> & HO). cbn [s_insert lits_of pars_of]. f_equal.
    change (at_parser (at_parser (pars_of L) y (put rest (stripped p))) y (put rest' (stripped q)) =
            at_parser (at_parser (pars_of L) y (put rest' (stripped q))) y (put rest (stripped p))).
    rewrite !(at_parser_compose _ _ _ _ (fun e => put rest (stripped p) (put rest' (stripped q) e)));
      auto using put_one_ends.
  - cbn [s_insert]. destruct L as [K P]. cbn [lits_of pars_of].
    rewrite !(enter_unfold K). cbv beta. destruct (enter_literals enter (keys K) K m _); reflexivity.
  - cbn [s_insert]. destruct L as [K P]. cbn [lits_of pars_of].
    rewrite !(enter_unfold K). cbv beta. destruct (enter_literals enter (keys K) K l _); reflexivity.
  - cbn [s_insert].
    change (enter (enter L l (put rest (stripped p))) m (put rest' (stripped q)) =
            enter (enter L m (put rest' (stripped q))) l (put rest (stripped p))).
    destruct HI as [(N & HI)|(-> & HO)].
    + apply enter_commute; auto using put_child, incomparable_unrelated.
    + rewrite !(enter_compose _ _ _ _ (fun e => put rest (stripped p) (put rest' (stripped q) e)));
        auto using put_one_ends.
Qed.

Lemma s_adds_app ps qs : s_adds (ps ++ qs) = fold_left s_add qs (s_adds ps).
Proof. apply fold_left_app. Qed.

Lemma s_adds_reordered ps qs : reordered independent ps qs -> s_adds ps = s_adds qs.
Proof.
  induction 1 as [ps|A p q B qs HI _ IH]; [reflexivity|]. rewrite <- IH, !s_adds_app. cbn [fold_left].
  rewrite s_add_commute; [reflexivity|apply s_adds_lsorted|exact HI].
Qed.

(** ** The suffix table *)
Lemma upsert_commute l m f g K :
  sorted_keys K -> l <> m -> upsert m g (upsert l f K) = upsert l f (upsert m g K).
Proof.
  intros HS N. apply sorted_ext; [auto using upsert_sorted|auto using upsert_sorted|]. intros k.
  rewrite !lookup_upsert by auto using upsert_sorted.
  assert (str_eqb l m = false) as N1 by (apply Bool.not_true_iff_false; rewrite str_eqb_eq; exact N).
  assert (str_eqb m l = false) as N2 by (apply Bool.not_true_iff_false; rewrite str_eqb_eq; congruence).
  rewrite N1, N2. destruct (str_eqb k m) eqn:E; [|reflexivity]. apply str_eqb_eq in E. subst k.
  rewrite N2. reflexivity.
Qed.

Lemma t_add_commute L p q :
  sorted_keys (lits_of L) -> table_independent p q -> t_add (t_add L p) q = t_add (t_add L q) p.
Proof.
  intros HS HI. unfold table_independent in HI. unfold t_add.
  destruct (pat_tokens p) as [|[x|l] rest] eqn:Ep, (pat_tokens q) as [|[y|m] rest'] eqn:Eq0;
    rewrite ?t_insert_unfold; cbn [lits_of pars_of]; try reflexivity.
  - destruct HI as (-> & HO). f_equal.
    rewrite !(at_parser_compose _ _ _ _ (fun e => tput rest (stripped p) (tput rest' (stripped q) e)));
      auto. intros e. rewrite <- !put_tput. apply put_one_ends. exact HO.
  - f_equal. destruct (str_dec l m) as [->|N].
    + destruct HI as [HI|HO]; [contradiction|].
      rewrite !(upsert_compose _ _ _ (fun e => tput rest (stripped p) (tput rest' (stripped q) e)));
        auto. intros e. rewrite <- !put_tput. apply put_one_ends. exact HO.
    + apply upsert_commute; assumption.
Qed.

Lemma t_adds_app ps qs : t_adds (ps ++ qs) = fold_left t_add qs (t_adds ps).
Proof. apply fold_left_app. Qed.

Lemma t_adds_reordered ps qs : reordered table_independent ps qs -> t_adds ps = t_adds qs.
Proof.
  induction 1 as [ps|A p q B qs HI _ IH]; [reflexivity|]. rewrite <- IH, !t_adds_app. cbn [fold_left].
  rewrite t_add_commute; [reflexivity|apply t_adds_sorted|exact HI].
Qed.

(** ** What later patterns keep *)
Definition opt_or {A : Type} (a b : option A) : option A := match a with Some x => Some x | None => b end.

Definition merge (a b : option entry) : option entry :=
  match a, b with
  | Some (po, co), Some (po', co') => Some (opt_or po po', opt_or co co')
  | Some e, None => Some e
  | None, o => o
  end.

Lemma merge_same a : merge a a = a.
Proof. destruct a as [([p|], [c|])|]; reflexivity. Qed.

Definition childb (o : option entry) : bool := match o with Some e => has_child e | None => false end.
Definition extended (K : list (str * entry)) (k : str) : Prop :=
  exists k', In k' (keys K) /\ proper_prefixb k k' = true.

(** The keys of [K] are kept in [K'], so are children, and a key that has a child
    and no extension gets none. *)
Definition later (K K' : list (str * entry)) : Prop :=
  (forall k, In k (keys K) -> In k (keys K')) /\
  (forall k, childb (lookup k K) = true -> childb (lookup k K') = true) /\
  (forall k, k <> [] -> childb (lookup k K) = true -> extended K' k -> extended K k).

Lemma later_refl K : later K K.
Proof. unfold later. auto. Qed.

Lemma later_trans K1 K2 K3 : later K1 K2 -> later K2 K3 -> later K1 K3.
Proof. intros (A1 & A2 & A3) (B1 & B2 & B3). unfold later. repeat split; eauto. Qed.

Lemma childb_some o : childb o = true <-> exists po c, o = Some (po, Some c).
Proof.
  destruct o as [(po, [c|])|]; simpl; split; intros H; try discriminate; eauto.
  - destruct H as (? & ? & H). discriminate.
  - destruct H as (? & ? & H). discriminate.
Qed.

Lemma routes_extended K k l :
  routes (keys K) k l = true <-> k <> [] /\ (exists r, l = k ++ r /\ r <> []) /\ ~ extended K k.
Proof.
  rewrite routes_spec. split; intros (H1 & H2 & H3); (split; [exact H1|]; split; [exact H2|]).
  - intros (k' & Hi & E). rewrite (H3 k' Hi) in E. discriminate.
  - intros k' Hi. destruct (proper_prefixb k k') eqn:E; [|reflexivity]. exfalso. apply H3. exists k'. auto.
Qed.

Lemma enter_later K P l f K' P' :
  sorted_keys K -> (forall e, has_child e = true -> has_child (f e) = true) ->
  enter (Level K P) l f = Level K' P' -> later K K'.
Proof.
  intros HS Hf E. destruct (enter_lookup K P l f HS) as (K2 & E2 & HS' & HE).
  assert (K2 = K') as -> by congruence. clear E2.
  assert (forall k, In k (keys K') <-> In k (keys K) \/ (route K l = None /\ k = l)) as HK.
  { intros k. rewrite <- lookup_keys, HE. apply entered_keys. exact HS. }
  split; [|split].
  - intros k Hk. apply HK. auto.
  - intros k Hk. rewrite HE. unfold entered. destruct (route K l) as [k0|] eqn:R.
    + destruct (str_eqb k k0) eqn:Ek; [|exact Hk]. apply str_eqb_eq in Ek. subst k0.
      destruct (lookup k K) as [(po, [c|])|]; try discriminate. reflexivity.
    + destruct (str_eqb k l) eqn:Ek; [|exact Hk]. apply str_eqb_eq in Ek. subst k.
      destruct (lookup l K) as [e|]; [|discriminate]. cbn [childb entry0] in *. auto.
  - intros k Nk Hk (k' & Hi & Ep). apply HK in Hi. destruct Hi as [Hi|(Hn & ->)]; [exists k'; auto|].
    rewrite route_none in Hn by exact HS. apply childb_some in Hk. destruct Hk as (po & c & El).
    specialize (Hn k po c El). destruct (existsb (proper_prefixb k) (keys K)) eqn:Ex.
    + apply existsb_exists in Ex. exact Ex.
    + assert (routes (keys K) k l = true) as X; [|congruence]. unfold routes. rewrite Ep, Ex.
      destruct k; [contradiction|reflexivity].
Qed.

Lemma s_add_later L p : sorted_keys (lits_of L) -> later (lits_of L) (lits_of (s_add L p)).
Proof.
  intros HS. unfold s_add. destruct (pat_tokens p) as [|[x|l] rest]; [apply later_refl|apply later_refl|].
  destruct L as [K P]. cbn [lits_of] in *. cbn [s_insert]. 
  destruct (enter (Level K P) l _) as [K' P'] eqn:E. cbn [lits_of].
  exact (enter_later K P l (put rest (stripped p)) K' P' HS (put_child rest (stripped p)) E).
Qed.

Lemma s_adds_keys_sorted ps : sorted_keys (lits_of (s_adds ps)).
Proof. destruct (s_adds_lsorted ps). assumption. Qed.

Lemma s_adds_later ps qs : later (lits_of (s_adds ps)) (lits_of (s_adds (ps ++ qs))).
Proof.
  induction qs as [|q qs IH] using rev_ind; [rewrite app_nil_r; apply later_refl|].
  rewrite app_assoc, s_adds_snoc. eapply later_trans; [exact IH|]. apply s_add_later. apply s_adds_keys_sorted.
Qed.

Lemma at_parser_keeps P x f y : In y (map fst P) -> In y (map fst (at_parser P x f)).
Proof. intros H. apply at_parser_names. auto. Qed.

Lemma s_adds_pars_later ps qs x :
  In x (map fst (pars_of (s_adds ps))) -> In x (map fst (pars_of (s_adds (ps ++ qs)))).
Proof.
  intros H. induction qs as [|q qs IH] using rev_ind; [rewrite app_nil_r; exact H|].
  rewrite app_assoc, s_adds_snoc. unfold s_add.
  destruct (pat_tokens q) as [|[y|l] rest]; [exact IH| |]; cbn [s_insert].
  - cbn [pars_of]. apply at_parser_keeps. exact IH.
  - rewrite enter_pars. exact IH.
Qed.

(** Routing in an intermediate level is routing in the final one. *)
Lemma route_later K P l f K' P' X :
  sorted_keys K -> sorted_keys X -> enter (Level K P) l f = Level K' P' ->
  later K X -> later K' X -> route X l = route K l.
Proof.
  intros HS HX E (A1 & A2 & A3) (B1 & _ & _).
  destruct (enter_lookup K P l f HS) as (K2 & E2 & HS' & HE).
  assert (K2 = K') as -> by congruence. clear E2.
  destruct (route K l) as [k|] eqn:R.
  - apply (route_some K l k HS) in R. destruct R as (Hc & R). apply routes_extended in R.
    destruct R as (R1 & R2 & R3). apply (route_some X l k HX). 
    assert (childb (lookup k K) = true) as Hb by (apply childb_some; exact Hc).
    split; [apply childb_some; auto|]. apply routes_extended. split; [exact R1|]. split; [exact R2|].
    intros H. apply R3. auto.
  - destruct (route X l) as [k|] eqn:RX; [|reflexivity]. exfalso.
    apply (route_some X l k HX) in RX. destruct RX as (_ & RX). apply routes_extended in RX.
    destruct RX as (R1 & R2 & R3). apply R3. exists l. split.
    + apply B1. apply lookup_keys. rewrite HE. apply entered_keys; [exact HS|]. auto.
    + apply proper_prefixb_spec. exact R2.
Qed.

Lemma route_ext K K' l :
  sorted_keys K -> sorted_keys K' -> (forall k, In k (keys K) <-> In k (keys K')) ->
  (forall k, childb (lookup k K) = childb (lookup k K')) -> route K l = route K' l.
Proof.
  intros HS HS' HK HC.
  assert (forall K K', sorted_keys K -> sorted_keys K' -> (forall k, In k (keys K) <-> In k (keys K')) ->
          (forall k, childb (lookup k K) = childb (lookup k K')) ->
          forall k, route K l = Some k -> route K' l = Some k) as Hw.
  { clear. intros K K' HS HS' HK HC k R. apply (route_some K l k HS) in R. destruct R as (Hc & R).
    apply (route_some K' l k HS'). split.
    - apply childb_some. rewrite <- HC. apply childb_some. exact Hc.
    - apply routes_spec in R. destruct R as (R1 & R2 & R3). apply routes_spec. split; [exact R1|].
      split; [exact R2|]. intros k' Hk'. apply R3. apply HK. exact Hk'. }
  destruct (route K l) as [k|] eqn:R.
  - symmetry. apply (Hw K K'); assumption.
  - destruct (route K' l) as [k|] eqn:R'; [|reflexivity]. rewrite <- R.
    apply (Hw K' K); auto; intros k'; symmetry; apply HK.
Qed.

(** ** Adding the same patterns again *)
Definition layered (Y Z X : level) : Prop :=
  (forall k, lookup k (lits_of Y) = merge (lookup k (lits_of Z)) (lookup k (lits_of X))) /\
  map fst (pars_of Y) = map fst (pars_of X) /\
  (forall x, plookup x (pars_of Y) = merge (plookup x (pars_of Z)) (plookup x (pars_of X))).

Lemma put_merge rest p a b :
  b <> None -> Some (put rest p (entry0 (merge a b))) = merge (Some (put rest p (entry0 a))) b.
Proof.
  unfold put. destruct b as [(po', co')|]; [|congruence]. intros _.
  destruct a as [(po, co)|], (is_empty rest); reflexivity.
Qed.

Lemma plookup_names P x : plookup x P <> None <-> In x (map fst P).
Proof.
  induction P as [|(y, e) P IH]; simpl; [tauto|]. destruct (parser_eq_dec y x) as [->|N].
  - split; [auto|discriminate].
  - rewrite IH. split; [auto|]. intros [H|H]; [contradiction|exact H].
Qed.

Lemma layered_step Y Z X p :
  sorted_keys (lits_of Y) -> sorted_keys (lits_of Z) -> sorted_keys (lits_of X) ->
  later (lits_of Z) (lits_of X) -> later (lits_of (s_add Z p)) (lits_of X) ->
  (forall x, In x (map fst (pars_of (s_add Z p))) -> In x (map fst (pars_of X))) ->
  layered Y Z X -> layered (s_add Y p) (s_add Z p) X.
Proof.
  intros HY HZ HX L1 L2 LP (I1 & I2 & I3). unfold s_add in *.
  destruct (pat_tokens p) as [|[x|l] rest]; cbn [s_insert] in *; [split; [|split]; assumption| |].
  - (* parser *)
    assert (In x (map fst (pars_of X))) as Hx.
    { apply LP. cbn [pars_of]. apply at_parser_names. auto. }
    split; [exact I1|]. cbn [lits_of pars_of]. split.
    + rewrite at_parser_fst. rewrite <- I2 in Hx. destruct (in_dec parser_eq_dec x (map fst (pars_of Y))); [exact I2|contradiction].
    + intros y. change (plookup y (at_parser (pars_of Y) x (put rest (stripped p))) =
        merge (plookup y (at_parser (pars_of Z) x (put rest (stripped p)))) (plookup y (pars_of X))).
      rewrite !plookup_at. destruct (parser_eq_dec y x) as [->|N]; [|apply I3].
      rewrite I3. apply put_merge. apply plookup_names. exact Hx.
  - (* literal *)
    destruct Y as [KY PY], Z as [KZ PZ], X as [KX PX]. cbn [lits_of pars_of] in *.
    change (layered (enter (Level KY PY) l (put rest (stripped p)))
                    (enter (Level KZ PZ) l (put rest (stripped p))) (Level KX PX)).
    change (later (lits_of (enter (Level KZ PZ) l (put rest (stripped p)))) KX) in L2.
    destruct (enter_lookup KY PY l (put rest (stripped p)) HY) as (KY' & EY & SY & HEY).
    destruct (enter_lookup KZ PZ l (put rest (stripped p)) HZ) as (KZ' & EZ & SZ & HEZ).
    pose proof EZ as EZ'. rewrite EY, EZ. rewrite EZ in L2. cbn [lits_of] in L2.
    assert (forall k, In k (keys KY) <-> In k (keys KX)) as HK.
    { intros k. rewrite <- !lookup_keys, I1. destruct L1 as (L1 & _). specialize (L1 k).
      rewrite <- !lookup_keys in L1. destruct (lookup k KZ) as [(po, co)|], (lookup k KX) as [(po', co')|]; simpl;
        split; intros H; try congruence; try discriminate. exfalso. apply L1; congruence. }
    assert (route KY l = route KX l) as R1.
    { apply route_ext; auto. intros k. rewrite I1. destruct L1 as (_ & L1 & _). specialize (L1 k).
      destruct (lookup k KZ) as [(po, [c|])|], (lookup k KX) as [(po', [c'|])|]; simpl in *; auto;
        try (symmetry; apply L1; reflexivity); try (apply L1; reflexivity). }
    pose proof (route_later KZ PZ l _ KZ' PZ KX HZ HX EZ' L1 L2) as R2.
    split; [|split; [exact I2|exact I3]]. cbn [lits_of]. intros k. rewrite HEY, HEZ.
    unfold entered. rewrite R1, R2. destruct (route KZ l) as [k0|] eqn:R.
    + destruct (str_eqb k k0) eqn:Ek; [|apply I1]. apply str_eqb_eq in Ek. subst k.
      rewrite I1. apply (route_some KZ l k0 HZ) in R. destruct R as ((po & c & El) & _). rewrite El.
      destruct (lookup k0 KX) as [(po', co')|]; reflexivity.
    + destruct (str_eqb k l) eqn:Ek; [|apply I1]. apply str_eqb_eq in Ek. subst k. rewrite I1.
      apply put_merge. destruct L2 as (L2 & _). apply lookup_keys, L2, lookup_keys. rewrite HEZ.
      apply entered_keys; auto.
Qed.

Lemma s_add_keys_sorted L p : sorted_keys (lits_of L) -> sorted_keys (lits_of (s_add L p)).
Proof. apply s_add_sorted. Qed.

Lemma layered_all ps : forall done todo,
  ps = done ++ todo -> layered (fold_left s_add done (s_adds ps)) (s_adds done) (s_adds ps).
Proof.
  induction done as [|p done IH] using rev_ind; intros todo E.
  - split; [|split]; reflexivity.
  - rewrite <- app_assoc in E. rewrite fold_left_app. cbn [fold_left]. rewrite s_adds_snoc.
    assert (s_add (s_adds done) p = s_adds (done ++ [p])) as Ea by (symmetry; apply s_adds_snoc).
    apply layered_step.
    + rewrite <- s_adds_app. apply s_adds_keys_sorted.
    + apply s_adds_keys_sorted.
    + apply s_adds_keys_sorted.
    + rewrite E. apply s_adds_later.
    + rewrite Ea, E, app_assoc. apply s_adds_later.
    + rewrite Ea, E, app_assoc. intros x. apply s_adds_pars_later.
    + apply (IH ([p] ++ todo)). exact E.
Qed.

Lemma pars_ext P : forall P', NoDup (map fst P) -> map fst P = map fst P' ->
  (forall x, plookup x P = plookup x P') -> P = P'.
Proof.
  induction P as [|(x, e) P IH]; intros [|(x', e') P'] HN HM HL; try discriminate; [reflexivity|].
  simpl in HM. inversion HM as [[E1 E2]]. subst x'. inversion HN as [|? ? N1 N2]; subst. f_equal.
  - specialize (HL x). simpl in HL. destruct (parser_eq_dec x x); [congruence|contradiction].
  - apply IH; [exact N2|exact E2|]. intros y. specialize (HL y). simpl in HL.
    destruct (parser_eq_dec x y) as [<-|N]; [|exact HL].
    assert (plookup x P = None) as ->.
    { destruct (plookup x P) eqn:Q; [|reflexivity]. exfalso. apply N1. apply plookup_names. congruence. }
    destruct (plookup x P') eqn:Q; [|reflexivity]. exfalso. apply N1. rewrite E2. apply plookup_names. congruence.
Qed.

Lemma s_adds_pnodup ps : pnodup (s_adds ps).
Proof.
  induction ps as [|p ps IH] using rev_ind; [constructor|]. rewrite s_adds_snoc. unfold s_add.
  destruct (pat_tokens p) as [|[x|l] rest]; cbn [s_insert]; [exact IH| |].
  - unfold pnodup. cbn [pars_of]. rewrite at_parser_fst.
    destruct (in_dec parser_eq_dec x (map fst (pars_of (s_adds ps)))); [exact IH|]. apply nodup_snoc; assumption.
  - unfold pnodup. rewrite enter_pars. exact IH.
Qed.

Lemma s_adds_again ps : s_adds (ps ++ ps) = s_adds ps.
Proof.
  destruct (layered_all ps ps [] (eq_sym (app_nil_r ps))) as (H1 & H2 & H3).
  rewrite <- s_adds_app in *. pose proof (s_adds_keys_sorted (ps ++ ps)) as S1.
  pose proof (s_adds_keys_sorted ps) as S2. pose proof (s_adds_pnodup (ps ++ ps)) as N.
  unfold pnodup in N. destruct (s_adds (ps ++ ps)) as [K P], (s_adds ps) as [K' P']. cbn [lits_of pars_of] in *.
  f_equal.
  - apply sorted_ext; [exact S1|exact S2|]. intros k. rewrite H1. apply merge_same.
  - apply pars_ext; [exact N|exact H2|]. intros x. rewrite H3. apply merge_same.
Qed.

Lemma last_such_again {A} (f : pattern -> option A) ps : last_such f (ps ++ ps) = last_such f ps.
Proof.
  assert (forall a, fold_left (fun acc p => match f p with Some a => Some a | None => acc end) ps a =
            match last_such f ps with Some b => Some b | None => a end) as H.
  { induction ps as [|p ps IH] using rev_ind; [reflexivity|]. intros a.
    rewrite fold_left_app, last_such_snoc. cbn [fold_left]. rewrite IH. destruct (f p); reflexivity. }
  unfold last_such at 1. rewrite fold_left_app, H. fold (last_such f ps). destruct (last_such f ps); reflexivity.
Qed.

Lemma t_adds_names ps qs :
  incl qs ps -> map fst (pars_of (t_adds (ps ++ qs))) = map fst (pars_of (t_adds ps)).
Proof.
  induction qs as [|q qs IH] using rev_ind; intros HI; [rewrite app_nil_r; reflexivity|].
  assert (incl qs ps) as HI' by (intros y Hy; apply HI, in_or_app; auto).
  rewrite app_assoc, t_adds_snoc. unfold t_add. destruct (pat_tokens q) as [|[x|l] rest] eqn:Eq0; [auto| |];
    rewrite t_insert_unfold; cbn [pars_of]; [|auto].
  rewrite at_parser_fst. destruct (in_dec parser_eq_dec x _) as [_|N]; [auto|]. exfalso. apply N.
  rewrite (IH HI'). apply plookup_names. change (entry_of (t_adds ps) (Parser x) <> None).
  rewrite t_adds_entry. assert (existsb (first_is (Parser x)) ps = true) as ->; [|discriminate].
  apply existsb_exists. exists q. split; [apply HI, in_or_app; simpl; auto|].
  unfold first_is. rewrite Eq0. destruct (token_dec (Parser x) (Parser x)); [reflexivity|contradiction].
Qed.

Lemma t_adds_again ps : t_adds (ps ++ ps) = t_adds ps.
Proof.
  assert (forall tok, entry_of (t_adds (ps ++ ps)) tok = entry_of (t_adds ps) tok) as H.
  { intros tok. rewrite !t_adds_entry, existsb_app, !last_such_again. destruct (existsb (first_is tok) ps); reflexivity. }
  pose proof (t_adds_sorted (ps ++ ps)) as S1. pose proof (t_adds_sorted ps) as S2.
  pose proof (t_adds_pnodup (ps ++ ps)) as N. pose proof (t_adds_names ps ps (incl_refl ps)) as HN.
  unfold pnodup in N. destruct (t_adds (ps ++ ps)) as [K P], (t_adds ps) as [K' P']. cbn [lits_of pars_of] in *.
  f_equal.
  - apply sorted_ext; [exact S1|exact S2|]. intros k. apply (H (Literal k)).
  - apply pars_ext; [exact N|exact HN|]. intros x. apply (H (Parser x)).
Qed.
