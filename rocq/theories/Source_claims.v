(** * Statements about test messages and loading *)
From Verif Require Import Base Base_facts Utils Utils_facts Parsers Pattern Spec Source Spec_source.

(** ** Association lists *)
Fixpoint last_get {A} (m : list (str * A)) (k : str) : option A :=
  match m with
  | [] => None
  | (k', v) :: m' => match last_get m' k with
                     | Some w => Some w
                     | None => if str_eqb k k' then Some v else None
                     end
  end.

Lemma last_get_none {A} (m : list (str * A)) k : last_get m k = None <-> ~ In k (map fst m).
Proof.
  induction m as [|(k', v) m IH]; simpl; [tauto|]. destruct (last_get m k) as [w|].
  - split; [discriminate|]. intros H. exfalso. destruct IH as [_ IH]. discriminate IH. tauto.
  - destruct (str_eqb k k') eqn:E.
    + apply str_eqb_eq in E. subst. split; [discriminate|tauto].
    + apply str_eqb_neq in E. split; [|reflexivity]. intros _ [->|H]; [congruence|]. destruct IH as [IH _]. exact (IH eq_refl H).
Qed.

Lemma binds_get {A} (m : list (str * A)) k v : binds m k v <-> last_get m k = Some v.
Proof.
  split.
  - intros (a & b & -> & H). induction a as [|(k', v') a IH]; simpl.
    + apply last_get_none in H. rewrite H, str_eqb_refl. reflexivity.
    + rewrite IH. reflexivity.
  - induction m as [|(k', v') m IH]; simpl; [discriminate|]. destruct (last_get m k) as [w|] eqn:E.
    + intros H. inversion H; subst. destruct (IH eq_refl) as (a & b & -> & Hb). exists ((k', v') :: a), b. auto.
    + destruct (str_eqb k k') eqn:Ek; [|discriminate]. intros H. inversion H; subst.
      apply str_eqb_eq in Ek. subst. exists [], m. split; [reflexivity|]. apply last_get_none. exact E.
Qed.

Lemma binds_unique {A} (m : list (str * A)) k v w : binds m k v -> binds m k w -> v = w.
Proof. rewrite !binds_get. congruence. Qed.

Lemma binds_in {A} (m : list (str * A)) k v : NoDup (map fst m) -> (binds m k v <-> In (k, v) m).
Proof.
  intros N. split.
  - intros (a & b & -> & _). apply in_app_iff. right. left. reflexivity.
  - intros H. apply in_split in H. destruct H as (a & b & ->). exists a, b. split; [reflexivity|].
    rewrite map_app in N. simpl in N. apply NoDup_remove_2 in N. rewrite in_app_iff in N. tauto.
Qed.

Lemma insert_all_sorted l : forall m, bmap_sorted m -> bmap_sorted (fold_left (fun m kv => bmap_insert (fst kv) (snd kv) m) l m).
Proof. induction l as [|(k, v) l IH]; intros m H; simpl; [exact H|]. apply IH. apply bmap_insert_sorted. exact H. Qed.

Lemma insert_all_get l k : forall m, bmap_sorted m ->
  bmap_get (fold_left (fun m kv => bmap_insert (fst kv) (snd kv) m) l m) k =
  match last_get l k with Some v => Some v | None => bmap_get m k end.
Proof.
  induction l as [|(k', v) l IH]; intros m H; simpl; [reflexivity|].
  rewrite IH by (apply bmap_insert_sorted; exact H). destruct (last_get l k); [reflexivity|].
  rewrite bmap_get_insert by exact H. destruct (str_eqb k k'); reflexivity.
Qed.

(** ** Test messages *)
Lemma merged_value r k v : bmap_get (merge_values r) k = Some v <-> value_of r k v.
Proof.
  unfold merge_values, value_of, static_value.
  rewrite insert_all_get, binds_get, <- last_get_none.
  2:{ destruct (pat_values (mr_pattern r)); [apply insert_all_sorted|]; constructor. }
  destruct (last_get (mr_values r) k) as [w|].
  - split; [auto|]. intros [H|(H & _)]; [exact H|discriminate].
  - destruct (pat_values (mr_pattern r)) as [m|].
    + rewrite insert_all_get by constructor. cbn [bmap_get]. split.
      * intros H. right. split; [reflexivity|]. exists m. split; [reflexivity|]. apply binds_get.
        destruct (last_get m k); [congruence|discriminate].
      * intros [H|(_ & m' & E & H)]; [discriminate|]. inversion E; subst. apply binds_get in H. rewrite H. reflexivity.
    + simpl. split; [discriminate|]. intros [H|(_ & m' & E & _)]; discriminate.
Qed.

Lemma value_of_unique r k v w : value_of r k v -> value_of r k w -> v = w.
Proof. rewrite <- !merged_value. congruence. Qed.

Lemma expected_tags_ok m es gs r : test_expected_tags m es gs r = Ok tt <-> forall t, In t es -> In t gs.
Proof.
  induction es as [|t es IH]; simpl; [split; [intros _ t []|reflexivity]|].
  destruct (existsb (str_eqb t) gs) eqn:E.
  - rewrite IH. apply existsb_exists in E. destruct E as (t' & Hin & E). apply str_eqb_eq in E. subst t'.
    split; [intros H x [<-|Hx]; auto|intros H x Hx; apply H; auto].
  - split; [discriminate|]. intros H. exfalso.
    assert (existsb (str_eqb t) gs = true) as E'; [|congruence].
    apply existsb_exists. exists t. split; [apply H; auto|apply str_eqb_refl].
Qed.

Lemma expected_tags_err m es gs r e : test_expected_tags m es gs r = Err e ->
  e = report_unexpected_tags_error m r.
Proof.
  induction es as [|t es IH]; simpl; [discriminate|]. destruct (existsb (str_eqb t) gs); [exact IH|]. intros H. congruence.
Qed.

Lemma test_tags_cases m r :
  (has_tags (tm_tags m) (pat_tags (mr_pattern r)) /\ test_tags m r = Ok tt) \/
  (~ has_tags (tm_tags m) (pat_tags (mr_pattern r)) /\
   test_tags m r = Err (UnexpectedTags (pat_uuid (mr_pattern r)) (tm_tags m) (pat_tags (mr_pattern r)))).
Proof.
  unfold test_tags, has_tags. destruct (tm_tags m) as [es|] eqn:Et; [|left; auto].
  destruct (pat_tags (mr_pattern r)) as [gs|] eqn:Eg.
  - destruct (test_expected_tags m es gs r) as [[]|e] eqn:E.
    + left. split; [|reflexivity]. exists gs. split; [reflexivity|]. exact (proj1 (expected_tags_ok m es gs r) E).
    + right. split.
      * intros (gs' & H & H'). inversion H; subst. pose proof (proj2 (expected_tags_ok m es gs' r) H') as K. congruence.
      * apply expected_tags_err in E. rewrite E. unfold report_unexpected_tags_error. rewrite Et, Eg. reflexivity.
  - right. split; [intros (gs & H & _); discriminate|].
    unfold report_unexpected_tags_error. rewrite Et, Eg. reflexivity.
Qed.

Lemma test_values_cases l r :
  ((forall k v, In (k, v) l -> value_of r k v) /\ test_values_loop l (merge_values r) r = Ok tt) \/
  (exists a k v b w, l = a ++ (k, v) :: b /\ (forall k' v', In (k', v') a -> value_of r k' v') /\ value_of r k w /\ v <> w /\
     test_values_loop l (merge_values r) r = Err (ValueNotMatch (pat_uuid (mr_pattern r)) k v w)) \/
  (exists a k v b, l = a ++ (k, v) :: b /\ (forall k' v', In (k', v') a -> value_of r k' v') /\ (forall w, ~ value_of r k w) /\
     test_values_loop l (merge_values r) r = Err (KeyNotFound (pat_uuid (mr_pattern r)) k)).
Proof.
  induction l as [|(k, v) l IH]; cbn [test_values_loop].
  - left. split; [intros k v []|reflexivity].
  - unfold test_value. destruct (bmap_get (merge_values r) k) as [g|] eqn:E.
    + apply merged_value in E. destruct (str_eqb v g) eqn:Ev.
      * apply str_eqb_eq in Ev. subst g.
        destruct IH as [(H & ->)|[(a & k1 & v1 & b & w & -> & H & Hw & N & ->)|(a & k1 & v1 & b & -> & H & Hw & ->)]].
        -- left. split; [|reflexivity]. intros k1 v1 [X|X]; [inversion X; subst; exact E|auto].
        -- right. left. exists ((k, v) :: a), k1, v1, b, w. split; [reflexivity|]. split; [|auto].
           intros k2 v2 [X|X]; [inversion X; subst; exact E|auto].
        -- right. right. exists ((k, v) :: a), k1, v1, b. split; [reflexivity|]. split; [|auto].
           intros k2 v2 [X|X]; [inversion X; subst; exact E|auto].
      * apply str_eqb_neq in Ev. right. left. exists [], k, v, l, g. split; [reflexivity|]. split; [intros k' v' []|auto].
    + right. right. exists [], k, v, l. split; [reflexivity|]. split; [intros k' v' []|]. split; [|reflexivity].
      intros w H. apply merged_value in H. congruence.
Qed.

Lemma test_result_cases m r :
  (satisfies m r /\ test_result m r = Ok tt) \/ (~ satisfies m r /\ exists e, mismatch m r e /\ test_result m r = Err e).
Proof.
  unfold test_result, satisfies. destruct (test_tags_cases m r) as [(T & ->)|(T & ->)].
  - unfold test_values.
    destruct (test_values_cases (tm_values m) r) as [(H & ->)|[(a & k & v & b & w & El & H & Hw & N & ->)|(a & k & v & b & El & H & Hw & ->)]].
    + left. auto.
    + right. split.
      * intros (_ & K). apply N. apply (value_of_unique r k); [|exact Hw]. apply K. rewrite El. apply in_app_iff. right. left. reflexivity.
      * eexists. split; [|reflexivity]. apply (mismatch_value m r a k v b w); assumption.
    + right. split.
      * intros (_ & K). apply (Hw v). apply K. rewrite El. apply in_app_iff. right. left. reflexivity.
      * eexists. split; [|reflexivity]. apply (mismatch_key m r a k v b); assumption.
  - right. split; [tauto|]. eexists. split; [|reflexivity]. apply mismatch_tags. exact T.
Qed.

Theorem test_result_ok m r : test_result m r = Ok tt <-> satisfies m r.
Proof.
  destruct (test_result_cases m r) as [(H & ->)|(H & e & _ & ->)]; split; auto; [discriminate|contradiction].
Qed.

Lemma split_first (r : match_result) (l a b a' b' : list (str * str)) k v k' v' :
  l = a ++ (k, v) :: b -> l = a' ++ (k', v') :: b' ->
  (forall x y, In (x, y) a -> value_of r x y) -> (forall x y, In (x, y) a' -> value_of r x y) ->
  ~ value_of r k v -> ~ value_of r k' v' -> k = k' /\ v = v'.
Proof.
  intros -> E. revert a' E. induction a as [|x a IH]; intros [|x' a'] E Ha Ha' N N'; cbn [app] in E.
  - inversion E. auto.
  - inversion E; subst. destruct N. apply Ha'. left. reflexivity.
  - inversion E; subst. destruct N'. apply Ha. left. reflexivity.
  - inversion E; subst. apply (IH a'); auto; intros; [apply Ha|apply Ha']; right; assumption.
Qed.

Lemma mismatch_unique m r e e' : mismatch m r e -> mismatch m r e' -> e = e'.
Proof.
  assert (forall k v w, value_of r k w -> v <> w -> ~ value_of r k v) as D.
  { intros k v w H N H'. apply N. apply (value_of_unique r k); assumption. }
  intros [T|a k v b w T El H Hw N|a k v b T El H Hw] [T'|a' k' v' b' w' T' El' H' Hw' N'|a' k' v' b' T' El' H' Hw']; try contradiction; try reflexivity.
  - destruct (split_first r _ _ _ _ _ _ _ _ _ El El' H H' (D k v w Hw N) (D k' v' w' Hw' N')) as (-> & ->).
    rewrite (value_of_unique r _ _ _ Hw Hw'). reflexivity.
  - destruct (split_first r _ _ _ _ _ _ _ _ _ El El' H H' (D k v w Hw N) (Hw' v')) as (-> & ->). destruct (Hw' w Hw).
  - destruct (split_first r _ _ _ _ _ _ _ _ _ El El' H H' (Hw v) (D k' v' w' Hw' N')) as (-> & ->). destruct (Hw w' Hw').
  - destruct (split_first r _ _ _ _ _ _ _ _ _ El El' H H' (Hw v) (Hw' v')) as (-> & _). reflexivity.
Qed.

Theorem test_result_err m r e : test_result m r = Err e <-> mismatch m r e.
Proof.
  destruct (test_result_cases m r) as [(H & ->)|(H & e' & He & ->)].
  - split; [discriminate|]. intros K. exfalso. destruct H as (T & V).
    destruct K as [T'|a k v b w _ El _ Hw N|a k v b _ El _ Hw].
    + contradiction.
    + apply N. apply (value_of_unique r k); [|exact Hw]. apply V. rewrite El. apply in_app_iff. right. left. reflexivity.
    + apply (Hw v). apply V. rewrite El. apply in_app_iff. right. left. reflexivity.
  - split; [congruence|]. intros K. f_equal. apply (mismatch_unique m r); assumption.
Qed.

(** ** Test messages of a pattern *)
Lemma vec_pop_last {A} (l : list A) x : vec_pop (l ++ [x]) = Some (x, l).
Proof. unfold vec_pop. rewrite rev_app_distr. simpl. rewrite rev_involutive. reflexivity. Qed.

Lemma extract_loop l : forall n p acc, length l <= n -> pat_test_messages p = Some l ->
  extract_test_messages_loop n p acc = Ret (set_test_messages p (Some []), acc ++ rev l).
Proof.
  induction l as [|t l IH] using rev_ind; intros n p acc L E.
  - destruct n; cbn [extract_test_messages_loop]; unfold pop_test_message; rewrite E; cbn [vec_pop rev];
      rewrite app_nil_r; destruct p; cbn in *; subst; reflexivity.
  - rewrite app_length in L. cbn [length] in L. destruct n as [|n]; [lia|]. cbn [extract_test_messages_loop].
    unfold pop_test_message. rewrite E, vec_pop_last. rewrite IH; [|lia|reflexivity].
    rewrite rev_app_distr, <- app_assoc. reflexivity.
Qed.

Theorem extract_spec p : extract_test_messages p = Ret (untested p, rev (tests p)).
Proof.
  unfold extract_test_messages, tests, untested. destruct (pat_test_messages p) as [l|] eqn:E.
  - rewrite (extract_loop l _ _ _ (le_n _) E). reflexivity.
  - cbn [extract_test_messages_loop]. unfold pop_test_message. rewrite E. destruct p; cbn in *; subst; reflexivity.
Qed.

(** ** Loading *)
Section Loading.
  Context {M : Type} (ops : matcher_ops M).

  Lemma check_cases m p : forall l,
    match check_test_messages ops m l (pat_uuid p) with
    | Ret (Ok _) => forall t, In t l -> passes ops m p t
    | Ret (Err e) => exists a t b e', l = a ++ t :: b /\ (forall t', In t' a -> passes ops m p t') /\
                       fails ops m p t e' /\ e = TestMessageError e'
    | Panic => exists a t b, l = a ++ t :: b /\ (forall t', In t' a -> passes ops m p t') /\
                 mo_parse ops m (tm_message t) = Panic
    | OutOfFuel => exists a t b, l = a ++ t :: b /\ (forall t', In t' a -> passes ops m p t') /\
                 mo_parse ops m (tm_message t) = OutOfFuel
    end.
  Proof.
    induction l as [|t l IH]; cbn [check_test_messages]; [intros t []|].
    destruct (mo_parse ops m (tm_message t)) as [[r|]| |] eqn:E; cbn [bind].
    - unfold check_test_message. destruct (uuid_eqb (pat_uuid (mr_pattern r)) (pat_uuid p)) eqn:Eu.
      + apply str_eqb_eq in Eu. destruct (test_result t r) as [[]|e] eqn:Er.
        * assert (passes ops m p t) as P by (exists r; split; [exact E|split; [exact Eu|apply test_result_ok; exact Er]]).
          destruct (check_test_messages ops m l (pat_uuid p)) as [[x|e]| |].
          -- intros t' [<-|H]; auto.
          -- destruct IH as (a & t' & b & e' & -> & H). exists (t :: a), t', b, e'. split; [reflexivity|].
             split; [|tauto]. intros t2 [<-|H2]; [exact P|]. destruct H as (H & _). auto.
          -- destruct IH as (a & t' & b & -> & H & H'). exists (t :: a), t', b. split; [reflexivity|].
             split; [|exact H']. intros t2 [<-|H2]; auto.
          -- destruct IH as (a & t' & b & -> & H & H'). exists (t :: a), t', b. split; [reflexivity|].
             split; [|exact H']. intros t2 [<-|H2]; auto.
        * exists [], t, l, e. split; [reflexivity|]. split; [intros t' []|]. split; [|reflexivity].
          apply (fails_mismatch ops m p t r e E Eu). apply test_result_err. exact Er.
      + apply str_eqb_neq in Eu. exists [], t, l. eexists. split; [reflexivity|]. split; [intros t' []|]. split; [|reflexivity].
        apply (fails_other ops m p t r E Eu).
    - exists [], t, l. eexists. split; [reflexivity|]. split; [intros t' []|]. split; [|reflexivity].
      apply (fails_unmatched ops m p t E).
    - exists [], t, l. split; [reflexivity|]. split; [intros t' []|exact E].
    - exists [], t, l. split; [reflexivity|]. split; [intros t' []|exact E].
  Qed.

  Lemma passes_not_fails m p t e : passes ops m p t -> ~ fails ops m p t e.
  Proof.
    intros (r & E & Eu & S) [E'|r' E' Eu'|r' e' E' Eu' Mi].
    - congruence.
    - rewrite E in E'. inversion E'; subst. contradiction.
    - rewrite E in E'. inversion E'; subst. apply test_result_err in Mi. apply test_result_ok in S. congruence.
  Qed.

  Lemma fails_unique m p t e e' : fails ops m p t e -> fails ops m p t e' -> e = e'.
  Proof.
    intros [E|r E Eu|r e1 E Eu Mi] [E'|r' E' Eu'|r' e2 E' Eu' Mi']; rewrite E in E'; inversion E'; subst; try reflexivity; try contradiction.
    apply (mismatch_unique t r'); assumption.
  Qed.

  Lemma passes_defined m p t : passes ops m p t -> exists r, mo_parse ops m (tm_message t) = Ret r.
  Proof. intros (r & E & _). eauto. Qed.
  Lemma fails_defined m p t e : fails ops m p t e -> exists r, mo_parse ops m (tm_message t) = Ret r.
  Proof. intros [E|r E _|r e' E _ _]; eauto. Qed.

  Lemma check_all m p l : (forall t, In t l -> passes ops m p t) -> check_test_messages ops m l (pat_uuid p) = Ret (Ok tt).
  Proof.
    intros H. pose proof (check_cases m p l) as C. destruct (check_test_messages ops m l (pat_uuid p)) as [[[]|e]| |]; [reflexivity|..].
    - destruct C as (a & t & b & e' & -> & _ & F & _). destruct (passes_not_fails m p t e'); [|exact F]. apply H, in_app_iff. right. left. reflexivity.
    - destruct C as (a & t & b & -> & _ & F). destruct (passes_defined m p t) as (r & E); [|congruence]. apply H, in_app_iff. right. left. reflexivity.
    - destruct C as (a & t & b & -> & _ & F). destruct (passes_defined m p t) as (r & E); [|congruence]. apply H, in_app_iff. right. left. reflexivity.
  Qed.

  Lemma check_first m p a t b e : (forall t, In t a -> passes ops m p t) -> fails ops m p t e ->
    check_test_messages ops m (a ++ t :: b) (pat_uuid p) = Ret (Err (TestMessageError e)).
  Proof.
    intros Ha Hf. induction a as [|t' a IH].
    - cbn [app]. pose proof (check_cases m p [t]) as C. cbn [check_test_messages] in *.
      destruct Hf as [E|r E Eu|r e' E Eu Mi]; rewrite E in *; cbn [bind] in *.
      + reflexivity.
      + unfold check_test_message, uuid_eqb. apply str_eqb_neq in Eu. rewrite Eu. reflexivity.
      + unfold check_test_message, uuid_eqb. apply str_eqb_eq in Eu. rewrite Eu. apply test_result_err in Mi. rewrite Mi. reflexivity.
    - cbn [app check_test_messages]. destruct (Ha t' ltac:(left; reflexivity)) as (r & E & Eu & S). rewrite E. cbn [bind].
      unfold check_test_message, uuid_eqb. apply str_eqb_eq in Eu. rewrite Eu. apply test_result_ok in S. rewrite S.
      apply IH. intros t2 H2. apply Ha. right. exact H2.
  Qed.

  Lemma check_pattern_ok m p m' : mo_add_pattern ops m (untested p) = Ret m' ->
    (forall t, In t (tests p) -> passes ops m' p t) -> check_pattern ops m (Ok p) = Ret (m', Ok tt).
  Proof.
    intros A H. unfold check_pattern. rewrite extract_spec. cbn [bind]. rewrite A. cbn [bind].
    rewrite check_all; [reflexivity|]. intros t Ht. apply H. apply in_rev. exact Ht.
  Qed.

  Lemma loads_complete m src m' : loads ops m src m' -> from_source_loop ops m src = Ret (Ok m').
  Proof.
    induction 1 as [m|m p m1 src m2 A H _ IH]; [reflexivity|]. cbn [from_source_loop].
    rewrite (check_pattern_ok m p m1 A H). exact IH.
  Qed.

  Lemma loads_continue m before m' after : loads ops m before m' ->
    from_source_loop ops m (before ++ after) = from_source_loop ops m' after.
  Proof.
    induction 1 as [m|m p m1 src m2 A H _ IH]; [reflexivity|]. cbn [app from_source_loop].
    rewrite (check_pattern_ok m p m1 A H). exact IH.
  Qed.

  Lemma stops_complete m src e : stops ops m src e -> from_source_loop ops m src = Ret (Err e).
  Proof.
    intros [m0 before m' e0 after L|m0 before m' p after m'' a t b e0 L A Et Hb Hf]; rewrite (loads_continue _ _ _ _ L); cbn [from_source_loop].
    - reflexivity.
    - unfold check_pattern. rewrite extract_spec. cbn [bind]. rewrite A. cbn [bind].
      rewrite Et, rev_app_distr. cbn [rev]. rewrite <- app_assoc. cbn [app].
      rewrite (check_first m'' p (rev b) t (rev a) e0); [reflexivity| |exact Hf].
      intros t' Ht. apply Hb. apply in_rev. exact Ht.
  Qed.

  Lemma stops_cons m p m1 src e : mo_add_pattern ops m (untested p) = Ret m1 ->
    (forall t, In t (tests p) -> passes ops m1 p t) -> stops ops m1 src e -> stops ops m (Ok p :: src) e.
  Proof.
    intros A H S. inversion S as [m0 before m' e0 after L|m0 before m' q after m'' a t b e0 L A' Et Hb Hf]; subst.
    - apply (stops_source ops m (Ok p :: before) m' e after). econstructor; eassumption.
    - apply (stops_test ops m (Ok p :: before) m' q after m'' a t b e0); try assumption. econstructor; eassumption.
  Qed.

  Lemma from_source_cases src : forall m,
    match from_source_loop ops m src with
    | Ret (Ok m') => loads ops m src m'
    | Ret (Err e) => stops ops m src e
    | _ => True
    end.
  Proof.
    induction src as [|[p|e] src IH]; intros m; cbn [from_source_loop].
    - constructor.
    - unfold check_pattern. rewrite extract_spec. cbn [bind].
      destruct (mo_add_pattern ops m (untested p)) as [m1| |] eqn:A; cbn [bind]; [|exact I|exact I].
      pose proof (check_cases m1 p (rev (tests p))) as C.
      destruct (check_test_messages ops m1 (rev (tests p)) (pat_uuid p)) as [[[]|e]| |]; cbn [bind]; [| |exact I|exact I].
      + assert (forall t, In t (tests p) -> passes ops m1 p t) as H by (intros t Ht; apply C; apply in_rev in Ht; exact Ht).
        specialize (IH m1). destruct (from_source_loop ops m1 src) as [[m2|e]| |]; [| |exact I|exact I].
        * econstructor; eassumption.
        * eapply stops_cons; eassumption.
      + destruct C as (a & t & b & e' & El & Ha & Hf & ->).
        apply (stops_test ops m [] m p src m1 (rev b) t (rev a)); [constructor|exact A| | |exact Hf].
        * rewrite <- (rev_involutive (tests p)), El, rev_app_distr. cbn [rev]. rewrite <- app_assoc. reflexivity.
        * intros t' Ht. apply Ha. apply in_rev. exact Ht.
    - unfold check_pattern. cbn [bind]. apply (stops_source ops m [] m). constructor.
  Qed.

  Theorem from_source_ok src m : from_source ops src = Ret (Ok m) <-> loads ops (mo_new ops) src m.
  Proof.
    split; [|apply loads_complete]. intros H. pose proof (from_source_cases src (mo_new ops)) as C.
    unfold from_source in H. rewrite H in C. exact C.
  Qed.
  Theorem from_source_err src e : from_source ops src = Ret (Err e) <-> stops ops (mo_new ops) src e.
  Proof.
    split; [|apply stops_complete]. intros H. pose proof (from_source_cases src (mo_new ops)) as C.
    unfold from_source in H. rewrite H in C. exact C.
  Qed.

  (** ** Loading with errors ignored *)
  Lemma ignore_adds src : forall m m', from_source_ignore_errors_loop ops m src = Ret m' ->
    adds ops m (map untested (patterns_of src)) = Ret m'.
  Proof.
    induction src as [|[p|e] src IH]; intros m m'; cbn [from_source_ignore_errors_loop patterns_of map adds]; [auto| |].
    - unfold check_pattern. rewrite extract_spec. cbn [bind].
      destruct (mo_add_pattern ops m (untested p)) as [m1| |]; cbn [bind]; [|discriminate|discriminate].
      destruct (check_test_messages ops m1 (rev (tests p)) (pat_uuid p)); cbn [bind fst]; [apply IH|discriminate|discriminate].
    - unfold check_pattern. cbn [bind fst]. apply IH.
  Qed.
  Theorem ignore_errors_adds src m : from_source_ignore_errors ops src = Ret m ->
    adds ops (mo_new ops) (map untested (patterns_of src)) = Ret m.
  Proof. apply ignore_adds. Qed.

  Lemma adds_app ps qs : forall m, adds ops m (ps ++ qs) = let* m' := adds ops m ps in adds ops m' qs.
  Proof.
    induction ps as [|p ps IH]; intros m; cbn [app adds bind]; [reflexivity|].
    destruct (mo_add_pattern ops m p); cbn [bind]; auto.
  Qed.

  Lemma check_defined m u l : (forall t, In t l -> exists r, mo_parse ops m (tm_message t) = Ret r) ->
    exists c, check_test_messages ops m l u = Ret c.
  Proof.
    induction l as [|t l IH]; intros H; cbn [check_test_messages]; [eauto|].
    destruct (H t ltac:(left; reflexivity)) as (o & ->). cbn [bind]. destruct o as [r|]; [|eauto].
    destruct (check_test_message t r u); [|eauto]. apply IH. intros t' Ht. apply H. right. exact Ht.
  Qed.

  (** When matching is defined on the test messages, this is all that happens. *)
  Lemma ignore_total src : forall m m',
    adds ops m (map untested (patterns_of src)) = Ret m' ->
    (forall before p after m1, patterns_of src = before ++ p :: after ->
       adds ops m (map untested (before ++ [p])) = Ret m1 ->
       forall t, In t (tests p) -> exists r, mo_parse ops m1 (tm_message t) = Ret r) ->
    from_source_ignore_errors_loop ops m src = Ret m'.
  Proof.
    induction src as [|[p|e] src IH]; intros m m' A H; cbn [from_source_ignore_errors_loop patterns_of map adds] in *; [exact A| |].
    - unfold check_pattern. rewrite extract_spec. cbn [bind].
      destruct (mo_add_pattern ops m (untested p)) as [m1| |] eqn:E; cbn [bind] in *; try discriminate.
      destruct (check_defined m1 (pat_uuid p) (rev (tests p))) as (c & ->).
      { intros t Ht. apply (H [] p (patterns_of src) m1); [reflexivity| |apply in_rev; exact Ht].
        cbn [app map adds]. rewrite E. reflexivity. }
      cbn [bind fst]. apply IH; [exact A|]. intros before q after m2 Ep A2 t Ht.
      apply (H (p :: before) q after m2); [cbn [app]; congruence| |exact Ht].
      cbn [app map adds]. rewrite E. exact A2.
    - unfold check_pattern. cbn [bind fst]. apply IH; assumption.
  Qed.

  Theorem ignore_errors_total src m :
    adds ops (mo_new ops) (map untested (patterns_of src)) = Ret m ->
    (forall before p after m1, patterns_of src = before ++ p :: after ->
       adds ops (mo_new ops) (map untested (before ++ [p])) = Ret m1 ->
       forall t, In t (tests p) -> exists r, mo_parse ops m1 (tm_message t) = Ret r) ->
    from_source_ignore_errors ops src = Ret m.
  Proof. apply ignore_total. Qed.

  (** Checked loading builds the same matcher. *)
  Theorem loads_adds m src m' : loads ops m src m' ->
    src = map (fun p => Ok p) (patterns_of src) /\ adds ops m (map untested (patterns_of src)) = Ret m'.
  Proof.
    induction 1 as [m|m p m1 src m2 A _ _ (IH1 & IH2)]; [auto|].
    cbn [patterns_of map adds]. rewrite A. cbn [bind]. split; [congruence|exact IH2].
  Qed.

  Lemma loads_split m before p after m' : loads ops m (before ++ Ok p :: after) m' ->
    exists m1 m2, loads ops m before m1 /\ mo_add_pattern ops m1 (untested p) = Ret m2 /\
      (forall t, In t (tests p) -> passes ops m2 p t) /\ loads ops m2 after m'.
  Proof.
    revert m. induction before as [|x before IH]; intros m H; cbn [app] in H; inversion H as [|? q m1 ? ? A T L]; subst.
    - exists m, m1. split; [constructor|auto].
    - destruct (IH m1 L) as (m2 & m3 & L1 & L2). exists m2, m3. split; [econstructor; eassumption|exact L2].
  Qed.
End Loading.

(** ** Pattern files *)
Lemma into_iter_go l : forall n, length l <= n -> into_iter_loop n l = Ret (map (fun p => Ok p) (rev l)).
Proof.
  induction l as [|p l IH] using rev_ind; intros n L; [destruct n; reflexivity|].
  rewrite app_length in L. cbn [length] in L. destruct n as [|n]; [lia|]. cbn [into_iter_loop].
  rewrite vec_pop_last, IH by lia. cbn [bind]. rewrite rev_app_distr. reflexivity.
Qed.
Theorem into_iter_spec ps : into_iter ps = Ret (map (fun p => Ok p) (rev ps)).
Proof. apply into_iter_go. lia. Qed.

(** ** File names *)
Lemma split_on_app s : forall t cur, ~ In x2f s -> split_on x2f (s ++ t) cur = split_on x2f t (rev s ++ cur).
Proof.
  induction s as [|b s IH]; intros t cur H; [reflexivity|]. cbn [app split_on].
  destruct (byte_eqb b x2f) eqn:E; [apply byte_eqb_eq in E; subst; destruct H; left; reflexivity|].
  rewrite IH by (intros I; apply H; right; exact I). cbn [rev]. rewrite <- app_assoc. reflexivity.
Qed.

Lemma split_on_slash s t : forall cur, exists parts, split_on x2f (s ++ $"/" ++ t) cur = parts ++ split_on x2f t [].
Proof.
  induction s as [|b s IH]; intros cur; cbn [app split_on].
  - exists [rev cur]. reflexivity.
  - destruct (byte_eqb b x2f).
    + destruct (IH []) as (parts & ->). exists (rev cur :: parts). reflexivity.
    + apply IH.
Qed.

(** The parts of a path, glued again. *)
Fixpoint glue (parts : list str) : str :=
  match parts with
  | [] => []
  | [p] => p
  | p :: rest => p ++ $"/" ++ glue rest
  end.
Lemma split_on_glue s : forall cur, glue (split_on x2f s cur) = rev cur ++ s /\ split_on x2f s cur <> [] /\
  (~ In x2f cur -> Forall (fun p => ~ In x2f p) (split_on x2f s cur)).
Proof.
  induction s as [|b s IH]; intros cur; cbn [split_on].
  - rewrite app_nil_r. split; [reflexivity|]. split; [discriminate|]. intros H. constructor; [|constructor]. rewrite <- in_rev. exact H.
  - destruct (byte_eqb b x2f) eqn:E.
    + apply byte_eqb_eq in E. subst b. destruct (IH []) as (G & N & F). split; [|split; [discriminate|]].
      * destruct (split_on x2f s []) as [|p ps] eqn:Ep; [congruence|].
        change (glue (rev cur :: p :: ps)) with (rev cur ++ $"/" ++ glue (p :: ps)). rewrite G. reflexivity.
      * intros H. constructor; [rewrite <- in_rev; exact H|]. apply F. intros [].
    + destruct (IH (b :: cur)) as (G & N & F). split; [|split; [exact N|]].
      * rewrite G. cbn [rev]. rewrite <- app_assoc. reflexivity.
      * intros H. apply F. intros [->|I]; [discriminate|exact (H I)].
Qed.

Definition ignorable (p : str) : bool := is_empty p || str_eqb p ($".").
Lemma ignorable_spec p : ignorable p = true <-> p = [] \/ p = $".".
Proof.
  unfold ignorable. rewrite orb_true_iff, str_eqb_eq. destruct p; cbn; intuition congruence.
Qed.

Lemma slashes_parts trail : slashes trail -> forall cur, ~ In x2f cur ->
  exists parts, Forall (fun p => ignorable p = true) parts /\ split_on x2f trail cur = rev cur :: parts.
Proof.
  induction 1 as [|s _ IH|s _ IH]; intros cur H.
  - exists []. split; [constructor|reflexivity].
  - cbn [app split_on]. destruct (IH [] ltac:(auto)) as (parts & F & E). exists ([] :: parts).
    split; [constructor; [reflexivity|exact F]|]. change ($"/" ++ s) with (x2f :: s). cbn [split_on byte_eqb].
    change (byte_eqb x2f x2f) with true. cbv iota. rewrite E. reflexivity.
  - destruct (IH [x2e] ltac:(intros [I|[]]; discriminate)) as (parts & F & E). exists ([x2e] :: parts).
    split; [constructor; [reflexivity|exact F]|]. change ($"/." ++ s) with (x2f :: x2e :: s).
    cbn [split_on]. change (byte_eqb x2f x2f) with true. change (byte_eqb x2e x2f) with false. cbv iota. rewrite E. reflexivity.
Qed.

Lemma last_component_skip parts l : Forall (fun p => ignorable p = true) parts -> last_component (parts ++ l) = last_component l.
Proof.
  induction 1 as [|p parts H _ IH]; [reflexivity|]. cbn [app last_component]. unfold ignorable in H. rewrite H. exact IH.
Qed.

Lemma after_last_dot_spec rn : forall acc before after, ~ In x2e acc ->
  (after_last_dot rn acc = Some (before, after) <-> rev rn ++ acc = before ++ $"." ++ after /\ ~ In x2e after).
Proof.
  induction rn as [|b rn IH]; intros acc before after H; cbn [after_last_dot].
  - split; [discriminate|]. intros (E & _). exfalso. apply H. cbn [rev app] in E. rewrite E. apply in_app_iff. right. left. reflexivity.
  - destruct (byte_eqb b x2e) eqn:E.
    + apply byte_eqb_eq in E. subst b. cbn [rev]. rewrite <- app_assoc. cbn [app]. split.
      * intros K. inversion K; subst. auto.
      * intros (K & N). f_equal. change ($"." ++ after) with ([x2e] ++ after) in K.
        assert (rev rn = before /\ acc = after) as (-> & ->); [|reflexivity].
        clear IH. revert before K. induction (rev rn) as [|c l IHl]; intros [|c' l'] K; cbn [app] in K.
        -- inversion K. auto.
        -- exfalso. apply H. inversion K. subst. apply in_app_iff. right. left. reflexivity.
        -- exfalso. apply N. injection K as K1 K2. rewrite <- K2. apply in_app_iff. right. left. reflexivity.
        -- inversion K as [[K1 K2]]. destruct (IHl l' K2) as (-> & ->). auto.
    + rewrite (IH (b :: acc)).
      * cbn [rev]. rewrite <- app_assoc. reflexivity.
      * intros [->|I]; [discriminate|exact (H I)].
Qed.

Lemma extension_of_name path name ext : file_name path = Some name ->
  (extension path = Some ext <-> exists stem, name = stem ++ $"." ++ ext /\ stem <> [] /\ ~ In x2e ext).
Proof.
  intros E. unfold extension. rewrite E.
  destruct (after_last_dot (rev name) []) as [(before, after)|] eqn:D.
  - pose proof (proj1 (after_last_dot_spec (rev name) [] before after ltac:(auto)) D) as (D1 & D2).
    rewrite rev_involutive, app_nil_r in D1. split.
    + intros H. destruct (is_empty before) eqn:B; [discriminate|]. apply is_empty_false in B. inversion H; subst. exists before. auto.
    + intros (stem & En & N & NE).
      assert (after_last_dot (rev name) [] = Some (stem, ext)) as D'.
      { apply after_last_dot_spec; [auto|]. rewrite rev_involutive, app_nil_r. auto. }
      rewrite D in D'. inversion D'; subst. apply is_empty_false in N. rewrite N. reflexivity.
  - split; [discriminate|]. intros (stem & En & N & NE). exfalso.
    assert (after_last_dot (rev name) [] = Some (stem, ext)) as D'; [|congruence].
    apply after_last_dot_spec; [auto|]. rewrite rev_involutive, app_nil_r. auto.
Qed.

Lemma slashes_glue parts : Forall (fun p => ignorable p = true) parts -> forall n,
  exists trail, glue (n :: parts) = n ++ trail /\ slashes trail.
Proof.
  induction 1 as [|p parts H _ IH]; intros n.
  - exists []. split; [symmetry; apply app_nil_r|constructor].
  - destruct (IH p) as (trail & E & S). exists ($"/" ++ p ++ trail).
    change (glue (n :: p :: parts)) with (n ++ $"/" ++ glue (p :: parts)). split; [rewrite E; reflexivity|].
    apply ignorable_spec in H. destruct H as [-> | ->]; [apply slashes_slash|apply slashes_dot]; exact S.
Qed.

Lemma last_component_inv l n : last_component l = Some n ->
  exists a b, l = a ++ n :: b /\ Forall (fun p => ignorable p = true) a /\ ignorable n = false /\ n <> $"..".
Proof.
  induction l as [|c l IH]; [discriminate|]. cbn [last_component]. fold (ignorable c). destruct (ignorable c) eqn:E.
  - intros H. destruct (IH H) as (a & b & -> & F & K). exists (c :: a), b. auto.
  - destruct (str_eqb c ($"..")) eqn:D; [discriminate|]. intros H. inversion H; subst.
    apply str_eqb_neq in D. exists [], l. auto.
Qed.

Lemma glue_app a b : b <> [] -> a <> [] -> glue (a ++ b) = glue a ++ $"/" ++ glue b.
Proof.
  intros N. induction a as [|x a IH]; [congruence|]. intros _. destruct a as [|y a].
  - cbn [app]. destruct b; [congruence|]. reflexivity.
  - change ((x :: y :: a) ++ b) with (x :: (y :: a) ++ b). 
    change (glue (x :: (y :: a) ++ b)) with (x ++ $"/" ++ glue ((y :: a) ++ b)). rewrite IH by discriminate.
    change (glue (x :: y :: a)) with (x ++ $"/" ++ glue (y :: a)).
    cbn [app]. rewrite <- !app_assoc. reflexivity.
Qed.

Lemma file_name_sound path name : file_name path = Some name ->
  exists dir trail, path = dir ++ name ++ trail /\ (dir = [] \/ exists d, dir = d ++ $"/") /\
    name <> [] /\ name <> $"." /\ name <> $".." /\ ~ In x2f name /\ slashes trail.
Proof.
  unfold file_name. intros H. apply last_component_inv in H. destruct H as (a & b & E & F & I & D).
  assert (split_on x2f path [] = rev b ++ name :: rev a) as Es.
  { rewrite <- (rev_involutive (split_on x2f path [])), E, rev_app_distr. cbn [rev]. rewrite <- app_assoc. reflexivity. }
  destruct (split_on_glue path []) as (G & _ & S). cbn [rev app] in G. rewrite Es in *.
  destruct (slashes_glue (rev a)) with (n := name) as (trail & Et & St).
  { apply Forall_rev. exact F. }
  assert (~ In x2f name) as Nn.
  { specialize (S ltac:(auto)). apply Forall_app in S. destruct S as (_ & S). inversion S; subst. assumption. }
  assert (name <> [] /\ name <> $".") as (N1 & N2).
  { split; intros ->; discriminate. }
  destruct (rev b) as [|x l] eqn:Eb.
  - exists [], trail. cbn [app] in *. rewrite <- G, Et. repeat split; auto.
  - exists (glue (x :: l) ++ $"/"), trail. split.
    + rewrite <- G, glue_app by discriminate. rewrite Et, <- !app_assoc. reflexivity.
    + split; [right; eexists; reflexivity|]. repeat split; auto.
Qed.

Lemma file_name_complete dir name trail : (dir = [] \/ exists d, dir = d ++ $"/") ->
  name <> [] -> name <> $"." -> name <> $".." -> ~ In x2f name -> slashes trail ->
  file_name (dir ++ name ++ trail) = Some name.
Proof.
  intros Hd N1 N2 N3 Ns St. unfold file_name.
  assert (exists parts0, split_on x2f (dir ++ name ++ trail) [] = parts0 ++ split_on x2f (name ++ trail) []) as (parts0 & ->).
  { destruct Hd as [->|(d & ->)]; [exists []; reflexivity|]. rewrite <- app_assoc. apply split_on_slash. }
  rewrite split_on_app, app_nil_r by exact Ns.
  destruct (slashes_parts trail St (rev name)) as (parts & F & E); [rewrite <- in_rev; exact Ns|].
  rewrite E, rev_involutive, rev_app_distr. cbn [rev]. rewrite <- app_assoc.
  rewrite last_component_skip by (apply Forall_rev; exact F). cbn [app last_component].
  assert (is_empty name || str_eqb name ($".") = false)%bool as ->.
  { apply orb_false_iff. split; [apply is_empty_false; exact N1|apply str_eqb_neq; exact N2]. }
  apply str_eqb_neq in N3. rewrite N3. reflexivity.
Qed.

Theorem extension_spec path ext : extension path = Some ext <-> has_extension path ext.
Proof.
  split.
  - intros H. destruct (file_name path) as [name|] eqn:E; [|unfold extension in H; rewrite E in H; discriminate].
    pose proof (proj1 (extension_of_name path name ext E) H) as (stem & -> & N & NE).
    apply file_name_sound in E. destruct E as (dir & trail & -> & Hd & _ & _ & N3 & Ns & St).
    exists dir, stem, trail. rewrite <- !app_assoc. repeat split; auto.
    + intros I. apply Ns. apply in_app_iff. auto.
    + intros I. apply Ns. apply in_app_iff. right. right. exact I.
  - intros (dir & stem & trail & -> & Hd & N & Ns & Ne & Nd & N3 & St).
    assert (file_name (dir ++ (stem ++ $"." ++ ext) ++ trail) = Some (stem ++ $"." ++ ext)) as E.
    { apply file_name_complete; auto.
      - destruct stem; [congruence|discriminate].
      - destruct stem as [|b [|c stem]]; [congruence|discriminate|discriminate].
      - rewrite !in_app_iff. intros [I|[I|I]]; [exact (Ns I)| |exact (Ne I)]. destruct I as [I|[]]. discriminate. }
    rewrite <- !app_assoc in E. apply (extension_of_name _ _ _ E). exists stem. auto.
Qed.

Lemma has_extension_unique path e e' : has_extension path e -> has_extension path e' -> e = e'.
Proof. rewrite <- !extension_spec. congruence. Qed.

Definition json_ext (e : str) : Prop := e = $"json".
Definition yaml_ext (e : str) : Prop := e = $"yaml" \/ e = $"yml" \/ e = $"YAML" \/ e = $"YML".
