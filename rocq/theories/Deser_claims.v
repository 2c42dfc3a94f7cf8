(** * Deserialisation: proofs *)
From Coq Require Import Sorted.
From Verif Require Import Base Base_facts Utils Utils_facts Parsers Pattern Spec Grammar Spec_source Source_claims Deser Spec_deser.

Lemma rbind_ok {A B E} (r : result A E) (k : A -> result B E) b : rbind r k = Ok b <-> exists a, r = Ok a /\ k a = Ok b.
Proof.
  destruct r as [a|e]; cbn [rbind]; split.
  - eauto.
  - intros (a' & E1 & H). injection E1 as <-. exact H.
  - discriminate.
  - intros (a' & E1 & _). discriminate.
Qed.

(** ** Leaf types *)
Lemma de_string_ok v s : de_string v = Ok s <-> string_value v s.
Proof. unfold string_value. destruct v; cbn; split; intros H; try discriminate; inversion H; reflexivity. Qed.

Lemma map_result_ok {A B E} (f : A -> result B E) l : forall r, map_result f l = Ok r <-> Forall2 (fun x y => f x = Ok y) l r.
Proof.
  induction l as [|x l IH]; intros r; cbn [map_result].
  - split; [intros H; inversion H; constructor|intros H; inversion H; reflexivity].
  - rewrite rbind_ok. split.
    + intros (y & E1 & H). apply rbind_ok in H. destruct H as (r' & E2 & H). inversion H; subst. constructor; [exact E1|]. apply IH. exact E2.
    + intros H. inversion H as [|? y ? r' E1 E2]; subst. exists y. split; [exact E1|]. apply rbind_ok. exists r'. split; [apply IH; exact E2|reflexivity].
Qed.

Lemma Forall2_iff {A B} (P Q : A -> B -> Prop) : (forall a b, P a b <-> Q a b) -> forall l r, Forall2 P l r <-> Forall2 Q l r.
Proof. intros H l r. split; induction 1; constructor; auto; apply H; assumption. Qed.

Lemma de_vec_ok {A} (f : value -> result A de_error) (ty : value -> A -> Prop) :
  (forall v a, f v = Ok a <-> ty v a) -> forall v l, de_vec f v = Ok l <-> seq_value ty v l.
Proof.
  intros H v l. unfold seq_value. destruct v; cbn [de_vec]; split; try discriminate.
  - intros E. inversion E. auto.
  - intros [(_ & ->)|(vs & E & _)]; [reflexivity|discriminate].
  - intros [(E & _)|(vs & E & _)]; discriminate.
  - intros E. apply map_result_ok in E. right. eexists. split; [reflexivity|]. exact (proj1 (Forall2_iff _ _ H _ _) E).
  - intros [(E & _)|(vs & E & F)]; [discriminate|]. inversion E; subst. apply map_result_ok. exact (proj2 (Forall2_iff _ _ H _ _) F).
  - intros [(E & _)|(vs & E & _)]; discriminate.
  - intros [(E & _)|(vs & E & _)]; discriminate.
Qed.

Lemma map_result_err {A B E} (f : A -> result B E) l : forall e, map_result f l = Err e <->
  exists a x b, l = a ++ x :: b /\ (forall y, In y a -> exists r, f y = Ok r) /\ f x = Err e.
Proof.
  induction l as [|x l IH]; intros e; cbn [map_result].
  - split; [discriminate|]. intros ([|y a] & x & b & E1 & _); discriminate.
  - destruct (f x) as [y|e'] eqn:F; cbn [rbind].
    + split.
      * destruct (map_result f l) as [r|e'] eqn:R; cbn [rbind]; [discriminate|]. intros H. injection H as ->.
        destruct (proj1 (IH e) eq_refl) as (a & z & b & -> & Ha & Hz). exists (x :: a), z, b. split; [reflexivity|].
        split; [|exact Hz]. intros w [<-|I]; eauto.
      * intros ([|w a] & z & b & E1 & Ha & Hz); cbn [app] in E1; injection E1 as -> ->; [congruence|].
        rewrite (proj2 (IH e)); [reflexivity|]. exists a, z, b. split; [reflexivity|]. split; [|exact Hz]. intros q I. apply Ha. right. exact I.
    + split.
      * intros H. injection H as ->. exists [], x, l. split; [reflexivity|]. split; [intros y []|exact F].
      * intros ([|w a] & z & b & E1 & Ha & Hz); cbn [app] in E1; injection E1 as -> ->; [congruence|].
        destruct (Ha w ltac:(left; reflexivity)). congruence.
Qed.

Lemma de_vec_err {A} (f : value -> result A de_error) (ty : value -> A -> Prop) (err : value -> de_error -> Prop) :
  (forall v a, f v = Ok a <-> ty v a) -> (forall v e, f v = Err e <-> err v e) ->
  forall v e, de_vec f v = Err e <-> seq_error ty err v e.
Proof.
  intros H H' v e. unfold seq_error, not_a_list. destruct v; cbn [de_vec].
  - split; [discriminate|]. intros [((N & _) & _)|(a & x & b & E & _)]; [contradiction|discriminate].
  - split; [intros E; injection E as <-; left; repeat split; intros; discriminate|].
    intros [(_ & ->)|(a & x & b & E & _)]; [reflexivity|discriminate].
  - rewrite map_result_err. split.
    + intros (a & x & b & -> & Ha & Hx). right. exists a, x, b. split; [reflexivity|]. split; [|apply H'; exact Hx].
      intros y I. destruct (Ha y I) as (r & R). exists r. apply H. exact R.
    + intros [((_ & N) & _)|(a & x & b & E & Ha & Hx)]; [destruct (N l); reflexivity|].
      injection E as ->. exists a, x, b. split; [reflexivity|]. split; [|apply H'; exact Hx].
      intros y I. destruct (Ha y I) as (r & R). exists r. apply H. exact R.
  - split; [intros E; injection E as <-; left; repeat split; intros; discriminate|].
    intros [(_ & ->)|(a & x & b & E & _)]; [reflexivity|discriminate].
  - split; [intros E; injection E as <-; left; repeat split; intros; discriminate|].
    intros [(_ & ->)|(a & x & b & E & _)]; [reflexivity|discriminate].
Qed.

(** Functions whose only error is [InvalidType]. *)
Definition only_type {A} (f : value -> result A de_error) : Prop := forall v e, f v = Err e -> e = InvalidType.
Lemma only_type_err {A} (f : value -> result A de_error) (ty : value -> A -> Prop) :
  (forall v a, f v = Ok a <-> ty v a) -> only_type f -> forall v e, f v = Err e <-> e = InvalidType /\ ~ exists a, ty v a.
Proof.
  intros H O v e. split.
  - intros E. split; [apply (O v); exact E|]. intros (a & T). apply H in T. congruence.
  - intros (-> & N). destruct (f v) as [a|e] eqn:F; [destruct N; exists a; apply H; exact F|]. rewrite (O v e F). reflexivity.
Qed.
Lemma string_only : only_type de_string.
Proof. intros [] e H; cbn in H; congruence. Qed.
Lemma vec_only {A} (f : value -> result A de_error) : only_type f -> only_type (de_vec f).
Proof.
  intros O v e. destruct v; cbn [de_vec]; try congruence. intros H. apply map_result_err in H.
  destruct H as (_ & x & _ & _ & _ & H). apply (O x). exact H.
Qed.
Lemma map_only : only_type de_map.
Proof.
  intros v e. destruct v as [| | |l|]; cbn [de_map]; try congruence. generalize ([] : bmap).
  induction l as [|(k, v) l IH]; intros m; cbn [de_map_entries]; [discriminate|].
  destruct (de_string v) eqn:F; cbn [rbind]; [apply IH|]. intros H. injection H as <-. apply (string_only v). exact F.
Qed.

(** ** Maps *)
Lemma de_map_entries_ok l : forall m m', de_map_entries l m = Ok m' <->
  exists l', l = map (fun kv : str * str => (fst kv, VStr (snd kv))) l' /\ m' = fold_left (fun m kv => bmap_insert (fst kv) (snd kv) m) l' m.
Proof.
  induction l as [|(k, v) l IH]; intros m m'; cbn [de_map_entries].
  - split; [intros H; inversion H; subst; exists []; auto|]. intros ([|x l'] & E & ->); [reflexivity|discriminate].
  - rewrite rbind_ok. split.
    + intros (s & E & H). apply de_string_ok in E. unfold string_value in E. subst v. apply IH in H.
      destruct H as (l' & -> & ->). exists ((k, s) :: l'). auto.
    + intros ([|(k', s) l'] & E & ->); [discriminate|]. cbn in E. inversion E; subst. exists s. split; [reflexivity|].
      apply IH. exists l'. auto.
Qed.

Lemma strings_in l : (forall k x, In (k, x) l -> exists s, x = VStr s) <-> exists l', l = map (fun kv : str * str => (fst kv, VStr (snd kv))) l'.
Proof.
  split.
  - induction l as [|(k, x) l IH]; intros H; [exists []; reflexivity|].
    destruct (H k x ltac:(left; reflexivity)) as (s & ->). destruct IH as (l' & ->); [intros k' x' I; apply (H k' x'); right; exact I|].
    exists ((k, s) :: l'). reflexivity.
  - intros (l' & ->) k x I. apply in_map_iff in I. destruct I as ((k', s) & E & _). inversion E. eauto.
Qed.

Lemma last_get_map l k : last_get (map (fun kv : str * str => (fst kv, VStr (snd kv))) l) k = option_map VStr (last_get l k).
Proof.
  induction l as [|(k', s) l IH]; [reflexivity|]. cbn [map last_get fst snd]. rewrite IH.
  destruct (last_get l k); [reflexivity|]. cbn [option_map]. destruct (str_eqb k k'); reflexivity.
Qed.

Lemma ascending_ext (m m' : list (str * str)) : ascending_keys m -> ascending_keys m' -> (forall k s, In (k, s) m <-> In (k, s) m') -> m = m'.
Proof.
  assert (forall a, str_cmp a a <> Lt) as Irr by (intros a; rewrite str_cmp_refl; discriminate).
  intros S. revert m'. induction S as [|(k, s) m S IH F]; intros m' S' H.
  - destruct m' as [|(k', s') m']; [reflexivity|]. destruct (proj2 (H k' s') ltac:(left; reflexivity)).
  - destruct S' as [|(k', s') m' S' F']; [destruct (proj1 (H k s) ltac:(left; reflexivity))|].
    rewrite Forall_forall in F, F'.
    assert ((k, s) = (k', s')) as E.
    { destruct (proj1 (H k s) ltac:(left; reflexivity)) as [E|I]; [congruence|].
      destruct (proj2 (H k' s') ltac:(left; reflexivity)) as [E|I']; [congruence|].
      exfalso. pose proof (F _ I') as L1. pose proof (F' _ I) as L2. cbn in L1, L2.
      apply (Irr k). exact (str_cmp_lt_trans _ _ _ L1 L2). }
    injection E as <- <-. f_equal. apply IH; [exact S'|]. intros k1 s1. split; intros I.
    + destruct (proj1 (H k1 s1) ltac:(right; exact I)) as [E|I']; [|exact I'].
      inversion E; subst. apply F in I. destruct (Irr _ I).
    + destruct (proj2 (H k1 s1) ltac:(right; exact I)) as [E|I']; [|exact I'].
      inversion E; subst. apply F' in I. destruct (Irr _ I).
Qed.

Lemma de_map_ok v m : de_map v = Ok m <-> map_value v m.
Proof.
  unfold map_value. destruct v; cbn [de_map]; split; try discriminate.
  - intros E. inversion E. auto.
  - intros [(_ & ->)|(l & E & _)]; [reflexivity|discriminate].
  - intros [(E & _)|(l & E & _)]; discriminate.
  - intros [(E & _)|(l' & E & _)]; discriminate.
  - intros E. right. exists l. split; [reflexivity|]. apply de_map_entries_ok in E. destruct E as (l' & -> & ->).
    split; [apply strings_in; eauto|].
    assert (bmap_sorted []) as S0 by constructor.
    pose proof (insert_all_sorted l' [] S0) as S. split; [exact S|]. intros k s.
    rewrite <- (bmap_get_in _ k s S), (insert_all_get l' k [] S0), binds_get, last_get_map.
    destruct (last_get l' k) as [s'|]; cbn; split; intros K; inversion K; reflexivity.
  - intros [(E & _)|(l' & E & T & S & H)]; [discriminate|]. inversion E; subst l'. clear E.
    apply strings_in in T. destruct T as (l' & ->). apply de_map_entries_ok. exists l'. split; [reflexivity|].
    assert (bmap_sorted []) as S0 by constructor.
    pose proof (insert_all_sorted l' [] S0) as S'. apply ascending_ext; [exact S|exact S'|]. intros k s.
    rewrite H, <- (bmap_get_in _ k s S'), (insert_all_get l' k [] S0), binds_get, last_get_map.
    destruct (last_get l' k) as [s'|]; cbn; split; intros K; inversion K; reflexivity.
  - intros [(E & _)|(l & E & _)]; discriminate.
Qed.

(** ** Fields *)

(** Like [field], starting from [d]. *)
Definition field_or {A} (d : option A) (l : list (str * value)) (key : str) (ty : value -> A -> Prop) (o : option A) : Prop :=
  (o = d /\ ~ In key (map fst l)) \/ (exists v a, o = Some a /\ binds l key v /\ ty v a).

Lemma binds_cons {A} k (v : A) l key w : binds ((k, v) :: l) key w <-> binds l key w \/ (~ In key (map fst l) /\ k = key /\ v = w).
Proof.
  rewrite !binds_get, <- last_get_none. cbn [last_get]. destruct (last_get l key) as [x|].
  - split; [auto|]. intros [H|(H & _)]; [exact H|discriminate].
  - destruct (str_eqb key k) eqn:E.
    + apply str_eqb_eq in E. subst. split; [intros H; inversion H; auto|]. intros [H|(_ & _ & ->)]; [discriminate|reflexivity].
    + split; [discriminate|]. intros [H|(_ & -> & _)]; [discriminate|]. rewrite str_eqb_refl in E. discriminate.
Qed.
Lemma binds_key {A} l key (w : A) : binds l key w -> In key (map fst l).
Proof. intros (a & b & -> & _). rewrite map_app. apply in_app_iff. right. left. reflexivity. Qed.

Lemma field_or_same {A} d key v (x : A) l (ty : value -> A -> Prop) o :
  (forall a, ty v a <-> a = x) -> field_or d ((key, v) :: l) key ty o <-> field_or (Some x) l key ty o.
Proof.
  intros U. unfold field_or. split.
  - intros [(_ & N)|(w & a & -> & B & T)]; [destruct N; left; reflexivity|].
    apply binds_cons in B. destruct B as [B|(N & _ & <-)]; [right; eauto|]. apply U in T. subst a. left. auto.
  - intros [(-> & N)|(w & a & -> & B & T)]; right.
    + exists v, x. split; [reflexivity|]. split; [apply binds_cons; auto|apply U; reflexivity].
    + exists w, a. split; [reflexivity|]. split; [apply binds_cons; auto|exact T].
Qed.
Lemma field_or_other {A} d k v key l (ty : value -> A -> Prop) o :
  k <> key -> field_or d ((k, v) :: l) key ty o <-> field_or d l key ty o.
Proof.
  intros N. unfold field_or. cbn [map fst In]. split.
  - intros [(E & H)|(w & a & -> & B & T)]; [left; tauto|]. apply binds_cons in B.
    destruct B as [B|(_ & E & _)]; [right; eauto|contradiction].
  - intros [(E & H)|(w & a & -> & B & T)]; [left; tauto|]. right. exists w, a. split; [reflexivity|]. split; [apply binds_cons; auto|exact T].
Qed.

Lemma fields_ok_nil types : fields_ok types [].
Proof. intros k v []. Qed.
Lemma fields_ok_cons types k v l : fields_ok types ((k, v) :: l) <-> (exists ty, In (k, ty) types /\ ty v) /\ fields_ok types l.
Proof.
  split.
  - intros H. split; [apply (H k v); left; reflexivity|]. intros k' v' I. apply H. right. exact I.
  - intros (T & H) k' v' [E|I]; [inversion E; subst; exact T|apply H; exact I].
Qed.

(** ** Test messages *)
Lemma tm_visit_ok l : forall a a', tm_visit_fields l a = Ok a' <->
  fields_ok message_fields l /\
  field_or (ta_message a) l ($"message") string_value (ta_message a') /\
  field_or (ta_values a) l ($"values") map_value (ta_values a') /\
  field_or (ta_tags a) l ($"tags") (seq_value string_value) (ta_tags a').
Proof.
  induction l as [|(k, v) l IH]; intros a a'; cbn [tm_visit_fields].
  - split.
    + intros H. inversion H; subst. split; [apply fields_ok_nil|]. repeat split; left; auto.
    + intros (_ & H1 & H2 & H3). destruct a as [a1 a2 a3], a' as [b1 b2 b3]. cbn in *.
      destruct H1 as [(-> & _)|(? & ? & _ & B & _)]; [|destruct (binds_key _ _ _ B)].
      destruct H2 as [(-> & _)|(? & ? & _ & B & _)]; [|destruct (binds_key _ _ _ B)].
      destruct H3 as [(-> & _)|(? & ? & _ & B & _)]; [|destruct (binds_key _ _ _ B)]. reflexivity.
  - rewrite rbind_ok, fields_ok_cons. split.
    + intros (f & F & H). apply rbind_ok in H. destruct H as (a1 & V & H). apply IH in H. clear IH.
      destruct H as (H0 & H1 & H2 & H3). unfold tm_field_of in F.
      destruct (str_eqb k ($"message")) eqn:K1; [|destruct (str_eqb k ($"values")) eqn:K2; [|destruct (str_eqb k ($"tags")) eqn:K3]];
        inversion F; subst f; clear F; apply rbind_ok in V; destruct V as (x & V & E); inversion E; subst a1; clear E; cbn in H1, H2, H3.
      * apply str_eqb_eq in K1. subst k. split; [split; [|exact H0]|split; [|split]].
        -- eexists. split; [left; reflexivity|]. exists x. apply de_string_ok. exact V.
        -- apply (field_or_same _ _ _ x); [|exact H1]. intros b. rewrite <- de_string_ok. split; congruence.
        -- apply field_or_other; [discriminate|exact H2].
        -- apply field_or_other; [discriminate|exact H3].
      * apply str_eqb_eq in K2. subst k. split; [split; [|exact H0]|split; [|split]].
        -- eexists. split; [right; left; reflexivity|]. exists x. apply de_map_ok. exact V.
        -- apply field_or_other; [discriminate|exact H1].
        -- apply (field_or_same _ _ _ x); [|exact H2]. intros b. rewrite <- de_map_ok. split; congruence.
        -- apply field_or_other; [discriminate|exact H3].
      * apply str_eqb_eq in K3. subst k. split; [split; [|exact H0]|split; [|split]].
        -- eexists. split; [right; right; left; reflexivity|]. exists x. apply (de_vec_ok _ _ de_string_ok). exact V.
        -- apply field_or_other; [discriminate|exact H1].
        -- apply field_or_other; [discriminate|exact H2].
        -- apply (field_or_same _ _ _ x); [|exact H3]. intros b. rewrite <- (de_vec_ok _ _ de_string_ok). split; congruence.
    + intros (((ty & I & T) & H0) & H1 & H2 & H3).
      destruct I as [E|[E|[E|[]]]]; injection E as <- <-; destruct T as (x & T).
      * exists TM_MESSAGE. split; [reflexivity|]. apply de_string_ok in T. rewrite T. cbn [rbind].
        apply (proj2 (IH _ _)). cbn. split; [exact H0|]. split; [|split].
        -- eapply field_or_same; [|exact H1]. intros b. rewrite <- de_string_ok. split; congruence.
        -- eapply field_or_other; [|exact H2]. discriminate.
        -- eapply field_or_other; [|exact H3]. discriminate.
      * exists TM_VALUES. split; [reflexivity|]. apply de_map_ok in T. rewrite T. cbn [rbind].
        apply (proj2 (IH _ _)). cbn. split; [exact H0|]. split; [|split].
        -- eapply field_or_other; [|exact H1]. discriminate.
        -- eapply field_or_same; [|exact H2]. intros b. rewrite <- de_map_ok. split; congruence.
        -- eapply field_or_other; [|exact H3]. discriminate.
      * exists TM_TAGS. split; [reflexivity|]. apply (de_vec_ok _ _ de_string_ok) in T. rewrite T. cbn [rbind].
        apply (proj2 (IH _ _)). cbn. split; [exact H0|]. split; [|split].
        -- eapply field_or_other; [|exact H1]. discriminate.
        -- eapply field_or_other; [|exact H2]. discriminate.
        -- eapply field_or_same; [|exact H3]. intros b. rewrite <- (de_vec_ok _ _ de_string_ok). split; congruence.
Qed.

Theorem de_message_ok v t : de_test_message v = Ok t <-> message_value v t.
Proof.
  unfold de_test_message, message_value. split.
  - destruct v as [| | |l|]; try discriminate. intros H. apply rbind_ok in H. destruct H as (a & V & H).
    apply tm_visit_ok in V. destruct V as (H0 & H1 & H2 & H3). cbn [ta_message ta_values ta_tags] in H1, H2, H3.
    exists l. split; [reflexivity|]. split; [exact H0|].
    destruct (ta_message a) as [m|]; [|discriminate]. inversion H; subst t; cbn. split; [exact H1|]. split; [|exact H3].
    destruct (ta_values a); [left; exact H2|right; auto].
  - intros (l & -> & H0 & H1 & H2 & H3). apply rbind_ok. destruct t as [m vs tg]. cbn [tm_message tm_values tm_tags] in *.
    destruct H2 as [H2|(H2 & ->)].
    + exists {| ta_message := Some m; ta_values := Some vs; ta_tags := tg |}. split; [|reflexivity].
      apply tm_visit_ok. split; [exact H0|]. split; [exact H1|]. split; [exact H2|exact H3].
    + exists {| ta_message := Some m; ta_values := None; ta_tags := tg |}. split; [|reflexivity].
      apply tm_visit_ok. split; [exact H0|]. split; [exact H1|]. split; [exact H2|exact H3].
Qed.

Lemma tm_visit_err l : forall a e, tm_visit_fields l a = Err e <->
  exists pre k x post, l = pre ++ (k, x) :: post /\ fields_ok message_fields pre /\ message_field_error k x e.
Proof.
  induction l as [|(k, v) l IH]; intros a e; cbn [tm_visit_fields].
  - split; [discriminate|]. intros ([|y pre] & k & x & post & E & _); discriminate.
  - assert (forall a' : tm_acc, fields_ok message_fields [(k, v)] ->
      (tm_visit_fields l a' = Err e <-> exists pre k' x post, (k, v) :: l = pre ++ (k', x) :: post /\ fields_ok message_fields pre /\ message_field_error k' x e)) as Good.
    { intros a' G. rewrite (IH a' e). split.
      - intros (pre & k' & x & post & -> & F & H). exists ((k, v) :: pre), k', x, post. split; [reflexivity|]. split; [|exact H].
        apply fields_ok_cons. apply fields_ok_cons in G. tauto.
      - intros ([|y pre] & k' & x & post & E & F & H); cbn [app] in E.
        + injection E as <- <- <-. exfalso. destruct (G k v ltac:(left; reflexivity)) as (ty & I & T).
          destruct H as [N|ty' I' N]; [destruct N; exact (in_map fst _ _ I)|].
          apply N. clear - I I' T. destruct I as [E|[E|[E|[]]]]; injection E as <- <-; destruct I' as [E|[E|[E|[]]]]; try discriminate; injection E as <-; exact T.
        + injection E as <- ->. exists pre, k', x, post. split; [reflexivity|]. apply fields_ok_cons in F. tauto. }
    assert (forall e', message_field_error k v e' -> (forall e'', message_field_error k v e'' -> e'' = e') -> ~ fields_ok message_fields [(k, v)] ->
      (Err e' = Err e :> result tm_acc de_error <-> exists pre k' x post, (k, v) :: l = pre ++ (k', x) :: post /\ fields_ok message_fields pre /\ message_field_error k' x e)) as Bad.
    { intros e' B U N. split.
      - intros E. injection E as ->. exists [], k, v, l. split; [reflexivity|]. split; [apply fields_ok_nil|exact B].
      - intros ([|y pre] & k' & x & post & E & F & H); cbn [app] in E.
        + injection E as <- <- <-. apply U in H. congruence.
        + injection E as <- ->. destruct N. apply fields_ok_cons in F. apply fields_ok_cons. split; [tauto|apply fields_ok_nil]. }
    assert (forall ty, In (k, ty) message_fields -> ~ ty v -> (forall e'', message_field_error k v e'' -> e'' = InvalidType) /\ ~ fields_ok message_fields [(k, v)]) as Types.
    { intros ty I N. split.
      - intros e'' [N'|]; [destruct N'; exact (in_map fst _ _ I)|reflexivity].
      - intros G. destruct (G k v ltac:(left; reflexivity)) as (ty' & I' & T).
        apply N. clear - I I' T. destruct I as [E|[E|[E|[]]]]; injection E as <- <-; destruct I' as [E|[E|[E|[]]]]; try discriminate; injection E as <-; exact T. }
    unfold tm_field_of.
    destruct (str_eqb k ($"message")) eqn:K1; [|destruct (str_eqb k ($"values")) eqn:K2; [|destruct (str_eqb k ($"tags")) eqn:K3]]; cbn [rbind].
    + apply str_eqb_eq in K1. subst k. destruct (de_string v) as [s|e'] eqn:D; cbn [rbind].
      * apply Good. apply fields_ok_cons. split; [|apply fields_ok_nil]. eexists. split; [left; reflexivity|]. exists s. apply de_string_ok. exact D.
      * destruct (proj1 (only_type_err _ _ de_string_ok string_only v e') D) as (-> & N).
        destruct (Types (fun v => exists s, string_value v s) ltac:(left; reflexivity) N) as (T1 & T2).
        apply Bad; [|exact T1|exact T2]. eapply mfe_type; [left; reflexivity|exact N].
    + apply str_eqb_eq in K2. subst k. destruct (de_map v) as [s|e'] eqn:D; cbn [rbind].
      * apply Good. apply fields_ok_cons. split; [|apply fields_ok_nil]. eexists. split; [right; left; reflexivity|]. exists s. apply de_map_ok. exact D.
      * destruct (proj1 (only_type_err _ _ de_map_ok map_only v e') D) as (-> & N).
        destruct (Types (fun v => exists m, map_value v m) ltac:(right; left; reflexivity) N) as (T1 & T2).
        apply Bad; [|exact T1|exact T2]. eapply mfe_type; [right; left; reflexivity|exact N].
    + apply str_eqb_eq in K3. subst k. destruct (de_vec de_string v) as [s|e'] eqn:D; cbn [rbind].
      * apply Good. apply fields_ok_cons. split; [|apply fields_ok_nil]. eexists. split; [right; right; left; reflexivity|]. exists s.
        apply (de_vec_ok _ _ de_string_ok). exact D.
      * destruct (proj1 (only_type_err _ _ (de_vec_ok _ _ de_string_ok) (vec_only _ string_only) v e') D) as (-> & N).
        destruct (Types (fun v => exists t, seq_value string_value v t) ltac:(right; right; left; reflexivity) N) as (T1 & T2).
        apply Bad; [|exact T1|exact T2]. eapply mfe_type; [right; right; left; reflexivity|exact N].
    + assert (~ In k (map fst message_fields)) as N.
      { cbn. intros [<-|[<-|[<-|[]]]]; discriminate. }
      apply Bad; [apply mfe_unknown; exact N| |].
      * intros e'' [_|ty I _]; [reflexivity|]. destruct N. exact (in_map fst _ _ I).
      * intros G. destruct (G k v ltac:(left; reflexivity)) as (ty & I & _). apply N. exact (in_map fst _ _ I).
Qed.

Lemma field_absent {A} (d : option A) l key ty : field_or d l key ty None -> ~ In key (map fst l).
Proof. intros [(_ & N)|(v & a & E & _)]; [exact N|discriminate]. Qed.
Lemma field_some {A} l key (ty : value -> A -> Prop) a : field_or None l key ty (Some a) -> field l key ty (Some a) /\ In key (map fst l).
Proof.
  intros [(E & _)|(v & a' & E & B & T)]; [discriminate|]. split; [|apply (binds_key _ _ _ B)]. right. eauto.
Qed.

Theorem de_message_err v e : de_test_message v = Err e <-> message_error v e.
Proof.
  unfold de_test_message. split.
  - destruct v as [|s|vs|l|]; try (intros E; injection E as <-; apply me_map; intros l' E; discriminate).
    destruct (tm_visit_fields l _) as [a|e'] eqn:V; cbn [rbind].
    + destruct (ta_message a) as [m|] eqn:M; [discriminate|]. intros E. injection E as <-.
      apply tm_visit_ok in V. destruct V as (H0 & H1 & _). rewrite M in H1. apply (me_missing _ l); auto. apply (field_absent _ _ _ _ H1).
    + intros E. injection E as ->. apply tm_visit_err in V. destruct V as (pre & k & x & post & -> & F & H).
      apply (me_field _ pre k x post); auto.
  - intros [N|a k x b e' -> F H|l -> F N].
    + destruct v as [| | |l|]; try reflexivity. destruct (N l). reflexivity.
    + rewrite (proj2 (tm_visit_err _ _ e')); [reflexivity|]. exists a, k, x, b. auto.
    + destruct (tm_visit_fields l _) as [a|e'] eqn:V; cbn [rbind].
      * apply tm_visit_ok in V. destruct V as (_ & H1 & _). destruct (ta_message a); [|reflexivity].
        destruct (N (proj2 (field_some _ _ _ _ H1))).
      * apply tm_visit_err in V. exfalso. destruct V as (pre & k & x & post & -> & _ & H).
        destruct (F k x ltac:(apply in_app_iff; right; left; reflexivity)) as (ty & I & T).
        destruct H as [N'|ty' I' N']; [destruct N'; exact (in_map fst _ _ I)|].
        apply N'. clear - I I' T. destruct I as [E|[E|[E|[]]]]; injection E as <- <-; destruct I' as [E|[E|[E|[]]]]; try discriminate; injection E as <-; exact T.
Qed.

(** ** Patterns *)
Section Pattern.
  Variable parse_uuid : str -> option uuid.

  Lemma de_uuid_ok v u : de_uuid parse_uuid v = Ok u <-> uuid_value parse_uuid v u.
  Proof.
    unfold uuid_value. destruct v as [|s| | |]; cbn [de_uuid]; split; try discriminate; try (intros (s' & E & _); discriminate).
    - destruct (parse_uuid s) as [u'|] eqn:E; [|discriminate]. intros H. inversion H; subst. eauto.
    - intros (s' & E & H). inversion E; subst. rewrite H. reflexivity.
  Qed.

  Lemma pat_visit_ok l : forall a a', pat_visit_fields parse_uuid l a = Ok a' <->
    fields_ok (pattern_fields parse_uuid) l /\
    field_or (pa_name a) l ($"name") string_value (pa_name a') /\
    field_or (pa_uuid a) l ($"uuid") (uuid_value parse_uuid) (pa_uuid a') /\
    field_or (pa_pattern a) l ($"pattern") string_value (pa_pattern a') /\
    field_or (pa_values a) l ($"values") map_value (pa_values a') /\
    field_or (pa_tags a) l ($"tags") (seq_value string_value) (pa_tags a') /\
    field_or (pa_test_messages a) l ($"test_messages") (seq_value message_value) (pa_test_messages a').
  Proof.
    induction l as [|(k, v) l IH]; intros a a'; cbn [pat_visit_fields].
    - split.
      + intros H. inversion H; subst. split; [apply fields_ok_nil|]. repeat split; left; auto.
      + intros (_ & H1 & H2 & H3 & H4 & H5 & H6). destruct a, a'. cbn in *.
        destruct H1 as [(-> & _)|(? & ? & _ & B & _)]; [|destruct (binds_key _ _ _ B)].
        destruct H2 as [(-> & _)|(? & ? & _ & B & _)]; [|destruct (binds_key _ _ _ B)].
        destruct H3 as [(-> & _)|(? & ? & _ & B & _)]; [|destruct (binds_key _ _ _ B)].
        destruct H4 as [(-> & _)|(? & ? & _ & B & _)]; [|destruct (binds_key _ _ _ B)].
        destruct H5 as [(-> & _)|(? & ? & _ & B & _)]; [|destruct (binds_key _ _ _ B)].
        destruct H6 as [(-> & _)|(? & ? & _ & B & _)]; [|destruct (binds_key _ _ _ B)]. reflexivity.
    - rewrite rbind_ok, fields_ok_cons. split.
      + intros (f & F & H). apply rbind_ok in H. destruct H as (a1 & V & H). apply IH in H. clear IH.
        destruct H as (H0 & H1 & H2 & H3 & H4 & H5 & H6). unfold pat_field_of in F.
        destruct (str_eqb k ($"name")) eqn:K1;
        [|destruct (str_eqb k ($"uuid")) eqn:K2;
        [|destruct (str_eqb k ($"pattern")) eqn:K3;
        [|destruct (str_eqb k ($"values")) eqn:K4;
        [|destruct (str_eqb k ($"tags")) eqn:K5;
        [|destruct (str_eqb k ($"test_messages")) eqn:K6]]]]];
          inversion F; subst f; clear F; cbn [pat_visit_field] in V; apply rbind_ok in V; destruct V as (x & V & E); inversion E; subst a1; clear E;
          cbn in H1, H2, H3, H4, H5, H6.
        * apply str_eqb_eq in K1. subst k. split; [split; [|exact H0]|].
          -- eexists. split; [left; reflexivity|]. exists x. apply de_string_ok. exact V.
          -- split; [|split; [|split; [|split; [|split]]]]; try (apply field_or_other; [discriminate|assumption]).
             apply (field_or_same _ _ _ x); [|exact H1]. intros b. rewrite <- de_string_ok. split; congruence.
        * apply str_eqb_eq in K2. subst k. split; [split; [|exact H0]|].
          -- eexists. split; [right; left; reflexivity|]. exists x. apply de_uuid_ok. exact V.
          -- split; [|split; [|split; [|split; [|split]]]]; try (apply field_or_other; [discriminate|assumption]).
             apply (field_or_same _ _ _ x); [|exact H2]. intros b. rewrite <- de_uuid_ok. split; congruence.
        * apply str_eqb_eq in K3. subst k. split; [split; [|exact H0]|].
          -- eexists. split; [do 2 right; left; reflexivity|]. exists x. apply de_string_ok. exact V.
          -- split; [|split; [|split; [|split; [|split]]]]; try (apply field_or_other; [discriminate|assumption]).
             apply (field_or_same _ _ _ x); [|exact H3]. intros b. rewrite <- de_string_ok. split; congruence.
        * apply str_eqb_eq in K4. subst k. split; [split; [|exact H0]|].
          -- eexists. split; [do 3 right; left; reflexivity|]. exists x. apply de_map_ok. exact V.
          -- split; [|split; [|split; [|split; [|split]]]]; try (apply field_or_other; [discriminate|assumption]).
             apply (field_or_same _ _ _ x); [|exact H4]. intros b. rewrite <- de_map_ok. split; congruence.
        * apply str_eqb_eq in K5. subst k. split; [split; [|exact H0]|].
          -- eexists. split; [do 4 right; left; reflexivity|]. exists x. apply (de_vec_ok _ _ de_string_ok). exact V.
          -- split; [|split; [|split; [|split; [|split]]]]; try (apply field_or_other; [discriminate|assumption]).
             apply (field_or_same _ _ _ x); [|exact H5]. intros b. rewrite <- (de_vec_ok _ _ de_string_ok). split; congruence.
        * apply str_eqb_eq in K6. subst k. split; [split; [|exact H0]|].
          -- eexists. split; [do 5 right; left; reflexivity|]. exists x. apply (de_vec_ok _ _ de_message_ok). exact V.
          -- split; [|split; [|split; [|split; [|split]]]]; try (apply field_or_other; [discriminate|assumption]).
             apply (field_or_same _ _ _ x); [|exact H6]. intros b. rewrite <- (de_vec_ok _ _ de_message_ok). split; congruence.
      + intros (((ty & I & T) & H0) & H1 & H2 & H3 & H4 & H5 & H6).
        destruct I as [E|[E|[E|[E|[E|[E|[]]]]]]]; injection E as <- <-; destruct T as (x & T).
        * exists F_NAME. split; [reflexivity|]. apply de_string_ok in T. cbn [pat_visit_field]. rewrite T. cbn [rbind].
          apply (proj2 (IH _ _)). cbn. split; [exact H0|].
          split; [|split; [|split; [|split; [|split]]]]; try (eapply field_or_other; [|eassumption]; discriminate).
          eapply field_or_same; [|exact H1]. intros b. rewrite <- de_string_ok. split; congruence.
        * exists F_UUID. split; [reflexivity|]. apply de_uuid_ok in T. cbn [pat_visit_field]. rewrite T. cbn [rbind].
          apply (proj2 (IH _ _)). cbn. split; [exact H0|].
          split; [|split; [|split; [|split; [|split]]]]; try (eapply field_or_other; [|eassumption]; discriminate).
          eapply field_or_same; [|exact H2]. intros b. rewrite <- de_uuid_ok. split; congruence.
        * exists F_PATTERN. split; [reflexivity|]. apply de_string_ok in T. cbn [pat_visit_field]. rewrite T. cbn [rbind].
          apply (proj2 (IH _ _)). cbn. split; [exact H0|].
          split; [|split; [|split; [|split; [|split]]]]; try (eapply field_or_other; [|eassumption]; discriminate).
          eapply field_or_same; [|exact H3]. intros b. rewrite <- de_string_ok. split; congruence.
        * exists F_VALUES. split; [reflexivity|]. apply de_map_ok in T. cbn [pat_visit_field]. rewrite T. cbn [rbind].
          apply (proj2 (IH _ _)). cbn. split; [exact H0|].
          split; [|split; [|split; [|split; [|split]]]]; try (eapply field_or_other; [|eassumption]; discriminate).
          eapply field_or_same; [|exact H4]. intros b. rewrite <- de_map_ok. split; congruence.
        * exists F_TAGS. split; [reflexivity|]. apply (de_vec_ok _ _ de_string_ok) in T. cbn [pat_visit_field]. rewrite T. cbn [rbind].
          apply (proj2 (IH _ _)). cbn. split; [exact H0|].
          split; [|split; [|split; [|split; [|split]]]]; try (eapply field_or_other; [|eassumption]; discriminate).
          eapply field_or_same; [|exact H5]. intros b. rewrite <- (de_vec_ok _ _ de_string_ok). split; congruence.
        * exists F_TESTMESSAGES. split; [reflexivity|]. apply (de_vec_ok _ _ de_message_ok) in T. cbn [pat_visit_field]. rewrite T. cbn [rbind].
          apply (proj2 (IH _ _)). cbn. split; [exact H0|].
          split; [|split; [|split; [|split; [|split]]]]; try (eapply field_or_other; [|eassumption]; discriminate).
          eapply field_or_same; [|exact H6]. intros b. rewrite <- (de_vec_ok _ _ de_message_ok). split; congruence.
  Qed.

  Definition pat_step (k : str) (v : value) (a : pat_acc) : result pat_acc de_error :=
    rbind (pat_field_of k) (fun field => pat_visit_field parse_uuid a field v).
  Lemma pat_visit_cons k v l a : pat_visit_fields parse_uuid ((k, v) :: l) a = rbind (pat_step k v a) (pat_visit_fields parse_uuid l).
  Proof. unfold pat_step. cbn [pat_visit_fields]. destruct (pat_field_of k); reflexivity. Qed.

  Lemma pat_step_ok k v a : fields_ok (pattern_fields parse_uuid) [(k, v)] <-> exists a', pat_step k v a = Ok a'.
  Proof.
    split.
    - intros F. destruct (pat_step k v a) as [a'|e] eqn:S; [eauto|]. exfalso.
      destruct (F k v ltac:(left; reflexivity)) as (ty & I & T). unfold pat_step in S.
      destruct I as [E|[E|[E|[E|[E|[E|[]]]]]]]; injection E as <- <-; destruct T as (x & T); cbn in S.
      + apply de_string_ok in T. rewrite T in S. discriminate.
      + apply de_uuid_ok in T. rewrite T in S. discriminate.
      + apply de_string_ok in T. rewrite T in S. discriminate.
      + apply de_map_ok in T. rewrite T in S. discriminate.
      + apply (de_vec_ok _ _ de_string_ok) in T. rewrite T in S. discriminate.
      + apply (de_vec_ok _ _ de_message_ok) in T. rewrite T in S. discriminate.
    - intros (a' & S). apply (pat_visit_ok [(k, v)] a a'). rewrite pat_visit_cons, S. reflexivity.
  Qed.

  Lemma typed_field_err {A B} (f : value -> result A de_error) (ty : value -> A -> Prop) (g : A -> B) v e k :
    (forall v a, f v = Ok a <-> ty v a) -> only_type f -> In k [$"name"; $"pattern"; $"values"; $"tags"] ->
    In (k, fun v => exists a, ty v a) (pattern_fields parse_uuid) ->
    (rbind (f v) (fun x => Ok (g x)) = Err e <-> pattern_field_error parse_uuid k v e).
  Proof.
    intros H O I T.
    assert (rbind (f v) (fun x => Ok (g x)) = Err e <-> f v = Err e) as -> by (destruct (f v); cbn; split; congruence).
    rewrite (only_type_err f ty H O). split.
    - intros (-> & N). eapply pfe_type; eauto.
    - assert (forall x ty', In x [$"name"; $"pattern"; $"values"; $"tags"] -> In (x, fun v => exists a, ty v a) (pattern_fields parse_uuid) ->
        In (x, ty') (pattern_fields parse_uuid) -> ~ ty' v -> ~ exists a, ty v a) as U.
      { clear. intros x ty' I T T' N K. apply N.
        destruct T' as [E|[E|[E|[E|[E|[E|[]]]]]]]; injection E as <- <-;
          (destruct T as [E|[E|[E|[E|[E|[E|[]]]]]]]; try discriminate; pose proof (f_equal snd E) as E'; cbn [snd] in E'; 
           change ((fun v => exists a, ty v a) v) in K; rewrite <- E' in K; exact K). }
      intros [N|ty' _ T' N|K _|s K _ _|e' K _].
      + destruct N. exact (in_map fst _ _ T).
      + split; [reflexivity|]. eapply U; eassumption.
      + exfalso. subst k. destruct I as [E|[E|[E|[E|[]]]]]; discriminate.
      + exfalso. subst k. destruct I as [E|[E|[E|[E|[]]]]]; discriminate.
      + exfalso. subst k. destruct I as [E|[E|[E|[E|[]]]]]; discriminate.
  Qed.

  Lemma pat_step_err k v a e : pat_step k v a = Err e <-> pattern_field_error parse_uuid k v e.
  Proof.
    unfold pat_step, pat_field_of.
    destruct (str_eqb k ($"name")) eqn:K1;
    [|destruct (str_eqb k ($"uuid")) eqn:K2;
    [|destruct (str_eqb k ($"pattern")) eqn:K3;
    [|destruct (str_eqb k ($"values")) eqn:K4;
    [|destruct (str_eqb k ($"tags")) eqn:K5;
    [|destruct (str_eqb k ($"test_messages")) eqn:K6]]]]]; cbn [rbind pat_visit_field].
    - apply str_eqb_eq in K1. subst k. apply (typed_field_err de_string string_value); [exact de_string_ok|exact string_only|cbn; auto|cbn; auto].
    - apply str_eqb_eq in K2. subst k. clear.
      assert (forall B (g : uuid -> B), rbind (de_uuid parse_uuid v) (fun x => Ok (g x)) = Err e <-> de_uuid parse_uuid v = Err e) as ->
        by (intros B g; destruct (de_uuid parse_uuid v); cbn; split; congruence).
      split.
      + destruct v as [|s| | |]; cbn [de_uuid]; try (intros E; injection E as <-; apply pfe_uuid_type; [reflexivity|intros s' E; discriminate]).
        destruct (parse_uuid s) eqn:P; [discriminate|]. intros E. injection E as <-. eapply pfe_uuid; eauto.
      + intros [N|ty I _ _|_ N|s _ -> P|e' E _].
        * destruct N. cbn. auto.
        * destruct I as [E|[E|[E|[E|[]]]]]; discriminate.
        * destruct v as [|s| | |]; try reflexivity. destruct (N s). reflexivity.
        * cbn [de_uuid]. rewrite P. reflexivity.
        * discriminate.
    - apply str_eqb_eq in K3. subst k. apply (typed_field_err de_string string_value); [exact de_string_ok|exact string_only|cbn; auto|cbn; auto].
    - apply str_eqb_eq in K4. subst k. apply (typed_field_err de_map map_value); [exact de_map_ok|exact map_only|cbn; auto|cbn; auto].
    - apply str_eqb_eq in K5. subst k.
      apply (typed_field_err (de_vec de_string) (seq_value string_value)); [exact (de_vec_ok _ _ de_string_ok)|exact (vec_only _ string_only)|cbn; auto|cbn; auto 10].
    - apply str_eqb_eq in K6. subst k. clear.
      assert (forall B (g : list test_message -> B), rbind (de_vec de_test_message v) (fun x => Ok (g x)) = Err e <-> de_vec de_test_message v = Err e) as ->
        by (intros B g; destruct (de_vec de_test_message v); cbn; split; congruence).
      rewrite (de_vec_err _ _ _ de_message_ok de_message_err). split; [intros H; apply pfe_message; auto|].
      intros [N|ty I _ _|E _|s E _ _|e' _ H].
      + destruct N. cbn. auto 10.
      + destruct I as [E|[E|[E|[E|[]]]]]; discriminate.
      + discriminate.
      + discriminate.
      + exact H.
    - assert (forall x, str_eqb k x = false -> k <> x) as D by (intros x E ->; rewrite str_eqb_refl in E; discriminate).
      apply D in K1. apply D in K2. apply D in K3. apply D in K4. apply D in K5. apply D in K6. split.
      + intros E. injection E as <-. apply pfe_unknown. cbn. intuition.
      + intros [N|ty I _ _|E _|s E _ _|e' E _]; try contradiction; [reflexivity|].
        destruct I as [<-|[<-|[<-|[<-|[]]]]]; contradiction.
  Qed.

  Lemma pat_visit_err l : forall a e, pat_visit_fields parse_uuid l a = Err e <->
    exists pre k x post, l = pre ++ (k, x) :: post /\ fields_ok (pattern_fields parse_uuid) pre /\ pattern_field_error parse_uuid k x e.
  Proof.
    induction l as [|(k, v) l IH]; intros a e.
    - split; [discriminate|]. intros ([|y pre] & k & x & post & E & _); discriminate.
    - rewrite pat_visit_cons. split.
      + destruct (pat_step k v a) as [a'|e'] eqn:S; cbn [rbind].
        * intros H. apply IH in H. destruct H as (pre & k' & x & post & -> & F & H). exists ((k, v) :: pre), k', x, post.
          split; [reflexivity|]. split; [|exact H]. apply fields_ok_cons. split; [|exact F].
          assert (fields_ok (pattern_fields parse_uuid) [(k, v)]) as G by (apply (pat_step_ok k v a); eauto).
          apply fields_ok_cons in G. exact (proj1 G).
        * intros E. injection E as ->. apply pat_step_err in S. exists [], k, v, l. split; [reflexivity|]. split; [apply fields_ok_nil|exact S].
      + intros ([|y pre] & k' & x & post & E & F & H); cbn [app] in E.
        * injection E as <- <- <-. rewrite (proj2 (pat_step_err k v a e) H). reflexivity.
        * injection E as <- ->. apply fields_ok_cons in F. destruct F as (G & F).
          destruct (proj1 (pat_step_ok k v a)) as (a' & ->); [apply fields_ok_cons; split; [exact G|apply fields_ok_nil]|].
          cbn [rbind]. apply IH. exists pre, k', x, post. auto.
  Qed.

  (** Fields that are all right. *)
  Lemma pat_visit_total l a : fields_ok (pattern_fields parse_uuid) l -> exists a', pat_visit_fields parse_uuid l a = Ok a'.
  Proof.
    revert a. induction l as [|(k, v) l IH]; intros a F; [cbn; eauto|]. apply fields_ok_cons in F. destruct F as (G & F).
    rewrite pat_visit_cons. destruct (proj1 (pat_step_ok k v a)) as (a' & ->); [apply fields_ok_cons; split; [exact G|apply fields_ok_nil]|].
    cbn [rbind]. apply IH. exact F.
  Qed.
  Lemma field_same {A} l key (ty : value -> A -> Prop) a o : (forall v x y, ty v x -> ty v y -> x = y) ->
    field l key ty (Some a) -> field_or None l key ty o -> o = Some a.
  Proof.
    intros U [(E & _)|(v & x & E & B & T)] H; [discriminate|]. injection E as <-.
    destruct H as [(_ & N)|(v' & x' & -> & B' & T')]; [destruct N; apply (binds_key _ _ _ B)|].
    rewrite (binds_unique _ _ _ _ B B') in T. f_equal. eapply U; eassumption.
  Qed.
  Lemma string_unique v x y : string_value v x -> string_value v y -> x = y.
  Proof. unfold string_value. congruence. Qed.
  Lemma uuid_unique v x y : uuid_value parse_uuid v x -> uuid_value parse_uuid v y -> x = y.
  Proof. intros (s & -> & H) (s' & E & H'). congruence. Qed.
  Lemma field_or_none {A} l key (ty : value -> A -> Prop) o : field_or None l key ty o <-> field l key ty o.
  Proof. reflexivity. Qed.

  Theorem de_pattern_ok v p : de_pattern parse_uuid v = Ret (Ok p) <-> pattern_value parse_uuid v p.
  Proof.
    unfold de_pattern, pattern_value. split.
    - destruct v as [|s|vs|l|]; try discriminate.
      destruct (pat_visit_fields parse_uuid l pat_acc_new) as [a|e] eqn:V; [|discriminate].
      apply pat_visit_ok in V. destruct V as (H0 & H1 & H2 & H3 & H4 & H5 & H6). unfold de_pattern_finish.
      destruct (pa_pattern a) as [s|]; [|discriminate].
      destruct (compile s) as [[ts|e]| |] eqn:C; cbn [bind]; try discriminate.
      destruct (pa_uuid a) as [u|]; [|discriminate]. intros E. injection E as <-.
      exists l, s. unfold pattern_new. cbn. auto 10.
    - intros (l & s & -> & H0 & H1 & H2 & H3 & C & H4 & H5 & H6).
      rewrite (proj2 (pat_visit_ok l pat_acc_new (PatAcc (pat_name p) (Some (pat_uuid p)) (Some s) (pat_values p) (pat_tags p) (pat_test_messages p)))).
      + unfold de_pattern_finish. cbn [pa_pattern pa_uuid]. rewrite C. cbn [bind]. unfold pattern_new. cbn. destruct p; reflexivity.
      + cbn. auto 10.
  Qed.

  Theorem de_pattern_err v e : de_pattern parse_uuid v = Ret (Err e) <-> pattern_error parse_uuid v e.
  Proof.
    unfold de_pattern. split.
    - destruct v as [|s|vs|l|]; try (intros E; injection E as <-; apply pe_map; intros l' E; discriminate).
      destruct (pat_visit_fields parse_uuid l pat_acc_new) as [a|e'] eqn:V.
      + apply pat_visit_ok in V. destruct V as (H0 & H1 & H2 & H3 & H4 & H5 & H6). cbn in H2, H3. unfold de_pattern_finish.
        destruct (pa_pattern a) as [s|].
        * destruct (compile s) as [[ts|e']| |] eqn:C; cbn [bind]; try discriminate.
          -- destruct (pa_uuid a) as [u|]; [discriminate|]. intros E. injection E as <-.
             eapply (pe_missing_uuid _ _ l s ts); auto. apply (field_absent _ _ _ _ H2).
          -- intros E. injection E as <-. eapply (pe_invalid _ _ l s e'); auto.
        * intros E. injection E as <-. apply (pe_missing _ _ l); auto. apply (field_absent _ _ _ _ H3).
      + intros E. injection E as ->. apply pat_visit_err in V. destruct V as (pre & k & x & post & -> & F & H).
        eapply (pe_field _ _ pre k x post); auto.
    - intros [N|a k x b e' -> F H|l -> F N|l s e' -> F H C|l s ts -> F H C N].
      + destruct v as [| | |l|]; try reflexivity. destruct (N l). reflexivity.
      + rewrite (proj2 (pat_visit_err _ _ e')); [reflexivity|]. exists a, k, x, b. auto.
      + destruct (pat_visit_total l pat_acc_new F) as (a & V). rewrite V. apply pat_visit_ok in V. destruct V as (_ & _ & _ & H3 & _).
        cbn in H3. unfold de_pattern_finish. destruct (pa_pattern a); [|reflexivity]. destruct (N (proj2 (field_some _ _ _ _ H3))).
      + destruct (pat_visit_total l pat_acc_new F) as (a & V). rewrite V. apply pat_visit_ok in V. destruct V as (_ & _ & _ & H3 & _).
        cbn in H3. unfold de_pattern_finish. rewrite (field_same _ _ _ _ _ string_unique H H3), C. reflexivity.
      + destruct (pat_visit_total l pat_acc_new F) as (a & V). rewrite V. apply pat_visit_ok in V. destruct V as (_ & _ & H2 & H3 & _).
        cbn in H2, H3. unfold de_pattern_finish. rewrite (field_same _ _ _ _ _ string_unique H H3), C. cbn [bind].
        destruct (pa_uuid a); [|reflexivity]. destruct (N (proj2 (field_some _ _ _ _ H2))).
  Qed.

  Theorem de_pattern_panics v : de_pattern parse_uuid v = Panic <-> pattern_panics parse_uuid v.
  Proof.
    unfold de_pattern, pattern_panics. split.
    - destruct v as [|s|vs|l|]; try discriminate.
      destruct (pat_visit_fields parse_uuid l pat_acc_new) as [a|e] eqn:V; [|discriminate].
      apply pat_visit_ok in V. destruct V as (H0 & H1 & H2 & H3 & _). unfold de_pattern_finish. cbn in H3.
      destruct (pa_pattern a) as [s|]; [|discriminate].
      destruct (compile s) as [[ts|e]| |] eqn:C; cbn [bind]; try discriminate.
      + destruct (pa_uuid a); discriminate.
      + intros _. exists l, s. auto.
    - intros (l & s & -> & F & H & C). destruct (pat_visit_total l pat_acc_new F) as (a & V). rewrite V.
      apply pat_visit_ok in V. destruct V as (_ & _ & _ & H3 & _).
      cbn in H3. unfold de_pattern_finish. rewrite (field_same _ _ _ _ _ string_unique H H3), C. reflexivity.
  Qed.

  (** ** Files *)
  Lemma de_patterns_ok l : forall ps, de_patterns parse_uuid l = Ret (Ok ps) <-> Forall2 (pattern_value parse_uuid) l ps.
  Proof.
    induction l as [|v l IH]; intros ps; cbn [de_patterns].
    - split; [intros E; injection E as <-; constructor|]. intros H. inversion H. reflexivity.
    - split.
      + destruct (de_pattern parse_uuid v) as [[p|e]| |] eqn:P; cbn [bind]; try discriminate.
        destruct (de_patterns parse_uuid l) as [[qs|e]| |] eqn:Q; cbn [bind rbind]; try discriminate.
        intros E. injection E as <-. constructor; [apply de_pattern_ok; exact P|apply IH; reflexivity].
      + intros H. inversion H as [|? p ? qs H1 H2]; subst. apply de_pattern_ok in H1. rewrite H1. cbn [bind].
        apply (proj2 (IH qs)) in H2. rewrite H2. reflexivity.
  Qed.
  Lemma de_patterns_err l : forall e, de_patterns parse_uuid l = Ret (Err e) <->
    exists a x b, l = a ++ x :: b /\ (forall y, In y a -> exists p, pattern_value parse_uuid y p) /\ pattern_error parse_uuid x e.
  Proof.
    induction l as [|v l IH]; intros e; cbn [de_patterns].
    - split; [discriminate|]. intros ([|y a] & x & b & E & _); discriminate.
    - split.
      + destruct (de_pattern parse_uuid v) as [[p|e']| |] eqn:P; cbn [bind]; try discriminate.
        * destruct (de_patterns parse_uuid l) as [[qs|e']| |] eqn:Q; cbn [bind rbind]; try discriminate.
          intros E. injection E as ->. destruct (proj1 (IH e) eq_refl) as (a & x & b & -> & H & K).
          exists (v :: a), x, b. split; [reflexivity|]. split; [|exact K]. intros y [<-|I]; [|auto]. exists p. apply de_pattern_ok. exact P.
        * intros E. injection E as ->. exists [], v, l. split; [reflexivity|]. split; [intros y []|]. apply de_pattern_err. exact P.
      + intros ([|w a] & x & b & E & H & K); cbn [app] in E; injection E as <- ->.
        * apply de_pattern_err in K. rewrite K. reflexivity.
        * destruct (H v ltac:(left; reflexivity)) as (p & P). apply de_pattern_ok in P. rewrite P. cbn [bind].
          rewrite (proj2 (IH e)); [reflexivity|]. exists a, x, b. split; [reflexivity|]. split; [|exact K]. intros y I. apply H. right. exact I.
  Qed.
  Lemma de_patterns_panics l : de_patterns parse_uuid l = Panic <->
    exists a x b, l = a ++ x :: b /\ (forall y, In y a -> exists p, pattern_value parse_uuid y p) /\ pattern_panics parse_uuid x.
  Proof.
    induction l as [|v l IH]; cbn [de_patterns].
    - split; [discriminate|]. intros ([|y a] & x & b & E & _); discriminate.
    - split.
      + destruct (de_pattern parse_uuid v) as [[p|e']| |] eqn:P; cbn [bind]; try discriminate.
        * destruct (de_patterns parse_uuid l) as [[qs|e']| |] eqn:Q; cbn [bind rbind]; try discriminate.
          intros _. destruct (proj1 IH eq_refl) as (a & x & b & -> & H & K).
          exists (v :: a), x, b. split; [reflexivity|]. split; [|exact K]. intros y [<-|I]; [|auto]. exists p. apply de_pattern_ok. exact P.
        * intros _. exists [], v, l. split; [reflexivity|]. split; [intros y []|]. apply de_pattern_panics. exact P.
      + intros ([|w a] & x & b & E & H & K); cbn [app] in E; injection E as <- ->.
        * apply de_pattern_panics in K. rewrite K. reflexivity.
        * destruct (H v ltac:(left; reflexivity)) as (p & P). apply de_pattern_ok in P. rewrite P. cbn [bind].
          rewrite (proj2 IH); [reflexivity|]. exists a, x, b. split; [reflexivity|]. split; [|exact K]. intros y I. apply H. right. exact I.
  Qed.

  Lemma de_pattern_vec_ok v ps : de_pattern_vec parse_uuid v = Ret (Ok ps) <-> seq_value (pattern_value parse_uuid) v ps.
  Proof.
    unfold seq_value. destruct v as [|s|vs|l|]; cbn [de_pattern_vec].
    - split; [intros E; injection E as <-; auto|]. intros [(_ & ->)|(vs & E & _)]; [reflexivity|discriminate].
    - split; [discriminate|]. intros [(E & _)|(vs & E & _)]; discriminate.
    - rewrite de_patterns_ok. split; [intros H; right; eauto|]. intros [(E & _)|(vs' & E & H)]; [discriminate|]. injection E as ->. exact H.
    - split; [discriminate|]. intros [(E & _)|(vs & E & _)]; discriminate.
    - split; [discriminate|]. intros [(E & _)|(vs & E & _)]; discriminate.
  Qed.
  Lemma de_pattern_vec_err v e : de_pattern_vec parse_uuid v = Ret (Err e) <-> seq_error (pattern_value parse_uuid) (pattern_error parse_uuid) v e.
  Proof.
    unfold seq_error, not_a_list. destruct v as [|s|vs|l|]; cbn [de_pattern_vec].
    - split; [discriminate|]. intros [((N & _) & _)|(a & x & b & E & _)]; [contradiction|discriminate].
    - split; [intros E; injection E as <-; left; repeat split; intros; discriminate|].
      intros [(_ & ->)|(a & x & b & E & _)]; [reflexivity|discriminate].
    - rewrite de_patterns_err. split.
      + intros (a & x & b & -> & H). right. exists a, x, b. auto.
      + intros [((_ & N) & _)|(a & x & b & E & H)]; [destruct (N vs); reflexivity|]. injection E as ->. exists a, x, b. auto.
    - split; [intros E; injection E as <-; left; repeat split; intros; discriminate|].
      intros [(_ & ->)|(a & x & b & E & _)]; [reflexivity|discriminate].
    - split; [intros E; injection E as <-; left; repeat split; intros; discriminate|].
      intros [(_ & ->)|(a & x & b & E & _)]; [reflexivity|discriminate].
  Qed.
  Lemma de_pattern_vec_panics v : de_pattern_vec parse_uuid v = Panic <->
    exists a x b, v = VSeq (a ++ x :: b) /\ (forall y, In y a -> exists p, pattern_value parse_uuid y p) /\ pattern_panics parse_uuid x.
  Proof.
    destruct v as [|s|vs|l|]; cbn [de_pattern_vec]; try (split; [discriminate|]; intros (a & x & b & E & _); discriminate).
    rewrite de_patterns_panics. split; intros (a & x & b & E & H); exists a, x, b; split; auto; congruence.
  Qed.

  Local Notation file_fields := [($"patterns", fun v => exists ps, seq_value (pattern_value parse_uuid) v ps)].
  Lemma file_cons v l : fields_ok file_fields (($"patterns", v) :: l) <-> (exists ps, de_pattern_vec parse_uuid v = Ret (Ok ps)) /\ fields_ok file_fields l.
  Proof.
    rewrite fields_ok_cons. split.
    - intros ((ty & [E|[]] & T) & F). injection E as <-. split; [|exact F]. destruct T as (ps & T). exists ps. apply de_pattern_vec_ok. exact T.
    - intros ((ps & T) & F). split; [|exact F]. eexists. split; [left; reflexivity|]. exists ps. apply de_pattern_vec_ok. exact T.
  Qed.
  Lemma file_key k v l : fields_ok file_fields ((k, v) :: l) -> k = $"patterns".
  Proof. intros F. apply fields_ok_cons in F. destruct F as ((ty & [E|[]] & _) & _). injection E as <-. reflexivity. Qed.

  Lemma file_visit_ok l : forall a o, file_visit_fields parse_uuid l a = Ret (Ok o) <->
    fields_ok file_fields l /\ field_or a l ($"patterns") (seq_value (pattern_value parse_uuid)) o.
  Proof.
    induction l as [|(k, v) l IH]; intros a o; cbn [file_visit_fields].
    - split.
      + intros E. injection E as <-. split; [apply fields_ok_nil|]. left. auto.
      + intros (_ & [(-> & _)|(? & ? & _ & B & _)]); [reflexivity|destruct (binds_key _ _ _ B)].
    - destruct (str_eqb k ($"patterns")) eqn:K.
      + apply str_eqb_eq in K. subst k. rewrite file_cons.
        destruct (de_pattern_vec parse_uuid v) as [[ps|e]| |] eqn:D; cbn [bind];
          try (split; [discriminate|intros ((? & (ps & E) & _) & _); discriminate]).
        * rewrite IH. assert (forall a, seq_value (pattern_value parse_uuid) v a <-> a = ps) as U.
          { intros b. rewrite <- de_pattern_vec_ok. split; congruence. }
          rewrite (field_or_same a _ v ps l _ o U). split; [intros (F & H); split; [split; [eauto|exact F]|exact H]|].
          intros ((_ & F) & H). auto.
        * split; [discriminate|]. intros (((ps & E) & _) & _). discriminate.
        * split; [discriminate|]. intros (((ps & E) & _) & _). discriminate.
        * split; [discriminate|]. intros (((ps & E) & _) & _). discriminate.
      + split; [discriminate|]. intros (F & _). apply file_key in F. subst k. rewrite str_eqb_refl in K. discriminate.
  Qed.
  Lemma file_visit_err l : forall a e, file_visit_fields parse_uuid l a = Ret (Err e) <->
    exists pre k x post, l = pre ++ (k, x) :: post /\ fields_ok file_fields pre /\
      ((k <> $"patterns" /\ e = UnexpectedField k) \/ (k = $"patterns" /\ de_pattern_vec parse_uuid x = Ret (Err e))).
  Proof.
    induction l as [|(k, v) l IH]; intros a e; cbn [file_visit_fields].
    - split; [discriminate|]. intros ([|y pre] & k & x & post & E & _); discriminate.
    - destruct (str_eqb k ($"patterns")) eqn:K.
      + apply str_eqb_eq in K. subst k. split.
        * destruct (de_pattern_vec parse_uuid v) as [[ps|e']| |] eqn:D; cbn [bind]; try discriminate.
          -- intros H. apply IH in H. destruct H as (pre & k & x & post & -> & F & H). exists (($"patterns", v) :: pre), k, x, post.
             split; [reflexivity|]. split; [|exact H]. apply file_cons. eauto.
          -- intros E. injection E as ->. exists [], ($"patterns"), v, l. split; [reflexivity|]. split; [apply fields_ok_nil|]. auto.
        * intros ([|y pre] & k & x & post & E & F & H); cbn [app] in E.
          -- injection E as <- <- <-. destruct H as [(N & _)|(_ & ->)]; [contradiction|reflexivity].
          -- injection E as <- ->. apply file_cons in F. destruct F as ((ps & ->) & F). cbn [bind]. apply IH. exists pre, k, x, post. auto.
      + assert (k <> $"patterns") as N by (intros ->; rewrite str_eqb_refl in K; discriminate). split.
        * intros E. injection E as <-. exists [], k, v, l. split; [reflexivity|]. split; [apply fields_ok_nil|]. auto.
        * intros ([|y pre] & k' & x & post & E & F & H); cbn [app] in E.
          -- injection E as <- <- <-. destruct H as [(_ & ->)|(-> & _)]; [reflexivity|contradiction].
          -- injection E as <- ->. apply file_key in F. contradiction.
  Qed.
  Lemma file_visit_panics l : forall a, file_visit_fields parse_uuid l a = Panic <->
    exists pre x post, l = pre ++ ($"patterns", x) :: post /\ fields_ok file_fields pre /\ de_pattern_vec parse_uuid x = Panic.
  Proof.
    induction l as [|(k, v) l IH]; intros a; cbn [file_visit_fields].
    - split; [discriminate|]. intros ([|y pre] & x & post & E & _); discriminate.
    - destruct (str_eqb k ($"patterns")) eqn:K.
      + apply str_eqb_eq in K. subst k. split.
        * destruct (de_pattern_vec parse_uuid v) as [[ps|e']| |] eqn:D; cbn [bind]; try discriminate.
          -- intros H. apply IH in H. destruct H as (pre & x & post & -> & F & H). exists (($"patterns", v) :: pre), x, post.
             split; [reflexivity|]. split; [|exact H]. apply file_cons. eauto.
          -- intros _. exists [], v, l. split; [reflexivity|]. split; [apply fields_ok_nil|]. auto.
        * intros ([|y pre] & x & post & E & F & H); cbn [app] in E.
          -- injection E as <- <-. rewrite H. reflexivity.
          -- injection E as <- ->. apply file_cons in F. destruct F as ((ps & ->) & F). cbn [bind]. apply IH. exists pre, x, post. auto.
      + assert (k <> $"patterns") as N by (intros ->; rewrite str_eqb_refl in K; discriminate). split; [discriminate|].
        intros ([|y pre] & x & post & E & F & H); cbn [app] in E.
        * injection E as -> _ _. contradiction.
        * injection E as <- ->. apply file_key in F. contradiction.
  Qed.

  Theorem de_file_ok v ps : de_pattern_file parse_uuid v = Ret (Ok ps) <-> file_value parse_uuid v ps.
  Proof.
    unfold de_pattern_file, file_value. split.
    - destruct v as [|s|vs|l|]; try discriminate.
      destruct (file_visit_fields parse_uuid l None) as [[o|e]| |] eqn:V; cbn [bind]; try discriminate.
      destruct o as [qs|]; [|discriminate]. intros E. injection E as ->. apply file_visit_ok in V. exists l. split; [reflexivity|exact V].
    - intros (l & -> & V). rewrite (proj2 (file_visit_ok l None (Some ps)) V). reflexivity.
  Qed.
  Theorem de_file_err v e : de_pattern_file parse_uuid v = Ret (Err e) <-> file_error parse_uuid v e.
  Proof.
    unfold de_pattern_file. split.
    - destruct v as [|s|vs|l|]; try (intros E; injection E as <-; apply fe_map; intros l' E; discriminate).
      destruct (file_visit_fields parse_uuid l None) as [[[qs|]|e']| |] eqn:V; cbn [bind]; try discriminate.
      + intros E. injection E as <-. apply file_visit_ok in V. destruct V as (F & H). apply field_absent in H.
        destruct l as [|(k, x) l]; [apply fe_missing; reflexivity|]. apply file_key in F. subst k. destruct H. left. reflexivity.
      + intros E. injection E as ->. apply file_visit_err in V. destruct V as (pre & k & x & post & -> & F & [(N & ->)|(-> & H)]).
        * eapply fe_unknown; [reflexivity|exact F|exact N].
        * eapply fe_pattern; [reflexivity|exact F|]. apply de_pattern_vec_err. exact H.
    - intros [N|a k x b -> F N|a x b e' -> F H| ->].
      + destruct v as [|s|vs|l|]; try reflexivity. destruct (N l). reflexivity.
      + rewrite (proj2 (file_visit_err _ None (UnexpectedField k))); [reflexivity|]. exists a, k, x, b. auto.
      + rewrite (proj2 (file_visit_err _ None e')); [reflexivity|]. exists a, ($"patterns"), x, b. split; [reflexivity|]. split; [exact F|].
        right. split; [reflexivity|]. apply de_pattern_vec_err. exact H.
      + reflexivity.
  Qed.
  Theorem de_file_panics v : de_pattern_file parse_uuid v = Panic <-> file_panics parse_uuid v.
  Proof.
    unfold de_pattern_file, file_panics. split.
    - destruct v as [|s|vs|l|]; try discriminate.
      destruct (file_visit_fields parse_uuid l None) as [[[qs|]|e']| |] eqn:V; cbn [bind]; try discriminate.
      intros _. apply file_visit_panics in V. destruct V as (pre & x & post & -> & F & H). apply de_pattern_vec_panics in H.
      destruct H as (c & y & d & -> & H1 & H2). exists pre, c, y, d, post. auto.
    - intros (a & c & x & d & b & -> & F & H1 & H2).
      rewrite (proj2 (file_visit_panics _ None)); [reflexivity|]. exists a, (VSeq (c ++ x :: d)), b. split; [reflexivity|]. split; [exact F|].
      apply de_pattern_vec_panics. exists c, x, d. auto.
  Qed.
End Pattern.
