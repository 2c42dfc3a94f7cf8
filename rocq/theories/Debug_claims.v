(** * How strings are shown *)
From Coq Require Import HexadecimalN.
From Verif Require Import Base Base_facts Pattern Source Errors Spec Spec_errors Errors_claims Spec_unicode Unicode_claims Debug Spec_debug.

Lemma hex_text_inj d d' : hex_text d = hex_text d' -> d = d'.
Proof. revert d'. induction d; intros d' H; destruct d'; try discriminate H; try reflexivity; injection H as H; f_equal; auto. Qed.
Lemma hex_text_brace d d' x y : hex_text d ++ x7d :: x = hex_text d' ++ x7d :: y -> hex_text d = hex_text d' /\ x = y.
Proof.
  revert d'. induction d; intros d' H; destruct d'; try discriminate H; [injection H; auto|..];
    injection H as H; apply IHd in H as [E ->]; cbn [hex_text]; rewrite E; auto.
Qed.
Lemma hex_N_inj m n : N.to_hex_uint m = N.to_hex_uint n -> m = n.
Proof. intros H. rewrite <- (Unsigned.of_to m), <- (Unsigned.of_to n), H. reflexivity. Qed.

Lemma short_inj zero m n b : short_escape zero m = Some b -> short_escape zero n = Some b -> m = n.
Proof.
  unfold short_escape. intros H K.
  repeat match type of H with context [match ?x with _ => _ end] => destruct x; try discriminate H end;
  injection H as <-;
  repeat match type of K with context [match ?x with _ => _ end] => destruct x; try discriminate K end; reflexivity.
Qed.
Lemma short_not_u zero n b : short_escape zero n = Some b -> b <> x75.
Proof.
  unfold short_escape. intros H.
  repeat match type of H with context [match ?x with _ => _ end] => destruct x; try discriminate H end; injection H as <-; discriminate.
Qed.

Lemma encode_ascii_head n b t x : scalar n -> (Byte.to_N b < 128)%N -> encode n ++ x = b :: t -> n = Byte.to_N b.
Proof.
  intros S L E.
  assert (utf8_char [b] = true) as Hb. { apply ascii_byte_char. unfold ascii_byte. apply N.ltb_lt. exact L. }
  destruct (utf8_char_prefix (encode n) [b] x t (encode_char n S) Hb E) as (H & _).
  apply encode_inj; [exact S|left; lia|]. rewrite H. unfold encode. apply N.ltb_lt in L. rewrite L. f_equal. symmetry. apply octet_of. reflexivity.
Qed.

Section Shown.
  Variables (plain : N -> bool) (zero : bool).
  Hypothesis Esc : escaping plain.

  Lemma debug_char_quote n t x : scalar n -> debug_char plain zero n ++ x <> x22 :: t.
  Proof.
    intros S E. unfold debug_char in E. destruct (plain n) eqn:P.
    - apply encode_ascii_head in E; [|exact S|reflexivity]. subst n. change (Byte.to_N x22) with 34%N in P. rewrite (proj1 Esc) in P. discriminate P.
    - destruct (short_escape zero n); discriminate E.
  Qed.
  Lemma debug_char_split m n x y : scalar m -> scalar n ->
    debug_char plain zero m ++ x = debug_char plain zero n ++ y -> m = n /\ x = y.
  Proof.
    intros Sm Sn.
    assert (forall k, plain k = false -> exists t, debug_char plain zero k = x5c :: t) as B.
    { intros k P. unfold debug_char. rewrite P. destruct (short_escape zero k); eexists; reflexivity. }
    assert (forall k z t, scalar k -> plain k = true -> debug_char plain zero k ++ z <> x5c :: t) as D.
    { intros k z t S P E. unfold debug_char in E. rewrite P in E. apply encode_ascii_head in E; [|exact S|reflexivity]. subst k.
      change (Byte.to_N x5c) with 92%N in P. rewrite (proj2 Esc) in P. discriminate P. }
    intros E. destruct (plain m) eqn:Pm, (plain n) eqn:Pn.
    - unfold debug_char in E. rewrite Pm, Pn in E.
      destruct (utf8_char_prefix _ _ _ _ (encode_char m Sm) (encode_char n Sn) E) as (H & ->). split; [|reflexivity]. apply encode_inj; assumption.
    - destruct (B n Pn) as (t & Et). rewrite Et in E. destruct (D m x _ Sm Pm E).
    - destruct (B m Pm) as (t & Et). rewrite Et in E. symmetry in E. destruct (D n y _ Sn Pn E).
    - unfold debug_char in E. rewrite Pm, Pn in E.
      destruct (short_escape zero m) as [b|] eqn:Em, (short_escape zero n) as [c|] eqn:En.
      + injection E as <- <-. split; [exact (short_inj zero m n b Em En)|reflexivity].
      + injection E as E _. destruct (short_not_u _ _ _ Em E).
      + injection E as E _. destruct (short_not_u _ _ _ En (eq_sym E)).
      + rewrite <- !app_assoc in E. apply app_inv_head in E. cbn [app] in E. apply hex_text_brace in E. destruct E as (E & ->).
        split; [|reflexivity]. apply hex_N_inj, hex_text_inj, E.
  Qed.
  Lemma debug_chars_split l : forall l' x y, Forall scalar l -> Forall scalar l' ->
    flat_map (debug_char plain zero) l ++ x22 :: x = flat_map (debug_char plain zero) l' ++ x22 :: y -> l = l' /\ x = y.
  Proof.
    induction l as [|m l IH]; intros [|n l'] x y S S' E; cbn [flat_map app] in E.
    - injection E. auto.
    - rewrite <- app_assoc in E. inversion S'; subst. symmetry in E. apply debug_char_quote in E; [destruct E|assumption].
    - rewrite <- app_assoc in E. inversion S; subst. apply debug_char_quote in E; [destruct E|assumption].
    - rewrite <- !app_assoc in E. inversion S; inversion S'; subst. apply debug_char_split in E; [|assumption..]. destruct E as (-> & E).
      apply IH in E; [|assumption..]. destruct E as (-> & ->). auto.
  Qed.
  Theorem shown_splits s s' d d' x y : shown_as plain zero s d -> shown_as plain zero s' d' -> d ++ x = d' ++ y -> s = s' /\ x = y.
  Proof.
    intros (l & S & -> & ->) (l' & S' & -> & ->) E. unfold debug_chars in E. rewrite <- !app_assoc in E. injection E as E.
    cbn [app] in E. apply debug_chars_split in E; [|assumption..]. destruct E as (-> & ->). auto.
  Qed.
  Lemma shown_head s d : shown_as plain zero s d -> exists t, d = x22 :: t /\ forall z u, t ++ z <> xff :: u.
  Proof.
    intros (l & S & _ & ->). eexists. split; [reflexivity|]. intros z u E. destruct l as [|n l]; [discriminate E|].
    inversion S as [|? ? Sn _]; subst. cbn [flat_map] in E. rewrite <- !app_assoc in E. unfold debug_char in E. destruct (plain n).
    - pose proof (encode_char n Sn) as U. destruct (encode n) as [|b e]; [discriminate U|]. injection E as -> _.
      destruct e as [|? [|? [|? [|? ?]]]]; discriminate U.
    - destruct (short_escape zero n); discriminate E.
  Qed.

  (** ** Errors *)
  Definition marked (s : str) : str := x22 :: xff :: flat_map (fun b => [x41; b]) s ++ [x42].
  Lemma marked_splits s : forall s' x y, (flat_map (fun b => [x41; b]) s ++ [x42]) ++ x = (flat_map (fun b => [x41; b]) s' ++ [x42]) ++ y -> s = s' /\ x = y.
  Proof.
    induction s as [|b s IH]; intros [|c s'] x y E; cbn [flat_map app] in E; try discriminate E; injection E.
    - auto.
    - intros E' <-. destruct (IH _ _ _ E') as (-> & ->). auto.
  Qed.
  Lemma quoting_on (tags : list str) debug : (forall s, In s tags -> shown_as plain zero s (debug s)) ->
    quoting (fun s => if existsb (str_eqb s) tags then debug s else marked s).
  Proof.
    intros H.
    assert (forall s, existsb (str_eqb s) tags = true -> shown_as plain zero s (debug s)) as K.
    { intros s E. apply existsb_exists in E. destruct E as (s' & J & E). apply str_eqb_eq in E. subst s'. exact (H s J). }
    assert (forall s s' x y, existsb (str_eqb s) tags = true -> debug s ++ x <> marked s' ++ y) as D.
    { intros s s' x y E Z. destruct (shown_head s _ (K s E)) as (t & Et & N0). rewrite Et in Z. injection Z as Z. exact (N0 _ _ Z). }
    split.
    - intros s. destruct (existsb (str_eqb s) tags) eqn:E; [|eexists; reflexivity]. destruct (shown_head s _ (K s E)) as (t & Et & _). eauto.
    - intros a b x y E. destruct (existsb (str_eqb a) tags) eqn:Ea, (existsb (str_eqb b) tags) eqn:Eb.
      + exact (shown_splits a b _ _ x y (K a Ea) (K b Eb) E).
      + destruct (D _ _ _ _ Ea E).
      + symmetry in E. destruct (D _ _ _ _ Eb E).
      + injection E as E. apply marked_splits, E.
  Qed.
  Lemma text_ext debug debug' e : (forall s, In s (tags_of e) -> debug s = debug' s) -> tm_error_text debug e = tm_error_text debug' e.
  Proof.
    intros H. destruct e as [| | | |u a b]; try reflexivity. cbn [tm_error_text]. 
    assert (debug_tags debug a = debug_tags debug' a) as ->.
    { destruct a as [l|]; [|reflexivity]. cbn [debug_tags]. do 3 f_equal. apply map_ext_in. intros s J. apply H. cbn [tags_of]. apply in_app_iff. auto. }
    assert (debug_tags debug b = debug_tags debug' b) as ->; [|reflexivity].
    destruct b as [l|]; [|reflexivity]. cbn [debug_tags]. do 3 f_equal. apply map_ext_in. intros s J. apply H. cbn [tags_of]. apply in_app_iff. auto.
  Qed.
  Theorem shown_text_inj debug e e' : (forall s, In s (tags_of e ++ tags_of e') -> shown_as plain zero s (debug s)) ->
    Forall sixteen_bytes (uuids_of e) -> Forall sixteen_bytes (uuids_of e') -> kind_of e <> KValue ->
    tm_error_text debug e = tm_error_text debug e' -> e = e'.
  Proof.
    intros H U U' Nk E. pose proof (quoting_on _ debug H) as Q.
    assert (forall s, In s (tags_of e ++ tags_of e') -> debug s = (fun s => if existsb (str_eqb s) (tags_of e ++ tags_of e') then debug s else marked s) s) as X.
    { intros s J. cbv beta. assert (existsb (str_eqb s) (tags_of e ++ tags_of e') = true) as ->; [|reflexivity].
      apply existsb_exists. exists s. split; [exact J|apply str_eqb_refl]. }
    rewrite (text_ext _ _ e (fun s J => X s (proj2 (in_app_iff _ _ _) (or_introl J)))) in E.
    rewrite (text_ext _ _ e' (fun s J => X s (proj2 (in_app_iff _ _ _) (or_intror J)))) in E.
    exact (text_inj _ e e' Q U U' Nk E).
  Qed.
End Shown.
