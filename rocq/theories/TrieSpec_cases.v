(** * Consequences for particular kinds of pattern lists *)
From Coq Require Import Sorted.
From Verif Require Import Base Base_facts Utils Utils_facts Parsers Parsers_facts Pattern Spec
  TrieSpec TrieSpec_facts TrieSpec_props.

(** ** The keys of a level are sorted *)
Definition sorted_keys (K : list (str * entry)) : Prop := StronglySorted str_lt (keys K).

Lemma upsert_keys l f K k : In k (keys (upsert l f K)) <-> k = l \/ In k (keys K).
Proof.
  destruct (upsert_split l f K) as (A & C & [(-> & ->)|(e & -> & ->)]);
    rewrite ?keys_app; simpl; rewrite ?in_app_iff; simpl; intuition auto.
Qed.

Lemma upsert_sorted l f K : sorted_keys K -> sorted_keys (upsert l f K).
Proof.
  unfold sorted_keys. induction K as [|(k, e) K IH]; simpl; intros HS.
  - constructor; constructor.
  - inversion HS as [|? ? HS' HF]; subst. destruct (str_cmp l k) eqn:E; simpl.
    + exact HS.
    + constructor; [exact HS|]. constructor; [exact E|].
      eapply Forall_impl; [|exact HF]. intros k' Hk'. apply (str_cmp_lt_trans l k k'); assumption.
    + constructor; [apply IH; exact HS'|]. apply Forall_forall. intros k' Hk'.
      apply upsert_keys in Hk'. destruct Hk' as [->|Hk'].
      * unfold str_lt. rewrite str_cmp_antisym, E. reflexivity.
      * rewrite Forall_forall in HF. apply HF. exact Hk'.
Qed.

Lemma enter_literals_keys ks K l f K' :
  enter_literals enter ks K l f = Some K' -> keys K' = keys K.
Proof.
  intros H. apply enter_literals_some in H. destruct H as (A & k & po & c & C & -> & _ & ->).
  rewrite !keys_app. reflexivity.
Qed.

Lemma enter_sorted K P l f : sorted_keys K -> sorted_keys (lits_of (enter (Level K P) l f)).
Proof.
  intros HS. rewrite enter_unfold. destruct (enter_literals enter (keys K) K l f) as [K'|] eqn:E.
  - apply enter_literals_keys in E. unfold sorted_keys. cbn [lits_of]. rewrite E. exact HS.
  - apply upsert_sorted. exact HS.
Qed.

Lemma s_add_sorted L p : sorted_keys (lits_of L) -> sorted_keys (lits_of (s_add L p)).
Proof.
  intros HS. unfold s_add. destruct (pat_tokens p) as [|[x|l] rest]; simpl; auto.
  destruct L as [K P]. apply enter_sorted. exact HS.
Qed.

(** ** Selecting entries by their key *)
Section Select.
  Variable g : str -> bool.
  Definition sel (K : list (str * entry)) : list (str * entry) := filter (fun x => g (fst x)) K.

  Lemma sel_app A B : sel (A ++ B) = sel A ++ sel B.
  Proof. apply filter_app. Qed.

  Lemma sel_keys K k : In k (keys (sel K)) <-> In k (keys K) /\ g k = true.
  Proof.
    unfold keys, sel. rewrite !in_map_iff. split.
    - intros ((k', e) & <- & H). apply filter_In in H. destruct H as (H & G). split; [eauto|exact G].
    - intros (((k', e) & <- & H) & G). exists (k', e). split; [reflexivity|].
      apply filter_In. auto.
  Qed.

  Lemma sel_upsert l f K :
    sorted_keys K -> sel (upsert l f K) = if g l then upsert l f (sel K) else sel K.
  Proof.
    unfold sorted_keys. induction K as [|(k, e) K IH]; intros HS.
    - simpl. destruct (g l); reflexivity.
    - inversion HS as [|? ? HS' HF]; subst. cbn [upsert]. destruct (str_cmp l k) eqn:E.
      + apply str_cmp_eq in E. subst k. simpl. destruct (g l) eqn:G; [|reflexivity].
        simpl. rewrite str_cmp_refl. reflexivity.
      + assert (forall X, Forall (str_lt k) (keys X) -> upsert l f (sel X) = (l, f (None, None)) :: sel X) as HX.
        { intros X HX. destruct (sel X) as [|(k', e') X'] eqn:EX; [reflexivity|].
          assert (In k' (keys (sel X))) as Hk' by (rewrite EX; left; reflexivity).
          apply sel_keys in Hk'. destruct Hk' as (Hk' & _). rewrite Forall_forall in HX.
          specialize (HX k' Hk'). simpl. rewrite (str_cmp_lt_trans l k k' E HX). reflexivity. }
        specialize (HX K HF).
        change (sel ((l, f (None, None)) :: (k, e) :: K))
          with (if g l then (l, f (None, None)) :: sel ((k, e) :: K) else sel ((k, e) :: K)).
        destruct (g l); [|reflexivity]. simpl. destruct (g k); simpl.
        * rewrite E. reflexivity.
        * fold (sel K). rewrite HX. reflexivity.
      + simpl. fold (sel (upsert l f K)). fold (sel K). rewrite (IH HS').
        destruct (g l), (g k); simpl; rewrite ?E; reflexivity.
  Qed.
End Select.

(** ** The first byte *)
Definition same_head (text k : str) : bool :=
  match head_cmp k text with Eq => true | _ => false end.

Lemma same_head_true text k : same_head text k = true <-> head_cmp k text = Eq.
Proof. unfold same_head. destruct (head_cmp k text); split; congruence. Qed.

Lemma head_cmp_trans_eq a b c : head_cmp a b = Eq -> head_cmp b c = Eq -> head_cmp a c = Eq.
Proof. intros H1 H2. rewrite (to_eq_l _ head_cmp_order _ _ _ H1). exact H2. Qed.

Lemma head_cmp_sym_eq a b : head_cmp a b = Eq -> head_cmp b a = Eq.
Proof. intros H. rewrite (to_antisym _ head_cmp_order a b), H. reflexivity. Qed.

Lemma existsb_false {A} (f : A -> bool) l : existsb f l = false <-> forall x, In x l -> f x = false.
Proof.
  split.
  - intros H x Hx. destruct (f x) eqn:E; [|reflexivity].
    assert (existsb f l = true) by (apply existsb_exists; eauto). congruence.
  - intros H. destruct (existsb f l) eqn:E; [|reflexivity].
    apply existsb_exists in E. destruct E as (x & Hx & E). rewrite (H x Hx) in E. discriminate.
Qed.

Lemma bool_iff (a b : bool) : (a = true <-> b = true) -> a = b.
Proof. destruct a, b; intuition congruence. Qed.

Lemma routes_sel K text k l :
  head_cmp l text = Eq -> same_head text k = true ->
  routes (keys (sel (same_head text) K)) k l = routes (keys K) k l.
Proof.
  intros Hl Hk. apply bool_iff. rewrite !routes_spec.
  split; intros (H1 & H2 & H3); (split; [exact H1|split; [exact H2|]]); intros k' Hk'.
  - destruct (proper_prefixb k k') eqn:E; [|reflexivity]. rewrite <- E. apply H3.
    apply sel_keys. split; [exact Hk'|]. apply same_head_true. apply same_head_true in Hk.
    apply proper_prefixb_head in E; [|exact H1]. apply head_cmp_sym_eq in E.
    apply (head_cmp_trans_eq k' k text); assumption.
  - apply H3. apply sel_keys in Hk'. apply Hk'.
Qed.

Lemma same_head_route (K : list (str * entry)) text k l :
  head_cmp l text = Eq -> routes (keys K) k l = true -> same_head text k = true.
Proof.
  intros Hl R. apply routes_spec in R. destruct R as (Nk & (r & -> & _) & _).
  apply same_head_true. destruct k; [congruence|]. destruct text; exact Hl.
Qed.

Lemma try_literals_sel K text :
  try_literals s_parse (keys (sel (same_head text) K)) (sel (same_head text) K) text =
  try_literals s_parse (keys K) K text.
Proof.
  assert (head_cmp text text = Eq) as Ht by apply (to_refl _ head_cmp_order).
  assert (forall X, try_literals s_parse (keys (sel (same_head text) K)) (sel (same_head text) X) text =
                    try_literals s_parse (keys K) X text) as H; [|apply H].
  induction X as [|(k, (po, [c|])) X IH]; [reflexivity| |]; simpl.
  - destruct (same_head text k) eqn:E; simpl.
    + rewrite routes_sel by assumption. fold (sel (same_head text) X). rewrite IH. reflexivity.
    + fold (sel (same_head text) X). rewrite IH. destruct (routes (keys K) k text) eqn:R; [|reflexivity].
      rewrite (same_head_route K text k text Ht R) in E. discriminate.
  - destruct (same_head text k) eqn:E; simpl; fold (sel (same_head text) X); exact IH.
Qed.

Lemma lookup_sel K text : lookup text (sel (same_head text) K) = lookup text K.
Proof.
  induction K as [|(k, e) K IH]; [reflexivity|]. simpl.
  destruct (str_eqb text k) eqn:E.
  - apply str_eqb_eq in E. subst k.
    assert (same_head text text = true) as -> by (apply same_head_true; apply (to_refl _ head_cmp_order)).
    simpl. rewrite str_eqb_refl. reflexivity.
  - destruct (same_head text k); simpl; rewrite ?E; exact IH.
Qed.

Lemma blocked_sel K text : blocked (keys (sel (same_head text) K)) text = blocked (keys K) text.
Proof.
  apply bool_iff. rewrite !blocked_spec. split; intros (k1 & k2 & r & H1 & H2 & Hn & Hb & E).
  - apply sel_keys in H1. apply sel_keys in H2. exists k1, k2, r. tauto.
  - exists k1, k2, r. repeat split; auto; apply sel_keys; (split; [assumption|]);
      apply same_head_true; rewrite E; [apply blcp_head_l|apply blcp_head_r]; exact Hb.
Qed.

Lemma s_parse_sel K P text :
  s_parse (Level (sel (same_head text) K) P) text = s_parse (Level K P) text.
Proof. rewrite !s_parse_unfold, try_literals_sel, lookup_sel, blocked_sel. reflexivity. Qed.

Lemma enter_literals_sel text l f K X :
  head_cmp l text = Eq ->
  enter_literals enter (keys (sel (same_head text) K)) (sel (same_head text) X) l f =
  option_map (sel (same_head text)) (enter_literals enter (keys K) X l f).
Proof.
  intros Hl. induction X as [|(k, (po, [c|])) X IH]; [reflexivity| |]; cbn [enter_literals].
  - cbn [sel filter fst]. destruct (same_head text k) eqn:E; fold (sel (same_head text) X).
    + cbn [enter_literals]. rewrite routes_sel by assumption.
      destruct (routes (keys K) k l) eqn:R.
      * cbn [option_map sel filter fst]. rewrite E. reflexivity.
      * rewrite IH. destruct (enter_literals enter (keys K) X l f); [|reflexivity].
        cbn [option_map sel filter fst]. rewrite E. reflexivity.
    + rewrite IH. destruct (routes (keys K) k l) eqn:R.
      * rewrite (same_head_route K text k l Hl R) in E. discriminate.
      * destruct (enter_literals enter (keys K) X l f); [|reflexivity].
        cbn [option_map sel filter fst]. rewrite E. reflexivity.
  - cbn [sel filter fst]. destruct (same_head text k) eqn:E; fold (sel (same_head text) X).
    + cbn [enter_literals]. rewrite IH. destruct (enter_literals enter (keys K) X l f); [|reflexivity].
      cbn [option_map sel filter fst]. rewrite E. reflexivity.
    + rewrite IH. destruct (enter_literals enter (keys K) X l f); [|reflexivity].
      cbn [option_map sel filter fst]. rewrite E. reflexivity.
Qed.

Lemma enter_sel_on text K P l f :
  sorted_keys K -> head_cmp l text = Eq ->
  sel (same_head text) (lits_of (enter (Level K P) l f)) =
  lits_of (enter (Level (sel (same_head text) K) P) l f).
Proof.
  intros HS Hl. rewrite !enter_unfold, (enter_literals_sel text l f K K Hl).
  destruct (enter_literals enter (keys K) K l f) as [K'|]; [reflexivity|]. simpl.
  rewrite sel_upsert by exact HS.
  assert (same_head text l = true) as -> by (apply same_head_true; exact Hl). reflexivity.
Qed.

Lemma enter_sel_off text K P l f :
  sorted_keys K -> head_cmp l text <> Eq ->
  sel (same_head text) (lits_of (enter (Level K P) l f)) = sel (same_head text) K.
Proof.
  intros HS Hl. rewrite enter_unfold.
  assert (same_head text l = false) as El.
  { destruct (same_head text l) eqn:E; [|reflexivity]. apply same_head_true in E. contradiction. }
  destruct (enter_literals enter (keys K) K l f) as [K'|] eqn:E; cbn [lits_of].
  - apply enter_literals_some in E. destruct E as (A & k & po & c & C & -> & R & ->).
    rewrite !sel_app. simpl. assert (same_head text k = false) as ->; [|reflexivity].
    apply routes_spec in R. destruct R as (Nk & (r & -> & _) & _).
    destruct k as [|b k]; [congruence|]. destruct text; exact El.
  - rewrite sel_upsert by exact HS. rewrite El. reflexivity.
Qed.

Lemma may_concern_head text p l rest :
  pat_tokens p = Literal l :: rest ->
  (may_concern text p = true <-> head_cmp l text = Eq).
Proof.
  intros E. unfold may_concern. rewrite E. destruct l as [|x l], text as [|y text]; simpl;
    try (split; congruence).
  rewrite byte_eqb_eq, byte_cmp_eq. reflexivity.
Qed.

Lemma s_adds_concern text ps :
  sorted_keys (lits_of (s_adds ps)) /\
  sel (same_head text) (lits_of (s_adds ps)) = lits_of (s_adds (filter (may_concern text) ps)) /\
  pars_of (s_adds ps) = pars_of (s_adds (filter (may_concern text) ps)).
Proof.
  induction ps as [|p ps (HS & HL & HP)] using rev_ind.
  - split; [constructor|]. auto.
  - rewrite filter_app, s_adds_snoc. split; [apply s_add_sorted; exact HS|]. simpl filter.
    destruct (s_adds ps) as [K P]. cbn [lits_of pars_of] in *.
    destruct (pat_tokens p) as [|[x|l] rest] eqn:Et.
    + assert (may_concern text p = true) as -> by (unfold may_concern; rewrite Et; reflexivity).
      rewrite s_adds_snoc. unfold s_add. rewrite Et. simpl. auto.
    + assert (may_concern text p = true) as -> by (unfold may_concern; rewrite Et; reflexivity).
      rewrite s_adds_snoc. unfold s_add. rewrite Et. simpl. rewrite HP. auto.
    + destruct (may_concern text p) eqn:Ec.
      * rewrite s_adds_snoc. unfold s_add. rewrite Et. cbn [s_insert].
        apply (may_concern_head text p l rest Et) in Ec.
        destruct (s_adds (filter (may_concern text) ps)) as [K' P']. cbn [lits_of pars_of] in *.
        subst K' P'. rewrite !enter_pars. split; [|reflexivity]. apply enter_sel_on; assumption.
      * rewrite app_nil_r. unfold s_add. rewrite Et. cbn [s_insert]. rewrite enter_pars.
        split; [|exact HP]. rewrite <- HL. apply enter_sel_off; [exact HS|].
        intros E. apply (may_concern_head text p l rest Et) in E. congruence.
Qed.

Lemma s_parse_concern ps text :
  s_parse (s_adds ps) text = s_parse (s_adds (filter (may_concern text) ps)) text.
Proof.
  destruct (s_adds_concern text ps) as (_ & HL & HP).
  destruct (s_adds ps) as [K P]. destruct (s_adds (filter (may_concern text) ps)) as [K' P'].
  cbn [lits_of pars_of] in *. subst K' P'. symmetry. apply s_parse_sel.
Qed.

(** ** A pattern starting with a new parser changes no match *)
Lemma at_parser_new P x f : ~ In x (map fst P) -> at_parser P x f = P ++ [(x, f (None, None))].
Proof.
  induction P as [|(y, e) P IH]; simpl; intros H; [reflexivity|].
  destruct (parser_eq_dec y x) as [->|_]; [exfalso; auto|]. rewrite IH by auto. reflexivity.
Qed.

Lemma try_parsers_app P P' text :
  try_parsers s_parse (P ++ P') text =
  match try_parsers s_parse P text with Some r => Some r | None => try_parsers s_parse P' text end.
Proof.
  induction P as [|(x, e) P IH]; simpl; [reflexivity|].
  destruct (try_parser s_parse x e text); [reflexivity|exact IH].
Qed.

Lemma s_parse_new_parser K P x rest p text r :
  ~ In x (map fst P) -> s_parse (Level K P) text = Some r ->
  s_parse (s_insert (Parser x :: rest) (Level K P) p) text = Some r.
Proof.
  intros Hx H. cbn [s_insert lits_of pars_of]. rewrite at_parser_new by exact Hx.
  rewrite s_parse_unfold in *. destruct (try_literals s_parse (keys K) K text); [exact H|].
  destruct (lookup text K); [exact H|]. destruct (blocked (keys K) text); [discriminate|].
  rewrite try_parsers_app, H. reflexivity.
Qed.

Lemma at_parser_names P x f y : In y (map fst (at_parser P x f)) <-> y = x \/ In y (map fst P).
Proof.
  destruct (at_parser_split P x f) as (A & C & [(-> & ->)|(e & -> & ->)]);
    rewrite !map_app; simpl; rewrite !in_app_iff; simpl; intuition auto.
Qed.

Lemma s_adds_pars ps x :
  In x (map fst (pars_of (s_adds ps))) <->
  exists p rest, In p ps /\ pat_tokens p = Parser x :: rest.
Proof.
  induction ps as [|p ps IH] using rev_ind.
  - simpl. split; [contradiction|]. intros (p & rest & [] & _).
  - rewrite s_adds_snoc. unfold s_add.
    assert (In x (map fst (pars_of (s_insert (pat_tokens p) (s_adds ps) (stripped p)))) <->
            (exists rest, pat_tokens p = Parser x :: rest) \/
            In x (map fst (pars_of (s_adds ps)))) as ->.
    { destruct (pat_tokens p) as [|[y|l] rest] eqn:Et; simpl.
      - split; [auto|]. intros [(rest & E)|H]; [discriminate|exact H].
      - rewrite at_parser_names. split.
        + intros [->|H]; [left; eauto|auto].
        + intros [(rest' & E)|H]; [left; congruence|auto].
      - rewrite enter_pars. split; [auto|]. intros [(rest' & E)|H]; [discriminate|exact H]. }
    rewrite IH. split.
    + intros [(rest & E)|(p' & rest & Hi & E)].
      * exists p, rest. split; [apply in_elt|exact E].
      * exists p', rest. split; [apply in_or_app; left; exact Hi|exact E].
    + intros (p' & rest & Hi & E). apply in_app_or in Hi. destruct Hi as [Hi|[<-|[]]]; [right|left]; eauto.
Qed.

Lemma s_add_new_parser ps p x rest text r :
  pat_tokens p = Parser x :: rest ->
  (forall p' rest', In p' ps -> pat_tokens p' <> Parser x :: rest') ->
  s_parse (s_adds ps) text = Some r -> s_parse (s_adds (ps ++ [p])) text = Some r.
Proof.
  intros Et Hn H. rewrite s_adds_snoc. unfold s_add. rewrite Et.
  pose proof (s_adds_pars ps x) as HP. destruct (s_adds ps) as [K P].
  apply s_parse_new_parser; [|exact H]. simpl in HP. rewrite HP.
  intros (p' & rest' & Hi & E). apply (Hn p' rest' Hi E).
Qed.

(** ** Adding the same tokens twice *)
Lemma upsert_twice l f g K :
  (forall e, g (f e) = g e) -> upsert l g (upsert l f K) = upsert l g K.
Proof.
  intros H. induction K as [|(k, e) K IH]; simpl.
  - rewrite str_cmp_refl, H. reflexivity.
  - destruct (str_cmp l k) eqn:E; simpl.
    + rewrite E, H. reflexivity.
    + rewrite str_cmp_refl, H. reflexivity.
    + rewrite E, IH. reflexivity.
Qed.

Lemma enter_literals_skip ks A B l f :
  enter_literals enter ks A l f = None ->
  enter_literals enter ks (A ++ B) l f = option_map (app A) (enter_literals enter ks B l f).
Proof. intros H. rewrite enter_literals_app, H. reflexivity. Qed.

Lemma enter_literals_first ks K l f K' :
  enter_literals enter ks K l f = Some K' ->
  exists A k po c C, K = A ++ (k, (po, Some c)) :: C /\ routes ks k l = true /\
    (forall f', enter_literals enter ks A l f' = None) /\
    K' = A ++ (k, (po, Some (enter c (skipn (length k) l) f))) :: C.
Proof.
  revert K'. induction K as [|(k, (po, [c|])) K IH]; cbn [enter_literals]; intros K' H; [discriminate| |].
  - destruct (routes ks k l) eqn:R.
    + inversion H; subst. exists [], k, po, c, K. auto.
    + destruct (enter_literals enter ks K l f) as [K1|]; [|discriminate]. inversion H; subst.
      destruct (IH K1 eq_refl) as (A & k' & po' & c' & C & -> & R' & HA & ->).
      exists ((k, (po, Some c)) :: A), k', po', c', C. repeat split; auto.
      intros f'. cbn [enter_literals]. rewrite R, HA. reflexivity.
  - destruct (enter_literals enter ks K l f) as [K1|]; [|discriminate]. inversion H; subst.
    destruct (IH K1 eq_refl) as (A & k' & po' & c' & C & -> & R' & HA & ->).
    exists ((k, (po, None)) :: A), k', po', c', C. repeat split; auto.
    intros f'. cbn [enter_literals]. rewrite HA. reflexivity.
Qed.

Lemma enter_twice L : forall l f g,
  (forall e, g (f e) = g e) -> enter (enter L l f) l g = enter L l g.
Proof.
  induction L as [K P IHK _] using level_nested_ind; intros l f g Hfg.
  rewrite (enter_unfold K P l f). destruct (enter_literals enter (keys K) K l f) as [K'|] eqn:E.
  - apply enter_literals_first in E. destruct E as (A & k & po & c & C & EK & R & HA & ->).
    rewrite !enter_unfold.
    assert (forall c', keys (A ++ (k, (po, Some c')) :: C) = keys K) as Ek
      by (intros c'; subst K; rewrite !keys_app; reflexivity).
    rewrite Ek. rewrite EK at 3.
    assert (forall c' h, enter_literals enter (keys K) (A ++ (k, (po, Some c')) :: C) l h =
            Some (A ++ (k, (po, Some (enter c' (skipn (length k) l) h))) :: C)) as Ee.
    { intros c' h. rewrite enter_literals_skip by apply HA. cbn [enter_literals]. rewrite R. reflexivity. }
    rewrite !Ee. rewrite (IHK k po c) by (subst K; try apply in_elt; exact Hfg). reflexivity.
  - rewrite !enter_unfold.
    assert (enter_literals enter (keys K) K l g = None) as ->.
    { destruct (enter_literals enter (keys K) K l g) as [K'|] eqn:E'; [|reflexivity].
      apply enter_literals_first in E'. destruct E' as (A & k & po & c & C & EK & R & HA & _).
      rewrite EK in E at 2. rewrite enter_literals_skip in E by apply HA.
      cbn [enter_literals] in E. rewrite R in E. discriminate. }
    rewrite enter_literals_none; [rewrite upsert_twice by exact Hfg; reflexivity|].
    intros k Hk. destruct (routes (keys (upsert l f K)) k l) eqn:R; [|reflexivity].
    apply routes_spec in R. destruct R as (_ & (r & Er & Nr) & Hno).
    assert (proper_prefixb k l = false) as Hp by (apply Hno; apply upsert_keys; auto).
    assert (proper_prefixb k l = true) by (apply proper_prefixb_spec; eauto). congruence.
Qed.

Lemma at_parser_twice P x f g :
  (forall e, g (f e) = g e) -> at_parser (at_parser P x f) x g = at_parser P x g.
Proof.
  intros H. induction P as [|(y, e) P IH]; simpl.
  - destruct (parser_eq_dec x x); [|congruence]. rewrite H. reflexivity.
  - destruct (parser_eq_dec y x) as [->|Hn]; simpl.
    + destruct (parser_eq_dec x x); [|congruence]. rewrite H. reflexivity.
    + destruct (parser_eq_dec y x); [congruence|]. rewrite IH. reflexivity.
Qed.

Lemma s_insert_twice toks L p q : s_insert toks (s_insert toks L p) q = s_insert toks L q.
Proof.
  destruct toks as [|[x|l] rest]; simpl; [reflexivity| |].
  - rewrite at_parser_twice; [reflexivity|]. intros e. destruct (is_empty rest); reflexivity.
  - apply enter_twice. intros e. destruct (is_empty rest); reflexivity.
Qed.

Lemma s_adds_replace ps p q :
  pat_tokens p = pat_tokens q -> s_adds (ps ++ [p; q]) = s_adds (ps ++ [q]).
Proof.
  intros E. change [p; q] with ([p] ++ [q]). rewrite app_assoc, !s_adds_snoc. unfold s_add.
  rewrite E. apply s_insert_twice.
Qed.

(** ** Patterns consisting of one literal *)
Definition childless (K : list (str * entry)) : Prop := forall k e, In (k, e) K -> snd e = None.

Lemma childless_enter_literals ks K l f : childless K -> enter_literals enter ks K l f = None.
Proof.
  intros H. induction K as [|(k, (po, [c|])) K IH]; cbn [enter_literals]; [reflexivity| |].
  - specialize (H k (po, Some c) (or_introl eq_refl)). discriminate.
  - rewrite IH; [reflexivity|]. intros k' e' Hi. apply (H k' e'). right. exact Hi.
Qed.

Lemma childless_try_literals ks K text : childless K -> try_literals s_parse ks K text = None.
Proof.
  intros H. induction K as [|(k, (po, [c|])) K IH]; cbn [try_literals]; [reflexivity| |].
  - specialize (H k (po, Some c) (or_introl eq_refl)). discriminate.
  - apply IH. intros k' e' Hi. apply (H k' e'). right. exact Hi.
Qed.

Definition literal_pattern (p : pattern) : Prop := exists l, pat_tokens p = [Literal l].

Lemma lookup_upsert_other l f K k : k <> l -> lookup k (upsert l f K) = lookup k K.
Proof.
  intros Hn. induction K as [|(k', e) K IH]; simpl.
  - destruct (str_eqb k l) eqn:E; [apply str_eqb_eq in E; congruence|reflexivity].
  - destruct (str_cmp l k') eqn:Ec; simpl.
    + apply str_cmp_eq in Ec. subst k'.
      destruct (str_eqb k l) eqn:E; [apply str_eqb_eq in E; congruence|reflexivity].
    + destruct (str_eqb k l) eqn:E; [apply str_eqb_eq in E; congruence|reflexivity].
    + rewrite IH. reflexivity.
Qed.

Lemma lookup_upsert_same l f K : exists e, lookup l (upsert l f K) = Some (f e).
Proof.
  induction K as [|(k', e) K IH]; simpl.
  - rewrite str_eqb_refl. eauto.
  - destruct (str_cmp l k') eqn:Ec; simpl.
    + apply str_cmp_eq in Ec. subst k'. rewrite str_eqb_refl. eauto.
    + rewrite str_eqb_refl. eauto.
    + destruct (str_eqb l k') eqn:E; [|exact IH].
      apply str_eqb_eq in E. subst k'. rewrite str_cmp_refl in Ec. discriminate.
Qed.

Lemma childless_upsert l f K :
  childless K -> (forall e, snd (f e) = snd e) -> childless (upsert l f K).
Proof.
  intros HC Hf k e Hi.
  destruct (upsert_split l f K) as (A & C & [(E1 & E2)|(e0 & E1 & E2)]);
    rewrite E1 in Hi; apply in_elt_inv in Hi; destruct Hi as [Hi|Hi].
  - assert (f (None, None) = e) as <- by congruence. apply Hf.
  - apply (HC k e). rewrite E2. exact Hi.
  - assert (f e0 = e) as <- by congruence. rewrite Hf. apply (HC l e0). rewrite E2. apply in_elt.
  - apply (HC k e). rewrite E2. apply in_app_or in Hi. apply in_or_app.
    destruct Hi; [auto|right; right; assumption].
Qed.

(** The dictionary: literals with the last pattern added for them. *)
Definition last_literal (ps : list pattern) (text : str) (o : option pattern) : Prop :=
  match o with
  | Some p => exists a b, ps = a ++ p :: b /\ pat_tokens p = [Literal text] /\
                Forall (fun p' => pat_tokens p' <> [Literal text]) b
  | None => Forall (fun p' => pat_tokens p' <> [Literal text]) ps
  end.

Lemma s_adds_literals ps :
  Forall literal_pattern ps ->
  pars_of (s_adds ps) = [] /\ childless (lits_of (s_adds ps)) /\
  forall text, exists o, last_literal ps text o /\
    lookup text (lits_of (s_adds ps)) =
    option_map (fun p => (Some (stripped p), None)) o.
Proof.
  induction ps as [|p ps IH] using rev_ind; intros H.
  - split; [reflexivity|]. split; [intros k e []|]. intros text. exists None.
    split; [constructor|reflexivity].
  - apply Forall_app in H. destruct H as (H & Hp). inversion Hp as [|? ? (l & El) _]; subst.
    destruct (IH H) as (HP & HC & HL). rewrite s_adds_snoc. unfold s_add. rewrite El.
    destruct (s_adds ps) as [K P]. cbn [lits_of pars_of] in *. subst P.
    cbn [s_insert is_empty]. rewrite enter_unfold, childless_enter_literals by exact HC.
    cbn [lits_of pars_of]. split; [reflexivity|].
    set (f := fun e : entry => (Some (stripped p), snd e)). split.
    + apply childless_upsert; [exact HC|reflexivity].
    + intros text. destruct (str_eqb text l) eqn:E.
      * apply str_eqb_eq in E. subst l. exists (Some p). split.
        -- exists ps, []. auto.
        -- assert (childless (upsert text f K)) as HC'
             by (apply childless_upsert; [exact HC|reflexivity]).
           destruct (lookup_upsert_same text f K) as (e & Ee). rewrite Ee. simpl.
           apply lookup_in in Ee. apply HC' in Ee. unfold f in *. simpl in Ee. rewrite Ee. reflexivity.
      * apply str_eqb_neq in E. rewrite lookup_upsert_other by exact E.
        destruct (HL text) as (o & Ho & Eo). exists o. split; [|exact Eo].
        assert (pat_tokens p <> [Literal text]) as Hn by congruence.
        destruct o as [p'|]; simpl in *.
        -- destruct Ho as (a & b & -> & Ep & Hb). exists a, (b ++ [p]).
           rewrite <- app_assoc. split; [reflexivity|]. split; [exact Ep|].
           apply Forall_app. auto.
        -- apply Forall_app. auto.
Qed.

Lemma s_parse_literals ps text :
  Forall literal_pattern ps ->
  exists o, last_literal ps text o /\
    s_parse (s_adds ps) text = option_map (fun p => match_result_new (stripped p)) o.
Proof.
  intros H. destruct (s_adds_literals ps H) as (HP & HC & HL).
  destruct (HL text) as (o & Ho & Eo). exists o. split; [exact Ho|].
  destruct (s_adds ps) as [K P]. cbn [lits_of pars_of] in *. subst P.
  rewrite s_parse_unfold, childless_try_literals by exact HC. rewrite Eo.
  destruct o as [p|]; simpl; [reflexivity|]. destruct (blocked (keys K) text); reflexivity.
Qed.

(** ** A single pattern *)
Definition usable_token (t : token) : Prop :=
  match t with Literal l => utf8 l | Parser q => parser_utf8 q /\ parser_ascii_set q end.

Lemma chain_literal l rest p :
  s_insert (Literal l :: rest) level_empty p = Level [(l, put rest p (None, None))] [].
Proof. reflexivity. Qed.

Lemma chain_parser x rest p :
  s_insert (Parser x :: rest) level_empty p = Level [] [(x, put rest p (None, None))].
Proof. reflexivity. Qed.

Lemma s_parse_no_match l e text :
  l <> text -> routes [l] l text = false -> s_parse (Level [(l, e)] []) text = None.
Proof.
  intros Hn R. rewrite s_parse_unfold. destruct e as (po, [c|]); simpl; rewrite ?R.
  - destruct (str_eqb text l) eqn:E; [apply str_eqb_eq in E; congruence|].
    destruct (blocked [l] text); reflexivity.
  - destruct (str_eqb text l) eqn:E; [apply str_eqb_eq in E; congruence|].
    destruct (blocked [l] text); reflexivity.
Qed.

Lemma s_parse_found k e P :
  s_parse (Level [(k, e)] P) k = option_map match_result_new (fst e).
Proof. destruct e. apply s_parse_single_found. Qed.

Lemma s_parse_chain_sound toks p : forall text r,
  s_parse (s_insert toks level_empty p) text = Some r ->
  mr_pattern r = p /\ exists caps, trie_walk toks text caps /\ good_values caps (mr_values r).
Proof.
  induction toks as [|[x|l] rest IH]; intros text r H.
  - cbn in H. discriminate.
  - rewrite chain_parser, s_parse_unfold in H.
    cbn [try_literals keys map lookup blocked existsb try_parsers] in H.
    unfold try_parser in H. destruct (capture x text) as [v|] eqn:Ec; [|discriminate].
    pose proof (capture_prefix _ _ _ Ec) as Ep. apply capture_sound in Ec.
    set (tl := skipn (length v) text) in *. clearbody tl. subst text.
    unfold put in H. destruct rest as [|t2 rest]; cbn [is_empty snd fst] in H.
    + destruct tl; [|discriminate]. simpl in H. inversion H; subst r.
      rewrite app_nil_r in *. split; [apply match_result_insert_pattern|].
      exists [(x, v)]. split; [constructor; exact Ec|]. apply good_insert. apply good_nil.
    + destruct (s_parse (s_insert (t2 :: rest) level_empty p) tl) as [r'|] eqn:Es; [|discriminate].
      simpl in H. inversion H; subst r. apply IH in Es. destruct Es as (E1 & caps & Hw & Hv).
      rewrite match_result_insert_pattern. split; [exact E1|]. exists ((x, v) :: caps).
      split; [constructor; [discriminate|exact Ec|exact Hw]|]. apply good_insert. exact Hv.
  - rewrite chain_literal in H. unfold put in H.
    destruct (str_eqb text l) eqn:E.
    + apply str_eqb_eq in E. subst text. rewrite s_parse_found in H.
      destruct rest as [|t2 rest]; cbn [is_empty fst] in H; [|discriminate]. inversion H; subst r.
      split; [reflexivity|]. exists []. split; [constructor|apply good_nil].
    + apply str_eqb_neq in E. destruct (routes [l] l text) eqn:R.
      * apply routes_spec in R. destruct R as (Nl & (r0 & -> & Nr) & _).
        destruct rest as [|t2 rest]; cbn [is_empty fst snd] in H.
        -- rewrite s_parse_single_leaf in H by congruence. discriminate.
        -- rewrite s_parse_single_down in H by assumption. apply IH in H.
           destruct H as (E1 & caps & Hw & Hv). split; [exact E1|]. exists caps.
           split; [constructor; try assumption; discriminate|exact Hv].
      * rewrite s_parse_no_match in H by (auto; congruence). discriminate.
Qed.

Lemma s_parse_chain_complete toks p text caps :
  trie_walk toks text caps -> Forall usable_token toks -> utf8 text ->
  exists r, s_parse (s_insert toks level_empty p) text = Some r.
Proof.
  induction 1 as [l|q v Hc|l toks text caps Nt Nl Nx Hw IH|q toks v text caps Nt Hc Hw IH]; intros HF Hu.
  - rewrite chain_literal, s_parse_found. simpl. eauto.
  - inversion HF as [|? ? H0 _]; subst. destruct H0 as (H1 & H2).
    assert (capture q v = Some v) as Ec by (apply capture_complete; assumption).
    rewrite chain_parser, s_parse_unfold.
    cbn [try_literals keys map lookup blocked existsb try_parsers].
    unfold try_parser. rewrite Ec, skipn_all. cbn [put is_empty snd fst option_map]. eauto.
  - inversion HF as [|? ? H1 H2]; subst. simpl in H1.
    rewrite chain_literal. unfold put. destruct toks as [|t2 toks]; [congruence|].
    cbn [is_empty fst]. rewrite s_parse_single_down by assumption. apply IH; [exact H2|].
    apply (utf8_app_inv_r l); assumption.
  - inversion HF as [|? ? H0 H3]; subst. destruct H0 as (H1 & H2).
    assert (utf8 v) as Hv by (apply (captures_ascii_utf8 q (v ++ text)); assumption).
    assert (capture q (v ++ text) = Some v) as Ec by (apply capture_complete; assumption).
    rewrite chain_parser, s_parse_unfold.
    cbn [try_literals keys map lookup blocked existsb try_parsers].
    unfold try_parser. rewrite Ec, skipn_app, skipn_all, Nat.sub_diag. simpl app.
    cbn [skipn]. unfold put. destruct toks as [|t2 toks]; [congruence|]. cbn [is_empty fst snd].
    destruct IH as (r & ->); [exact H3|apply (utf8_app_inv_r v); assumption|].
    simpl. eauto.
Qed.

Lemma trie_walk_unique toks text caps :
  trie_walk toks text caps -> forall caps', trie_walk toks text caps' -> caps = caps'.
Proof.
  induction 1 as [l|q v Hc|l toks text caps Nt Nl Nx Hw IH|q toks v text caps Nt Hc Hw IH];
    intros caps' H'; inversion H'; subst; try congruence.
  - apply IH. match goal with H : _ ++ _ = _ ++ _ |- _ => apply app_inv_head in H; subst end. assumption.
  - match goal with H : ?v0 ++ ?t0 = v ++ text |- _ =>
      assert (v0 = v) as -> by (apply (captures_unique q (v ++ text)); [rewrite <- H; assumption|assumption]);
      apply app_inv_head in H; subst t0 end.
    f_equal. apply IH. assumption.
Qed.

Lemma s_parse_single p text :
  Forall usable_token (pat_tokens p) -> utf8 text ->
  match s_parse (s_adds [p]) text with
  | Some r => mr_pattern r = stripped p /\
              exists caps, trie_walk (pat_tokens p) text caps /\ reports caps (mr_values r)
  | None => forall caps, ~ trie_walk (pat_tokens p) text caps
  end.
Proof.
  intros HF Hu. change (s_adds [p]) with (s_insert (pat_tokens p) level_empty (stripped p)).
  destruct (s_parse (s_insert (pat_tokens p) level_empty (stripped p)) text) as [r|] eqn:E.
  - apply s_parse_chain_sound in E. destruct E as (E1 & caps & Hw & Hv). split; [exact E1|].
    exists caps. split; [exact Hw|apply good_reports; exact Hv].
  - intros caps Hw. destruct (s_parse_chain_complete _ (stripped p) _ _ Hw HF Hu) as (r & Hr). congruence.
Qed.

(** ** Incomparable first literals *)
Lemma incomparable_proper a b : incomparable a b -> proper_prefixb a b = false.
Proof.
  intros H. destruct (proper_prefixb a b) eqn:E; [|reflexivity].
  apply proper_prefixb_spec in E. destruct E as (r & Eb & Nr). exfalso. apply Nr. apply H. auto.
Qed.

Lemma enter_apart K P l f :
  (forall k, In k (keys K) -> incomparable k l) -> enter (Level K P) l f = Level (upsert l f K) P.
Proof.
  intros H. rewrite enter_unfold, enter_literals_none; [reflexivity|].
  intros k Hk. destruct (routes (keys K) k l) eqn:R; [|reflexivity].
  apply routes_spec in R. destruct R as (_ & (r & E & Nr) & _). exfalso. apply Nr.
  apply (H k Hk). auto.
Qed.

Definition lift (g : str -> bool) (p : pattern) : bool :=
  match pat_tokens p with Literal l :: _ => g l | _ => false end.

Lemma apart_incl ps ps' : incl ps' ps -> apart ps -> apart ps'.
Proof.
  intros Hi (H1 & H2). split.
  - intros p Hp. apply H1. apply Hi. exact Hp.
  - intros p p' l l' Hp Hp'. apply H2; apply Hi; assumption.
Qed.

Lemma s_adds_apart g ps :
  apart ps ->
  pars_of (s_adds ps) = [] /\ sorted_keys (lits_of (s_adds ps)) /\
  (forall k, In k (keys (lits_of (s_adds ps))) -> exists p, In p ps /\ starts_with p k) /\
  sel g (lits_of (s_adds ps)) = lits_of (s_adds (filter (lift g) ps)).
Proof.
  intros HA. assert (forall n ps0, length ps0 = n -> apart ps0 ->
    pars_of (s_adds ps0) = [] /\ sorted_keys (lits_of (s_adds ps0)) /\
    (forall k, In k (keys (lits_of (s_adds ps0))) -> exists p, In p ps0 /\ starts_with p k) /\
    sel g (lits_of (s_adds ps0)) = lits_of (s_adds (filter (lift g) ps0)) /\
    (forall k, In k (keys (lits_of (s_adds (filter (lift g) ps0)))) -> exists p, In p ps0 /\ starts_with p k) /\
    pars_of (s_adds (filter (lift g) ps0)) = []) as H.
  2: { destruct (H (length ps) ps eq_refl HA) as (A1 & A2 & A3 & A4 & _). auto. }
  clear ps HA. intros n ps. revert n. induction ps as [|p ps IH] using rev_ind; intros n _ HA.
  - simpl. split; [reflexivity|]. split; [constructor|]. split; [intros k []|]. split; [reflexivity|].
    split; [intros k []|reflexivity].
  - destruct (IH _ eq_refl) as (HP & HS & HK & HG & HK' & HP').
    { apply (apart_incl (ps ++ [p])); [|exact HA]. apply incl_appl. apply incl_refl. }
    destruct HA as (H1 & H2). destruct (H1 p) as (l & rest & Et); [apply in_elt|].
    rewrite filter_app. simpl filter.
    assert (lift g p = g l) as -> by (unfold lift; rewrite Et; reflexivity).
    assert (forall k, (exists p0, In p0 ps /\ starts_with p0 k) -> incomparable k l) as HI.
    { intros k (p0 & Hi & Hs). apply (H2 p0 p); [apply in_or_app; auto|apply in_elt|exact Hs|].
      exists rest. exact Et. }
    assert (forall k, (exists p0, In p0 ps /\ starts_with p0 k) ->
                      (exists p0, In p0 (ps ++ [p]) /\ starts_with p0 k)) as HIn.
    { intros k (p0 & Hi & Hs). exists p0. split; [apply in_or_app; auto|exact Hs]. }
    rewrite s_adds_snoc. unfold s_add. rewrite Et. cbn [s_insert].
    destruct (s_adds ps) as [K P]. cbn [lits_of pars_of] in *. subst P.
    rewrite enter_apart by (intros k Hk; apply HI; apply HK; exact Hk). cbn [lits_of pars_of].
    split; [reflexivity|]. split; [apply upsert_sorted; exact HS|].
    split.
    { intros k Hk. apply upsert_keys in Hk. destruct Hk as [->|Hk].
      - exists p. split; [apply in_elt|]. exists rest. exact Et.
      - apply HIn. apply HK. exact Hk. }
    rewrite sel_upsert by exact HS. destruct (g l).
    + rewrite s_adds_snoc. unfold s_add. rewrite Et. cbn [s_insert].
      destruct (s_adds (filter (lift g) ps)) as [K' P']. cbn [lits_of pars_of] in *. subst K' P'.
      rewrite enter_apart by (intros k Hk; apply HI; apply HK'; exact Hk). cbn [lits_of pars_of].
      split; [reflexivity|]. split; [|reflexivity].
      intros k Hk. apply upsert_keys in Hk. destruct Hk as [->|Hk].
      * exists p. split; [apply in_elt|]. exists rest. exact Et.
      * apply HIn. apply HK'. exact Hk.
    + rewrite app_nil_r. split; [exact HG|]. split; [|exact HP'].
      intros k Hk. apply HIn. apply HK'. exact Hk.
Qed.

Lemma s_parse_sel_prefix K text :
  (forall k k', In k (keys K) -> In k' (keys K) -> incomparable k k') ->
  s_parse (Level (sel (fun k => prefixb k text) K) []) text = s_parse (Level K []) text.
Proof.
  intros HI. rewrite !s_parse_unfold.
  set (g := fun k => prefixb k text).
  assert (forall X, incl X K -> try_literals s_parse (keys (sel g K)) (sel g X) text =
                    try_literals s_parse (keys K) X text) as HT.
  { induction X as [|(k, (po, [c|])) X IH]; intros Hx; [reflexivity| |];
      assert (incl X K) as Hx' by (intros y Hy; apply Hx; right; exact Hy); cbn [try_literals sel filter fst].
    - assert (In k (keys K)) as Hk.
      { apply (in_map fst) with (x := (k, (po, Some c))). apply Hx. left. reflexivity. }
      destruct (g k) eqn:G; fold (sel g X).
      + cbn [try_literals]. rewrite (IH Hx').
        assert (routes (keys (sel g K)) k text = routes (keys K) k text) as ->; [|reflexivity].
        apply bool_iff. rewrite !routes_spec.
        split; intros (A1 & A2 & A3); (split; [exact A1|split; [exact A2|]]); intros k' Hk'.
        * apply incomparable_proper. apply HI; assumption.
        * apply A3. apply sel_keys in Hk'. apply Hk'.
      + rewrite (IH Hx'). destruct (routes (keys K) k text) eqn:R; [|reflexivity].
        apply routes_spec in R. destruct R as (_ & (r & E & _) & _).
        assert (g k = true) by (unfold g; apply prefixb_app; eauto). congruence.
    - destruct (g k); fold (sel g X); cbn [try_literals]; apply (IH Hx'). }
  rewrite HT by apply incl_refl. destruct (try_literals s_parse (keys K) K text); [reflexivity|].
  assert (lookup text (sel g K) = lookup text K) as ->.
  { clear HI HT. induction K as [|(k, e) K IH]; [reflexivity|]. simpl.
    destruct (str_eqb text k) eqn:E.
    - apply str_eqb_eq in E. subst k.
      assert (g text = true) as -> by (unfold g; apply prefixb_app; exists []; rewrite app_nil_r; reflexivity).
      simpl. rewrite str_eqb_refl. reflexivity.
    - destruct (g k); simpl; rewrite ?E; exact IH. }
  destruct (lookup text K); [reflexivity|].
  destruct (blocked (keys K) text), (blocked (keys (sel g K)) text); reflexivity.
Qed.

Lemma s_parse_apart ps text :
  apart ps ->
  s_parse (s_adds ps) text = s_parse (s_adds (filter (first_literal_fits text) ps)) text.
Proof.
  intros HA. set (g := fun k => prefixb k text).
  change (first_literal_fits text) with (lift g).
  destruct (s_adds_apart g ps HA) as (HP & _ & HK & HG).
  assert (apart (filter (lift g) ps)) as HA'.
  { apply (apart_incl ps); [|exact HA]. intros p Hp. apply filter_In in Hp. apply Hp. }
  destruct (s_adds_apart g _ HA') as (HP' & _).
  destruct (s_adds ps) as [K P]. destruct (s_adds (filter (lift g) ps)) as [K' P'].
  cbn [lits_of pars_of] in *. subst P P' K'. symmetry. apply s_parse_sel_prefix.
  intros k k' Hk Hk'. apply HK in Hk. apply HK in Hk'.
  destruct Hk as (p & Hp & Hs). destruct Hk' as (p' & Hp' & Hs').
  destruct HA as (_ & HA). apply (HA p p'); assumption.
Qed.

(** With distinct first literals at most one pattern concerns a text. *)
Lemma filter_one {A} (f : A -> bool) l x :
  NoDup l -> In x l -> f x = true -> (forall y, In y l -> f y = true -> y = x) -> filter f l = [x].
Proof.
  induction l as [|a l IH]; intros HN Hx Fx Hu; [destruct Hx|].
  inversion HN as [|? ? Ha HN']; subst. simpl. destruct (f a) eqn:E.
  - assert (a = x) as -> by (apply Hu; [left; reflexivity|exact E]). f_equal.
    clear IH HN. assert (forall y, In y l -> f y = false) as H.
    { intros y Hy. destruct (f y) eqn:Ey; [|reflexivity].
      rewrite (Hu y (or_intror Hy) Ey) in Hy. contradiction. }
    clear -H. induction l as [|y l IH]; [reflexivity|]. simpl.
    rewrite (H y (or_introl eq_refl)). apply IH. intros z Hz. apply H. right. exact Hz.
  - destruct Hx as [->|Hx]; [congruence|]. apply IH; auto. intros y Hy. apply Hu. right. exact Hy.
Qed.

Lemma filter_none {A} (f : A -> bool) l : (forall y, In y l -> f y = false) -> filter f l = [].
Proof.
  induction l as [|y l IH]; intros H; [reflexivity|]. simpl. rewrite (H y (or_introl eq_refl)).
  apply IH. intros z Hz. apply H. right. exact Hz.
Qed.

(** ** Patterns consisting of one parser *)
Definition parser_pattern (p : pattern) : Prop := exists q, pat_tokens p = [Parser q].

Definition hits (text : str) (q : parser) : bool :=
  match capture q text with Some v => str_eqb v text | None => false end.

Definition only_patterns (P : list (parser * entry)) : Prop :=
  forall q e, In (q, e) P -> exists p, e = (Some p, None).

Lemma try_parser_only q p text :
  try_parser s_parse q (Some p, None) text =
  if hits text q then Some (match_result_insert (match_result_new p) (q, text)) else None.
Proof.
  unfold try_parser, hits. destruct (capture q text) as [v|] eqn:E; [|reflexivity].
  apply capture_prefix in E. cbn [snd fst]. destruct (skipn (length v) text) as [|b tl] eqn:Es.
  - rewrite app_nil_r in E. subst v. rewrite str_eqb_refl. reflexivity.
  - simpl. destruct (str_eqb v text) eqn:Ev; [|reflexivity]. apply str_eqb_eq in Ev.
    exfalso. rewrite <- Ev in E at 1. apply (f_equal (@length byte)) in E.
    rewrite app_length in E. simpl in E. lia.
Qed.

Definition first_hit (text : str) (P : list (parser * entry)) : option (parser * entry) :=
  find (fun x => hits text (fst x)) P.

Lemma try_parsers_only P text :
  only_patterns P ->
  try_parsers s_parse P text =
  match first_hit text P with
  | Some (q, (Some p, _)) => Some (match_result_insert (match_result_new p) (q, text))
  | _ => None
  end.
Proof.
  intros H. induction P as [|(q, e) P IH]; [reflexivity|].
  destruct (H q e (or_introl eq_refl)) as (p & ->).
  cbn [try_parsers]. rewrite try_parser_only. unfold first_hit. cbn [find fst].
  destruct (hits text q); [reflexivity|]. apply IH. intros q' e' Hi. apply (H q' e'). right. exact Hi.
Qed.

Lemma first_hit_at_parser text P x f :
  first_hit text (at_parser P x f) =
  match first_hit text P with
  | Some (q, e) => Some (q, if parser_eq_dec q x then f e else e)
  | None => if hits text x then Some (x, f (None, None)) else None
  end.
Proof.
  unfold first_hit. induction P as [|(y, e) P IH]; simpl.
  - reflexivity.
  - destruct (parser_eq_dec y x) as [->|Hn]; simpl.
    + destruct (hits text x) eqn:Hx.
      * destruct (parser_eq_dec x x); [reflexivity|congruence].
      * destruct (find (fun x0 => hits text (fst x0)) P) as [(q, e')|] eqn:E; [|reflexivity].
        apply find_some in E. destruct E as (_ & E). simpl in E.
        destruct (parser_eq_dec q x); [congruence|reflexivity].
    + destruct (hits text y) eqn:Hy; [|exact IH].
      destruct (parser_eq_dec y x); [congruence|reflexivity].
Qed.

Lemma hits_captures text q :
  utf8 text -> parser_utf8 q -> (hits text q = true <-> captures q text text).
Proof.
  intros Hu Hq. unfold hits. split.
  - destruct (capture q text) as [v|] eqn:E; [|discriminate]. intros H. apply str_eqb_eq in H.
    subst v. apply capture_sound. exact E.
  - intros H. rewrite (capture_complete q text text Hu Hq Hu H). apply str_eqb_refl.
Qed.

Definition parsers_utf8 (p : pattern) : Prop :=
  forall q, In (Parser q) (pat_tokens p) -> parser_utf8 q.

Lemma s_adds_parsers ps text :
  Forall parser_pattern ps -> Forall parsers_utf8 ps -> utf8 text ->
  lits_of (s_adds ps) = [] /\ only_patterns (pars_of (s_adds ps)) /\
  match first_hit text (pars_of (s_adds ps)) with
  | Some (q, e) => exists p, e = (Some (stripped p), None) /\ wins ps text q p
  | None => forall p q, In p ps -> pat_tokens p = [Parser q] -> ~ captures q text text
  end.
Proof.
  intros HF HU Hu. induction ps as [|p ps IH] using rev_ind.
  - split; [reflexivity|]. split; [intros q e []|]. simpl. intros p q [].
  - apply Forall_app in HF. destruct HF as (HF & Hp). inversion Hp as [|? ? (x & Et) _]; subst.
    apply Forall_app in HU. destruct HU as (HU & Hq). inversion Hq as [|? ? Hx _]; subst.
    specialize (Hx x). rewrite Et in Hx. specialize (Hx (or_introl eq_refl)).
    destruct (IH HF HU) as (HL & HO & HH). clear IH Hp Hq.
    rewrite s_adds_snoc. unfold s_add. rewrite Et. cbn [s_insert is_empty lits_of pars_of].
    set (f := fun e : entry => (Some (stripped p), snd e)).
    destruct (s_adds ps) as [K P]. cbn [lits_of pars_of] in *. split; [exact HL|]. split.
    + intros q e Hi. destruct (at_parser_split P x f) as (A & C & [(E1 & E2)|(e0 & E1 & E2)]);
        rewrite E1 in Hi; apply in_elt_inv in Hi; destruct Hi as [Hi|Hi].
      * assert (f (None, None) = e) as <- by congruence. exists (stripped p). reflexivity.
      * apply (HO q e). rewrite E2. exact Hi.
      * assert (f e0 = e) as <- by congruence.
        destruct (HO x e0) as (p0 & ->); [rewrite E2; apply in_elt|]. exists (stripped p). reflexivity.
      * apply (HO q e). rewrite E2. apply in_app_or in Hi. apply in_or_app.
        destruct Hi; [auto|right; right; assumption].
    + rewrite first_hit_at_parser. destruct (first_hit text P) as [(q, e)|] eqn:Eh.
      * destruct HH as (p0 & -> & (a & p1 & b & E1 & E2 & E3 & E4) & (a' & b' & F1 & F2 & F3)).
        assert (exists a p0 b, ps ++ [p] = a ++ p0 :: b /\ pat_tokens p0 = [Parser q] /\
                  captures q text text /\
                  forall p' q', In p' a -> pat_tokens p' = [Parser q'] -> ~ captures q' text text) as HW.
        { exists a, p1, (b ++ [p]). rewrite E1, <- app_assoc. auto. }
        destruct (parser_eq_dec q x) as [->|Hn].
        -- exists p. split; [reflexivity|]. split; [exact HW|].
           exists ps, []. split; [reflexivity|]. split; [exact Et|]. intros p' [].
        -- exists p0. split; [reflexivity|]. split; [exact HW|].
           exists a', (b' ++ [p]). rewrite F1, <- app_assoc. split; [reflexivity|]. split; [exact F2|].
           intros p' Hi. apply in_app_or in Hi. destruct Hi as [Hi|[<-|[]]]; [apply F3; exact Hi|congruence].
      * destruct (hits text x) eqn:Ex.
        -- exists p. split; [reflexivity|]. apply (hits_captures text x Hu Hx) in Ex. split.
           ++ exists ps, p, []. auto.
           ++ exists ps, []. split; [reflexivity|]. split; [exact Et|]. intros p' [].
        -- intros p' q Hi Eq. apply in_app_or in Hi. destruct Hi as [Hi|[<-|[]]]; [apply (HH p' q Hi Eq)|].
           assert (q = x) as -> by congruence. intros Hc. apply (hits_captures text x Hu Hx) in Hc. congruence.
Qed.

Lemma s_parse_parsers ps text :
  Forall parser_pattern ps -> Forall parsers_utf8 ps -> utf8 text ->
  match s_parse (s_adds ps) text with
  | Some r => exists q p, wins ps text q p /\
                r = match_result_insert (match_result_new (stripped p)) (q, text)
  | None => forall p q, In p ps -> pat_tokens p = [Parser q] -> ~ captures q text text
  end.
Proof.
  intros HF HU Hu. destruct (s_adds_parsers ps text HF HU Hu) as (HL & HO & HH).
  destruct (s_adds ps) as [K P]. cbn [lits_of pars_of] in *. subst K.
  rewrite s_parse_unfold. cbn [try_literals keys map lookup blocked existsb].
  rewrite try_parsers_only by exact HO.
  destruct (first_hit text P) as [(q, e)|]; [|exact HH].
  destruct HH as (p & -> & HW). exists q, p. auto.
Qed.
