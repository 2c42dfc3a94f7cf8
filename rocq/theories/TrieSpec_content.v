(** * Exactly which patterns a trie holds *)
From Coq Require Import Sorted Permutation.
From Verif Require Import Base Base_facts Utils Utils_facts Parsers Pattern Spec Spec_grammar TrieSpec
  TrieSpec_facts TrieSpec_props TrieSpec_cases TableSpec Table_content Spec_order TrieSpec_order
  Spec_panics Spec_content.

(** ** Levels whose keys are sorted and whose parsers are different, everywhere *)
Inductive lgood : level -> Prop :=
| lgood_level K P :
    sorted_keys K -> NoDup (map fst P) ->
    (forall k po c, In (k, (po, Some c)) K -> lgood c) ->
    (forall x po c, In (x, (po, Some c)) P -> lgood c) -> lgood (Level K P).

Definition egood (e : entry) : Prop := forall c, snd e = Some c -> lgood c.

Lemma lgood_empty : lgood level_empty.
Proof. constructor; try constructor; intros ? ? ? []. Qed.

Lemma enter_lgood L : lgood L -> forall l f, (forall e, egood e -> egood (f e)) -> lgood (enter L l f).
Proof.
  induction L as [K P IHK _] using level_nested_ind. intros HL l f Hf.
  inversion HL as [? ? HS HN HC HP]; subst.
  destruct (enter_lookup K P l f HS) as (K' & -> & HS' & HE). constructor; [exact HS'|exact HN| |exact HP].
  intros k po c Hi. apply (lookup_In_sorted K' k _ HS') in Hi. rewrite HE in Hi. unfold entered in Hi.
  destruct (route K l) as [k0|].
  - destruct (str_eqb k k0); [|apply lookup_in in Hi; exact (HC _ _ _ Hi)].
    destruct (lookup k0 K) as [(po', [c'|])|] eqn:El; cbn [option_map down fst snd] in Hi; inversion Hi; subst.
    apply lookup_in in El. apply (IHK k0 po c'); [exact El|exact (HC k0 po c' El)|exact Hf].
  - destruct (str_eqb k l); [|apply lookup_in in Hi; exact (HC _ _ _ Hi)]. inversion Hi as [E].
    apply (Hf (entry0 (lookup l K))); [|rewrite E; reflexivity].
    intros c0 E0. destruct (lookup l K) as [(po', co')|] eqn:El; cbn [entry0 snd] in E0; [|discriminate].
    subst co'. apply lookup_in in El. exact (HC l po' c0 El).
Qed.

Lemma at_parser_In P x f y e :
  In (y, e) (at_parser P x f) -> In (y, e) P \/ (e = f (None, None) \/ exists e0, In (x, e0) P /\ e = f e0).
Proof.
  induction P as [|(z, e0) P IH]; simpl.
  - intros [H|[]]. inversion H. auto.
  - destruct (parser_eq_dec z x) as [->|N]; simpl; intros [H|H].
    + inversion H; subst. right. right. exists e0. auto.
    + auto.
    + auto.
    + destruct (IH H) as [H1|[H1|(e1 & H1 & H2)]]; auto. right. right. exists e1. auto.
Qed.

Lemma s_insert_lgood toks : forall L p, lgood L -> lgood (s_insert toks L p).
Proof.
  induction toks as [|tok rest IH]; intros L p HL; [exact HL|].
  assert (forall e, egood e -> egood (put rest p e)) as Hf.
  { intros e He c. unfold put. destruct (is_empty rest); simpl; [apply He|].
    intros H. inversion H. apply IH. exact lgood_empty. }
  destruct tok as [x|l].
  - change (s_insert (Parser x :: rest) L p) with (Level (lits_of L) (at_parser (pars_of L) x (put rest p))).
    destruct HL as [K P HS HN HC HP]. cbn [lits_of pars_of]. constructor; [exact HS| |exact HC|].
    + clear -HN. induction P as [|(y, e) P IHP]; simpl; [constructor; [intros []|constructor]|].
      inversion HN as [|? ? N1 N2]; subst. destruct (parser_eq_dec y x) as [->|N]; simpl; constructor; auto.
      intros Hi. apply in_map_iff in Hi. destruct Hi as ((z & e') & E & Hi). simpl in E. subst z.
      assert (forall P, In (y, e') (at_parser P x (put rest p)) -> In y (map fst P)) as Hx.
      { clear -N. induction P as [|(z, e0) P IH]; simpl.
        - intros [H|[]]. inversion H. congruence.
        - destruct (parser_eq_dec z x) as [->|N']; simpl; intros [H|H].
          + inversion H. auto.
          + right. apply (in_map fst) in H. exact H.
          + inversion H. auto.
          + auto. }
      apply N1. exact (Hx P Hi).
    + intros y po c Hi. apply at_parser_In in Hi. destruct Hi as [Hi|[E|(e0 & Hi & E)]].
      * exact (HP _ _ _ Hi).
      * apply (Hf (None, None)); [intros c0; discriminate|rewrite <- E; reflexivity].
      * apply (Hf e0); [|rewrite <- E; reflexivity]. intros c0 E0. destruct e0 as (po0, co0). simpl in E0. subst co0.
        exact (HP _ _ _ Hi).
  - apply (enter_lgood L HL l (put rest p) Hf).
Qed.

Lemma s_adds_lgood ps : lgood (s_adds ps).
Proof.
  induction ps as [|p ps IH] using rev_ind; [exact lgood_empty|].
  rewrite s_adds_snoc. apply s_insert_lgood. exact IH.
Qed.

Lemma lgood_sorted L : lgood L -> sorted_keys (lits_of L).
Proof. intros [K P HS _ _ _]. exact HS. Qed.

Lemma lgood_pnodup L : lgood L -> pnodup L.
Proof. intros [K P _ HN _ _]. exact HN. Qed.

Lemma lgood_below L tok po c : lgood L -> entry_of L tok = Some (po, Some c) -> lgood c.
Proof.
  intros HL E. pose proof (lgood_sorted L HL) as HS. pose proof (lgood_pnodup L HL) as HN.
  destruct HL as [K P _ _ HC HP]. destruct tok as [x|l].
  - apply in_pars in E; [|exact HN]. exact (HP _ _ _ E).
  - apply in_lits in E; [|exact HS]. exact (HC _ _ _ E).
Qed.

(** ** The pattern at a place *)
Fixpoint vat (L : level) (loc : list token) : option pattern :=
  match loc with
  | [] => None
  | tok :: rest =>
      match entry_of L tok with
      | None => None
      | Some e =>
          match rest with
          | [] => fst e
          | _ => match snd e with Some c => vat c rest | None => None end
          end
      end
  end.

Definition evat (e : entry) (loc : list token) : option pattern :=
  match loc with
  | [] => fst e
  | _ => match snd e with Some c => vat c loc | None => None end
  end.

Lemma vat_cons L tok rest :
  vat L (tok :: rest) = match entry_of L tok with Some e => evat e rest | None => None end.
Proof. reflexivity. Qed.

Lemma vat_entry0 L tok rest : vat L (tok :: rest) = evat (entry0 (entry_of L tok)) rest.
Proof. rewrite vat_cons. destruct (entry_of L tok); [reflexivity|]. destruct rest; reflexivity. Qed.

Lemma vat_empty loc : vat level_empty loc = None.
Proof. destruct loc as [|[x|l] rest]; reflexivity. Qed.

Lemma flat_cons tok rest : flat (tok :: rest) = flat_token tok ++ flat rest.
Proof. reflexivity. Qed.

Lemma stored_vat L : lgood L -> forall path x, stored L path x <-> exists loc, vat L loc = Some x /\ path = flat loc.
Proof.
  induction L as [K P IHK IHP] using level_nested_ind. intros HL path x.
  pose proof (lgood_sorted _ HL) as HS. pose proof (lgood_pnodup _ HL) as HN.
  inversion HL as [? ? _ _ HC HP]; subst.
  assert (forall e, (forall c, snd e = Some c -> lgood c /\
             (forall path x, stored c path x <-> exists loc, vat c loc = Some x /\ path = flat loc)) ->
           forall path, estored e path x <-> exists loc, evat e loc = Some x /\ path = flat loc) as HE.
  { intros (po, co) Hc path'. split.
    - intros H. inversion H; subst.
      + exists []. auto.
      + destruct (Hc c eq_refl) as (_ & Hs). match goal with H0 : stored _ _ _ |- _ => apply Hs in H0; destruct H0 as (loc & H1 & H2) end.
        exists loc. split; [|exact H2]. destruct loc; [discriminate|]. exact H1.
    - intros (loc & H1 & ->). destruct loc as [|tok loc].
      + simpl in H1. subst po. apply es_here.
      + simpl in H1. destruct co as [c|]; [|discriminate]. apply es_down. apply (proj2 (Hc c eq_refl)). exists (tok :: loc). split; [exact H1|reflexivity]. }
  split.
  - intros H. inversion H as [k e ? ? path' ? Hi He|y e ? ? path' ? Hi He]; subst.
    + apply HE in He.
      * destruct He as (loc & H1 & ->). exists (Literal k :: loc). split; [|reflexivity].
        rewrite vat_cons. apply (in_lits (Level K P)) in Hi; [|exact HS]. rewrite Hi. exact H1.
      * intros c Ec. destruct e as (po, co). simpl in Ec. subst co. split; [exact (HC _ _ _ Hi)|].
        apply (IHK k po c Hi). exact (HC _ _ _ Hi).
    + apply HE in He.
      * destruct He as (loc & H1 & ->). exists (Parser y :: loc). split; [|reflexivity].
        rewrite vat_cons. apply (in_pars (Level K P)) in Hi; [|exact HN]. rewrite Hi. exact H1.
      * intros c Ec. destruct e as (po, co). simpl in Ec. subst co. split; [exact (HP _ _ _ Hi)|].
        apply (IHP y po c Hi). exact (HP _ _ _ Hi).
  - intros (loc & H & ->). destruct loc as [|tok loc]; [discriminate|]. rewrite vat_cons in H.
    destruct (entry_of (Level K P) tok) as [e|] eqn:E; [|discriminate].
    destruct tok as [y|k].
    + apply in_pars in E; [|exact HN]. apply (st_parser y e); [exact E|]. apply HE; [|eauto].
      intros c Ec. destruct e as (po, co). simpl in Ec. subst co. split; [exact (HP _ _ _ E)|].
      apply (IHP y po c E). exact (HP _ _ _ E).
    + apply in_lits in E; [|exact HS]. rewrite flat_cons. apply (st_literal k e); [exact E|]. apply HE; [|eauto].
      intros c Ec. destruct e as (po, co). simpl in Ec. subst co. split; [exact (HC _ _ _ E)|].
      apply (IHK k po c E). exact (HC _ _ _ E).
Qed.

(** ** Where a token goes *)
Inductive leads : level -> str -> list str -> Prop :=
| leads_here L l : route (lits_of L) l = None -> leads L l [l]
| leads_down L l k po c a :
    route (lits_of L) l = Some k -> lookup k (lits_of L) = Some (po, Some c) ->
    leads c (skipn (length k) l) a -> leads L l (k :: a).

Lemma leads_total L : lgood L -> forall l, exists a, leads L l a.
Proof.
  induction L as [K P IHK _] using level_nested_ind. intros HL l.
  pose proof (lgood_sorted _ HL) as HS. cbn [lits_of] in HS.
  destruct (route K l) as [k|] eqn:R; [|exists [l]; apply leads_here; exact R].
  pose proof R as R'. apply (route_some K l k HS) in R'. destruct R' as ((po & c & El) & _).
  pose proof (lookup_in _ _ _ El) as Hi.
  destruct (IHK k po c Hi) with (l := skipn (length k) l) as (a & Ha); [inversion HL; eauto|].
  exists (k :: a). apply (leads_down _ l k po c a); assumption.
Qed.

Lemma leads_fun L l a : leads L l a -> forall b, leads L l b -> a = b.
Proof.
  induction 1 as [L l R|L l k po c a R E _ IH]; intros b Hb; inversion Hb; subst; try congruence.
  rewrite R in *. match goal with H : Some _ = Some _ |- _ => inversion H; subst end.
  rewrite E in *. match goal with H : Some (_, Some _) = _ |- _ => inversion H; subst end.
  f_equal. apply IH. assumption.
Qed.

Lemma route_app K l k : sorted_keys K -> route K l = Some k -> k <> [] /\ exists r, l = k ++ r /\ r <> [].
Proof.
  intros HS R. apply (route_some K l k HS) in R. destruct R as (_ & R). apply routes_spec in R. tauto.
Qed.

Lemma skipn_own (k r : str) : skipn (length k) (k ++ r) = r.
Proof. rewrite skipn_app, skipn_all, Nat.sub_diag. reflexivity. Qed.

Lemma leads_good L k po c : lgood L -> lookup k (lits_of L) = Some (po, Some c) -> lgood c.
Proof. intros HL E. exact (lgood_below L (Literal k) po c HL E). Qed.

Lemma leads_concat L l a : leads L l a -> lgood L -> concat a = l /\ a <> [].
Proof.
  induction 1 as [L l R|L l k po c a R E H IH]; intros HL; [split; [apply app_nil_r|discriminate]|].
  destruct (IH (leads_good L k po c HL E)) as (E1 & _). split; [|discriminate].
  destruct (route_app _ l k (lgood_sorted _ HL) R) as (_ & r & -> & _).
  cbn [concat]. rewrite E1, skipn_own. reflexivity.
Qed.

Definition leads_token (L : level) (tok : token) (pre : list token) : Prop :=
  match tok with
  | Parser x => pre = [Parser x]
  | Literal l => exists a, leads L l a /\ pre = map Literal a
  end.

Lemma leads_token_total L tok : lgood L -> exists pre, leads_token L tok pre.
Proof.
  intros HL. destruct tok as [x|l]; [eexists; reflexivity|].
  destruct (leads_total L HL l) as (a & Ha). exists (map Literal a), a. auto.
Qed.

Lemma leads_token_fun L tok pre pre' : leads_token L tok pre -> leads_token L tok pre' -> pre = pre'.
Proof.
  destruct tok as [x|l]; simpl; [congruence|]. intros (a & Ha & ->) (b & Hb & ->).
  rewrite (leads_fun L l a Ha b Hb). reflexivity.
Qed.

(** ** Adding, by place *)
Fixpoint tstrip (pre loc : list token) : option (list token) :=
  match pre, loc with
  | [], _ => Some loc
  | a :: pre', b :: loc' => if token_dec b a then tstrip pre' loc' else None
  | _ :: _, [] => None
  end.

Lemma tstrip_spec pre : forall loc more, tstrip pre loc = Some more <-> loc = pre ++ more.
Proof.
  induction pre as [|a pre IH]; intros loc more; simpl; [split; congruence|].
  destruct loc as [|b loc]; [split; discriminate|]. destruct (token_dec b a) as [->|N].
  - rewrite IH. split; congruence.
  - split; [discriminate|]. intros H. inversion H. congruence.
Qed.

(** What there is at a place [more] behind the entry that is updated. *)
Definition updated (rest : list token) (p : pattern) (old : option pattern) (more : list token) : option pattern :=
  match rest, more with
  | [], [] => Some p
  | _ :: _, _ :: _ => vat (s_insert rest level_empty p) more
  | _, _ => old
  end.

Lemma evat_put rest p e more : evat (put rest p e) more = updated rest p (evat e more) more.
Proof. destruct rest, more; reflexivity. Qed.

Definition changed (pre rest : list token) (p : pattern) (L : level) (loc : list token) : option pattern :=
  match tstrip pre loc with Some more => updated rest p (vat L loc) more | None => vat L loc end.

Lemma vat_enter L l a rest p : leads L l a -> lgood L -> forall loc,
  vat (enter L l (put rest p)) loc = changed (map Literal a) rest p L loc.
Proof.
  intros H. induction H as [L l R|L l k po c a R E H IH]; intros HL loc;
    destruct L as [K P]; cbn [lits_of] in *; pose proof (lgood_sorted _ HL) as HS; cbn [lits_of] in HS;
    destruct (enter_lookup K P l (put rest p) HS) as (K' & -> & HS' & HE); unfold entered in HE; rewrite R in HE;
    unfold changed; cbn [map tstrip]; (destruct loc as [|tok loc]; [reflexivity|]).
  - destruct tok as [y|k].
    + destruct (token_dec (Parser y) (Literal l)); [congruence|]. reflexivity.
    + rewrite !vat_entry0. cbn [entry_of lits_of]. rewrite HE.
      destruct (str_eqb k l) eqn:Ek.
      * apply str_eqb_eq in Ek. subst k. destruct (token_dec (Literal l) (Literal l)); [|congruence].
        cbn [entry0]. apply evat_put.
      * destruct (token_dec (Literal k) (Literal l)) as [E|_]; [|reflexivity].
        exfalso. inversion E; subst. rewrite str_eqb_refl in Ek. discriminate.
  - destruct tok as [y|k'].
    + destruct (token_dec (Parser y) (Literal k)); [congruence|]. reflexivity.
    + rewrite !vat_cons. cbn [entry_of lits_of]. rewrite HE.
      destruct (str_eqb k' k) eqn:Ek.
      * apply str_eqb_eq in Ek. subst k'. destruct (token_dec (Literal k) (Literal k)); [|congruence].
        rewrite E. cbn [option_map down fst snd].
        assert (lgood c) as Hc by (apply (leads_good (Level K P) k po c HL E)).
        destruct loc as [|tok loc].
        -- destruct (leads_concat _ _ _ H Hc) as (_ & Na). destruct a; [congruence|]. reflexivity.
        -- change (vat (enter c (skipn (length k) l) (put rest p)) (tok :: loc) =
             match tstrip (map Literal a) (tok :: loc) with
             | Some more => updated rest p (vat c (tok :: loc)) more | None => vat c (tok :: loc) end).
           rewrite (IH Hc). reflexivity.
      * destruct (token_dec (Literal k') (Literal k)) as [E'|_]; [|reflexivity].
        exfalso. inversion E'; subst. rewrite str_eqb_refl in Ek. discriminate.
Qed.

Lemma vat_insert L tok rest pre p loc :
  leads_token L tok pre -> lgood L ->
  vat (s_insert (tok :: rest) L p) loc = changed pre rest p L loc.
Proof.
  intros H HL. destruct tok as [x|l].
  - simpl in H. subst pre.
    change (s_insert (Parser x :: rest) L p) with (Level (lits_of L) (at_parser (pars_of L) x (put rest p))).
    unfold changed. cbn [tstrip]. destruct loc as [|tok loc]; [reflexivity|].
    destruct tok as [y|k].
    + rewrite !vat_entry0. cbn [entry_of pars_of]. rewrite plookup_at.
      destruct (parser_eq_dec y x) as [->|N].
      * destruct (token_dec (Parser x) (Parser x)); [|congruence]. cbn [entry0]. apply evat_put.
      * destruct (token_dec (Parser y) (Parser x)); [congruence|]. reflexivity.
    + destruct (token_dec (Literal k) (Parser x)); [congruence|]. reflexivity.
  - destruct H as (a & Ha & ->). exact (vat_enter L l a rest p Ha HL loc).
Qed.

Lemma vat_chain toks p : forall loc x,
  vat (s_insert toks level_empty p) loc = Some x <-> toks <> [] /\ loc = toks /\ x = p.
Proof.
  induction toks as [|tok rest IH]; intros loc x.
  - simpl. rewrite vat_empty. split; [discriminate|intros (H & _); congruence].
  - assert (leads_token level_empty tok [tok]) as Hl.
    { destruct tok; [reflexivity|]. exists [l]. split; [|reflexivity]. apply leads_here. reflexivity. }
    rewrite (vat_insert level_empty tok rest [tok] p loc Hl lgood_empty). unfold changed.
    rewrite vat_empty. destruct (tstrip [tok] loc) as [more|] eqn:E.
    + apply tstrip_spec in E. subst loc. simpl. destruct rest as [|t rest], more as [|m more]; cbn [updated].
      * split; [intros H; inversion H; split; [discriminate|auto]|intros (_ & _ & ->); reflexivity].
      * split; [discriminate|]. intros (_ & H & _). discriminate.
      * split; [discriminate|]. intros (_ & H & _). discriminate.
      * rewrite IH. split; [intros (_ & -> & ->); split; [discriminate|auto]|].
        intros (_ & H & ->). inversion H. split; [discriminate|auto].
    + split; [discriminate|]. intros (_ & -> & _). assert (tstrip [tok] (tok :: rest) = Some rest); [|congruence].
      apply tstrip_spec. reflexivity.
Qed.

Lemma changed_some pre rest p L loc x :
  changed pre rest p L loc = Some x <->
  (loc = pre ++ rest /\ x = p) \/
  (loc <> pre ++ rest /\ vat L loc = Some x /\
   forall more, loc = pre ++ more -> more <> [] -> rest = []).
Proof.
  unfold changed. destruct (tstrip pre loc) as [more|] eqn:E.
  - apply tstrip_spec in E. subst loc.
    assert (forall m, pre ++ more = pre ++ m <-> more = m) as Hi.
    { intros m. split; [apply app_inv_head|congruence]. }
    rewrite Hi. destruct rest as [|t rest], more as [|m more]; cbn [updated].
    + split; [intros H; inversion H; auto|]. intros [(_ & ->)|(H & _)]; [reflexivity|congruence].
    + split; [intros H; right; split; [discriminate|]; auto|]. intros [(H & _)|(_ & H & _)]; [discriminate|exact H].
    + split; [intros H; right; split; [discriminate|]; split; [exact H|]|].
      * intros m Em Nm. rewrite Hi in Em. congruence.
      * intros [(H & _)|(_ & H & _)]; [discriminate|exact H].
    + rewrite vat_chain. split; [intros (_ & -> & ->); auto|].
      intros [(-> & ->)|(_ & _ & H)]; [split; [discriminate|auto]|].
      specialize (H (m :: more) eq_refl). assert (t :: rest = []) by (apply H; discriminate). discriminate.
  - assert (forall m, loc <> pre ++ m) as Hn.
    { intros m ->. assert (tstrip pre (pre ++ m) = Some m) by (apply tstrip_spec; reflexivity). congruence. }
    split; [intros H; right|].
    + split; [apply Hn|]. split; [exact H|]. intros m Em. destruct (Hn m Em).
    + intros [(H & _)|(_ & H & _)]; [destruct (Hn _ H)|exact H].
Qed.

(** ** Entries keep their place while nothing drops them *)
Inductive seat : level -> str -> list str -> Prop :=
| seat_here L l : In l (keys (lits_of L)) -> seat L l [l]
| seat_down L l k po c a :
    route (lits_of L) l = Some k -> lookup k (lits_of L) = Some (po, Some c) ->
    seat c (skipn (length k) l) a -> seat L l (k :: a).

(** A key is not looked for behind another one. *)
Lemma route_key K k : sorted_keys K -> In k (keys K) -> route K k = None.
Proof.
  intros HS Hi. apply (route_none K k HS). intros k0 po c _.
  destruct (routes (keys K) k0 k) eqn:R; [|reflexivity]. apply routes_spec in R.
  destruct R as (_ & R1 & R2). specialize (R2 k Hi). apply proper_prefixb_spec in R1. congruence.
Qed.

Lemma seat_leads L l a : seat L l a -> lgood L -> leads L l a.
Proof.
  induction 1 as [L l Hi|L l k po c a R E H IH]; intros HL.
  - apply leads_here. apply route_key; [apply lgood_sorted; exact HL|exact Hi].
  - apply (leads_down L l k po c a R E). apply IH. exact (leads_good L k po c HL E).
Qed.

Lemma seat_parsers L L' l a : lits_of L' = lits_of L -> seat L l a -> seat L' l a.
Proof.
  intros E H. destruct H as [L l Hi|L l k po c a R El H].
  - apply seat_here. rewrite E. exact Hi.
  - apply (seat_down L' l k po c a); rewrite ?E; assumption.
Qed.

(** A routing key keeps routing. *)
Lemma route_persists K K' P f l k m :
  sorted_keys K -> enter (Level K P) m f = Level K' P ->
  (forall e, has_child e = true -> has_child (f e) = true) ->
  route K l = Some k -> route K' l = Some k.
Proof.
  intros HS E Hf R. destruct (enter_lookup K P m f HS) as (K2 & E2 & HS' & HE).
  assert (K2 = K') as -> by congruence. clear E2.
  apply (route_some K l k HS) in R. destruct R as ((po & c & El) & R).
  apply (route_some K' l k HS'). split.
  - rewrite HE. unfold entered. destruct (route K m) as [k2|].
    + destruct (str_eqb k k2) eqn:Ek; [|eauto]. apply str_eqb_eq in Ek. subst k2. rewrite El. unfold down. cbn. eauto.
    + destruct (str_eqb k m) eqn:Ek; [|eauto]. apply str_eqb_eq in Ek. subst k. rewrite El. cbn [entry0].
      specialize (Hf (po, Some c) eq_refl). unfold has_child in Hf. destruct (f (po, Some c)) as (po', [c'|]); [|discriminate].
      eauto.
  - apply routes_spec in R. destruct R as (R1 & R2 & R3). apply routes_spec. split; [exact R1|]. split; [exact R2|].
    intros k' Hk'. apply lookup_keys in Hk'. rewrite HE in Hk'. apply entered_keys in Hk'; [|exact HS].
    destruct Hk' as [Hk'|(Hn & ->)]; [exact (R3 k' Hk')|].
    destruct (proper_prefixb k m) eqn:Ep; [|reflexivity]. apply proper_prefixb_spec in Ep. exfalso.
    assert (route K m = Some k) as X; [|congruence]. apply route_some; [exact HS|]. split; [eauto|].
    apply routes_spec. auto.
Qed.

(** What is entered has a seat. *)
Lemma enter_seat L l a f : leads L l a -> lgood L ->
  (forall e, has_child e = true -> has_child (f e) = true) -> seat (enter L l f) l a.
Proof.
  intros H. induction H as [L l R|L l k po c a R E H IH]; intros HL Hf;
    destruct L as [K P]; cbn [lits_of] in *; pose proof (lgood_sorted _ HL) as HS; cbn [lits_of] in HS;
    destruct (enter_lookup K P l f HS) as (K' & EK & HS' & HE); rewrite EK.
  - apply seat_here. cbn [lits_of]. apply lookup_keys. rewrite HE. apply entered_keys; auto.
  - apply (seat_down _ l k po (enter c (skipn (length k) l) f) a); cbn [lits_of].
    + exact (route_persists K K' P f l k l HS EK Hf R).
    + rewrite HE. unfold entered. rewrite R, str_eqb_refl, E. reflexivity.
    + apply IH; [exact (leads_good (Level K P) k po c HL E)|exact Hf].
Qed.

(** Entering something else leaves it there, unless it drops what is behind a
    key on the way. *)
Lemma seat_enter L l a rest p : seat L l a -> lgood L -> forall m b, leads L m b ->
  (forall more, a = b ++ more -> more <> [] -> rest = []) ->
  seat (enter L m (put rest p)) l a.
Proof.
  intros H. induction H as [L l Hi|L l k po c a R E H IH]; intros HL m b Hb Hn;
    destruct L as [K P]; cbn [lits_of] in *; pose proof (lgood_sorted _ HL) as HS; cbn [lits_of] in HS;
    destruct (enter_lookup K P m (put rest p) HS) as (K' & EK & HS' & HE); rewrite EK.
  - apply seat_here. cbn [lits_of]. apply lookup_keys. rewrite HE. apply entered_keys; auto.
  - pose proof (route_persists K K' P _ l k m HS EK (put_child rest p) R) as R'.
    assert (lgood c) as Hc by exact (leads_good (Level K P) k po c HL E).
    inversion Hb as [? ? Rm|? ? k' po' c' b' Rm Em Hb']; subst; cbn [lits_of] in *.
    + destruct (str_eqb k m) eqn:Ek.
      * apply str_eqb_eq in Ek. subst m.
        assert (rest = []) as ->.
        { apply (Hn a); [reflexivity|]. inversion H; discriminate. }
        apply (seat_down _ l k (Some p) c a); cbn [lits_of]; [exact R'| |exact H].
        rewrite HE. unfold entered. rewrite Rm, str_eqb_refl, E. reflexivity.
      * apply (seat_down _ l k po c a); cbn [lits_of]; [exact R'| |exact H].
        rewrite HE. unfold entered. rewrite Rm, Ek. exact E.
    + destruct (str_eqb k k') eqn:Ek.
      * apply str_eqb_eq in Ek. subst k'. rewrite E in Em. inversion Em; subst po' c'.
        apply (seat_down _ l k po (enter c (skipn (length k) m) (put rest p)) a); cbn [lits_of]; [exact R'| |].
        -- rewrite HE. unfold entered. rewrite Rm, str_eqb_refl, E. reflexivity.
        -- apply (IH Hc _ b' Hb'). intros more Em' Nm. apply (Hn more); [|exact Nm]. rewrite Em'. reflexivity.
      * apply (seat_down _ l k po c a); cbn [lits_of]; [exact R'| |exact H].
        rewrite HE. unfold entered. rewrite Rm, Ek. exact E.
Qed.

(** Keys on the way to a seat have theirs there. *)
Lemma seat_nonempty L l a : seat L l a -> lgood L -> l <> [] -> Forall (fun k => k <> []) a.
Proof.
  induction 1 as [L l Hi|L l k po c a R E H IH]; intros HL Nl; [constructor; auto|].
  destruct (route_app _ l k (lgood_sorted _ HL) R) as (Nk & r & -> & Nr). constructor; [exact Nk|].
  apply IH; [exact (leads_good L k po c HL E)|]. rewrite skipn_own. exact Nr.
Qed.

Lemma seat_prefix L l a : seat L l a -> lgood L -> forall a' more, a = a' ++ more -> a' <> [] -> more <> [] ->
  leads L (concat a') a'.
Proof.
  induction 1 as [L l Hi|L l k po c a R E H IH]; intros HL a' more Ea Na Nm.
  - destruct a' as [|k a']; [congruence|]. destruct a', more; try congruence; discriminate.
  - destruct a' as [|k' a']; [congruence|]. inversion Ea; subst k'. clear Na.
    destruct (route_app _ l k (lgood_sorted _ HL) R) as (Nk & r & El & Nr).
    assert (lgood c) as Hc by exact (leads_good L k po c HL E).
    destruct a' as [|k2 a'].
    + cbn [concat]. rewrite app_nil_r. apply leads_here. apply route_key; [apply lgood_sorted; exact HL|].
      apply lookup_keys. congruence.
    + apply (leads_down L _ k po c).
      * apply route_some; [apply lgood_sorted; exact HL|]. split; [eauto|].
        apply (route_some _ l k (lgood_sorted _ HL)) in R. destruct R as (_ & R). apply routes_spec in R.
        apply routes_spec. split; [exact Nk|]. split; [|tauto].
        exists (concat (k2 :: a')). split; [reflexivity|].
        assert (Forall (fun k => k <> []) a) as F.
        { apply (seat_nonempty _ _ _ H Hc). rewrite El, skipn_own. exact Nr. }
        match goal with H0 : a = _ |- _ => rewrite H0 in F end. inversion F; subst. simpl.
        destruct k2; [congruence|discriminate].
      * exact E.
      * cbn [concat]. rewrite skipn_own. apply (IH Hc (k2 :: a') more); [congruence|discriminate|exact Nm].
Qed.

(** ** [goes_behind] by places *)
Lemma reaches_leads L l L' l' : reaches L l L' l' -> lgood L -> forall a, leads L l a ->
  exists a' more, a = a' ++ more /\ more <> [] /\ l = concat a' ++ l'.
Proof.
  induction 1 as [L l|K P k po c l L' l' Hi R H IH]; intros HL a Ha.
  - exists [], a. split; [reflexivity|]. split; [|reflexivity].
    destruct (leads_concat L l a Ha HL). assumption.
  - pose proof (lgood_sorted _ HL) as HS. cbn [lits_of] in HS.
    pose proof (lookup_In_sorted K k _ HS Hi) as E.
    assert (route K l = Some k) as Rt by (apply route_some; eauto).
    inversion Ha as [? ? Rn|? ? k' po' c' a' Rm Em Ha']; subst; cbn [lits_of] in *; [congruence|].
    rewrite Rt in Rm. inversion Rm; subst k'. rewrite E in Em. inversion Em; subst po' c'.
    destruct (IH (leads_good (Level K P) k po c HL E) a' Ha') as (a1 & more & -> & Nm & El).
    exists (k :: a1), more. split; [reflexivity|]. split; [exact Nm|].
    destruct (route_app K l k HS Rt) as (_ & r & -> & _). rewrite skipn_own in El. subst r.
    cbn [concat]. rewrite app_assoc. reflexivity.
Qed.

Lemma leads_reaches L l a : leads L l a -> lgood L -> forall a' more, a = a' ++ more -> more <> [] ->
  exists L' l', reaches L l L' l' /\ l = concat a' ++ l'.
Proof.
  induction 1 as [L l R|L l k po c a R E H IH]; intros HL a' more Ea Nm.
  - exists L, l. split; [constructor|]. destruct a' as [|k a']; [reflexivity|].
    exfalso. destruct a', more; try congruence; discriminate.
  - destruct a' as [|k' a'].
    { exists L, l. split; [constructor|reflexivity]. }
    inversion Ea; subst k'. destruct (IH (leads_good L k po c HL E) a' more) as (L' & l' & Hr & El); [congruence|exact Nm|].
    exists L', l'. destruct L as [K P]. cbn [lits_of] in *.
    pose proof (lgood_sorted _ HL) as HS. cbn [lits_of] in HS. split.
    + apply (reaches_below K P k po c); [apply lookup_in; exact E| |exact Hr].
      apply (route_some K l k HS) in R. tauto.
    + destruct (route_app K l k HS R) as (_ & r & -> & _). rewrite skipn_own in El. subst r.
      cbn [concat]. rewrite app_assoc. reflexivity.
Qed.

Lemma leads_front L l a : leads L l a -> lgood L -> forall k a' more, a = k :: a' ++ more -> a' ++ more <> [] -> k <> [].
Proof.
  intros H HL k a' more E N. destruct H as [L l R|L l k' po c a R El H].
  - inversion E as [[E1 E2]]. symmetry in E2. contradiction.
  - inversion E; subst. destruct (route_app _ l k (lgood_sorted _ HL) R). assumption.
Qed.

Lemma behind_leads ps l k a : leads (s_adds ps) l a ->
  (goes_behind ps l k <-> exists a' more, a = a' ++ more /\ a' <> [] /\ more <> [] /\ k = concat a').
Proof.
  intros Ha. pose proof (s_adds_lgood ps) as HL. split.
  - intros (L & l' & Hr & El & Nk). destruct (reaches_leads _ _ _ _ Hr HL a Ha) as (a' & more & -> & Nm & El').
    assert (k = concat a') as -> by (rewrite El in El'; apply app_inv_tail in El'; exact El').
    exists a', more. split; [reflexivity|]. split; [intros ->; apply Nk; reflexivity|auto].
  - intros (a' & more & -> & Na & Nm & ->). destruct (leads_reaches _ _ _ Ha HL a' more eq_refl Nm) as (L' & l' & Hr & El).
    exists L', l'. split; [exact Hr|]. split; [exact El|]. destruct a' as [|k a']; [congruence|].
    pose proof (leads_front _ _ _ Ha HL k a' more eq_refl) as Hk. simpl. intros X. apply app_eq_nil in X. destruct X as (-> & _).
    apply Hk; [|reflexivity]. intros Y. apply app_eq_nil in Y. destruct Y. congruence.
Qed.

(** ** Places of patterns *)
(** Where literals end. *)
Definition no_literal_first (rest : list token) : Prop :=
  match rest with Literal _ :: _ => False | _ => True end.

Lemma apart_rest l rest : literals_apart (Literal l :: rest) -> no_literal_first rest.
Proof. destruct rest as [|[x|l'] rest]; simpl; tauto. Qed.

Lemma literals_prefix a : forall b rest more, no_literal_first rest ->
  map Literal a ++ rest = map Literal b ++ more -> exists a2, a = b ++ a2 /\ more = map Literal a2 ++ rest.
Proof.
  induction a as [|k a IH]; intros b rest more Hr E.
  - destruct b as [|k' b]; [exists []; auto|]. simpl in E. subst rest. destruct Hr.
  - destruct b as [|k' b]; [exists (k :: a); auto|]. simpl in E. inversion E as [[E1 E2]]; subst k'.
    destruct (IH b rest more Hr E2) as (a2 & -> & ->). exists a2. auto.
Qed.

Lemma flat_app a b : flat (a ++ b) = flat a ++ flat b.
Proof. apply flat_map_app. Qed.

Lemma flat_literals a : flat (map Literal a) = map inl (concat a).
Proof. induction a as [|k a IH]; [reflexivity|]. simpl. rewrite map_app, <- IH. reflexivity. Qed.

Lemma place_flat L tok rest pre : lgood L -> leads_token L tok pre -> flat (pre ++ rest) = flat (tok :: rest).
Proof.
  intros HL H. destruct tok as [x|l]; simpl in H; [subst; reflexivity|].
  destruct H as (a & Ha & ->). rewrite flat_app, flat_literals. destruct (leads_concat _ _ _ Ha HL) as (-> & _). reflexivity.
Qed.

(** [p], added after [A], is at [loc] unless something dropped it. *)
Definition place (A : list pattern) (p : pattern) (loc : list token) : Prop :=
  exists tok rest pre, pat_tokens p = tok :: rest /\ leads_token (s_adds A) tok pre /\ loc = pre ++ rest.

(** The seats of the first tokens. *)
Definition seated (A : list pattern) (p : pattern) (L : level) : Prop :=
  forall l rest a, pat_tokens p = Literal l :: rest -> leads (s_adds A) l a -> seat L l a.

Lemma seated_leads A p L tok rest pre :
  lgood L -> seated A p L -> pat_tokens p = tok :: rest -> leads_token (s_adds A) tok pre -> leads_token L tok pre.
Proof.
  intros HL H E Hp. destruct tok as [x|l]; simpl in *; [exact Hp|]. destruct Hp as (a & Ha & ->).
  exists a. split; [|reflexivity]. apply seat_leads; [|exact HL]. exact (H l rest a E Ha).
Qed.

Lemma s_add_tokens L p tok rest : pat_tokens p = tok :: rest -> s_add L p = s_insert (tok :: rest) L (stripped p).
Proof. unfold s_add. intros ->. reflexivity. Qed.

(** Places under places, in terms of tokens. *)
Lemma behind_drops A p q L tok rest pre tokq restq preq more :
  lgood L -> apart_literals p -> seated A p L ->
  pat_tokens p = tok :: rest -> leads_token (s_adds A) tok pre ->
  pat_tokens q = tokq :: restq -> leads_token L tokq preq ->
  restq <> [] -> pre ++ rest = preq ++ more -> more <> [] -> drops A q p.
Proof.
  intros HL HA HS Ep Hp Eq_ Hq Nr E Nm. right. exists tokq, restq. split; [exact Eq_|]. split; [exact Nr|].
  unfold apart_literals in HA. rewrite Ep in HA.
  destruct tok as [x|l]; simpl in Hp.
  - subst pre. left. destruct tokq as [y|k]; simpl in Hq.
    + subst preq. inversion E; subst. exists more. auto.
    + destruct Hq as (b & Hb & ->). destruct (leads_concat _ _ _ Hb HL) as (_ & Nb). destruct b; [congruence|discriminate].
  - destruct Hp as (a & Ha & ->). pose proof (s_adds_lgood A) as HLA.
    destruct (leads_concat _ _ _ Ha HLA) as (El & Na).
    destruct tokq as [y|k]; simpl in Hq.
    + subst preq. destruct a; [congruence|discriminate].
    + destruct Hq as (b & Hb & ->). destruct (leads_concat _ _ _ Hb HL) as (Ek & Nb).
      apply literals_prefix in E; [|exact (apart_rest l rest HA)]. destruct E as (a2 & -> & ->).
      destruct a2 as [|k2 a2].
      * left. exists rest. rewrite app_nil_r in El. split; [congruence|exact Nm].
      * right. exists l, rest, k. split; [exact Ep|]. split; [reflexivity|].
        apply (behind_leads A l k _ Ha). exists b, (k2 :: a2). split; [reflexivity|]. split; [exact Nb|]. split; [discriminate|congruence].
Qed.

Lemma same_place_drops A p q L tok rest pre tokq restq preq :
  lgood L -> apart_literals p -> apart_literals q -> seated A p L ->
  pat_tokens p = tok :: rest -> leads_token (s_adds A) tok pre ->
  pat_tokens q = tokq :: restq -> leads_token L tokq preq ->
  pre ++ rest = preq ++ restq -> drops A q p.
Proof.
  intros HL HA HQ HS Ep Hp Eq_ Hq E. unfold apart_literals in HA, HQ. rewrite Ep in HA. rewrite Eq_ in HQ.
  left. split; [congruence|]. rewrite Ep, Eq_.
  destruct tok as [x|l]; simpl in Hp.
  - subst pre. destruct tokq as [y|k]; simpl in Hq; [subst preq; simpl in E; inversion E; subst; reflexivity|].
    destruct Hq as (b & Hb & ->). destruct (leads_concat _ _ _ Hb HL) as (_ & Nb). destruct b; [congruence|discriminate].
  - destruct Hp as (a & Ha & ->). destruct (leads_concat _ _ _ Ha (s_adds_lgood A)) as (El & Na).
    destruct tokq as [y|k]; simpl in Hq; [subst preq; destruct a; [congruence|discriminate]|].
    destruct Hq as (b & Hb & ->). destruct (leads_concat _ _ _ Hb HL) as (Ek & Nb).
    pose proof (literals_prefix a b rest restq (apart_rest l rest HA) E) as (a2 & E1 & E2).
    destruct a2 as [|k2 a2]; [|simpl in E2; subst restq; simpl in HQ; tauto].
    rewrite app_nil_r in E1. subst. simpl. congruence.
Qed.

(** ** Nothing drops [p]: it is there *)
Lemma survivor_there A p tok rest pre :
  apart_literals p -> pat_tokens p = tok :: rest -> leads_token (s_adds A) tok pre ->
  forall B, Forall apart_literals B -> (forall q, In q B -> ~ drops A q p) ->
  vat (s_adds (A ++ p :: B)) (pre ++ rest) = Some (stripped p) /\ seated A p (s_adds (A ++ p :: B)).
Proof.
  intros HA Ep Hp. induction B as [|q B IH] using rev_ind; intros HB HD.
  - change (A ++ [p]) with (A ++ p :: []). replace (A ++ p :: []) with (A ++ [p]) by reflexivity.
    rewrite s_adds_snoc, (s_add_tokens _ p tok rest Ep). split.
    + rewrite (vat_insert _ tok rest pre _ _ Hp (s_adds_lgood A)). apply changed_some. auto.
    + intros l r a E Ha. rewrite Ep in E. inversion E; subst tok r.
      exact (enter_seat (s_adds A) l a (put rest (stripped p)) Ha (s_adds_lgood A) (put_child rest (stripped p))).
  - apply Forall_app in HB. destruct HB as (HB & HQ). inversion HQ as [|? ? HQ1 _]; subst.
    destruct (IH HB) as (H1 & H2); [intros q' Hq'; apply HD, in_or_app; auto|].
    assert (~ drops A q p) as Hq by (apply HD, in_or_app; right; left; reflexivity).
    replace (A ++ p :: B ++ [q]) with ((A ++ p :: B) ++ [q]) by (rewrite <- app_assoc; reflexivity).
    rewrite s_adds_snoc. pose proof (s_adds_lgood (A ++ p :: B)) as HL. remember (s_adds (A ++ p :: B)) as L.
    destruct (pat_tokens q) as [|tokq restq] eqn:Eq_.
    { unfold s_add. rewrite Eq_. simpl. auto. }
    destruct (leads_token_total L tokq HL) as (preq & Hpq).
    rewrite (s_add_tokens _ q tokq restq Eq_). split.
    + rewrite (vat_insert L tokq restq preq _ _ Hpq HL). apply changed_some. right. split.
      * intros E. apply Hq. exact (same_place_drops A p q L tok rest pre tokq restq preq HL HA HQ1 H2 Ep Hp Eq_ Hpq E).
      * split; [exact H1|]. intros more E Nm. destruct restq as [|t restq]; [reflexivity|]. exfalso. apply Hq.
        apply (behind_drops A p q L tok rest pre tokq (t :: restq) preq more); auto. discriminate.
    + intros l r a E Ha. destruct tokq as [y|k].
      * apply (seat_parsers L); [reflexivity|]. exact (H2 l r a E Ha).
      * destruct Hpq as (b & Hb & ->).
        apply (seat_enter L l a restq (stripped q) (H2 l r a E Ha) HL k b Hb).
        intros more Em Nm. destruct restq as [|t restq]; [reflexivity|]. exfalso. apply Hq.
        rewrite Ep in E. inversion E; subst tok r.
        assert (pre = map Literal a) as ->.
        { destruct Hp as (a' & Ha' & ->). rewrite (leads_fun _ _ _ Ha' _ Ha). reflexivity. }
        apply (behind_drops A p q L (Literal l) rest (map Literal a) (Literal k) (t :: restq) (map Literal b)
                 (map Literal more ++ rest) HL HA H2 Ep (ex_intro _ a (conj Ha eq_refl)) Eq_
                 (ex_intro _ b (conj Hb eq_refl))).
        -- discriminate.
        -- rewrite Em, map_app, <- app_assoc. reflexivity.
        -- destruct more; [congruence|discriminate].
Qed.

Theorem vat_adds ps loc x :
  Forall apart_literals ps ->
  (vat (s_adds ps) loc = Some x <->
   exists A p, survives ps A p /\ place A p loc /\ x = stripped p).
Proof.
  intros HA. split.
  - revert loc x. induction ps as [|q ps IH] using rev_ind; intros loc x H.
    { rewrite vat_empty in H. discriminate. }
    apply Forall_app in HA. destruct HA as (HA & HQ). inversion HQ as [|? ? HQ1 _]; subst.
    rewrite s_adds_snoc in H. pose proof (s_adds_lgood ps) as HL.
    destruct (pat_tokens q) as [|tokq restq] eqn:Eq_.
    + unfold s_add in H. rewrite Eq_ in H. simpl in H. destruct (IH HA loc x H) as (A & p & (B & -> & Np & HB) & H2 & H3).
      exists A, p. split; [|auto]. exists (B ++ [q]). split; [rewrite <- app_assoc; reflexivity|]. split; [exact Np|].
      intros q' Hq'. apply in_app_or in Hq'. destruct Hq' as [Hq'|[<-|[]]]; [auto|].
      intros [(N & _)|(t & r & E & _)]; congruence.
    + destruct (leads_token_total (s_adds ps) tokq HL) as (preq & Hpq).
      rewrite (s_add_tokens _ q tokq restq Eq_), (vat_insert _ tokq restq preq _ _ Hpq HL) in H.
      apply changed_some in H. destruct H as [(-> & ->)|(N & H & Hn)].
      * exists ps, q. split; [|split; [|reflexivity]].
        -- exists []. split; [reflexivity|]. split; [congruence|]. intros q' [].
        -- exists tokq, restq, preq. auto.
      * destruct (IH HA loc x H) as (A & p & (B & -> & Np & HB) & (tok & rest & pre & Ep & Hp & ->) & H3).
        exists A, p. split; [|split; [exists tok, rest, pre; auto|exact H3]].
        exists (B ++ [q]). split; [rewrite <- app_assoc; reflexivity|]. split; [exact Np|].
        intros q' Hq'. apply in_app_or in Hq'. destruct Hq' as [Hq'|[<-|[]]]; [auto|].
        apply Forall_app in HA. destruct HA as (_ & HA). inversion HA as [|? ? HP HBa]; subst.
        destruct (survivor_there A p tok rest pre HP Ep Hp B HBa HB) as (_ & Hs).
        pose proof (seated_leads A p _ tok rest pre HL Hs Ep Hp) as Hp'.
        intros [(_ & E)|(t & r & E & Nr & Hd)].
        -- rewrite Ep, Eq_ in E. inversion E; subst. apply N. rewrite (leads_token_fun _ _ _ _ Hpq Hp'). reflexivity.
        -- rewrite Eq_ in E. inversion E; subst t r. destruct Hd as [(rest' & E' & Nr')|(l & rest' & k & E' & -> & Hg)].
           ++ rewrite Ep in E'. inversion E'; subst. apply Nr. apply (Hn rest'); [|exact Nr'].
              rewrite (leads_token_fun _ _ _ _ Hpq Hp'). reflexivity.
           ++ rewrite Ep in E'. inversion E'; subst tok rest'. destruct Hp as (a & Ha & ->).
              apply (behind_leads A l k a Ha) in Hg. destruct Hg as (a' & more & -> & Na & Nm & ->).
              pose proof (seat_prefix _ l _ (Hs l rest _ Ep Ha) HL a' more eq_refl Na Nm) as Hk.
              destruct Hpq as (b & Hb & ->). rewrite (leads_fun _ _ _ Hb _ Hk) in *.
              apply Nr. apply (Hn (map Literal more ++ rest)); [rewrite map_app, <- app_assoc; reflexivity|].
              destruct more; [congruence|discriminate].
  - intros (A & p & (B & -> & Np & HB) & (tok & rest & pre & Ep & Hp & ->) & ->).
    apply Forall_app in HA. destruct HA as (_ & HA). inversion HA as [|? ? HP HBa]; subst.
    exact (proj1 (survivor_there A p tok rest pre HP Ep Hp B HBa HB)).
Qed.

Theorem stored_adds ps path x :
  Forall apart_literals ps ->
  (stored (s_adds ps) path x <->
   exists A p, survives ps A p /\ path = flat (pat_tokens p) /\ x = stripped p).
Proof.
  intros HA. rewrite (stored_vat _ (s_adds_lgood ps)). split.
  - intros (loc & H & ->). apply vat_adds in H; [|exact HA]. destruct H as (A & p & Hs & (tok & rest & pre & Ep & Hp & ->) & Hx).
    exists A, p. split; [exact Hs|]. split; [|exact Hx]. rewrite Ep.
    exact (place_flat _ tok rest pre (s_adds_lgood A) Hp).
  - intros (A & p & Hs & -> & ->). pose proof Hs as (B & _ & Np & _).
    destruct (pat_tokens p) as [|tok rest] eqn:Ep; [congruence|].
    destruct (leads_token_total (s_adds A) tok (s_adds_lgood A)) as (pre & Hp). exists (pre ++ rest). split.
    + apply vat_adds; [exact HA|]. exists A, p. split; [exact Hs|]. split; [|reflexivity]. exists tok, rest, pre. auto.
    + symmetry. exact (place_flat _ tok rest pre (s_adds_lgood A) Hp).
Qed.
