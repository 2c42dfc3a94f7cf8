(** * What the abstract matcher of TrieSpec.v does *)
From Coq Require Import Sorted.
From Verif Require Import Base Base_facts Utils Utils_facts Parsers Parsers_facts Pattern Spec
  Hash_facts TrieSpec TrieSpec_facts.

(** ** Captures *)
Lemma capture_sound q text v : capture q text = Some v -> captures q text v.
Proof.
  assert (forall s, set_parse s text = Ret (Some v) ->
    set_captures (sp_character_set s) (sp_min_length s) (sp_max_length s) text v) as HS.
  { intros s H. unfold set_parse in H.
    destruct (cml_longest (sp_character_set s) text) as (w & r & E & L & F & Hr).
    rewrite L in H. destruct (is_match_length_ok s (length w)) eqn:Ok; [|discriminate].
    apply is_match_length_ok_spec in Ok. destruct Ok as (Ok1 & Ok2 & Ok3).
    unbind H as v' Ev. inversion H; subst v'. apply slice_to_ret in Ev.
    assert (v = w) as ->.
    { destruct Ev as (b & E2 & E3 & _). rewrite E in E2. symmetry in E2.
      apply app_inj_len in E2; [|exact E3]. apply E2. }
    split; [|split; [|split]]; auto.
    - apply longest_prefix_in_iff. eauto.
    - intros ->. simpl in Ok1. lia. }
  unfold capture. destruct q as [s|s|g]; simpl.
  - specialize (HS s). destruct (set_parse s text) as [o| |]; try discriminate. intros ->. auto.
  - specialize (HS s). destruct (set_parse s text) as [o| |]; try discriminate. intros ->. auto.
  - unfold greedy_captures, greedy_parse. destruct (gp_end_string g) as [e|].
    + destruct (str_find e text) as [i|] eqn:E; [|discriminate].
      destruct (slice_to text i) as [v'| |] eqn:Ev; simpl; try discriminate.
      intros H. inversion H; subst v'. apply slice_to_ret in Ev. destruct Ev as (b & E2 & E3 & _).
      destruct (str_find_before_first e text i E) as (HB & HL).
      assert (firstn i text = v) as <-; [|exact HB].
      rewrite E2, firstn_app, <- E3, Nat.sub_diag, firstn_all. simpl. apply app_nil_r.
    + congruence.
Qed.

Lemma captures_ascii_utf8 q text v :
  utf8 text -> parser_utf8 q -> parser_ascii_set q -> captures q text v -> utf8 v.
Proof.
  intros Hu Hq Ha Hc. destruct (parser_parse_total q text Hu Hq Ha) as ([w|] & E).
  - apply parser_parse_some in E; auto. destruct E as (C & U).
    rewrite (captures_unique q text v w Hc C). exact U.
  - apply (parser_parse_none q text Hu Hq) with (w := v) in E. contradiction.
Qed.

Lemma capture_complete q text v :
  utf8 text -> parser_utf8 q -> utf8 v -> captures q text v -> capture q text = Some v.
Proof.
  intros Hu Hq Hv Hc. unfold capture.
  assert (parser_parse q text = Ret (Some v)) as -> by (apply parser_parse_some; auto). reflexivity.
Qed.

Lemma capture_prefix q text v : capture q text = Some v -> text = v ++ skipn (length v) text.
Proof.
  intros H. apply capture_sound, captures_prefix in H. destruct H as (r & ->).
  rewrite skipn_app, skipn_all, Nat.sub_diag. reflexivity.
Qed.

(** ** Paths *)
Inductive fwalk : list step -> str -> list (parser * str) -> Prop :=
| fw_nil : fwalk [] [] []
| fw_byte b path text caps : fwalk path text caps -> fwalk (inl b :: path) (b :: text) caps
| fw_parser q path v text caps :
    captures q (v ++ text) v -> fwalk path text caps ->
    fwalk (inr q :: path) (v ++ text) ((q, v) :: caps).

Lemma fwalk_literal l path text caps :
  fwalk path text caps -> fwalk (map inl l ++ path) (l ++ text) caps.
Proof. intros H. induction l; simpl; [exact H|]. constructor. exact IHl. Qed.

Lemma fwalk_literal_inv l path text caps :
  fwalk (map inl l ++ path) text caps -> exists text', text = l ++ text' /\ fwalk path text' caps.
Proof.
  revert text. induction l as [|b l IH]; simpl; intros text H; [eauto|].
  inversion H as [|? ? ? ? Hf|]; subst. destruct (IH _ Hf) as (t' & -> & H'). eauto.
Qed.

Lemma fwalk_walk toks text caps : fwalk (flat toks) text caps <-> walk toks text caps.
Proof.
  split.
  - revert text caps. induction toks as [|[q|l] toks IH]; simpl; intros text caps H.
    + inversion H; subst. constructor.
    + inversion H; subst. constructor; auto.
    + apply fwalk_literal_inv in H. destruct H as (t' & -> & H). constructor. auto.
  - induction 1; simpl.
    + constructor.
    + apply fwalk_literal. exact IHwalk.
    + constructor; assumption.
Qed.

(** ** Stored patterns *)
Inductive stored : level -> list step -> pattern -> Prop :=
| st_literal k e K P path q :
    In (k, e) K -> estored e path q -> stored (Level K P) (map inl k ++ path) q
| st_parser x e K P path q :
    In (x, e) P -> estored e path q -> stored (Level K P) (inr x :: path) q
with estored : entry -> list step -> pattern -> Prop :=
| es_here q co : estored (Some q, co) [] q
| es_down po c path q : stored c path q -> estored (po, Some c) path q.

Section LevelInd.
  Variable Q : level -> Prop.
  Hypothesis HQ : forall K P,
    (forall k po c, In (k, (po, Some c)) K -> Q c) ->
    (forall x po c, In (x, (po, Some c)) P -> Q c) -> Q (Level K P).

  Fixpoint level_nested_ind (L : level) : Q L.
  Proof.
    destruct L as [K P]. apply HQ.
    - induction K as [|(k0, (po0, [c0|])) K IH]; intros k po c H.
      + destruct H.
      + pose proof (level_nested_ind c0) as Q0. destruct H as [H|H]; [|apply (IH k po c H)].
        assert (c0 = c) as <- by congruence. exact Q0.
      + destruct H as [H|H]; [discriminate H|apply (IH k po c H)].
    - induction P as [|(k0, (po0, [c0|])) P IH]; intros k po c H.
      + destruct H.
      + pose proof (level_nested_ind c0) as Q0. destruct H as [H|H]; [|apply (IH k po c H)].
        assert (c0 = c) as <- by congruence. exact Q0.
      + destruct H as [H|H]; [discriminate H|apply (IH k po c H)].
  Defined.
End LevelInd.

Lemma stored_empty path q : ~ stored level_empty path q.
Proof. intros H. inversion H; subst; contradiction. Qed.

(** ** A match follows the path of a stored pattern *)
Lemma reports_nil : reports [] [].
Proof.
  split; [|constructor]. intros key v. split; intros H; inversion H.
Qed.

(** The values of a match result form a sorted map. *)
Definition good_values (caps : list (parser * str)) (m : bmap) : Prop :=
  bmap_sorted m /\ forall key v, maps_to m key v <-> named caps key v.

Lemma sorted_nodup m : bmap_sorted m -> NoDup (map fst m).
Proof.
  unfold bmap_sorted. induction 1 as [|(k, v) m HS IH HF]; simpl; [constructor|].
  constructor; [|exact IH]. intros H. apply in_map_iff in H. destruct H as ((k', v') & E & H).
  simpl in E. subst k'. rewrite Forall_forall in HF. specialize (HF _ H). simpl in HF.
  unfold str_lt in HF. rewrite str_cmp_refl in HF. discriminate.
Qed.

Lemma good_reports caps m : good_values caps m -> reports caps m.
Proof. intros (HS & H). split; [exact H|apply sorted_nodup; exact HS]. Qed.

Lemma good_nil : good_values [] [].
Proof. split; [constructor|apply reports_nil]. Qed.

Lemma good_insert caps r x v :
  good_values caps (mr_values r) -> good_values ((x, v) :: caps) (mr_values (match_result_insert r (x, v))).
Proof.
  intros (HS & H). unfold match_result_insert. simpl. change (parser_name x) with (name_of x). destruct (name_of x) as [name|] eqn:En; simpl.
  - split; [apply bmap_insert_sorted; exact HS|]. intros key v'. unfold maps_to.
    rewrite <- (bmap_get_in _ _ _ (bmap_insert_sorted name v _ HS)), bmap_get_insert by exact HS.
    destruct (str_eqb key name) eqn:E.
    + apply str_eqb_eq in E. subst name. split.
      * intros E. inversion E; subst. constructor. exact En.
      * intros N. inversion N; subst; congruence.
    + apply str_eqb_neq in E. rewrite (bmap_get_in _ _ _ HS). fold (maps_to (mr_values r) key v').
      rewrite H. split.
      * intros N. constructor; [congruence|exact N].
      * intros N. inversion N; subst; [congruence|assumption].
  - split; [exact HS|]. intros key v'. rewrite H. split.
    + intros N. constructor; [congruence|exact N].
    + intros N. inversion N; subst; [congruence|assumption].
Qed.

Lemma match_result_insert_pattern r kv : mr_pattern (match_result_insert r kv) = mr_pattern r.
Proof. unfold match_result_insert. destruct (parser_name (fst kv)); reflexivity. Qed.

Definition justified (S : list step -> pattern -> Prop) (text : str) (r : match_result) : Prop :=
  exists path caps, S path (mr_pattern r) /\ fwalk path text caps /\ good_values caps (mr_values r).

Lemma try_literals_some K ks text r :
  try_literals s_parse ks K text = Some r ->
  exists k po c, In (k, (po, Some c)) K /\ routes ks k text = true /\
    r = s_parse c (skipn (length k) text).
Proof.
  induction K as [|(k, (po, [c|])) K IH]; cbn [try_literals]; intros H; [discriminate| |].
  - destruct (routes ks k text) eqn:R.
    + inversion H; subst. exists k, po, c. split; [left; reflexivity|]. auto.
    + destruct (IH H) as (k' & po' & c' & Hi & Hr & E). exists k', po', c'. split; [right; exact Hi|]. auto.
  - destruct (IH H) as (k' & po' & c' & Hi & Hr & E). exists k', po', c'. split; [right; exact Hi|]. auto.
Qed.

Lemma lookup_in {A} k (K : list (str * A)) e : lookup k K = Some e -> In (k, e) K.
Proof.
  induction K as [|(k', e') K IH]; simpl; intros H; [discriminate|].
  destruct (str_eqb k k') eqn:E; [|auto]. apply str_eqb_eq in E. left. congruence.
Qed.

Lemma routes_skipn ks k text :
  routes ks k text = true -> text = k ++ skipn (length k) text.
Proof.
  intros H. apply routes_spec in H. destruct H as (_ & (r & -> & _) & _).
  rewrite skipn_app, skipn_all, Nat.sub_diag. reflexivity.
Qed.

Lemma s_parse_stored L : forall text r,
  s_parse L text = Some r -> justified (stored L) text r.
Proof.
  induction L as [K P IHK IHP] using level_nested_ind; intros text r H.
  rewrite s_parse_unfold in H.
  destruct (try_literals s_parse (keys K) K text) as [o|] eqn:Et.
  { subst o. apply try_literals_some in Et. destruct Et as (k & po & c & Hin & R & Er).
    symmetry in Er. apply (IHK k po c Hin) in Er. destruct Er as (path & caps & Hs & Hw & Hv).
    exists (map inl k ++ path), caps. split; [|split; [|exact Hv]].
    - apply (st_literal k (po, Some c)); [exact Hin|]. constructor. exact Hs.
    - rewrite (routes_skipn _ _ _ R). apply fwalk_literal. exact Hw. }
  destruct (lookup text K) as [(po, co)|] eqn:El.
  { apply lookup_in in El. destruct po as [p|]; [|discriminate]. simpl in H. inversion H; subst r.
    exists (map inl text ++ []), []. split; [|split; [|apply good_nil]].
    - apply (st_literal text (Some p, co)); [exact El|]. constructor.
    - rewrite <- (app_nil_r text) at 2. apply fwalk_literal. constructor. }
  destruct (blocked (keys K) text); [discriminate|]. clear Et El.
  assert (exists x e, In (x, e) P /\ try_parser s_parse x e text = Some r) as (x & e & Hin & Ht).
  { clear IHP. induction P as [|(x, e) P IH]; cbn [try_parsers] in H; [discriminate|].
    destruct (try_parser s_parse x e text) as [r'|] eqn:E.
    - exists x, e. split; [left; reflexivity|congruence].
    - destruct (IH H) as (x' & e' & Hi & Ht). exists x', e'. split; [right; exact Hi|exact Ht]. }
  unfold try_parser in Ht. destruct (capture x text) as [v|] eqn:Ec; [|discriminate].
  pose proof (capture_prefix _ _ _ Ec) as Ep. apply capture_sound in Ec.
  set (rest := skipn (length v) text) in *. clearbody rest. subst text.
  destruct e as (po, [c|]); simpl in Ht.
  - destruct (s_parse c rest) as [r'|] eqn:Es; [|discriminate]. simpl in Ht. inversion Ht; subst r.
    apply (IHP x po c Hin) in Es. destruct Es as (path & caps & Hs & Hw & Hv).
    exists (inr x :: path), ((x, v) :: caps). rewrite match_result_insert_pattern.
    split; [|split].
    + apply (st_parser x (po, Some c)); [exact Hin|]. constructor. exact Hs.
    + constructor; assumption.
    + apply good_insert. exact Hv.
  - destruct rest as [|b rest]; [|discriminate]. destruct po as [p|]; [|discriminate].
    simpl in Ht. inversion Ht; subst r.
    exists [inr x], [(x, v)]. rewrite match_result_insert_pattern. simpl mr_pattern.
    split; [|split].
    + apply (st_parser x (Some p, None)); [exact Hin|]. constructor.
    + constructor; [exact Ec|constructor].
    + apply good_insert. apply good_nil.
Qed.

(** ** Levels without empty literals *)
Inductive solid : level -> Prop :=
| solid_level K P :
    (forall k e, In (k, e) K -> k <> []) ->
    (forall k po c, In (k, (po, Some c)) K -> solid c) ->
    (forall x po c, In (x, (po, Some c)) P -> solid c) -> solid (Level K P).
Definition esolid (e : entry) : Prop := forall c, snd e = Some c -> solid c.

Lemma solid_empty : solid level_empty.
Proof. constructor; intros; contradiction. Qed.

Lemma esolid_none po : esolid (po, None).
Proof. intros c H. discriminate. Qed.

Lemma solid_stored L path q : solid L -> stored L path q -> path <> [].
Proof.
  intros S H. destruct H as [k e K P path q Hi _|]; [|discriminate].
  inversion S as [? ? H1 _ _]; subst. specialize (H1 k e Hi). destruct k; [congruence|discriminate].
Qed.

(** ** Adding a pattern *)

(** [L'] is [L] with the entry [e] at the end of path [here] replaced by [e']. *)
Definition updates (L L' : level) (here : list step) (e e' : entry) : Prop :=
  (forall path q, estored e' path q -> stored L' (here ++ path) q) /\
  (forall path q, stored L' path q ->
     stored L path q \/ exists more, path = here ++ more /\ estored e' more q) /\
  (forall path q, estored e path q -> stored L (here ++ path) q) /\
  (forall path q, stored L path q ->
     stored L' path q \/ exists more, path = here ++ more /\ estored e more q) /\
  (solid L -> esolid e /\ (here <> [] -> esolid e' -> solid L')).

Lemma estored_none path q : ~ estored (None, None) path q.
Proof. intros H. inversion H. Qed.

Lemma stored_lits K P K' path q :
  stored (Level K P) path q ->
  (forall k e, In (k, e) K -> In (k, e) K') -> stored (Level K' P) path q.
Proof.
  intros H HK. inversion H; subst.
  - eapply st_literal; [apply HK; eassumption|assumption].
  - eapply st_parser; eassumption.
Qed.

Lemma upsert_split l f K :
  exists A C, (upsert l f K = A ++ (l, f (None, None)) :: C /\ K = A ++ C) \/
    (exists e, upsert l f K = A ++ (l, f e) :: C /\ K = A ++ (l, e) :: C).
Proof.
  induction K as [|(k, e) K IH]; simpl.
  - exists [], []. left. auto.
  - destruct (str_cmp l k) eqn:E.
    + apply str_cmp_eq in E. subst k. exists [], K. right. exists e. auto.
    + exists [], ((k, e) :: K). left. auto.
    + destruct IH as (A & C & [(E1 & E2)|(e0 & E1 & E2)]); exists ((k, e) :: A), C.
      * left. rewrite E1, E2. auto.
      * right. exists e0. rewrite E1, E2. auto.
Qed.

Lemma updates_here K P A C k e e' :
  K = A ++ (k, e) :: C -> updates (Level K P) (Level (A ++ (k, e') :: C) P) (map inl k) e e'.
Proof.
  intros ->. split; [|split; [|split; [|split]]].
  - intros path q H. apply (st_literal k e'); [apply in_elt|exact H].
  - intros path q H. inversion H as [? ? ? ? ? ? H5 H6|? ? ? ? ? ? H5 H6]; subst.
    + apply in_app_or in H5. destruct H5 as [H5|[H5|H5]].
      * left. eapply st_literal; [apply in_or_app; left; exact H5|assumption].
      * inversion H5; subst. right. eauto.
      * left. eapply st_literal; [apply in_or_app; right; right; exact H5|assumption].
    + left. eapply st_parser; eassumption.
  - intros path q H. apply (st_literal k e); [apply in_elt|exact H].
  - intros path q H. inversion H as [? ? ? ? ? ? H5 H6|? ? ? ? ? ? H5 H6]; subst.
    + apply in_app_or in H5. destruct H5 as [H5|[H5|H5]].
      * left. eapply st_literal; [apply in_or_app; left; exact H5|assumption].
      * inversion H5; subst. right. eauto.
      * left. eapply st_literal; [apply in_or_app; right; right; exact H5|assumption].
    + left. eapply st_parser; eassumption.
  - intros S. inversion S as [? ? H1 H2 H3]; subst. split.
    + intros c Hc. destruct e as (po, co). simpl in Hc. subst co. apply (H2 k po c). apply in_elt.
    + intros Hk Se. constructor.
      * intros k0 e0 Hi. apply in_elt_inv in Hi. destruct Hi as [Hi|Hi].
        -- inversion Hi; subst. intros ->. apply Hk. reflexivity.
        -- apply (H1 k0 e0). apply in_app_or in Hi. apply in_or_app. destruct Hi; [auto|right; right; assumption].
      * intros k0 po c Hi. apply in_elt_inv in Hi. destruct Hi as [Hi|Hi].
        -- inversion Hi; subst. apply Se. reflexivity.
        -- apply (H2 k0 po c). apply in_app_or in Hi. apply in_or_app. destruct Hi; [auto|right; right; assumption].
      * exact H3.
Qed.

Lemma updates_new A C P k e' :
  updates (Level (A ++ C) P) (Level (A ++ (k, e') :: C) P) (map inl k) (None, None) e'.
Proof.
  split; [|split; [|split; [|split]]].
  - intros path q H. apply (st_literal k e'); [apply in_elt|exact H].
  - intros path q H. inversion H as [? ? ? ? ? ? H5 H6|? ? ? ? ? ? H5 H6]; subst.
    + apply in_elt_inv in H5. destruct H5 as [H5|H5].
      * inversion H5; subst. right. eauto.
      * left. eapply st_literal; eassumption.
    + left. eapply st_parser; eassumption.
  - intros path q H. destruct (estored_none _ _ H).
  - intros path q H. left. apply (stored_lits (A ++ C)); [exact H|].
    intros k0 e0 Hi. apply in_app_or in Hi. apply in_or_app. destruct Hi; [auto|right; right; assumption].
  - intros S. inversion S as [? ? H1 H2 H3]; subst. split; [apply esolid_none|].
    intros Hk Se. constructor.
    + intros k0 e0 Hi. apply in_elt_inv in Hi. destruct Hi as [Hi|Hi].
      * inversion Hi; subst. intros ->. apply Hk. reflexivity.
      * apply (H1 k0 e0 Hi).
    + intros k0 po c Hi. apply in_elt_inv in Hi. destruct Hi as [Hi|Hi].
      * inversion Hi; subst. apply Se. reflexivity.
      * apply (H2 k0 po c Hi).
    + exact H3.
Qed.

(** Going down one entry. *)
Lemma updates_down K P A C k po c c' here e e' :
  K = A ++ (k, (po, Some c)) :: C -> k <> [] -> here <> [] -> updates c c' here e e' ->
  updates (Level K P) (Level (A ++ (k, (po, Some c')) :: C) P) (map inl k ++ here) e e'.
Proof.
  intros EK Nk Nh (U1 & U2 & U3 & U4 & U5).
  destruct (updates_here K P A C k (po, Some c) (po, Some c') EK) as (V1 & V2 & V3 & V4 & V5).
  split; [|split; [|split; [|split]]].
  - intros path q H. rewrite <- app_assoc. apply V1. constructor. apply U1. exact H.
  - intros path q H. apply V2 in H. destruct H as [H|(more & -> & H)]; [left; exact H|].
    inversion H as [|? ? ? ? H3]; subst.
    + left. apply V3. constructor.
    + apply U2 in H3. destruct H3 as [H3|(more' & -> & H3)].
      * left. apply V3. constructor. exact H3.
      * right. exists more'. rewrite app_assoc. auto.
  - intros path q H. rewrite <- app_assoc. apply V3. constructor. apply U3. exact H.
  - intros path q H. apply V4 in H. destruct H as [H|(more & -> & H)]; [left; exact H|].
    inversion H as [|? ? ? ? H3]; subst.
    + left. apply V1. constructor.
    + apply U4 in H3. destruct H3 as [H3|(more' & -> & H3)].
      * left. apply V1. constructor. exact H3.
      * right. exists more'. rewrite app_assoc. auto.
  - intros S. apply V5 in S. destruct S as (S1 & S2). specialize (S1 c eq_refl).
    apply U5 in S1. destruct S1 as (S3 & S4). split; [exact S3|]. intros _ Se. apply S2.
    + destruct k; [congruence|discriminate].
    + intros c0 E0. simpl in E0. inversion E0; subst. apply S4; assumption.
Qed.

Lemma enter_literals_some ks K l f K' :
  enter_literals enter ks K l f = Some K' ->
  exists A k po c C, K = A ++ (k, (po, Some c)) :: C /\ routes ks k l = true /\
    K' = A ++ (k, (po, Some (enter c (skipn (length k) l) f))) :: C.
Proof.
  revert K'. induction K as [|(k, (po, [c|])) K IH]; cbn [enter_literals]; intros K' H; [discriminate| |].
  - destruct (routes ks k l) eqn:R.
    + inversion H; subst. exists [], k, po, c, K. auto.
    + destruct (enter_literals enter ks K l f) as [K1|]; [|discriminate]. inversion H; subst.
      destruct (IH K1 eq_refl) as (A & k' & po' & c' & C & -> & R' & ->).
      exists ((k, (po, Some c)) :: A), k', po', c', C. auto.
  - destruct (enter_literals enter ks K l f) as [K1|]; [|discriminate]. inversion H; subst.
    destruct (IH K1 eq_refl) as (A & k' & po' & c' & C & -> & R' & ->).
    exists ((k, (po, None)) :: A), k', po', c', C. auto.
Qed.

Lemma enter_updates L : forall l f,
  exists e, updates L (enter L l f) (map inl l) e (f e).
Proof.
  induction L as [K P IHK _] using level_nested_ind; intros l f. rewrite enter_unfold.
  destruct (enter_literals enter (keys K) K l f) as [K'|] eqn:E.
  - apply enter_literals_some in E. destruct E as (A & k & po & c & C & -> & R & ->).
    destruct (IHK k po c (in_elt _ _ _) (skipn (length k) l) f) as (e & U). exists e.
    rewrite (routes_skipn _ _ _ R) at 2. rewrite map_app.
    apply routes_spec in R. destruct R as (Nk & (r & -> & Nr) & _).
    rewrite skipn_app, skipn_all, Nat.sub_diag in *. simpl in *.
    apply (updates_down _ P A C k po c); [reflexivity|exact Nk| |exact U].
    destruct r; [congruence|discriminate].
  - destruct (upsert_split l f K) as (A & C & [(-> & ->)|(e & -> & E2)]).
    + exists (None, None). apply updates_new.
    + exists e. apply updates_here. exact E2.
Qed.

Lemma at_parser_split P x f :
  exists A C, (at_parser P x f = A ++ (x, f (None, None)) :: C /\ P = A ++ C) \/
    (exists e, at_parser P x f = A ++ (x, f e) :: C /\ P = A ++ (x, e) :: C).
Proof.
  induction P as [|(k, e) P IH]; simpl.
  - exists [], []. left. auto.
  - destruct (parser_eq_dec k x) as [->|Hn].
    + exists [], P. right. exists e. auto.
    + destruct IH as (A & C & [(E1 & E2)|(e0 & E1 & E2)]); exists ((k, e) :: A), C.
      * left. rewrite E1, E2. auto.
      * right. exists e0. rewrite E1, E2. auto.
Qed.

Lemma at_parser_updates K P x f :
  exists e, updates (Level K P) (Level K (at_parser P x f)) [inr x] e (f e).
Proof.
  destruct (at_parser_split P x f) as (A & C & [(-> & ->)|(e & -> & E2)]).
  - exists (None, None). split; [|split; [|split; [|split]]].
    + intros path q H. eapply st_parser; [apply in_elt|exact H].
    + intros path q H. inversion H as [? ? ? ? ? ? H5 H6|? ? ? ? ? ? H5 H6]; subst.
      * left. eapply st_literal; eassumption.
      * apply in_elt_inv in H5. destruct H5 as [H5|H5].
        -- inversion H5; subst. right. eexists. split; [reflexivity|eassumption].
        -- left. eapply st_parser; eassumption.
    + intros path q H. destruct (estored_none _ _ H).
    + intros path q H. left. inversion H as [? ? ? ? ? ? H5 H6|? ? ? ? ? ? H5 H6]; subst.
      * eapply st_literal; eassumption.
      * eapply st_parser; [|eassumption]. apply in_app_or in H5. apply in_or_app.
        destruct H5; [auto|right; right; assumption].
    + intros S. inversion S as [? ? H1 H2 H3]; subst. split; [apply esolid_none|].
      intros _ Se. constructor; [exact H1|exact H2|].
      intros x0 po c Hi. apply in_elt_inv in Hi. destruct Hi as [Hi|Hi].
      * inversion Hi as [[E1 E3]]. apply Se. rewrite <- E3. reflexivity.
      * apply (H3 x0 po c Hi).
  - exists e. subst P. split; [|split; [|split; [|split]]].
    + intros path q H. eapply st_parser; [apply in_elt|exact H].
    + intros path q H. inversion H as [? ? ? ? ? ? H5 H6|? ? ? ? ? ? H5 H6]; subst.
      * left. eapply st_literal; eassumption.
      * apply in_app_or in H5. destruct H5 as [H5|[H5|H5]].
        -- left. eapply st_parser; [apply in_or_app; left; exact H5|assumption].
        -- inversion H5; subst. right. eexists. split; [reflexivity|eassumption].
        -- left. eapply st_parser; [apply in_or_app; right; right; exact H5|assumption].
    + intros path q H. eapply st_parser; [apply in_elt|exact H].
    + intros path q H. inversion H as [? ? ? ? ? ? H5 H6|? ? ? ? ? ? H5 H6]; subst.
      * left. eapply st_literal; eassumption.
      * apply in_app_or in H5. destruct H5 as [H5|[H5|H5]].
        -- left. eapply st_parser; [apply in_or_app; left; exact H5|assumption].
        -- inversion H5; subst. right. eexists. split; [reflexivity|eassumption].
        -- left. eapply st_parser; [apply in_or_app; right; right; exact H5|assumption].
    + intros S. inversion S as [? ? H1 H2 H3]; subst. split.
      * intros c Hc. destruct e as (po, co). simpl in Hc. subst co. apply (H3 x po c). apply in_elt.
      * intros _ Se. constructor; [exact H1|exact H2|].
        intros x0 po c Hi. apply in_elt_inv in Hi. destruct Hi as [Hi|Hi].
        -- inversion Hi as [[E1 E3]]. apply Se. rewrite <- E3. reflexivity.
        -- apply (H3 x0 po c). apply in_app_or in Hi. apply in_or_app. destruct Hi; [auto|right; right; assumption].
Qed.

(** The entry of the first token after the insertion. *)
Definition put (rest : list token) (p : pattern) (e : entry) : entry :=
  if is_empty rest then (Some p, snd e) else (fst e, Some (s_insert rest level_empty p)).

Lemma s_insert_updates tok rest L p :
  exists e, updates L (s_insert (tok :: rest) L p) (flat_token tok) e (put rest p e).
Proof.
  destruct tok as [x|l]; simpl.
  - destruct L as [K P]. apply (at_parser_updates K P x (put rest p)).
  - apply (enter_updates L l (put rest p)).
Qed.

Lemma s_insert_only toks : forall L p path q,
  stored (s_insert toks L p) path q -> (q = p /\ path = flat toks) \/ stored L path q.
Proof.
  induction toks as [|tok rest IH]; intros L p path q H; [right; exact H|].
  destruct (s_insert_updates tok rest L p) as (e & _ & U2 & U3 & _ & _).
  apply U2 in H. destruct H as [H|(more & -> & H)]; [right; exact H|].
  unfold put in H. destruct (is_empty rest) eqn:Er.
  - destruct rest; [|discriminate]. inversion H as [|? ? ? ? H3]; subst.
    + left. simpl. auto.
    + right. apply U3. destruct e as (po, co). simpl in *. subst co. constructor. assumption.
  - inversion H as [|? ? ? ? H3]; subst.
    + right. apply U3. destruct e as (po, co). simpl in *. subst po. constructor.
    + apply IH in H3. destruct H3 as [(-> & ->)|H3]; [left; auto|].
      destruct (stored_empty _ _ H3).
Qed.

Lemma s_insert_new toks : forall L p,
  toks <> [] -> stored (s_insert toks L p) (flat toks) p.
Proof.
  induction toks as [|tok rest IH]; intros L p H; [congruence|].
  destruct (s_insert_updates tok rest L p) as (e & U1 & _).
  change (flat (tok :: rest)) with (flat_token tok ++ flat rest). apply U1.
  unfold put. destruct rest as [|t2 rest]; cbn [is_empty].
  - constructor.
  - constructor. apply IH. discriminate.
Qed.

Lemma s_insert_keeps tok rest L p path q :
  solid L -> stored L path q ->
  stored (s_insert (tok :: rest) L p) path q \/ path = flat (tok :: rest) \/
  (rest <> [] /\ exists more, more <> [] /\ path = flat_token tok ++ more).
Proof.
  intros S H. destruct (s_insert_updates tok rest L p) as (e & U1 & _ & _ & U4 & U5).
  apply U4 in H. destruct H as [H|(more & -> & H)]; [left; exact H|].
  unfold put in U1. destruct rest as [|t2 rest]; cbn [is_empty] in U1.
  - inversion H as [|? ? ? ? H3]; subst.
    + right. left. reflexivity.
    + left. apply U1. constructor. assumption.
  - inversion H as [|? ? ? ? H3]; subst.
    + left. apply U1. constructor.
    + right. right. split; [discriminate|]. exists more. split; [|reflexivity].
      apply U5 in S. destruct S as (S & _). apply (solid_stored c more q); [|exact H3].
      apply S. reflexivity.
Qed.

Lemma s_insert_solid toks : forall L p,
  (forall l, In (Literal l) toks -> l <> []) -> solid L -> solid (s_insert toks L p).
Proof.
  induction toks as [|tok rest IH]; intros L p Hl S; [exact S|].
  destruct (s_insert_updates tok rest L p) as (e & _ & _ & _ & _ & U5).
  destruct (U5 S) as (S1 & S2). apply S2.
  - destruct tok as [x|l]; simpl; [discriminate|].
    assert (l <> []) as Nl by (apply Hl; left; reflexivity). destruct l; [congruence|discriminate].
  - unfold put. destruct (is_empty rest); intros c E; simpl in E.
    + apply S1. exact E.
    + inversion E; subst. apply IH; [|apply solid_empty]. intros l Hi. apply Hl. right. exact Hi.
Qed.

Lemma s_adds_snoc ps p : s_adds (ps ++ [p]) = s_add (s_adds ps) p.
Proof. unfold s_adds. rewrite fold_left_app. reflexivity. Qed.

Lemma s_adds_solid ps : Forall nonempty_literals ps -> solid (s_adds ps).
Proof.
  induction ps as [|p ps IH] using rev_ind; intros H; [apply solid_empty|].
  apply Forall_app in H. destruct H as (H1 & H2). inversion H2; subst.
  rewrite s_adds_snoc. apply s_insert_solid; [assumption|apply IH; exact H1].
Qed.

Lemma s_adds_stored ps path q :
  stored (s_adds ps) path q -> exists p, In p ps /\ q = stripped p /\ path = flat (pat_tokens p).
Proof.
  induction ps as [|p ps IH] using rev_ind.
  - intros H. destruct (stored_empty _ _ H).
  - rewrite s_adds_snoc. intros H. apply s_insert_only in H. destruct H as [(-> & ->)|H].
    + exists p. split; [apply in_elt|]. auto.
    + destruct (IH H) as (p' & Hi & E). exists p'. split; [apply in_or_app; left; exact Hi|exact E].
Qed.

Lemma s_parse_sound ps text r :
  s_parse (s_adds ps) text = Some r ->
  exists p caps, In p ps /\ mr_pattern r = stripped p /\ walk (pat_tokens p) text caps /\
    reports caps (mr_values r).
Proof.
  intros H. apply s_parse_stored in H. destruct H as (path & caps & Hs & Hw & Hv).
  apply s_adds_stored in Hs. destruct Hs as (p & Hi & E & ->).
  exists p, caps. split; [exact Hi|]. split; [exact E|]. split; [apply fwalk_walk; exact Hw|].
  apply good_reports. exact Hv.
Qed.
