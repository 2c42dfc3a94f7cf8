(** * Renaming values *)
From Verif Require Import Base Base_facts Utils Utils_facts Parsers Parsers_facts Pattern Spec Spec_table TrieSpec TrieSpec_facts
  TrieSpec_props TableSpec Table_facts Table_content Spec_panics Spec_table_panics Trie_main Trie_panics Panics_claims Table_refine Table_claims Table_panics
  Spec_rename.
From Verif Require Trie SuffixArray.

(** A change of the parsers that matters to nothing but the names. *)
Definition alike (g : str -> str) (phi : parser -> parser) : Prop :=
  one_to_one g /\ (forall q q', phi q = phi q' -> q = q') /\
  (forall q text, parser_parse (phi q) text = parser_parse q text) /\
  (forall q v w, captures (phi q) v w <-> captures q v w) /\
  forall q, parser_name (phi q) = option_map g (parser_name q).

Section Map.
Variable g : str -> str.
Variable phi : parser -> parser.
Variable h : pattern -> pattern.
Hypothesis G : alike g phi.

Lemma rename_parse q text : parser_parse (phi q) text = parser_parse q text.
Proof. destruct G as (_ & _ & H & _). apply H. Qed.
Lemma rename_capture q text : capture (phi q) text = capture q text.
Proof. unfold capture. rewrite rename_parse. reflexivity. Qed.
Lemma rename_captures q v w : captures (phi q) v w <-> captures q v w.
Proof. destruct G as (_ & _ & _ & H & _). apply H. Qed.
Lemma rename_name q : parser_name (phi q) = option_map g (parser_name q).
Proof. destruct G as (_ & _ & _ & _ & H). apply H. Qed.
Lemma rename_one q q' : phi q = phi q' -> q = q'.
Proof. destruct G as (_ & H & _). apply H. Qed.
Lemma g_one x y : g x = g y -> x = y.
Proof. destruct G as (H & _). apply H. Qed.

(** ** Levels *)
Fixpoint lmap (L : level) : level :=
  match L with
  | Level K P =>
      Level (map (fun x => match x with (k, (po, co)) => (k, (option_map h po, match co with Some c => Some (lmap c) | None => None end)) end) K)
            (map (fun x => match x with (q, (po, co)) => (phi q, (option_map h po, match co with Some c => Some (lmap c) | None => None end)) end) P)
  end.
Definition emap (e : entry) : entry := (option_map h (fst e), option_map lmap (snd e)).
Definition kmap (K : list (str * entry)) : list (str * entry) := map (fun x => (fst x, emap (snd x))) K.
Definition pmap (P : list (parser * entry)) : list (parser * entry) := map (fun x => (phi (fst x), emap (snd x))) P.
Lemma lmap_unfold K P : lmap (Level K P) = Level (kmap K) (pmap P).
Proof.
  cbn [lmap]. f_equal; apply map_ext; intros (k & (po & [c|])); reflexivity.
Qed.
Lemma kmap_keys K : keys (kmap K) = keys K.
Proof. unfold keys, kmap. rewrite map_map. reflexivity. Qed.

Definition agree (f f' : entry -> entry) : Prop := forall e, emap (f e) = f' (emap e).

Lemma upsert_map k f f' K : agree f f' -> kmap (upsert k f K) = upsert k f' (kmap K).
Proof.
  intros A. induction K as [|(k0, e) K IH]; cbn [upsert kmap map fst snd].
  - rewrite A. reflexivity.
  - destruct (str_cmp k k0); cbn [kmap map fst snd]; [rewrite A; reflexivity|rewrite A; reflexivity|].
    f_equal. exact IH.
Qed.
Lemma at_parser_map q f f' P : agree f f' -> pmap (at_parser P q f) = at_parser (pmap P) (phi q) f'.
Proof.
  intros A. induction P as [|(q0, e) P IH]; cbn [at_parser pmap map fst snd].
  - rewrite A. reflexivity.
  - destruct (parser_eq_dec q0 q) as [->|N].
    + destruct (parser_eq_dec (phi q) (phi q)) as [_|N]; [|congruence].
      cbn [pmap map fst snd]. rewrite A. reflexivity.
    + destruct (parser_eq_dec (phi q0) (phi q)) as [E|_]; [destruct N; apply rename_one; exact E|].
      cbn [pmap map fst snd]. f_equal. exact IH.
Qed.

Lemma enter_literals_map ks todo l f f' :
  (forall k po c, In (k, (po, Some c)) todo -> forall l, lmap (enter c l f) = enter (lmap c) l f') ->
  option_map kmap (enter_literals enter ks todo l f) = enter_literals enter ks (kmap todo) l f'.
Proof.
  induction todo as [|(k, (po, [c|])) todo IH]; intros H; cbn [enter_literals kmap map fst snd emap option_map].
  - reflexivity.
  - assert (option_map kmap (enter_literals enter ks todo l f) = enter_literals enter ks (kmap todo) l f') as E.
    { apply IH. intros k' po' c' I. apply (H k' po' c'). right. exact I. }
    destruct (routes ks k l).
    + unfold kmap, emap. cbn [option_map map fst snd]. rewrite (H k po c (or_introl eq_refl)). reflexivity.
    + fold (kmap todo). rewrite <- E. destruct (enter_literals enter ks todo l f); reflexivity.
  - assert (option_map kmap (enter_literals enter ks todo l f) = enter_literals enter ks (kmap todo) l f') as E.
    { apply IH. intros k' po' c' I. apply (H k' po' c'). right. exact I. }
    fold (kmap todo). rewrite <- E. destruct (enter_literals enter ks todo l f); reflexivity.
Qed.

Lemma enter_map L : forall l f f', agree f f' -> lmap (enter L l f) = enter (lmap L) l f'.
Proof.
  induction L as [K P IHK _] using level_nested_ind. intros l f f' A.
  rewrite lmap_unfold, !enter_unfold, kmap_keys, <- (enter_literals_map (keys K) K l f f').
  2: { intros k po c I l0. apply (IHK k po c I). exact A. }
  destruct (enter_literals enter (keys K) K l f) as [K'|]; cbn [option_map]; rewrite lmap_unfold; f_equal.
  apply upsert_map. exact A.
Qed.

Lemma s_insert_map toks : forall L p, lmap (s_insert toks L p) = s_insert (map (replace_token phi) toks) (lmap L) (h p).
Proof.
  induction toks as [|tok rest IH]; intros L p; [reflexivity|]. cbn [s_insert map].
  assert (agree (fun e => if is_empty rest then (Some p, snd e) else (fst e, Some (s_insert rest level_empty p)))
                (fun e => if is_empty (map (replace_token phi) rest) then (Some (h p), snd e)
                          else (fst e, Some (s_insert (map (replace_token phi) rest) level_empty (h p))))) as A.
  { intros e. replace (is_empty (map (replace_token phi) rest)) with (is_empty rest) by (destruct rest; reflexivity).
    destruct (is_empty rest); [reflexivity|]. unfold emap. cbn [fst snd option_map]. rewrite IH. reflexivity. }
  destruct tok as [q|l]; cbn [replace_token].
  - destruct L as [K P]. cbn [lits_of pars_of]. rewrite !lmap_unfold. cbn [lits_of pars_of]. f_equal. apply at_parser_map. exact A.
  - apply enter_map. exact A.
Qed.

Lemma t_insert_map toks : forall L p, lmap (t_insert toks L p) = t_insert (map (replace_token phi) toks) (lmap L) (h p).
Proof.
  induction toks as [|tok rest IH]; intros L p; [reflexivity|]. cbn [t_insert map].
  assert (agree (fun e => if is_empty rest then (Some p, snd e) else (fst e, Some (t_insert rest level_empty p)))
                (fun e => if is_empty (map (replace_token phi) rest) then (Some (h p), snd e)
                          else (fst e, Some (t_insert (map (replace_token phi) rest) level_empty (h p))))) as A.
  { intros e. replace (is_empty (map (replace_token phi) rest)) with (is_empty rest) by (destruct rest; reflexivity).
    destruct (is_empty rest); [reflexivity|]. unfold emap. cbn [fst snd option_map]. rewrite IH. reflexivity. }
  destruct L as [K P]. destruct tok as [q|l]; cbn [replace_token lits_of pars_of]; rewrite !lmap_unfold; cbn [lits_of pars_of]; f_equal.
  - apply at_parser_map. exact A.
  - apply upsert_map. exact A.
Qed.

(** ** Matching *)
Definition same_result (r r' : match_result) : Prop :=
  mr_pattern r' = h (mr_pattern r) /\ bmap_sorted (mr_values r) /\ bmap_sorted (mr_values r') /\
  (forall k, bmap_get (mr_values r') (g k) = bmap_get (mr_values r) k) /\
  (forall k' v, bmap_get (mr_values r') k' = Some v -> exists k, k' = g k).
Definition same_option (o o' : option match_result) : Prop :=
  match o, o' with Some r, Some r' => same_result r r' | None, None => True | _, _ => False end.

Lemma same_new p : same_result (match_result_new p) (match_result_new (h p)).
Proof. split; [reflexivity|]. split; [constructor|]. split; [constructor|]. split; [reflexivity|]. intros k' v E. discriminate E. Qed.
Lemma same_new_option po : same_option (option_map match_result_new po) (option_map match_result_new (option_map h po)).
Proof. destruct po; [apply same_new|exact I]. Qed.

Lemma str_eqb_g a b : str_eqb (g a) (g b) = str_eqb a b.
Proof.
  destruct (str_eqb a b) eqn:E.
  - apply str_eqb_eq in E. subst. apply str_eqb_eq. reflexivity.
  - destruct (str_eqb (g a) (g b)) eqn:E'; [|reflexivity]. apply str_eqb_eq in E'. apply G in E'. subst.
    assert (str_eqb b b = true) as X by (apply str_eqb_eq; reflexivity). congruence.
Qed.

Lemma same_insert r r' q v : same_result r r' -> same_result (match_result_insert r (q, v)) (match_result_insert r' (phi q, v)).
Proof.
  intros (E & S & S' & V & W). unfold match_result_insert. cbn [fst snd]. rewrite rename_name.
  destruct (parser_name q) as [n|]; cbn [option_map]; [|repeat split; assumption].
  split; [exact E|]. cbn [mr_values]. split; [apply bmap_insert_sorted; exact S|]. split; [apply bmap_insert_sorted; exact S'|].
  split.
  - intros k. rewrite !bmap_get_insert by assumption. rewrite str_eqb_g, V. reflexivity.
  - intros k' x. rewrite bmap_get_insert by assumption. destruct (str_eqb k' (g n)) eqn:En.
    + intros _. apply str_eqb_eq in En. eauto.
    + apply W.
Qed.

Lemma try_parser_map parse q e text :
  (forall po c, e = (po, Some c) -> forall t, same_option (parse c t) (parse (lmap c) t)) ->
  same_option (try_parser parse q e text) (try_parser parse (phi q) (emap e) text).
Proof.
  intros H. unfold try_parser. rewrite rename_capture. destruct (capture q text) as [v|]; [|exact I].
  destruct e as (po, [c|]); cbn [emap fst snd option_map].
  - specialize (H po c eq_refl (skipn (length v) text)).
    destruct (parse c (skipn (length v) text)), (parse (lmap c) (skipn (length v) text)); cbn [option_map same_option] in *; try contradiction;
      [apply same_insert; exact H|exact I].
  - destruct (is_empty (skipn (length v) text)); [|exact I]. destruct po; cbn [option_map same_option]; [|exact I].
    apply same_insert, same_new.
Qed.

Lemma try_parsers_map parse P text :
  (forall q po c, In (q, (po, Some c)) P -> forall t, same_option (parse c t) (parse (lmap c) t)) ->
  same_option (try_parsers parse P text) (try_parsers parse (pmap P) text).
Proof.
  induction P as [|(q, e) P IH]; intros H; cbn [try_parsers pmap map fst snd]; [exact I|].
  assert (same_option (try_parser parse q e text) (try_parser parse (phi q) (emap e) text)) as E.
  { apply try_parser_map. intros po c -> t. apply (H q po c). left. reflexivity. }
  assert (same_option (try_parsers parse P text) (try_parsers parse (pmap P) text)) as E'
    by (apply IH; intros q' po c I; apply (H q' po c); right; exact I).
  destruct (try_parser parse q e text), (try_parser parse (phi q) (emap e) text); cbn [same_option] in E; try contradiction;
    [exact E|exact E'].
Qed.

Lemma try_literals_map parse ks K text :
  (forall k po c, In (k, (po, Some c)) K -> forall t, same_option (parse c t) (parse (lmap c) t)) ->
  match try_literals parse ks K text, try_literals parse ks (kmap K) text with
  | Some o, Some o' => same_option o o'
  | None, None => True
  | _, _ => False
  end.
Proof.
  induction K as [|(k, (po, [c|])) K IH]; intros H; cbn [try_literals kmap map fst snd emap option_map]; [exact I| |].
  - destruct (routes ks k text); [apply (H k po c); left; reflexivity|].
    apply IH. intros k' po' c' I. apply (H k' po' c'). right. exact I.
  - apply IH. intros k' po' c' I. apply (H k' po' c'). right. exact I.
Qed.

Lemma lookup_map k K : lookup k (kmap K) = option_map emap (lookup k K).
Proof. induction K as [|(k', e) K IH]; cbn [lookup kmap map fst snd]; [reflexivity|]. destruct (str_eqb k k'); [reflexivity|exact IH]. Qed.

Lemma s_parse_map L : forall text, same_option (s_parse L text) (s_parse (lmap L) text).
Proof.
  induction L as [K P IHK IHP] using level_nested_ind. intros text.
  rewrite lmap_unfold, !s_parse_unfold, kmap_keys, lookup_map.
  pose proof (try_literals_map s_parse (keys K) K text IHK) as E.
  destruct (try_literals s_parse (keys K) K text), (try_literals s_parse (keys K) (kmap K) text); try contradiction; [exact E|].
  destruct (lookup text K) as [e|]; cbn [option_map].
  - apply same_new_option.
  - destruct (blocked (keys K) text); [exact I|]. apply try_parsers_map. exact IHP.
Qed.

Lemma nearest_kmap K text : nearest (kmap K) text = option_map (fun x => (fst x, emap (snd x))) (nearest K text).
Proof. unfold kmap. apply (nearest_map (fun x => (fst x, emap (snd x)))). reflexivity. Qed.

Lemma nearest_In {A} (K : list (str * A)) text x : nearest K text = Some x -> In x K.
Proof.
  unfold nearest. assert (forall l : list (str * A), forall y, last_opt l = Some y -> In y l) as HL.
  { induction l as [|a [|b l] IH]; intros y E; [discriminate|injection E as <-; left; reflexivity|right; apply IH; exact E]. }
  assert (forall l : list (str * A), forall y, hd_error l = Some y -> In y l) as HH.
  { intros [|a l] y E; [discriminate|]. injection E as <-. left. reflexivity. }
  destruct (last_opt (filter (fun x0 => notgtb (str_cmp (fst x0) text)) K)) as [a|] eqn:Ea,
    (hd_error (filter (fun x0 => negb (notgtb (str_cmp (fst x0) text))) K)) as [b|] eqn:Eb; intros E; try discriminate E;
    repeat match type of E with context [if ?c then _ else _] => destruct c end; injection E as <-;
    try (apply HL in Ea; apply filter_In in Ea; apply Ea); apply HH in Eb; apply filter_In in Eb; apply Eb.
Qed.

Lemma t_parse_map L : forall text, same_option (t_parse L text) (t_parse (lmap L) text).
Proof.
  induction L as [K P IHK IHP] using level_nested_ind. intros text.
  rewrite lmap_unfold, !t_parse_unfold, nearest_kmap.
  destruct (nearest K text) as [(k & (po & co))|] eqn:E; cbn [option_map fst snd emap].
  - cbv zeta. destruct (Nat.eqb (common_prefix_len k text) (length text)); [apply same_new_option|].
    destruct co as [c|]; cbn [option_map]; [|exact I]. apply nearest_In in E. apply (IHK k po c E).
  - apply try_parsers_map. exact IHP.
Qed.

Lemma same_none o o' : same_option o o' -> (o = None <-> o' = None).
Proof. destruct o, o'; simpl; intros H; try contradiction; split; congruence. Qed.
Lemma try_none parse A l : (forall c t, same_option (parse c t) (parse (lmap c) t)) ->
  (try_parsers parse A l = None <-> try_parsers parse (pmap A) l = None).
Proof. intros H. apply same_none, try_parsers_map. intros q po c _. apply H. Qed.

Lemma s_none A l : try_parsers s_parse A l = None <-> try_parsers s_parse (pmap A) l = None.
Proof. apply try_none. intros. apply s_parse_map. Qed.
Lemma t_none A l : try_parsers t_parse A l = None <-> try_parsers t_parse (pmap A) l = None.
Proof. apply try_none. intros. apply t_parse_map. Qed.

(** ** Panics *)
Lemma kmap_in k po c K : In (k, (po, Some c)) (kmap K) -> exists po0 c0, In (k, (po0, Some c0)) K /\ c = lmap c0.
Proof.
  intros I. apply in_map_iff in I. destruct I as ((k0 & (po0 & [c0|])) & E & I); cbn [fst snd emap option_map] in E;
    injection E as E1 E2 E3; subst; [eauto|discriminate].
Qed.
Lemma kmap_in' k po c K : In (k, (po, Some c)) K -> In (k, (option_map h po, Some (lmap c))) (kmap K).
Proof. intros I. apply in_map_iff. exists (k, (po, Some c)). auto. Qed.

Lemma reaches_map L l L' l' : reaches L l L' l' -> reaches (lmap L) l (lmap L') l'.
Proof.
  induction 1 as [|K P k po c l L' l' I R H IH]; [constructor|]. rewrite lmap_unfold.
  apply (reaches_below (kmap K) (pmap P) k (option_map h po) (lmap c)); [apply kmap_in'; exact I|rewrite kmap_keys; exact R|exact IH].
Qed.
Lemma reaches_back L : forall l M l', reaches (lmap L) l M l' -> exists L', M = lmap L' /\ reaches L l L' l'.
Proof.
  induction L as [K P IHK _] using level_nested_ind. intros l M l' R. rewrite lmap_unfold in R.
  inversion R as [|K0 P0 k po c l0 L' l1 I Rt R']; subst; [exists (Level K P); split; [symmetry; apply lmap_unfold|constructor]|].
  apply kmap_in in I. destruct I as (po0 & c0 & I & ->). destruct (IHK k po0 c0 I _ _ _ R') as (L1 & -> & R1).
  exists L1. split; [reflexivity|]. rewrite kmap_keys in Rt. apply (reaches_below K P k po0 c0); assumption.
Qed.
Lemma no_route_map K l : no_route (kmap K) l <-> no_route K l.
Proof.
  unfold no_route. rewrite kmap_keys. split; intros H k po c I.
  - apply (H k (option_map h po) (lmap c)). apply kmap_in'. exact I.
  - apply kmap_in in I. destruct I as (po0 & c0 & I & _). apply (H k po0 c0 I).
Qed.
Lemma no_literal_map K l : no_literal (kmap K) l <-> no_literal K l.
Proof. unfold no_literal. rewrite no_route_map, kmap_keys. reflexivity. Qed.

Lemma pmap_app A q e B : pmap (A ++ (q, e) :: B) = pmap A ++ (phi q, emap e) :: pmap B.
Proof. unfold pmap. rewrite map_app. reflexivity. Qed.
Lemma pmap_split P A q e B : pmap P = A ++ (q, e) :: B ->
  exists A0 q0 e0 B0, P = A0 ++ (q0, e0) :: B0 /\ A = pmap A0 /\ q = phi q0 /\ e = emap e0.
Proof.
  intros E. unfold pmap in E. apply map_eq_app in E. destruct E as (A0 & R & -> & EA & E).
  destruct R as [|(q0, e0) B0]; [discriminate|]. cbn [map fst snd] in E. injection E as E1 E2 _. exists A0, q0, e0, B0. auto.
Qed.
Lemma lmap_inv L K P : lmap L = Level K P -> exists K0 P0, L = Level K0 P0 /\ K = kmap K0 /\ P = pmap P0.
Proof. destruct L as [K0 P0]. rewrite lmap_unfold. intros E. injection E as <- <-. eauto. Qed.

Lemma parse_panics_map L text : parse_panics L text -> parse_panics (lmap L) text.
Proof.
  induction 1 as [L text K P l R S|L text K A q e B l R NL T E|L text K A q po c B l v R NL T E H IH];
    apply reaches_map in R; rewrite lmap_unfold in R.
  - apply (pp_literal _ _ (kmap K) (pmap P) l); [exact R|]. rewrite kmap_keys. exact S.
  - rewrite pmap_app in R. apply (pp_parser _ _ (kmap K) (pmap A) (phi q) (emap e) (pmap B) l); [exact R| | |].
    + apply no_literal_map. exact NL.
    + exact (proj1 (s_none _ _) T).
    + rewrite rename_parse. exact E.
  - rewrite pmap_app in R.
    apply (pp_below _ _ (kmap K) (pmap A) (phi q) (option_map h po) (lmap c) (pmap B) l v); [exact R| | | |exact IH].
    + apply no_literal_map. exact NL.
    + exact (proj1 (s_none _ _) T).
    + rewrite rename_capture. exact E.
Qed.
Lemma parse_panics_back M text : parse_panics M text -> forall L, M = lmap L -> parse_panics L text.
Proof.
  induction 1 as [M text K P l R S|M text K A q e B l R NL T E|M text K A q po c B l v R NL T E H IH];
    intros L ->; apply reaches_back in R; destruct R as (L1 & E1 & R); symmetry in E1; apply lmap_inv in E1;
    destruct E1 as (K0 & P0 & -> & -> & EP).
  - rewrite kmap_keys in S. exact (pp_literal _ _ K0 P0 l R S).
  - symmetry in EP. apply pmap_split in EP. destruct EP as (A0 & q0 & e0 & B0 & -> & -> & -> & _).
    apply (pp_parser _ _ K0 A0 q0 e0 B0 l); [exact R| | |].
    + apply no_literal_map. exact NL.
    + exact (proj2 (s_none _ _) T).
    + rewrite rename_parse in E. exact E.
  - symmetry in EP. apply pmap_split in EP. destruct EP as (A0 & q0 & (po0, [c0|]) & B0 & -> & -> & -> & Ee); [|discriminate].
    unfold emap in Ee. cbn [fst snd option_map] in Ee. injection Ee as _ ->.
    apply (pp_below _ _ K0 A0 q0 po0 c0 B0 l v); [exact R| | | |apply IH; reflexivity].
    + apply no_literal_map. exact NL.
    + exact (proj2 (s_none _ _) T).
    + rewrite rename_capture in E. exact E.
Qed.
Lemma literal_panics_map L l : literal_panics (lmap L) l <-> literal_panics L l.
Proof.
  split.
  - intros H. inversion H as [? ? K P l' R S|? ? K P l' R N T]; subst;
      apply reaches_back in R; destruct R as (L1 & E1 & R); symmetry in E1; apply lmap_inv in E1; destruct E1 as (K0 & P0 & -> & -> & ->).
    + rewrite kmap_keys in S. exact (lp_stuck _ _ K0 P0 l' R S).
    + rewrite kmap_keys in T. apply (proj1 (no_route_map K0 _)) in N. exact (lp_torn _ _ K0 P0 l' R N T).
  - intros H. inversion H as [? ? K P l' R S|? ? K P l' R N T]; subst; apply reaches_map in R; rewrite lmap_unfold in R.
    + apply (lp_stuck _ _ _ _ l' R). rewrite kmap_keys. exact S.
    + apply (lp_torn _ _ _ _ l' R); [apply no_route_map; exact N|rewrite kmap_keys; exact T].
Qed.

Lemma table_panics_map L text : table_panics L text -> table_panics (lmap L) text.
Proof.
  induction 1 as [K P text k po c N D H IH|A q e B text T C|A q po c B text v T C U H IH]; rewrite lmap_unfold.
  - apply (tp_literal (kmap K) (pmap P) text k (option_map h po) (lmap c)); [rewrite nearest_kmap, N; reflexivity|exact D|exact IH].
  - rewrite pmap_app. apply tp_parser; [exact (proj1 (t_none _ _) T)|].
    destruct C as (w & C & N). exists w. split; [apply (proj2 (rename_captures _ _ _)); exact C|exact N].
  - rewrite pmap_app. apply (tp_below _ _ (option_map h po) (lmap c) _ _ v); [|apply (proj2 (rename_captures _ _ _)); exact C|exact U|exact IH].
    exact (proj1 (t_none _ _) T).
Qed.
Lemma table_panics_back M text : table_panics M text -> forall L, M = lmap L -> table_panics L text.
Proof.
  induction 1 as [K P text k po c N D H IH|A q e B text T C|A q po c B text v T C U H IH]; intros L E; symmetry in E; apply lmap_inv in E;
    destruct E as (K0 & P0 & -> & EK & EP).
  - subst K. rewrite nearest_kmap in N. destruct (nearest K0 text) as [(k0 & (po0 & [c0|]))|] eqn:N0; [| |]; cbn [option_map fst snd emap] in N; try discriminate N.
    injection N as <- <- <-. apply (tp_literal K0 P0 text k0 po0 c0 N0 D). apply IH. reflexivity.
  - symmetry in EK. apply map_eq_nil in EK. subst K0. symmetry in EP. apply pmap_split in EP.
    destruct EP as (A0 & q0 & e0 & B0 & -> & -> & -> & _). apply tp_parser; [exact (proj2 (t_none _ _) T)|].
    destruct C as (w & C & N). exists w. split; [apply (proj1 (rename_captures _ _ _)) in C; exact C|exact N].
  - symmetry in EK. apply map_eq_nil in EK. subst K0. symmetry in EP. apply pmap_split in EP.
    destruct EP as (A0 & q0 & (po0, [c0|]) & B0 & -> & -> & -> & Ee); [|discriminate].
    unfold emap in Ee. cbn [fst snd option_map] in Ee. injection Ee as _ ->.
    apply (tp_below A0 q0 po0 c0 B0 text v); [exact (proj2 (t_none _ _) T)|apply (proj1 (rename_captures _ _ _)) in C; exact C|exact U|].
    apply IH. reflexivity.
Qed.
End Map.

(** ** Patterns numbered *)
Definition ipat (n : nat) (p : pattern) : pattern := Pattern None (repeat x00 n) (pat_tokens p) None None None.
Fixpoint ipats (n : nat) (ps : list pattern) : list pattern :=
  match ps with [] => [] | p :: ps' => ipat n p :: ipats (S n) ps' end.
Definition at_number (qs : list pattern) (x : pattern) : pattern :=
  match nth_error qs (length (pat_uuid x)) with Some q => stripped q | None => x end.

Section Numbered.
Variable g : str -> str.
Variable phi : parser -> parser.
Hypothesis G : alike g phi.

Lemma s_adds_from qs ps qs' : forall done L, Forall2 (replaced phi) ps qs' -> qs = done ++ qs' ->
  fold_left s_add qs' (lmap phi (at_number qs) L) = lmap phi (at_number qs) (fold_left s_add (ipats (length done) ps) L).
Proof.
  revert qs'. induction ps as [|p ps IH]; intros qs' done L F E; inversion F as [|? q ? qs'' R F']; subst; [reflexivity|].
  cbn [ipats fold_left].
  assert (s_add (lmap phi (at_number (done ++ q :: qs'')) L) q = lmap phi (at_number (done ++ q :: qs'')) (s_add L (ipat (length done) p))) as ->.
  { unfold s_add. rewrite (s_insert_map g phi _ G). cbn [ipat pat_tokens]. rewrite <- R. f_equal.
    unfold at_number. cbn [stripped ipat pat_uuid]. rewrite repeat_length, nth_error_app2, Nat.sub_diag by lia. reflexivity. }
  specialize (IH qs'' (done ++ [q]) (s_add L (ipat (length done) p)) F').
  rewrite app_length in IH. cbn [length] in IH. rewrite Nat.add_1_r in IH. apply IH. rewrite <- app_assoc. reflexivity.
Qed.
Lemma s_adds_numbered ps qs : Forall2 (replaced phi) ps qs -> s_adds qs = lmap phi (at_number qs) (s_adds (ipats 0 ps)).
Proof. intros F. exact (s_adds_from qs ps qs [] level_empty F eq_refl). Qed.

Lemma t_adds_from qs ps qs' : forall done L, Forall2 (replaced phi) ps qs' -> qs = done ++ qs' ->
  fold_left t_add qs' (lmap phi (at_number qs) L) = lmap phi (at_number qs) (fold_left t_add (ipats (length done) ps) L).
Proof.
  revert qs'. induction ps as [|p ps IH]; intros qs' done L F E; inversion F as [|? q ? qs'' R F']; subst; [reflexivity|].
  cbn [ipats fold_left].
  assert (t_add (lmap phi (at_number (done ++ q :: qs'')) L) q = lmap phi (at_number (done ++ q :: qs'')) (t_add L (ipat (length done) p))) as ->.
  { unfold t_add. rewrite (t_insert_map g phi _ G). cbn [ipat pat_tokens]. rewrite <- R. f_equal.
    unfold at_number. cbn [stripped ipat pat_uuid]. rewrite repeat_length, nth_error_app2, Nat.sub_diag by lia. reflexivity. }
  specialize (IH qs'' (done ++ [q]) (t_add L (ipat (length done) p)) F').
  rewrite app_length in IH. cbn [length] in IH. rewrite Nat.add_1_r in IH. apply IH. rewrite <- app_assoc. reflexivity.
Qed.
Lemma t_adds_numbered ps qs : Forall2 (replaced phi) ps qs -> t_adds qs = lmap phi (at_number qs) (t_adds (ipats 0 ps)).
Proof. intros F. exact (t_adds_from qs ps qs [] level_empty F eq_refl). Qed.

Lemma forall2_split {A B} (R : A -> B -> Prop) l l' : Forall2 R l l' ->
  (forall a x b, l = a ++ x :: b -> exists a' x' b', l' = a' ++ x' :: b' /\ Forall2 R a a' /\ R x x') /\
  (forall a' x' b', l' = a' ++ x' :: b' -> exists a x b, l = a ++ x :: b /\ Forall2 R a a' /\ R x x').
Proof.
  intros F. split.
  - intros a x b ->. apply Forall2_app_inv_l in F. destruct F as (a' & r & Fa & Fr & ->).
    inversion Fr as [|? x' ? b' R0 Fb]; subst. eauto 8.
  - intros a' x' b' ->. apply Forall2_app_inv_r in F. destruct F as (a & r & Fa & Fr & ->).
    inversion Fr as [|x ? b ? R0 Fb]; subst. eauto 8.
Qed.

Lemma adding_numbered ps qs : Forall2 (replaced phi) ps qs ->
  ((exists A q B, qs = A ++ q :: B /\ add_panics (s_adds A) q) <->
   (exists A p B, ps = A ++ p :: B /\ exists l rest, pat_tokens p = Literal l :: rest /\ literal_panics (s_adds (ipats 0 A)) l)).
Proof.
  intros F. destruct (forall2_split _ _ _ F) as (F1 & F2). split.
  - intros (A' & q & B' & E & l & rest & Et & H). destruct (F2 _ _ _ E) as (A & p & B & -> & FA & R).
    exists A, p, B. split; [reflexivity|]. unfold replaced in R. rewrite Et in R.
    destruct (pat_tokens p) as [|[x|l0] ts]; cbn [map replace_token] in R; try discriminate R. injection R as -> _.
    exists l0, ts. split; [reflexivity|]. rewrite (s_adds_numbered A A' FA) in H. apply literal_panics_map in H. exact H.
  - intros (A & p & B & E & l & rest & Et & H). destruct (F1 _ _ _ E) as (A' & q & B' & -> & FA & R).
    exists A', q, B'. split; [reflexivity|]. unfold replaced in R. rewrite Et in R. cbn [map replace_token] in R.
    exists l, (map (replace_token phi) rest). split; [exact R|]. rewrite (s_adds_numbered A A' FA). apply literal_panics_map. exact H.
Qed.
End Numbered.

Lemma id_one : alike (fun x => x) (fun q => q).
Proof.
  split; [intros x y E; exact E|]. split; [intros x y E; exact E|]. split; [reflexivity|]. split; [reflexivity|].
  intros q. destruct (parser_name q); reflexivity.
Qed.
Lemma renamed_id ps : Forall2 (replaced (fun q => q)) ps ps.
Proof.
  induction ps as [|p ps IH]; constructor; [|exact IH]. unfold replaced.
  rewrite (map_ext _ (fun t => t)); [symmetry; apply map_id|]. intros [q|l]; reflexivity.
Qed.

Lemma forall2_len {A B} (R : A -> B -> Prop) l l' : Forall2 R l l' -> length l = length l'.
Proof. induction 1; simpl; congruence. Qed.
Lemma same_maps g phi ps qs r0 r r' : Forall2 (replaced phi) ps qs ->
  same_result (fun x => x) (at_number ps) r0 r -> same_result g (at_number qs) r0 r' -> length (pat_uuid (mr_pattern r0)) < length ps ->
  answers_renamed g ps qs (Ret (Some r)) (Ret (Some r')).
Proof.
  intros F (E & S & S1 & V & _) (E' & _ & S' & V' & W') L. split.
  - destruct (nth_error ps (length (pat_uuid (mr_pattern r0)))) as [p|] eqn:Ep;
      [|apply nth_error_None in Ep; lia].
    destruct (nth_error qs (length (pat_uuid (mr_pattern r0)))) as [q|] eqn:Eq';
      [|apply nth_error_None in Eq'; apply forall2_len in F; lia].
    exists (length (pat_uuid (mr_pattern r0))), p, q. split; [exact Ep|]. split; [exact Eq'|].
    unfold at_number in E, E'. rewrite Ep in E. rewrite Eq' in E'. auto.
  - intros k' v. unfold maps_to. rewrite <- (bmap_get_in (mr_values r') k' v S'). split.
    + intros H. destruct (W' k' v H) as (k & ->). exists k. split; [reflexivity|].
      apply bmap_get_in; [exact S1|]. rewrite V, <- V'. exact H.
    + intros (k & -> & H). apply bmap_get_in in H; [|exact S1]. rewrite V in H. rewrite V'. exact H.
Qed.

Lemma ipats_in x ps : forall n, In x (ipats n ps) -> n <= length (pat_uuid x) < n + length ps /\ exists p, In p ps /\ pat_tokens x = pat_tokens p.
Proof.
  induction ps as [|p ps IH]; intros n H; [destruct H|]. destruct H as [<-|H].
  - cbn [ipat pat_uuid pat_tokens length]. rewrite repeat_length. split; [lia|]. exists p. split; [left; reflexivity|reflexivity].
  - apply IH in H. destruct H as (H & p' & I & E). cbn [length]. split; [lia|]. exists p'. split; [right; exact I|exact E].
Qed.
Lemma ipats_valid ps : Forall valid_pattern ps -> Forall valid_pattern (ipats 0 ps).
Proof.
  rewrite !Forall_forall. intros V x I. apply ipats_in in I. destruct I as (_ & p & I & E). unfold valid_pattern. rewrite E. exact (V p I).
Qed.
Lemma ipats_collision sip ps : collision_free sip ps -> collision_free sip (ipats 0 ps).
Proof.
  intros C q q' (x & I & H) (x' & I' & H'). apply ipats_in in I, I'. destruct I as (_ & p & I & E), I' as (_ & p' & I' & E').
  rewrite E in H. rewrite E' in H'. apply C; eexists; eauto.
Qed.

Theorem trie_replaced g phi sip sip' ps ps' :
  alike g phi -> Forall2 (replaced phi) ps ps' -> Forall valid_pattern ps -> Forall valid_pattern ps' ->
  collision_free sip ps -> collision_free sip' ps' ->
  match Trie.add_patterns sip Trie.tree_new ps, Trie.add_patterns sip' Trie.tree_new ps' with
  | Ret t, Ret t' => forall text, utf8 text -> answers_renamed g ps ps' (Trie.parse t text) (Trie.parse t' text)
  | Panic, Panic => True
  | _, _ => False
  end.
Proof.
  intros G F V V' C C'. pose proof (renamed_id ps) as F0.
  destruct (adding_panics sip ps V C) as (P & R), (adding_panics sip' ps' V' C') as (P' & R').
  rewrite (adding_numbered _ _ id_one _ _ F0) in P. rewrite (adding_numbered _ _ G _ _ F), <- P in P'.
  destruct (Trie.add_patterns sip Trie.tree_new ps) as [t| |] eqn:E.
  - destruct (Trie.add_patterns sip' Trie.tree_new ps') as [t'| |] eqn:E';
      [|destruct P' as (P' & _); discriminate (P' eq_refl)|destruct (R' ltac:(discriminate)) as (? & X); discriminate X].
    intros text U. destruct (matching_panics sip ps t text V C E U) as (Q & Y), (matching_panics sip' ps' t' text V' C' E' U) as (Q' & Y').
    rewrite (s_adds_numbered _ _ id_one _ _ F0) in Q, Y. rewrite (s_adds_numbered _ _ G _ _ F) in Q', Y'.
    set (L := s_adds (ipats 0 ps)) in *.
    destruct (Trie.parse t text) as [o| |] eqn:T.
    + assert (~ parse_panics (lmap (fun x => x) (at_number ps) L) text) as N by (intros X; apply Q in X; discriminate X).
      assert (~ parse_panics (lmap phi (at_number ps') L) text) as N'.
      { intros X. apply N. apply (parse_panics_map _ _ _ id_one). exact (parse_panics_back g phi (at_number ps') G _ _ X L eq_refl). }
      rewrite (Y' N'). specialize (Y N). injection Y as ->.
      pose proof (s_parse_map _ _ (at_number ps) id_one L text) as M. pose proof (s_parse_map _ _ (at_number ps') G L text) as M'.
      destruct (s_parse L text) as [r0|] eqn:Z.
      * destruct (s_parse (lmap (fun x => x) (at_number ps) L) text) as [r|]; [|contradiction].
        destruct (s_parse (lmap phi (at_number ps') L) text) as [r'|]; [|contradiction].
        apply (same_maps g phi ps ps' r0 r r' F M M'). apply s_parse_sound in Z. destruct Z as (x & _ & I & -> & _).
        apply ipats_in in I. cbn [stripped pat_uuid]. lia.
      * destruct (s_parse (lmap (fun x => x) (at_number ps) L) text); [contradiction|].
        destruct (s_parse (lmap phi (at_number ps') L) text); [contradiction|exact I].
    + assert (parse_panics (lmap (fun x => x) (at_number ps) L) text) as X by (apply Q; reflexivity).
      assert (parse_panics (lmap phi (at_number ps') L) text) as X'.
      { apply (parse_panics_map _ _ _ G). exact (parse_panics_back _ _ (at_number ps) id_one _ _ X L eq_refl). }
      apply Q' in X'. rewrite X'. exact I.
    + exfalso. exact (Trie_total.parse_terminates t text T).
  - rewrite (proj2 P' eq_refl). exact I.
  - destruct (R ltac:(discriminate)) as (? & X). discriminate X.
Qed.

Lemma ipats_table sip ps text r : Forall valid_pattern ps -> collision_free sip ps -> utf8 text ->
  t_parse (t_adds (ipats 0 ps)) text = Some r -> length (pat_uuid (mr_pattern r)) < length ps.
Proof.
  intros V C U H. apply ipats_valid in V. apply ipats_collision in C.
  destruct (table_adds sip (ipats 0 ps) V) as (t & _ & W & R).
  pose proof (tabs_lwf (okp_of (ipats 0 ps)) t (okp_of_utf8 _) W) as Lw. rewrite (R C) in Lw.
  destruct (t_parse_sound _ Lw text r U H) as (toks & caps & H1 & _).
  apply tstored_adds in H1. destruct H1 as (_ & a & p & b & Ep & _ & Eq & _).
  assert (In p (ipats 0 ps)) as I by (rewrite Ep; apply in_elt). apply ipats_in in I. rewrite Eq. cbn [stripped pat_uuid]. lia.
Qed.

Theorem table_replaced g phi sip sip' ps ps' :
  alike g phi -> Forall2 (replaced phi) ps ps' -> Forall valid_pattern ps -> Forall valid_pattern ps' ->
  collision_free sip ps -> collision_free sip' ps' ->
  exists t t', SuffixArray.add_patterns sip SuffixArray.table_new ps = Ret t /\
    SuffixArray.add_patterns sip' SuffixArray.table_new ps' = Ret t' /\
    forall text, utf8 text -> answers_renamed g ps ps' (SuffixArray.parse t text) (SuffixArray.parse t' text).
Proof.
  intros G F V V' C C'. pose proof (renamed_id ps) as F0.
  destruct (table_matching_panics sip ps V C) as (t & E & H), (table_matching_panics sip' ps' V' C') as (t' & E' & H').
  exists t, t'. split; [exact E|]. split; [exact E'|]. intros text U.
  destruct (H text U) as (Q & Y), (H' text U) as (Q' & Y').
  rewrite (t_adds_numbered _ _ id_one _ _ F0) in Q, Y. rewrite (t_adds_numbered _ _ G _ _ F) in Q', Y'.
  pose proof (ipats_table sip ps text) as B. set (L := t_adds (ipats 0 ps)) in *.
  destruct (SuffixArray.parse t text) as [o| |] eqn:T.
  - assert (~ table_panics (lmap (fun x => x) (at_number ps) L) text) as N by (intros X; apply Q in X; discriminate X).
    assert (~ table_panics (lmap phi (at_number ps') L) text) as N'.
    { intros X. apply N. apply (table_panics_map _ _ _ id_one). exact (table_panics_back g phi (at_number ps') G _ _ X L eq_refl). }
    rewrite (Y' N'). specialize (Y N). injection Y as ->.
    pose proof (t_parse_map _ _ (at_number ps) id_one L text) as M. pose proof (t_parse_map _ _ (at_number ps') G L text) as M'.
    destruct (t_parse L text) as [r0|] eqn:Z.
    + destruct (t_parse (lmap (fun x => x) (at_number ps) L) text) as [r|]; [|contradiction].
      destruct (t_parse (lmap phi (at_number ps') L) text) as [r'|]; [|contradiction].
      apply (same_maps g phi ps ps' r0 r r' F M M'). exact (B r0 V C U eq_refl).
    + destruct (t_parse (lmap (fun x => x) (at_number ps) L) text); [contradiction|].
      destruct (t_parse (lmap phi (at_number ps') L) text); [contradiction|exact I].
  - assert (table_panics (lmap (fun x => x) (at_number ps) L) text) as X by (apply Q; reflexivity).
    assert (table_panics (lmap phi (at_number ps') L) text) as X'.
    { apply (table_panics_map _ _ _ G). exact (table_panics_back _ _ (at_number ps) id_one _ _ X L eq_refl). }
    apply Q' in X'. rewrite X'. exact I.
  - exfalso. exact (Table_refine.parse_terminates t text T).
Qed.

(** ** Renaming *)
Lemma rename_alike g : one_to_one g -> alike g (rename_parser g).
Proof.
  intros G. split; [exact G|]. split; [|split; [intros [s|s|x]; reflexivity|split; [intros [s|s|x]; reflexivity|intros [s|s|x]; reflexivity]]].
  assert (forall x y : option str, option_map g x = option_map g y -> x = y) as O.
  { intros [x|] [y|]; simpl; intros E; try discriminate; [|reflexivity]. injection E as E. f_equal. apply G. exact E. }
  intros [[n a b c]|[n a b c]|[n e]] [[n' a' b' c']|[n' a' b' c']|[n' e']]; simpl; intros E; try discriminate;
    injection E as E; subst; apply O in E; subst; reflexivity.
Qed.
Theorem trie_renamed g sip sip' ps ps' :
  one_to_one g -> Forall2 (renamed g) ps ps' -> Forall valid_pattern ps -> Forall valid_pattern ps' ->
  collision_free sip ps -> collision_free sip' ps' ->
  match Trie.add_patterns sip Trie.tree_new ps, Trie.add_patterns sip' Trie.tree_new ps' with
  | Ret t, Ret t' => forall text, utf8 text -> answers_renamed g ps ps' (Trie.parse t text) (Trie.parse t' text)
  | Panic, Panic => True
  | _, _ => False
  end.
Proof. intros G. exact (trie_replaced g _ sip sip' ps ps' (rename_alike g G)). Qed.
Theorem table_renamed g sip sip' ps ps' :
  one_to_one g -> Forall2 (renamed g) ps ps' -> Forall valid_pattern ps -> Forall valid_pattern ps' ->
  collision_free sip ps -> collision_free sip' ps' ->
  exists t t', SuffixArray.add_patterns sip SuffixArray.table_new ps = Ret t /\
    SuffixArray.add_patterns sip' SuffixArray.table_new ps' = Ret t' /\
    forall text, utf8 text -> answers_renamed g ps ps' (SuffixArray.parse t text) (SuffixArray.parse t' text).
Proof. intros G. exact (table_replaced g _ sip sip' ps ps' (rename_alike g G)). Qed.

(** ** INT as SET *)
Definition int_among (ps : list pattern) (s : set_parser) : bool :=
  existsb (fun p => existsb (fun t => match t with Parser q => if parser_eq_dec q (PInt s) then true else false | _ => false end) (pat_tokens p)) ps.
Lemma int_among_in ps s : int_among ps s = true <-> exists p, In p ps /\ In (Parser (PInt s)) (pat_tokens p).
Proof.
  unfold int_among. rewrite existsb_exists. split.
  - intros (p & I & H). apply existsb_exists in H. destruct H as ([q|l] & It & H); [|discriminate H].
    destruct (parser_eq_dec q (PInt s)) as [->|]; [|discriminate H]. eauto.
  - intros (p & I & H). exists p. split; [exact I|]. apply existsb_exists. exists (Parser (PInt s)). split; [exact H|].
    destruct (parser_eq_dec (PInt s) (PInt s)); [reflexivity|congruence].
Qed.
Definition swap_ints (ps : list pattern) (q : parser) : parser :=
  match q with
  | PInt s => if int_among ps s then PSet s else PInt s
  | PSet s => if int_among ps s then PInt s else PSet s
  | PGreedy x => PGreedy x
  end.
Lemma swap_twice ps q : swap_ints ps (swap_ints ps q) = q.
Proof. destruct q as [s|s|x]; cbn [swap_ints]; [| |reflexivity]; destruct (int_among ps s) eqn:E; cbn [swap_ints]; rewrite E; reflexivity. Qed.
Lemma swap_alike ps : alike (fun x => x) (swap_ints ps).
Proof.
  split; [intros x y E; exact E|]. split; [intros q q' E; rewrite <- (swap_twice ps q), <- (swap_twice ps q'), E; reflexivity|].
  split; [|split].
  - intros [s|s|x] text; cbn [swap_ints]; [| |reflexivity]; destruct (int_among ps s); reflexivity.
  - intros [s|s|x] v w; cbn [swap_ints]; [| |reflexivity]; destruct (int_among ps s); reflexivity.
  - intros [s|s|x]; cbn [swap_ints]; [| |destruct (parser_name (PGreedy x)); reflexivity]; destruct (int_among ps s); cbn; destruct (sp_name s); reflexivity.
Qed.
Lemma swap_replaced ps ps' : no_twins ps -> Forall2 (replaced int_as_set) ps ps' -> Forall2 (replaced (swap_ints ps)) ps ps'.
Proof.
  intros N F. assert (forall p, In p ps -> map (replace_token int_as_set) (pat_tokens p) = map (replace_token (swap_ints ps)) (pat_tokens p)) as H.
  { intros p I. apply map_ext_in. intros [[s|s|x]|l] It; cbn [replace_token int_as_set swap_ints]; try reflexivity.
    - destruct (int_among ps s) eqn:E; [|reflexivity]. apply int_among_in in E. destruct E as (p' & I' & J). destruct (N s p' p I' I J It).
    - replace (int_among ps s) with true; [reflexivity|]. symmetry. apply int_among_in. eauto. }
  clear N. revert H. generalize (swap_ints ps). intros phi H. induction F as [|p p' l l' R _ IH]; constructor.
  - unfold replaced in *. rewrite R. apply H. left. reflexivity.
  - apply IH. intros x I. apply H. right. exact I.
Qed.

Theorem trie_ints sip sip' ps ps' :
  Forall2 (replaced int_as_set) ps ps' -> no_twins ps -> Forall valid_pattern ps -> Forall valid_pattern ps' ->
  collision_free sip ps -> collision_free sip' ps' ->
  match Trie.add_patterns sip Trie.tree_new ps, Trie.add_patterns sip' Trie.tree_new ps' with
  | Ret t, Ret t' => forall text, utf8 text -> answers_renamed (fun k => k) ps ps' (Trie.parse t text) (Trie.parse t' text)
  | Panic, Panic => True
  | _, _ => False
  end.
Proof. intros F N. exact (trie_replaced _ _ sip sip' ps ps' (swap_alike ps) (swap_replaced ps ps' N F)). Qed.
Theorem table_ints sip sip' ps ps' :
  Forall2 (replaced int_as_set) ps ps' -> no_twins ps -> Forall valid_pattern ps -> Forall valid_pattern ps' ->
  collision_free sip ps -> collision_free sip' ps' ->
  exists t t', SuffixArray.add_patterns sip SuffixArray.table_new ps = Ret t /\
    SuffixArray.add_patterns sip' SuffixArray.table_new ps' = Ret t' /\
    forall text, utf8 text -> answers_renamed (fun k => k) ps ps' (SuffixArray.parse t text) (SuffixArray.parse t' text).
Proof. intros F N. exact (table_replaced _ _ sip sip' ps ps' (swap_alike ps) (swap_replaced ps ps' N F)). Qed.
