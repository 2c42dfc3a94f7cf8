(** * Proofs of the statements in Properties_trie.v *)
From Verif Require Import Base Base_facts Utils Utils_facts Parsers Parsers_facts Pattern Spec
  Spec_trie Hash_facts Trie TrieSpec TrieSpec_facts TrieSpec_props TrieSpec_cases Trie_refine
  Trie_total Trie_main Deciders Siphash Tests.

Lemma parser_in_incl ps ps' q : incl ps' ps -> parser_in ps' q -> parser_in ps q.
Proof. intros Hi (p & Hp & Hq). exists p. auto. Qed.

Lemma Forall_incl {A} (P : A -> Prop) l l' : incl l' l -> Forall P l -> Forall P l'.
Proof. intros Hi H. rewrite Forall_forall in *. auto. Qed.

Lemma filter_incl {A} (f : A -> bool) l : incl (filter f l) l.
Proof. intros x H. apply filter_In in H. apply H. Qed.

(** Two lists of patterns with the same abstract matcher. *)
Lemma trie_same sip ps ps' t t' text r r' :
  incl ps' ps -> Forall valid_pattern ps -> collision_free sip ps ->
  s_parse (s_adds ps) text = s_parse (s_adds ps') text ->
  add_patterns sip tree_new ps = Ret t -> add_patterns sip tree_new ps' = Ret t' ->
  utf8 text -> parse t text = Ret r -> parse t' text = Ret r' -> r = r'.
Proof.
  intros Hi V C E Ha Ha' Hu Hp Hp'.
  apply (trie_refines sip ps t text r V C Ha Hu) in Hp.
  apply (trie_refines sip ps' t' text r') in Hp'; auto.
  - congruence.
  - apply (Forall_incl _ ps); assumption.
  - apply (collision_free_incl sip ps); assumption.
Qed.

(** ** Incomparable first literals *)
Lemma trie_apart sip ps t t' text r r' :
  Forall valid_pattern ps -> collision_free sip ps -> apart ps ->
  add_patterns sip tree_new ps = Ret t ->
  add_patterns sip tree_new (filter (first_literal_fits text) ps) = Ret t' ->
  utf8 text -> parse t text = Ret r -> parse t' text = Ret r' -> r = r'.
Proof.
  intros V C A. apply trie_same; auto; [apply filter_incl|apply s_parse_apart; exact A].
Qed.

Lemma usable_tokens p :
  valid_pattern p -> (forall q, In (Parser q) (pat_tokens p) -> parser_ascii_set q) ->
  Forall usable_token (pat_tokens p).
Proof.
  intros V A. unfold valid_pattern in V. rewrite Forall_forall in V. apply Forall_forall.
  intros [q|l] Ht; specialize (V _ Ht); simpl in *; [|exact V].
  split; [|apply A; exact Ht]. destruct q; simpl in *; tauto.
Qed.

Lemma trie_apart_one sip ps t p text r :
  Forall valid_pattern ps -> collision_free sip ps -> apart ps ->
  add_patterns sip tree_new ps = Ret t -> utf8 text ->
  filter (first_literal_fits text) ps = [p] ->
  (forall q, In (Parser q) (pat_tokens p) -> parser_ascii_set q) ->
  parse t text = Ret r ->
  match r with
  | Some r => mr_pattern r = stripped p /\
              exists caps, trie_walk (pat_tokens p) text caps /\ reports caps (mr_values r)
  | None => forall caps, ~ trie_walk (pat_tokens p) text caps
  end.
Proof.
  intros V C A Ha Hu E AS Hp. apply (trie_refines sip ps t text r V C Ha Hu) in Hp.
  rewrite s_parse_apart, E in Hp by exact A. subst r. apply s_parse_single; [|exact Hu].
  apply usable_tokens; [|exact AS]. rewrite Forall_forall in V. apply V.
  apply (filter_incl (first_literal_fits text)). rewrite E. left. reflexivity.
Qed.

Lemma trie_apart_none sip ps t text r :
  Forall valid_pattern ps -> collision_free sip ps -> apart ps ->
  add_patterns sip tree_new ps = Ret t -> utf8 text ->
  (forall p, In p ps -> first_literal_fits text p = false) ->
  parse t text = Ret r -> r = None.
Proof.
  intros V C A Ha Hu E Hp. apply (trie_refines sip ps t text r V C Ha Hu) in Hp.
  rewrite s_parse_apart, filter_none in Hp by auto. exact Hp.
Qed.

(** ** Patterns without tokens, repeated patterns, locality *)
Lemma add_empty sip t p : pat_tokens p = [] -> add_pattern sip t p = Ret t.
Proof. intros E. unfold add_pattern. rewrite E. reflexivity. Qed.

Lemma trie_replace sip ps p q t t' text r r' :
  Forall valid_pattern (ps ++ [p; q]) -> collision_free sip (ps ++ [p; q]) ->
  pat_tokens p = pat_tokens q ->
  add_patterns sip tree_new (ps ++ [p; q]) = Ret t ->
  add_patterns sip tree_new (ps ++ [q]) = Ret t' ->
  utf8 text -> parse t text = Ret r -> parse t' text = Ret r' -> r = r'.
Proof.
  intros V C E. apply trie_same; auto.
  - intros x Hx. apply in_app_or in Hx. apply in_or_app. simpl in *. tauto.
  - rewrite s_adds_replace by exact E. reflexivity.
Qed.

Lemma trie_replace_held sip ps p q t t' :
  Forall valid_pattern (ps ++ [p; q]) -> collision_free sip (ps ++ [p; q]) ->
  pat_tokens p = pat_tokens q ->
  add_patterns sip tree_new (ps ++ [p; q]) = Ret t ->
  add_patterns sip tree_new (ps ++ [q]) = Ret t' ->
  forall path x, held t path x <-> held t' path x.
Proof.
  intros V C E Ha Ha' path x.
  assert (incl (ps ++ [q]) (ps ++ [p; q])) as Hi.
  { intros y Hy. apply in_app_or in Hy. apply in_or_app. simpl in *. tauto. }
  apply (adds_wf sip _ t V C) in Ha.
  apply (adds_wf sip _ t' (Forall_incl _ _ _ Hi V) (collision_free_incl _ _ _ Hi C)) in Ha'.
  destruct Ha as (W & A), Ha' as (W' & A').
  rewrite (held_stored _ _ t W), (held_stored _ _ t' W'), A, A', s_adds_replace by exact E. reflexivity.
Qed.

Lemma trie_concern sip ps t t' text r r' :
  Forall valid_pattern ps -> collision_free sip ps ->
  add_patterns sip tree_new ps = Ret t ->
  add_patterns sip tree_new (filter (may_concern text) ps) = Ret t' ->
  utf8 text -> parse t text = Ret r -> parse t' text = Ret r' -> r = r'.
Proof.
  intros V C. apply trie_same; auto; [apply filter_incl|apply s_parse_concern].
Qed.

Lemma trie_new_parser sip ps p q rest t t' text r r' :
  Forall valid_pattern (ps ++ [p]) -> collision_free sip (ps ++ [p]) ->
  pat_tokens p = Parser q :: rest ->
  (forall p' rest', In p' ps -> pat_tokens p' <> Parser q :: rest') ->
  add_patterns sip tree_new ps = Ret t -> add_pattern sip t p = Ret t' ->
  utf8 text -> parse t text = Ret (Some r) -> parse t' text = Ret r' -> r' = Some r.
Proof.
  intros V C E N Ha Ha' Hu Hp Hp'.
  assert (incl ps (ps ++ [p])) as Hi by (apply incl_appl, incl_refl).
  apply (trie_refines sip (ps ++ [p]) t' text r' V C) in Hp';
    [|rewrite adds_snoc, Ha; exact Ha'|exact Hu].
  apply (trie_refines sip ps t text _ (Forall_incl _ _ _ Hi V) (collision_free_incl _ _ _ Hi C) Ha Hu) in Hp.
  rewrite Hp'. apply (s_add_new_parser ps p q rest text r E N). symmetry. exact Hp.
Qed.

(** ** Shadowing *)
Lemma at_parser_compose P x f g : at_parser (at_parser P x f) x g = at_parser P x (fun e => g (f e)).
Proof.
  induction P as [|(y, e) P IH]; simpl.
  - destruct (parser_eq_dec x x); [reflexivity|congruence].
  - destruct (parser_eq_dec y x) as [->|Hn]; simpl.
    + destruct (parser_eq_dec x x); [reflexivity|congruence].
    + destruct (parser_eq_dec y x); [congruence|]. rewrite IH. reflexivity.
Qed.

Lemma try_parsers_child P x f g c text :
  (forall e, snd (f e) = Some c) -> (forall e, snd (g e) = Some c) ->
  try_parsers s_parse (at_parser P x f) text = try_parsers s_parse (at_parser P x g) text.
Proof.
  intros Hf Hg.
  assert (forall e, try_parser s_parse x (f e) text = try_parser s_parse x (g e) text) as H.
  { intros e. unfold try_parser. rewrite Hf, Hg. reflexivity. }
  induction P as [|(y, e) P IH]; simpl.
  - rewrite H. reflexivity.
  - destruct (parser_eq_dec y x) as [->|Hn]; simpl; [rewrite H|rewrite IH]; reflexivity.
Qed.

Lemma s_shadow ps p q x rest text :
  pat_tokens p = [Parser x] -> pat_tokens q = Parser x :: rest -> rest <> [] ->
  s_parse (s_adds (ps ++ [p; q])) text = s_parse (s_adds (ps ++ [q])) text /\
  s_parse (s_adds (ps ++ [q; p])) text = s_parse (s_adds (ps ++ [q])) text.
Proof.
  intros Ep Eq Hn. destruct rest as [|t rest]; [congruence|].
  change [p; q] with ([p] ++ [q]). change [q; p] with ([q] ++ [p]).
  rewrite !app_assoc, !s_adds_snoc. unfold s_add. rewrite Ep, Eq.
  cbn [s_insert is_empty lits_of pars_of]. rewrite !at_parser_compose, !s_parse_unfold.
  cbn [fst snd].
  set (c := s_insert (t :: rest) level_empty (stripped q)).
  assert (forall f g, (forall e, snd (f e) = Some c) -> (forall e, snd (g e) = Some c) ->
    try_parsers s_parse (at_parser (pars_of (s_adds ps)) x f) text =
    try_parsers s_parse (at_parser (pars_of (s_adds ps)) x g) text) as H
    by (intros f g; apply try_parsers_child).
  split;
    (destruct (try_literals s_parse _ _ text); [reflexivity|];
     destruct (lookup text _); [reflexivity|]; destruct (blocked _ text); [reflexivity|];
     apply H; reflexivity).
Qed.

Lemma trie_shadow sip ps ps' p q x rest t t' text r r' :
  pat_tokens p = [Parser x] -> pat_tokens q = Parser x :: rest -> rest <> [] ->
  ps' = ps ++ [p; q] \/ ps' = ps ++ [q; p] ->
  Forall valid_pattern ps' -> collision_free sip ps' ->
  add_patterns sip tree_new ps' = Ret t ->
  add_patterns sip tree_new (ps ++ [q]) = Ret t' ->
  utf8 text -> parse t text = Ret r -> parse t' text = Ret r' -> r = r'.
Proof.
  intros Ep Eq Hn Hor V C. destruct (s_shadow ps p q x rest text Ep Eq Hn) as (H1 & H2).
  apply trie_same; auto.
  - intros y Hy. destruct Hor as [-> | ->]; apply in_app_or in Hy; apply in_or_app; simpl in *; tauto.
  - destruct Hor as [-> | ->]; assumption.
Qed.

Lemma s_longer_literal p q l rest :
  l <> [] -> pat_tokens p = [Literal l] -> pat_tokens q = Literal l :: rest -> rest <> [] ->
  s_parse (s_adds [p; q]) l = Some (match_result_new (stripped p)).
Proof.
  intros Hl Ep Eq Hn. destruct rest as [|t rest]; [congruence|].
  change [p; q] with ([p] ++ [q]). rewrite s_adds_snoc.
  change (s_adds [p]) with (s_insert (pat_tokens p) level_empty (stripped p)). unfold s_add. rewrite Ep, Eq.
  cbn [s_insert is_empty snd fst level_empty]. rewrite (enter_unfold [] [] l).
  cbn [enter_literals upsert fst snd]. rewrite enter_unfold. cbn [enter_literals option_map keys map fst].
  cbn [upsert]. rewrite str_cmp_refl. rewrite s_parse_unfold. cbn [try_literals keys map fst].
  assert (forall ks, routes ks l l = false) as HR.
  { intros ks. destruct (routes ks l l) eqn:R; [|reflexivity]. apply routes_spec in R.
    destruct R as (_ & (r & E & Nr) & _). exfalso. apply Nr.
    apply (app_inv_head l). rewrite app_nil_r. symmetry. exact E. }
  rewrite HR. cbn [lookup]. rewrite str_eqb_refl. reflexivity.
Qed.

Lemma trie_longer_literal sip p q l rest t r :
  l <> [] -> pat_tokens p = [Literal l] -> pat_tokens q = Literal l :: rest -> rest <> [] ->
  Forall valid_pattern [p; q] -> collision_free sip [p; q] ->
  add_patterns sip tree_new [p; q] = Ret t -> parse t l = Ret r ->
  r = Some (match_result_new (stripped p)).
Proof.
  intros Hl Ep Eq Hn V C Ha Hp.
  assert (utf8 l) as Hu.
  { inversion V as [|? ? V1 _]; subst. unfold valid_pattern in V1. rewrite Ep in V1.
    inversion V1; subst. assumption. }
  apply (trie_refines sip [p; q] t l r V C Ha Hu) in Hp. rewrite Hp.
  apply (s_longer_literal p q l rest); assumption.
Qed.

(** ** Patterns sharing their first token *)
Lemma s_insert_override tok rest rest' L p q :
  rest <> [] -> rest' <> [] ->
  s_insert (tok :: rest') (s_insert (tok :: rest) L p) q = s_insert (tok :: rest') L q.
Proof.
  intros H H'. destruct rest as [|t rest]; [congruence|]. destruct rest' as [|t' rest']; [congruence|].
  destruct tok as [x|l]; cbn [s_insert is_empty lits_of pars_of].
  - rewrite at_parser_twice; reflexivity.
  - apply enter_twice. reflexivity.
Qed.

Lemma s_adds_override ps p q tok rest rest' :
  pat_tokens p = tok :: rest -> pat_tokens q = tok :: rest' -> rest <> [] -> rest' <> [] ->
  s_adds (ps ++ [p; q]) = s_adds (ps ++ [q]).
Proof.
  intros Ep Eq H H'. change [p; q] with ([p] ++ [q]). rewrite app_assoc, !s_adds_snoc. unfold s_add.
  rewrite Ep, Eq. apply s_insert_override; assumption.
Qed.

Lemma incl_drop {A} (ps : list A) p q : incl (ps ++ [q]) (ps ++ [p; q]).
Proof. intros y Hy. apply in_app_or in Hy. apply in_or_app. simpl in *. tauto. Qed.

Lemma trie_override sip ps p q tok rest rest' t t' text r r' :
  pat_tokens p = tok :: rest -> pat_tokens q = tok :: rest' -> rest <> [] -> rest' <> [] ->
  Forall valid_pattern (ps ++ [p; q]) -> collision_free sip (ps ++ [p; q]) ->
  add_patterns sip tree_new (ps ++ [p; q]) = Ret t ->
  add_patterns sip tree_new (ps ++ [q]) = Ret t' ->
  utf8 text -> parse t text = Ret r -> parse t' text = Ret r' -> r = r'.
Proof.
  intros Ep Eq H H' V C. apply trie_same; auto; [apply incl_drop|].
  rewrite (s_adds_override ps p q tok rest rest') by assumption. reflexivity.
Qed.

(** ** Witnesses *)
Ltac check := vm_compute; reflexivity.

Lemma trie_parse_panics :
  exists p t text, valid_pattern p /\ utf8 text /\
    add_pattern siphash tree_new p = Ret t /\ parse t text = Panic.
Proof.
  eexists (pat 1 [L_ ($"a")]), _, ($"¡").
  split; [apply valid_patternb_sound; check|]. split; [apply utf8b_sound; check|].
  split; [vm_compute; reflexivity|]. vm_compute. reflexivity.
Qed.

Lemma trie_add_panics :
  exists p q t, valid_pattern p /\ valid_pattern q /\
    add_pattern siphash tree_new p = Ret t /\ add_pattern siphash t q = Panic.
Proof.
  eexists (pat 1 [L_ ($"a¡")]), (pat 2 [L_ ($"a®")]), _.
  split; [apply valid_patternb_sound; check|]. split; [apply valid_patternb_sound; check|].
  split; [vm_compute; reflexivity|]. vm_compute. reflexivity.
Qed.

Lemma trie_loses_match :
  exists ps p t t' text r,
    Forall valid_pattern (ps ++ [p]) /\ Forall ascii_pattern (ps ++ [p]) /\
    collision_free siphash (ps ++ [p]) /\ ascii text = true /\
    add_patterns siphash tree_new ps = Ret t /\ add_pattern siphash t p = Ret t' /\
    parse t text = Ret (Some r) /\ parse t' text = Ret None.
Proof.
  eexists [tpat 1 ($"a%{INT:x} b")], (tpat 2 ($"a%{INT:x} c")), _, _, ($"a1 b"), _.
  split; [apply valid_patterns_sound; check|]. split; [apply ascii_patterns_sound; check|].
  split; [apply collision_freeb_sound; check|]. split; [reflexivity|].
  split; [vm_compute; reflexivity|]. split; [vm_compute; reflexivity|].
  split; vm_compute; reflexivity.
Qed.

(** Another first token is enough: its literal is a prefix of the stored one. *)
Lemma trie_drops_other :
  exists ps p0 p t t' path,
    Forall valid_pattern (ps ++ [p]) /\ Forall ascii_pattern (ps ++ [p]) /\
    Forall nonempty_literals (ps ++ [p]) /\ collision_free siphash (ps ++ [p]) /\
    In p0 ps /\ hd_error (pat_tokens p0) <> hd_error (pat_tokens p) /\
    path = flat (pat_tokens p0) /\
    add_patterns siphash tree_new ps = Ret t /\ add_pattern siphash t p = Ret t' /\
    held t path (stripped p0) /\ ~ held t' path (stripped p0).
Proof.
  pose (p0 := tpat 2 ($"almafa")).
  pose (ps := [tpat 1 ($"alma%{INT:x}"); p0]). pose (p := tpat 3 ($"alma%{SET(""z""):y}")).
  assert (Forall valid_pattern ps) as V by (apply valid_patterns_sound; check).
  assert (collision_free siphash ps) as C by (apply collision_freeb_sound; check).
  destruct (add_patterns siphash tree_new ps) as [t| |] eqn:Et; [|vm_compute in Et; discriminate..].
  destruct (add_pattern siphash t p) as [t'| |] eqn:Et'.
  2, 3: vm_compute in Et; inversion Et; subst t; vm_compute in Et'; discriminate.
  exists ps, p0, p, t, t', (flat (pat_tokens p0)).
  split; [apply valid_patterns_sound; check|]. split; [apply ascii_patterns_sound; check|].
  split.
  { repeat (apply Forall_cons; [intros l Hl; vm_compute in Hl|]); [..|apply Forall_nil];
      intuition congruence. }
  split; [apply collision_freeb_sound; check|]. split; [right; left; reflexivity|].
  split; [vm_compute; discriminate|]. split; [reflexivity|]. split; [exact Et|]. split; [exact Et'|].
  split.
  - apply (trie_holds_new siphash [tpat 1 ($"alma%{INT:x}")] p0 t V C Et). vm_compute. discriminate.
  - intros H. apply held_collect in H.
    vm_compute in Et. inversion Et; subst t. vm_compute in Et'. inversion Et'; subst t'.
    vm_compute in H. intuition congruence.
Qed.

Lemma trie_not_last :
  exists ps p t t' text r,
    Forall valid_pattern (ps ++ [p]) /\ Forall ascii_pattern (ps ++ [p]) /\
    collision_free siphash (ps ++ [p]) /\ apart (ps ++ [p]) /\ ascii text = true /\
    first_literal_fits text p = true /\
    add_patterns siphash tree_new (ps ++ [p]) = Ret t /\ parse t text = Ret (Some r) /\
    add_patterns siphash tree_new [p] = Ret t' /\ parse t' text = Ret None.
Proof.
  eexists [tpat 1 ($"a%{INT:x}")], (tpat 2 ($"a")), _, _, ($"a1"), _.
  split; [apply valid_patterns_sound; check|]. split; [apply ascii_patterns_sound; check|].
  split; [apply collision_freeb_sound; check|]. split.
  { assert (forall p l, In p ([tpat 1 ($"a%{INT:x}")] ++ [tpat 2 ($"a")]) -> starts_with p l -> l = $"a") as H.
    { intros p l [<-|[<-|[]]] (rest & E); vm_compute in E; inversion E; reflexivity. }
    split.
    - intros p [<-|[<-|[]]]; vm_compute; eexists; eexists; reflexivity.
    - intros p p' l l' Hp Hp' Hl Hl'. rewrite (H p l Hp Hl), (H p' l' Hp' Hl').
      intros r [E|E]; vm_compute in E; destruct r; [reflexivity|discriminate|reflexivity|discriminate]. }
  split; [reflexivity|]. split; [reflexivity|].
  split; [vm_compute; reflexivity|]. split; [vm_compute; reflexivity|].
  split; [vm_compute; reflexivity|]. vm_compute. reflexivity.
Qed.

Lemma trie_shadows :
  exists p q rest t t' text r,
    Forall valid_pattern [p; q] /\ Forall ascii_pattern [p; q] /\ collision_free siphash [p; q] /\
    pat_tokens q = pat_tokens p ++ rest /\ ascii text = true /\
    add_patterns siphash tree_new [p] = Ret t /\ parse t text = Ret (Some r) /\
    add_patterns siphash tree_new [p; q] = Ret t' /\ parse t' text = Ret None.
Proof.
  eexists (tpat 1 ($"%{INT:x}")), (tpat 2 ($"%{INT:x} foo")), [Literal ($" foo")], _, _, ($"12"), _.
  split; [apply valid_patterns_sound; check|]. split; [apply ascii_patterns_sound; check|].
  split; [apply collision_freeb_sound; check|]. split; [check|]. split; [reflexivity|].
  split; [vm_compute; reflexivity|]. split; [vm_compute; reflexivity|].
  split; [vm_compute; reflexivity|]. vm_compute. reflexivity.
Qed.

(** Even a pattern on its own does not match everything its tokens describe. *)
Lemma trie_incomplete :
  exists p t text caps,
    valid_pattern p /\ ascii_pattern p /\ nonempty_literals p /\ ascii text = true /\
    walk (pat_tokens p) text caps /\
    add_patterns siphash tree_new [p] = Ret t /\ parse t text = Ret None.
Proof.
  eexists (tpat 1 ($"app%{GREEDY:x}")), _, ($"app"), [(PGreedy (greedy_with_name ($"x")), [])].
  split; [apply valid_patternb_sound; check|].
  split; [apply (Forall_inv (ascii_patterns_sound [tpat 1 ($"app%{GREEDY:x}")] eq_refl))|].
  split; [intros l Hl; vm_compute in Hl; intuition congruence|]. split; [reflexivity|].
  split.
  { change (pat_tokens (tpat 1 ($"app%{GREEDY:x}"))) with
      [Literal ($"app"); Parser (PGreedy (greedy_with_name ($"x")))].
    change ($"app") with ($"app" ++ [] ++ []) at 2. apply walk_literal. apply walk_parser; [reflexivity|constructor]. }
  split; [vm_compute; reflexivity|]. vm_compute. reflexivity.
Qed.

(** Without [collision_free] a match need not be justified. *)
Lemma trie_collision_unsound :
  exists (sip : list byte -> N) ps t text r,
    Forall valid_pattern ps /\ Forall ascii_pattern ps /\ ascii text = true /\
    add_patterns sip tree_new ps = Ret t /\ parse t text = Ret (Some r) /\
    forall p caps, In p ps -> ~ walk (pat_tokens p) text caps.
Proof.
  pose (ps := [tpat 1 ($"%{INT:x}"); tpat 2 ($"%{SET(""abc""):y}!")]).
  eexists (fun _ => 0%N), ps, _, ($"12!"), _.
  split; [apply valid_patterns_sound; check|]. split; [apply ascii_patterns_sound; check|].
  split; [reflexivity|]. split; [vm_compute; reflexivity|]. split; [vm_compute; reflexivity|].
  intros p caps [<-|[<-|[]]] H.
  - change (pat_tokens (tpat 1 ($"%{INT:x}"))) with [Parser (PInt (int_with_name ($"x")))] in H.
    inversion H as [| |q toks v text' caps' Hc Hw E1 E2 E3]; subst. inversion Hw; subst.
    rewrite app_nil_r in *. subst v.
    destruct Hc as ((_ & F & _) & _). vm_compute in F.
    inversion F as [|? ? _ F1]; subst. inversion F1 as [|? ? _ F2]; subst. inversion F2 as [|? ? F3 _]; subst.
    intuition discriminate.
  - change (pat_tokens (tpat 2 ($"%{SET(""abc""):y}!"))) with
      [Parser (PSet (set_with_name ($"y") ($"abc"))); Literal ($"!")] in H.
    inversion H as [| |q toks v text' caps' Hc Hw E1 E2 E3]; subst.
    destruct Hc as ((_ & F & _) & Nv & _). destruct v as [|b v]; [congruence|].
    simpl in E2. inversion E2; subst. inversion F as [|? ? F3 _]; subst. vm_compute in F3.
    intuition discriminate.
Qed.
