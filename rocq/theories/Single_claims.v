(** * What a matcher holding one pattern matches, for all UTF-8 *)
From Verif Require Import Base Base_facts Utils Utils_facts Parsers Parsers_facts Pattern Spec Spec_trie Spec_table
  TrieSpec TrieSpec_facts TrieSpec_props TrieSpec_cases TableSpec Spec_panics Spec_table_panics
  Trie_main Trie_claims Trie_panics Panics_claims Table_refine Table_facts Table_content Table_claims Table_panics.
From Verif Require Trie SuffixArray Trie_refine Table_refine.

Lemma valid_parser_utf8 q : valid_parser q -> parser_utf8 q.
Proof. destruct q; simpl; tauto. Qed.

(** What the parser is to take is taken, or it panics. *)
Lemma capture_or_panic q text v : utf8 text -> parser_utf8 q -> captures q text v ->
  (utf8 v /\ capture q text = Some v) \/ (~ utf8 v /\ parser_parse q text = Panic).
Proof.
  intros Hu Hq Hc. destruct (parser_parse q text) as [[w|]| |] eqn:E.
  - apply parser_parse_some in E; auto. destruct E as (C & U). rewrite (captures_unique q text v w Hc C).
    left. split; [exact U|]. apply capture_complete; assumption.
  - apply (parser_parse_none q text Hu Hq) with (w := v) in E. contradiction.
  - right. split; [|reflexivity]. apply (parser_panics q text Hu Hq) in E. destruct E as (w & C & N).
    rewrite (captures_unique q text v w Hc C). exact N.
  - exfalso. exact (Trie_total.parser_parse_fuel q text E).
Qed.

(** ** The trie *)
Lemma reaches_then L l L1 l1 L2 l2 : reaches L l L1 l1 -> reaches L1 l1 L2 l2 -> reaches L l L2 l2.
Proof.
  induction 1 as [|K P k po c l L' l' Hk R H IH]; intros H2; [exact H2|].
  apply (reaches_below K P k po c); auto.
Qed.

Lemma parse_panics_below L l L1 l1 : reaches L l L1 l1 -> parse_panics L1 l1 -> parse_panics L l.
Proof.
  intros R H. destruct H as [L1 l1 K P l2 R2 S|L1 l1 K A q e B l2 R2 NL T E|L1 l1 K A q po c B l2 v R2 NL T E H].
  - apply (pp_literal L l K P l2); [|exact S]. apply (reaches_then L l L1 l1); assumption.
  - apply (pp_parser L l K A q e B l2); auto. apply (reaches_then L l L1 l1); assumption.
  - apply (pp_below L l K A q po c B l2 v); auto. apply (reaches_then L l L1 l1); assumption.
Qed.

Lemma no_literal_nil l : no_literal [] l.
Proof. split; [intros k po c []|]. split; [intros []|reflexivity]. Qed.

Lemma routes_one k r : k <> [] -> r <> [] -> routes [k] k (k ++ r) = true.
Proof.
  intros Nk Nr. apply routes_spec. split; [exact Nk|]. split; [exists r; auto|].
  intros k' [<-|[]]. destruct (proper_prefixb k k) eqn:E; [|reflexivity].
  apply proper_prefixb_spec in E. destruct E as (r0 & E & N). exfalso. apply N.
  apply (app_inv_head k). rewrite app_nil_r. symmetry. exact E.
Qed.

Lemma chain_reads toks p text caps :
  trie_walk toks text caps -> Forall valid_token toks -> utf8 text ->
  (exists r, s_parse (s_insert toks level_empty p) text = Some r) \/
  parse_panics (s_insert toks level_empty p) text.
Proof.
  induction 1 as [l|q v Hc|l toks text caps Nt Nl Nx Hw IH|q toks v text caps Nt Hc Hw IH]; intros HF Hu.
  - left. rewrite chain_literal, s_parse_found. simpl. eauto.
  - left. inversion HF as [|? ? H0 _]; subst. apply valid_parser_utf8 in H0.
    assert (capture q v = Some v) as Ec by (apply capture_complete; assumption).
    rewrite chain_parser, s_parse_unfold.
    cbn [try_literals keys map lookup blocked existsb try_parsers].
    unfold try_parser. rewrite Ec, skipn_all. cbn [put is_empty snd fst option_map]. eauto.
  - inversion HF as [|? ? H1 H2]; subst. simpl in H1.
    rewrite chain_literal. unfold put. destruct toks as [|t2 toks]; [congruence|].
    cbn [is_empty fst snd]. rewrite s_parse_single_down by assumption.
    destruct IH as [R|P]; [exact H2|apply (utf8_app_inv_r l); assumption|left; exact R|right].
    apply (parse_panics_below _ _ _ _) with (2 := P).
    apply (reaches_below _ _ l None (s_insert (t2 :: toks) level_empty p)).
    + left. reflexivity.
    + apply routes_one; assumption.
    + rewrite skipn_app, skipn_all, Nat.sub_diag. constructor.
  - inversion HF as [|? ? H0 H3]; subst. apply valid_parser_utf8 in H0. rewrite chain_parser.
    destruct (capture_or_panic q (v ++ text) v Hu H0 Hc) as [(Hv & Ec)|(_ & Ep)].
    + rewrite s_parse_unfold. cbn [try_literals keys map lookup blocked existsb try_parsers].
      unfold try_parser. rewrite Ec, skipn_app, skipn_all, Nat.sub_diag. simpl app. cbn [skipn].
      unfold put. destruct toks as [|t2 toks]; [congruence|]. cbn [is_empty fst snd].
      destruct IH as [(r & ->)|P]; [exact H3|apply (utf8_app_inv_r v); assumption|left; simpl; eauto|right].
      apply (pp_below _ _ [] [] q None (s_insert (t2 :: toks) level_empty p) [] (v ++ text) v).
      * constructor.
      * apply no_literal_nil.
      * reflexivity.
      * exact Ec.
      * rewrite skipn_app, skipn_all, Nat.sub_diag. exact P.
    + right. apply (pp_parser _ _ [] [] q (put toks p (None, None)) [] (v ++ text)); auto.
      * constructor.
      * apply no_literal_nil.
Qed.

Lemma s_parse_one p text :
  valid_pattern p -> utf8 text -> ~ parse_panics (s_adds [p]) text ->
  match s_parse (s_adds [p]) text with
  | Some r => mr_pattern r = stripped p /\
              exists caps, trie_walk (pat_tokens p) text caps /\ reports caps (mr_values r)
  | None => forall caps, ~ trie_walk (pat_tokens p) text caps
  end.
Proof.
  intros V Hu NP. change (s_adds [p]) with (s_insert (pat_tokens p) level_empty (stripped p)) in *.
  destruct (s_parse (s_insert (pat_tokens p) level_empty (stripped p)) text) as [r|] eqn:E.
  - apply s_parse_chain_sound in E. destruct E as (E1 & caps & Hw & Hv). split; [exact E1|].
    exists caps. split; [exact Hw|apply good_reports; exact Hv].
  - intros caps Hw. destruct (chain_reads _ (stripped p) _ _ Hw V Hu) as [(r & Hr)|P]; [congruence|contradiction].
Qed.

Lemma trie_one sip p t text r :
  valid_pattern p -> collision_free sip [p] -> Trie.add_patterns sip Trie.tree_new [p] = Ret t ->
  utf8 text -> Trie.parse t text = Ret r ->
  match r with
  | Some r => mr_pattern r = stripped p /\
              exists caps, trie_walk (pat_tokens p) text caps /\ reports caps (mr_values r)
  | None => forall caps, ~ trie_walk (pat_tokens p) text caps
  end.
Proof.
  intros V C Ha Hu Hp. assert (Forall valid_pattern [p]) as V1 by (constructor; [exact V|constructor]).
  destruct (matching_panics sip [p] t text V1 C Ha Hu) as (P & _).
  rewrite (trie_refines sip [p] t text r V1 C Ha Hu Hp). apply s_parse_one; [exact V|exact Hu|].
  intros H. apply P in H. congruence.
Qed.

(** Among patterns that begin with incomparable literals, what panics for the one
    that fits panics for all. *)
Lemma parse_panics_apart ps p text :
  apart ps -> filter (first_literal_fits text) ps = [p] -> utf8 text ->
  (exists caps, trie_walk (pat_tokens p) text caps) -> valid_pattern p ->
  s_parse (s_adds [p]) text = None -> parse_panics (s_adds ps) text.
Proof.
  intros HA EF Hu (caps & Hw) V HN.
  assert (In p ps /\ first_literal_fits text p = true) as (Hi & Hf).
  { apply filter_In. rewrite EF. left. reflexivity. }
  destruct (proj1 HA p Hi) as (l & rest & Et).
  change (s_adds [p]) with (s_insert (pat_tokens p) level_empty (stripped p)) in HN.
  pose proof (s_adds_apart (fun k => prefixb k text) ps HA) as (HP & _ & HK & HG).
  change (lift (fun k => prefixb k text)) with (first_literal_fits text) in HG. rewrite EF in HG.
  change (s_adds [p]) with (s_insert (pat_tokens p) level_empty (stripped p)) in HG.
  unfold valid_pattern in V. rewrite Et in *. rewrite chain_literal in HG, HN. cbn [lits_of] in HG.
  inversion Hw as [| |l0 toks text0 caps0 Nt Nl Nx Hw0|]; subst.
  - rewrite s_parse_found in HN. discriminate.
  - inversion V as [|? ? Vl Vr]; subst. simpl in Vl.
    unfold put in HN, HG. destruct rest as [|t2 rest]; [congruence|]. cbn [is_empty fst snd] in HN, HG.
    rewrite s_parse_single_down in HN by assumption.
    assert (utf8 text0) as Hu0 by (apply (utf8_app_inv_r l); assumption).
    destruct (chain_reads _ (stripped p) _ _ Hw0 Vr Hu0) as [(r & Hr)|P]; [congruence|].
    set (c := s_insert (t2 :: rest) level_empty (stripped p)) in *.
    assert (In (l, (None, Some c)) (lits_of (s_adds ps))) as Hk.
    { assert (In (l, (None, Some c)) (sel (fun k => prefixb k (l ++ text0)) (lits_of (s_adds ps)))) as H
        by (rewrite HG; left; reflexivity).
      unfold sel in H. apply filter_In in H. apply H. }
    destruct (s_adds ps) as [K P0]. cbn [lits_of] in *.
    apply (parse_panics_below _ _ c text0); [|exact P].
    apply (reaches_below _ _ l None c).
    + exact Hk.
    + apply routes_spec. split; [exact Nl|]. split; [exists text0; auto|].
      intros k Hk'. apply incomparable_proper. destruct (HK k Hk') as (p' & Hp' & Hs').
      apply (proj2 HA p p'); auto. exists (t2 :: rest). exact Et.
    + rewrite skipn_app, skipn_all, Nat.sub_diag. constructor.
Qed.

Lemma trie_apart_fits sip ps t p text r :
  Forall valid_pattern ps -> collision_free sip ps -> apart ps ->
  Trie.add_patterns sip Trie.tree_new ps = Ret t -> utf8 text ->
  filter (first_literal_fits text) ps = [p] ->
  Trie.parse t text = Ret r ->
  match r with
  | Some r => mr_pattern r = stripped p /\
              exists caps, trie_walk (pat_tokens p) text caps /\ reports caps (mr_values r)
  | None => forall caps, ~ trie_walk (pat_tokens p) text caps
  end.
Proof.
  intros V C A Ha Hu E Hp.
  destruct (matching_panics sip ps t text V C Ha Hu) as (P & _).
  rewrite (trie_refines sip ps t text r V C Ha Hu Hp), s_parse_apart, E by exact A.
  assert (valid_pattern p) as Vp.
  { rewrite Forall_forall in V. apply V. apply (filter_incl (first_literal_fits text)). rewrite E. left. reflexivity. }
  destruct (s_parse (s_adds [p]) text) as [r'|] eqn:Es.
  - change (s_adds [p]) with (s_insert (pat_tokens p) level_empty (stripped p)) in Es.
    apply s_parse_chain_sound in Es. destruct Es as (E1 & caps & Hw & Hv). split; [exact E1|].
    exists caps. split; [exact Hw|apply good_reports; exact Hv].
  - intros caps Hw. assert (Trie.parse t text = Panic); [|congruence]. apply P.
    apply (parse_panics_apart ps p); eauto.
Qed.

(** ** The table *)
Lemma tchain_reads toks p text caps :
  table_walk toks text caps -> Forall valid_token toks -> utf8 text ->
  (exists r, t_parse (t_insert toks level_empty p) text = Some r) \/
  table_panics (t_insert toks level_empty p) text.
Proof.
  induction 1 as [l text Hp|q v Hc|l toks w text caps Nt Hl Nx Hw IH|q toks v text caps Nt Hc Hw IH]; intros HF Hu.
  - left. inversion HF as [|? ? H1 _]; subst. simpl in H1.
    rewrite t_insert_unfold. cbn [lits_of pars_of level_empty upsert]. rewrite t_parse_unfold, nearest_one.
    cbv zeta. assert (common_prefix_len l text = length text) as ->.
    { rewrite cpl_sym by assumption. apply Trie_refine.cpl_prefix; auto. apply prefixb_app. exact Hp. }
    rewrite Nat.eqb_refl. cbn. eauto.
  - left. inversion HF as [|? ? H0 _]; subst. apply valid_parser_utf8 in H0.
    rewrite t_insert_unfold. cbn [lits_of pars_of level_empty at_parser]. rewrite t_parse_unfold. cbn [nearest filter last_opt hd_error].
    cbn [try_parsers]. unfold try_parser.
    rewrite (capture_complete q v v Hu H0 Hu Hc), skipn_all. cbn. eauto.
  - inversion HF as [|? ? H1 H2]; subst. simpl in H1. pose proof Hl as (Uw & _).
    rewrite t_insert_unfold. cbn [lits_of pars_of level_empty upsert].
    destruct (cpl_longest l (w ++ text) H1 Hu) as (w' & Ew & Hw').
    rewrite (longest_common_chars_unique _ _ _ _ Hw' Hl) in Ew.
    assert (length w <> length (w ++ text)) as Nw.
    { rewrite app_length. destruct text; [congruence|simpl; lia]. }
    unfold tput. destruct toks as [|t2 toks]; [congruence|]. cbn [is_empty snd].
    destruct IH as [(r & Hr)|P]; [exact H2|apply (utf8_app_inv_r w text Uw Hu)| |].
    + left. exists r. rewrite t_parse_unfold, nearest_one. cbv zeta. rewrite <- Ew.
      destruct (Nat.eqb_spec (length w) (length (w ++ text))); [contradiction|].
      cbn [snd]. rewrite skipn_app, skipn_all, Nat.sub_diag. exact Hr.
    + right. eapply tp_literal; [apply nearest_one| |]; rewrite <- Ew; [exact Nw|].
      rewrite skipn_app, skipn_all, Nat.sub_diag. exact P.
  - inversion HF as [|? ? H0 H3]; subst. apply valid_parser_utf8 in H0.
    rewrite t_insert_unfold. cbn [lits_of pars_of level_empty at_parser].
    destruct (capture_or_panic q (v ++ text) v Hu H0 Hc) as [(Hv & Ec)|(Nv & _)].
    + unfold tput. destruct toks as [|t2 toks]; [congruence|]. cbn [is_empty fst snd].
      destruct IH as [(r & Hr)|P]; [exact H3|apply (utf8_app_inv_r v); assumption| |].
      * left. rewrite t_parse_unfold. cbn [nearest filter last_opt hd_error try_parsers].
        unfold try_parser. rewrite Ec, skipn_app, skipn_all, Nat.sub_diag. simpl app. cbn [skipn snd].
        rewrite Hr. simpl. eauto.
      * right. eapply (tp_below [] q); [reflexivity|exact Hc|exact Hv|].
        rewrite skipn_app, skipn_all, Nat.sub_diag. exact P.
    + right. apply (tp_parser [] q); [reflexivity|]. exists v. auto.
Qed.

Lemma table_one sip p t text r :
  valid_pattern p -> collision_free sip [p] ->
  SuffixArray.add_patterns sip SuffixArray.table_new [p] = Ret t ->
  utf8 text -> SuffixArray.parse t text = Ret r ->
  match r with
  | Some r => mr_pattern r = stripped p /\
              exists caps, table_walk (pat_tokens p) text caps /\ reports caps (mr_values r)
  | None => forall caps, ~ table_walk (pat_tokens p) text caps
  end.
Proof.
  intros V C E Hu H. assert (Forall valid_pattern [p]) as V1 by (constructor; [exact V|constructor]).
  destruct r as [r|].
  - destruct (table_sound sip [p] t text r V1 C E Hu H) as (p0 & caps & [<-|[]] & E1 & E2 & E3). eauto.
  - intros caps Hw. pose proof (table_refines sip [p] t text _ V1 C E Hu H) as H1.
    change (t_adds [p]) with (t_insert (pat_tokens p) level_empty (stripped p)) in H1.
    destruct (tchain_reads _ (stripped p) _ _ Hw V Hu) as [(r & Hr)|P]; [congruence|].
    destruct (table_matching_panics sip [p] V1 C) as (t0 & E0 & M). rewrite E in E0. inversion E0; subst t0.
    destruct (M text Hu) as (M1 & _). apply M1 in P. congruence.
Qed.
