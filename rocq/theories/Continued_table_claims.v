(** * Continued messages in the suffix table *)
From Verif Require Import Base Base_facts Utils Utils_facts Parsers Parsers_facts Pattern Spec Spec_grammar Spec_table Spec_trie Spec_live Spec_separate Separate_claims Separate_tests
  Grammar Grammar_claims TrieSpec_cases Single_claims Table_claims Live_claims Fill_claims Spec_continued Continued_claims Join_claims.
From Verif Require Trie SuffixArray.

Lemma common_extend l w text z : longest_common_chars l (w ++ text) w -> utf8 text -> text <> [] ->
  longest_common_chars l (w ++ text ++ z) w.
Proof.
  intros (U & P & _ & M) Ut Nt. split; [exact U|]. split; [exact P|]. split; [exists (text ++ z); reflexivity|].
  intros w' U' P' Q. destruct (Nat.le_gt_cases (length w') (length w)) as [L|L]; [exact L|exfalso].
  destruct (prefix_comparable w w' (w ++ text ++ z)) as (y & ->); [exists (text ++ z); reflexivity|exact Q|lia|].
  pose proof (utf8_app_inv_r _ _ U U') as Uy. destruct Q as (r & E). rewrite <- !app_assoc in E. apply app_inv_head in E.
  inversion Uy as [Ey|c y' Hc Uy' Ey]; subst y; [rewrite app_nil_r in L; lia|].
  inversion Ut as [Et|d t' Hd Ut' Et]; subst text; [congruence|].
  assert (c = d) as <-. { apply (utf8_char_prefix c d (y' ++ r) (t' ++ z)); [assumption..|]. rewrite <- !app_assoc in E. symmetry. exact E. }
  assert (length (w ++ c) <= length w) as B.
  { apply M.
    - apply utf8_app; [exact U|]. rewrite <- (app_nil_r c). constructor; [exact Hc|constructor].
    - destruct P' as (r' & ->). exists (y' ++ r'). rewrite <- !app_assoc. reflexivity.
    - exists t'. apply app_assoc. }
  rewrite app_length in B. pose proof (utf8_char_nonempty c Hc). destruct c; [congruence|simpl in B; lia].
Qed.

Lemma table_ends ts text caps : table_walk ts text caps -> forall a q, ts = a ++ [Parser q] -> exists c v, caps = c ++ [(q, v)].
Proof.
  induction 1 as [l text P|q0 v C|l ts w text caps N0 Nl Nt W IH|q0 ts v text caps N0 C W IH]; intros a q E.
  - destruct a as [|? [|]]; discriminate.
  - destruct a as [|? [|]]; [|discriminate..]. injection E as <-. exists [], v. reflexivity.
  - destruct a as [|? a]; [discriminate|]. injection E as _ E. exact (IH a q E).
  - destruct a as [|? a]; [injection E as _ E; congruence|]. injection E as _ E. destruct (IH a q E) as (c & v' & ->). exists ((q0, v) :: c), v'. reflexivity.
Qed.
Lemma table_value_short ts text caps : table_walk ts text caps -> forall q v, In (q, v) caps -> text = [] -> v = [].
Proof.
  induction 1 as [l text P|q0 v0 C|l ts w text caps N0 Nl Nt W IH|q0 ts v0 text caps N0 C W IH]; intros q v J E.
  - destruct J.
  - destruct J as [J|[]]. congruence.
  - apply app_eq_nil in E. destruct E as (_ & E). contradiction.
  - apply app_eq_nil in E. destruct E as (-> & ->). destruct J as [J|J]; [congruence|]. exact (IH q v J eq_refl).
Qed.
Lemma rest_utf8 q v text : utf8 (v ++ text) -> valid_token (Parser q) -> parser_ascii_set q -> captures q (v ++ text) v -> utf8 text.
Proof.
  intros U V A C. apply (utf8_app_inv_r v); [|exact U]. apply (captures_ascii_utf8 q (v ++ text)); [exact U| |exact A|exact C].
  destruct q; [exact Logic.I..|]. apply V.
Qed.

Lemma table_walk_continued ts text caps : table_walk ts text caps ->
  forall a q c v w caps', ts = a ++ [Parser q] -> caps = c ++ [(q, v)] -> v <> [] -> utf8 text -> Forall valid_token ts ->
    (forall q, In (Parser q) ts -> parser_ascii_set q) -> table_walk ts (text ++ w) caps' -> caps' = c ++ [(q, v ++ w)].
Proof.
  induction 1 as [l text P|q0 v0 C|l ts w0 text caps N0 Nl Nt W IH|q0 ts v0 text caps N0 C W IH]; intros a q c v w caps' E Ec Nv U V A W2.
  - destruct c; discriminate.
  - destruct c as [|? c]; [|destruct c; discriminate]. injection Ec as <- <-. inversion W2; subst; [reflexivity|congruence].
  - destruct a as [|? a]; [discriminate|]. injection E as _ E. inversion V; subst.
    pose proof (utf8_app_inv_r _ _ (proj1 Nl) U) as Ut.
    inversion W2 as [| |l2 toks2 w2 text2 caps2 N2 Nl2 Nt2 W2' E1 E2|]; subst.
    { destruct a; discriminate. }
    rewrite <- app_assoc in E2. rewrite E2 in Nl2. pose proof (longest_common_chars_unique _ _ _ _ Nl2 (common_extend _ _ _ w Nl Ut Nt)) as ->.
    apply app_inv_head in E2. subst text2.
    apply (IH a q c v w caps' eq_refl eq_refl Nv Ut); [assumption|intros z J; apply A; right; exact J|exact W2'].
  - destruct a as [|? a]; [injection E as _ E; congruence|]. injection E as _ E. inversion V as [|? ? V1 V2]; subst.
    pose proof (rest_utf8 q0 v0 text U V1 (A q0 (or_introl eq_refl)) C) as Ut.
    destruct c as [|? c]; [injection Ec as _ _ ->; destruct (table_ends _ _ _ W a q eq_refl) as ([|] & ? & Z); discriminate Z|].
    injection Ec as <- ->.
    assert (text <> []) as Nt. { intros ->. apply Nv. apply (table_value_short _ _ _ W q v); [|reflexivity]. apply in_app_iff. right. left. reflexivity. }
    inversion W2 as [| | |q2 toks2 v2 text2 caps2 N2 C2 W2' E1 E2]; subst; [destruct a; discriminate|].
    rewrite <- app_assoc in E2. rewrite E2 in C2. pose proof (captures_unique _ _ _ _ C2 (captures_extend q0 v0 text w Nt C)) as ->.
    apply app_inv_head in E2. subst text2. cbn [app]. f_equal.
    apply (IH a q c v w caps2 eq_refl eq_refl Nv Ut V2); [intros z J; apply A; right; exact J|exact W2'].
Qed.

Lemma table_walk_open ts text caps : table_walk ts text caps ->
  forall a g c v w, ts = a ++ [Parser (PGreedy g)] -> caps = c ++ [(PGreedy g, v)] -> gp_end_string g = None -> v <> [] -> utf8 text -> Forall valid_token ts ->
    (forall q, In (Parser q) ts -> parser_ascii_set q) -> table_walk ts (text ++ w) (c ++ [(PGreedy g, v ++ w)]).
Proof.
  induction 1 as [l text P|q0 v0 C|l ts w0 text caps N0 Nl Nt W IH|q0 ts v0 text caps N0 C W IH]; intros a g c v w E Ec Eg Nv U V A.
  - destruct c; discriminate.
  - destruct c as [|? c]; [|destruct c; discriminate]. injection Ec as -> ->. cbn [app]. apply bw_parser_last. cbn. unfold greedy_captures. rewrite Eg. reflexivity.
  - destruct a as [|? a]; [discriminate|]. injection E as _ E. inversion V; subst.
    pose proof (utf8_app_inv_r _ _ (proj1 Nl) U) as Ut. rewrite <- app_assoc.
    apply bw_literal; [exact N0|exact (common_extend _ _ _ w Nl Ut Nt)|destruct text; [congruence|discriminate]|].
    apply (IH a g c v w eq_refl eq_refl Eg Nv Ut); [assumption|intros z J; apply A; right; exact J].
  - destruct a as [|? a]; [injection E as _ E; congruence|]. injection E as _ E. inversion V as [|? ? V1 V2]; subst.
    pose proof (rest_utf8 q0 v0 text U V1 (A q0 (or_introl eq_refl)) C) as Ut.
    destruct c as [|? c]; [injection Ec as _ _ ->; destruct (table_ends _ _ _ W a _ eq_refl) as ([|] & ? & Z); discriminate Z|].
    injection Ec as <- ->.
    assert (text <> []) as Nt. { intros ->. apply Nv. apply (table_value_short _ _ _ W (PGreedy g) v); [|reflexivity]. apply in_app_iff. right. left. reflexivity. }
    rewrite <- app_assoc. cbn [app]. apply bw_parser; [exact N0|exact (captures_extend q0 v0 text w Nt C)|].
    apply (IH a g c v w eq_refl eq_refl Eg Nv Ut V2). intros z J; apply A; right; exact J.
Qed.

Theorem table_continued sip p t q text w r r' :
  valid_pattern p -> (forall z, In (Parser z) (pat_tokens p) -> parser_ascii_set z) -> collision_free sip [p] ->
  SuffixArray.add_patterns sip SuffixArray.table_new [p] = Ret t -> ends_with p (Parser q) ->
  utf8 text -> utf8 (text ++ w) -> SuffixArray.parse t text = Ret (Some r) -> SuffixArray.parse t (text ++ w) = Ret (Some r') ->
  exists c v, table_walk (pat_tokens p) text (c ++ [(q, v)]) /\ reports (c ++ [(q, v)]) (mr_values r) /\
    (v <> [] -> reports (c ++ [(q, v ++ w)]) (mr_values r')).
Proof.
  intros V A F At (a & Ea) U Uw E E'. destruct (table_one sip p t text (Some r) V F At U E) as (_ & caps & W & R).
  destruct (table_one sip p t _ (Some r') V F At Uw E') as (_ & caps' & W' & R').
  destruct (table_ends _ _ _ W a q Ea) as (c & v & ->). exists c, v. split; [exact W|]. split; [exact R|]. intros Nv.
  rewrite <- (table_walk_continued _ _ _ W a q c v w caps' Ea eq_refl Nv U V A W'). exact R'.
Qed.
Theorem table_open sip p t text w c g v o :
  valid_pattern p -> (forall z, In (Parser z) (pat_tokens p) -> parser_ascii_set z) -> collision_free sip [p] ->
  SuffixArray.add_patterns sip SuffixArray.table_new [p] = Ret t -> utf8 text -> utf8 (text ++ w) ->
  ends_with p (Parser (PGreedy g)) -> gp_end_string g = None -> table_walk (pat_tokens p) text (c ++ [(PGreedy g, v)]) -> v <> [] ->
  SuffixArray.parse t (text ++ w) = Ret o -> exists r, o = Some r /\ mr_pattern r = stripped p /\ reports (c ++ [(PGreedy g, v ++ w)]) (mr_values r).
Proof.
  intros V A F At U Uw (a & Ea) Eg W Nv E. pose proof (table_walk_open _ _ _ W a g c v w Ea eq_refl Eg Nv U V A) as W'.
  pose proof (table_one sip p t _ o V F At Uw E) as Q. destruct o as [r|]; [|destruct (Q _ W')]. destruct Q as (Ep & caps & W2 & R).
  rewrite (table_walk_unique _ _ _ W2 _ W') in R. eauto.
Qed.
Theorem separate_table_open sip ps t p text w c g v :
  Forall valid_pattern ps -> (forall q, parser_in ps q -> parser_ascii_set q) -> separate ps ->
  SuffixArray.add_patterns sip SuffixArray.table_new ps = Ret t -> utf8 (text ++ w) ->
  In p ps -> ends_with p (Parser (PGreedy g)) -> gp_end_string g = None -> trie_walk (pat_tokens p) text (c ++ [(PGreedy g, v)]) -> v <> [] ->
  exists r, SuffixArray.parse t (text ++ w) = Ret (Some r) /\ mr_pattern r = stripped p /\ reports (c ++ [(PGreedy g, v ++ w)]) (mr_values r).
Proof.
  intros V A S At U J (a & Ea) Eg W Nv. pose proof (walk_open _ _ _ W c (PGreedy g) g v w eq_refl eq_refl Eg Nv (ex_intro _ a Ea)) as W'.
  exact (separate_table sip ps t (text ++ w) p _ V A S At U J W').
Qed.
