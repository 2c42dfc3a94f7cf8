(** * What a trie of one pattern does with its messages, for all UTF-8 *)
From Verif Require Import Base Base_facts Utils Utils_facts Parsers Parsers_facts Pattern Spec Spec_trie Spec_table Spec_live
  TrieSpec TrieSpec_facts TrieSpec_props TrieSpec_cases Spec_panics Trie_total Trie_main Trie_claims Trie_panics Panics_claims
  Single_claims Grammar Grammar_claims Table_claims Live_claims.
From Verif Require Trie SuffixArray.

Definition narrow (ts : list token) : Prop := forall l, In (Literal l) ts -> wide l = false.

Lemma wide_app l s : l <> [] -> wide (l ++ s) = wide l.
Proof. destruct l; [contradiction|reflexivity]. Qed.

Lemma stuck_one l text : stuck [l] text -> wide text = true \/ wide l = true.
Proof.
  intros (w & r & k & s & F & -> & Nr & [<-|[]] & E & Ns & H). destruct F as [->|(k1 & k2 & I1 & I2 & N & _)].
  - simpl in E. subst s. exact H.
  - exfalso. destruct I1 as [<-|[]], I2 as [<-|[]]. congruence.
Qed.
Lemma stuck_first l text : l <> [] -> text <> [] -> wide l = true -> stuck [l] text.
Proof.
  intros Nl Nt H. exists [], text, l, l. split; [left; reflexivity|]. split; [reflexivity|]. split; [exact Nt|].
  split; [left; reflexivity|]. split; [reflexivity|]. split; [exact Nl|right; exact H].
Qed.

Lemma one_literal_panics l po o text : parse_panics (Level [(l, (po, o))] []) text ->
  stuck [l] text \/ exists c, o = Some c /\ parse_panics c (skipn (length l) text).
Proof.
  intros H. assert (forall L' l', reaches (Level [(l, (po, o))] []) text L' l' ->
     (L' = Level [(l, (po, o))] [] /\ l' = text) \/ exists c, o = Some c /\ reaches c (skipn (length l) text) L' l') as Hr.
  { intros L' l' R. inversion R as [|K P k po' c t L0 l0 Hin Hk R']; subst; [left; auto|right].
    destruct Hin as [E|[]]. injection E as <- <- ->. exists c. auto. }
  inversion H as [L0 t0 K0 P0 l0 R S|L0 t0 K0 A q e B l0 R NL T E|L0 t0 K0 A q po' c' B l0 v R NL T E X]; subst;
    destruct (Hr _ _ R) as [(EL & ->)|(c & -> & R')].
  - injection EL as -> ->. left. exact S.
  - right. exists c. split; [reflexivity|]. eapply pp_literal; eassumption.
  - injection EL as _ EL. destruct A; discriminate.
  - right. exists c. split; [reflexivity|]. eapply pp_parser; eassumption.
  - injection EL as _ EL. destruct A; discriminate.
  - right. exists c. split; [reflexivity|]. eapply pp_below; eassumption.
Qed.

Lemma one_parser_panics q po o text : parse_panics (Level [] [(q, (po, o))]) text ->
  parser_parse q text = Panic \/
  exists c v, o = Some c /\ capture q text = Some v /\ parse_panics c (skipn (length v) text).
Proof.
  intros H. assert (forall L' l', reaches (Level [] [(q, (po, o))]) text L' l' ->
     L' = Level [] [(q, (po, o))] /\ l' = text) as Hr.
  { intros L' l' R. inversion R as [|K P k po' c t L0 l0 Hin Hk R']; subst; [auto|destruct Hin]. }
  inversion H as [L0 t0 K0 P0 l0 R S|L0 t0 K0 A q' e B l0 R NL T E|L0 t0 K0 A q' po' c' B l0 v R NL T E X]; subst;
    destruct (Hr _ _ R) as (EL & ->).
  - injection EL as -> ->. destruct S as (w & r & k & s & _ & _ & _ & [] & _).
  - injection EL as -> EL. destruct A as [|x [|y A]]; simpl in EL; try discriminate. injection EL as -> -> _. left. exact E.
  - injection EL as -> EL. destruct A as [|x [|y A]]; simpl in EL; try discriminate. injection EL as -> -> <- _.
    right. exists c', v. auto.
Qed.

Lemma chain_panics toks p text caps :
  trie_walk toks text caps -> Forall valid_token toks -> (forall q, In (Parser q) toks -> parser_ascii_set q) -> utf8 text ->
  (parse_panics (s_insert toks level_empty p) text <-> exists l, In (Literal l) toks /\ wide l = true).
Proof.
  induction 1 as [l|q v Hc|l toks text caps Nt Nl Nx Hw IH|q toks v text caps Nt Hc Hw IH]; intros HF Hs Hu.
  - rewrite chain_literal. split.
    + intros H. apply one_literal_panics in H. destruct H as [H|(c & E & _)]; [|discriminate].
      exists l. split; [left; reflexivity|]. apply stuck_one in H. tauto.
    + intros (l' & [E|[]] & H). injection E as <-. assert (l <> []) as N by (intros ->; discriminate).
      apply (pp_literal _ _ [(l, put [] p (None, None))] [] l); [constructor|]. apply stuck_first; assumption.
  - rewrite chain_parser. split.
    + intros H. apply one_parser_panics in H. destruct H as [H|(c & w & E & _)]; [exfalso|discriminate].
      inversion HF as [|? ? H0 _]; subst. apply valid_parser_utf8 in H0.
      destruct (parser_parse_total q v Hu H0 (Hs q (or_introl eq_refl))) as (o & Eo). congruence.
    + intros (l & [E|[]] & _). discriminate.
  - inversion HF as [|? ? H1 H2]; subst. simpl in H1. specialize (IH H2 (fun q Hq => Hs q (or_intror Hq))).
    assert (utf8 text) as Hu' by (apply (utf8_app_inv_r l); assumption). specialize (IH Hu').
    rewrite chain_literal. unfold put. destruct toks as [|t2 toks]; [congruence|]. cbn [is_empty fst snd].
    assert (skipn (length l) (l ++ text) = text) as Sk by (rewrite skipn_app, skipn_all, Nat.sub_diag; reflexivity).
    split.
    + intros H. apply one_literal_panics in H. destruct H as [H|(c & E & H)].
      * exists l. split; [left; reflexivity|]. apply stuck_one in H. rewrite wide_app in H by exact Nl. tauto.
      * injection E as <-. rewrite Sk in H. apply IH in H. destruct H as (l' & I & H). exists l'. split; [right; exact I|exact H].
    + intros (l' & [E|I] & H).
      * injection E as <-. eapply pp_literal; [constructor|]. apply stuck_first; try assumption.
        intros E. apply app_eq_nil in E. tauto.
      * apply (parse_panics_below _ _ (s_insert (t2 :: toks) level_empty p) text); [|apply IH; exists l'; auto].
        apply (reaches_below _ _ l None (s_insert (t2 :: toks) level_empty p)); [left; reflexivity|apply routes_one; assumption|].
        rewrite Sk. constructor.
  - inversion HF as [|? ? H0 H3]; subst. apply valid_parser_utf8 in H0.
    destruct (capture_or_panic q (v ++ text) v Hu H0 Hc) as [(Hv & Ec)|(_ & Ep)].
    2:{ exfalso. destruct (parser_parse_total q _ Hu H0 (Hs q (or_introl eq_refl))) as (o & Eo). congruence. }
    specialize (IH H3 (fun q0 Hq => Hs q0 (or_intror Hq)) (utf8_app_inv_r v text Hv Hu)).
    assert (skipn (length v) (v ++ text) = text) as Sk by (rewrite skipn_app, skipn_all, Nat.sub_diag; reflexivity).
    rewrite chain_parser. unfold put. destruct toks as [|t2 toks]; [congruence|]. cbn [is_empty fst snd]. split.
    + intros H. apply one_parser_panics in H. destruct H as [H|(c & w & E & Ew & H)].
      * exfalso. unfold capture in Ec. rewrite H in Ec. discriminate.
      * injection E as <-. rewrite Ec in Ew. injection Ew as <-. rewrite Sk in H. apply IH in H.
        destruct H as (l' & I & H). exists l'. split; [right; exact I|exact H].
    + intros (l' & [E|I] & H); [discriminate|].
      apply (pp_below _ _ [] [] q None (s_insert (t2 :: toks) level_empty p) [] (v ++ text) v);
        [constructor|apply no_literal_nil|reflexivity|exact Ec|].
      rewrite Sk. apply IH. exists l'. auto.
Qed.

Lemma one_added sip p : valid_pattern p -> collision_free sip [p] -> exists t, Trie.add_patterns sip Trie.tree_new [p] = Ret t.
Proof.
  intros V C. destruct (adding_panics sip [p] ltac:(constructor; [exact V|constructor]) C) as (P & R).
  apply R. intros H. apply P in H. destruct H as (A & p' & B & E & l & rest & Et & H).
  destruct A as [|x A]; [|destruct A; discriminate]. clear - H.
  change (s_adds []) with (Level [] []) in H.
  assert (forall l L' l', reaches (Level [] []) l L' l' -> L' = Level [] []) as Hr.
  { intros l0 L' l' R. inversion R as [|? ? k po c ? ? ? Hin]; subst; [auto|destruct Hin]. }
  inversion H as [L t K P l0 R S|L t K P l0 R _ S]; subst; apply Hr in R; injection R as -> ->.
  - destruct S as (w & r & k & s & _ & _ & _ & [] & _).
  - destruct S as (k & w & a & s & [] & _).
Qed.

(** ** C149 *)
Theorem own_messages sip p : valid_pattern p -> (forall q, In (Parser q) (pat_tokens p) -> parser_ascii_set q) ->
  collision_free sip [p] ->
  exists t, Trie.add_patterns sip Trie.tree_new [p] = Ret t /\
    forall text caps, utf8 text -> trie_walk (pat_tokens p) text caps ->
      ((forall l, In (Literal l) (pat_tokens p) -> wide l = false) ->
         exists r, Trie.parse t text = Ret (Some r) /\ mr_pattern r = stripped p /\ reports caps (mr_values r)) /\
      ((exists l, In (Literal l) (pat_tokens p) /\ wide l = true) -> Trie.parse t text = Panic).
Proof.
  intros V Hs C. destruct (one_added sip p V C) as (t & Ht). exists t. split; [exact Ht|]. intros text caps Hu W.
  assert (Forall valid_pattern [p]) as V1 by (constructor; [exact V|constructor]).
  destruct (matching_panics sip [p] t text V1 C Ht Hu) as (P & R).
  pose proof (chain_panics (pat_tokens p) (stripped p) text caps W V Hs Hu) as H.
  change (s_insert (pat_tokens p) level_empty (stripped p)) with (s_adds [p]) in H. split.
  - intros N. assert (~ parse_panics (s_adds [p]) text) as NP.
    { intros X. apply H in X. destruct X as (l & I & Wl). rewrite (N l I) in Wl. discriminate. }
    specialize (R NP). pose proof (trie_one sip p t text _ V C Ht Hu R) as T.
    destruct (s_parse (s_adds [p]) text) as [r|]; [|exfalso; apply (T caps), W].
    destruct T as (E & caps' & W' & Rp). exists r. split; [exact R|]. split; [exact E|].
    rewrite (trie_walk_unique _ _ _ W' _ W) in Rp || rewrite <- (trie_walk_unique _ _ _ W _ W') in Rp. exact Rp.
  - intros X. apply P, H, X.
Qed.

(** ** Among other patterns *)
Fixpoint narrow_steps (start : bool) (path : list step) : Prop :=
  match path with
  | [] => True
  | inl b :: path => (start = true -> wide [b] = false) /\ narrow_steps false path
  | inr _ :: path => narrow_steps true path
  end.
Lemma narrow_weaker path : narrow_steps true path -> narrow_steps false path.
Proof. destruct path as [|[b|x] path]; simpl; [auto| |auto]. intros (_ & H). split; [discriminate|exact H]. Qed.
Lemma narrow_key k path : k <> [] -> wide k = false -> narrow_steps true path -> narrow_steps true (map inl k ++ path).
Proof.
  intros N H P. destruct k as [|b k]; [contradiction|]. split; [intros _; exact H|]. clear N H.
  apply narrow_weaker in P. induction k as [|x k IH]; [exact P|]. simpl. split; [discriminate|exact IH].
Qed.
Lemma narrow_after k path : narrow_steps false (map inl k ++ path) -> narrow_steps false path.
Proof. induction k as [|b k IH]; [auto|]. simpl. intros (_ & H). auto. Qed.

Lemma try_parsers_split P text r : try_parsers s_parse P text = Some r ->
  exists A x e B, P = A ++ (x, e) :: B /\ try_parsers s_parse A text = None /\ try_parser s_parse x e text = Some r.
Proof.
  induction P as [|(x, e) P IH]; cbn [try_parsers]; intros H; [discriminate|].
  destruct (try_parser s_parse x e text) as [r'|] eqn:E.
  - exists [], x, e, P. split; [reflexivity|]. split; [reflexivity|congruence].
  - destruct (IH H) as (A & x' & e' & B & -> & HA & HE). exists ((x, e) :: A), x', e', B.
    split; [reflexivity|]. split; [|exact HE]. cbn [try_parsers]. rewrite E. exact HA.
Qed.

Lemma no_literal_here K text :
  try_literals s_parse (keys K) K text = None -> lookup text K = None -> blocked (keys K) text = false -> no_literal K text.
Proof.
  intros T Lk Bl. split; [|split; [|exact Bl]].
  - intros k po c Hin. generalize dependent (keys K). intros ks T _. induction K as [|(k', (po', [c'|])) K IH]; cbn [try_literals] in T.
    + destruct Hin.
    + destruct (routes ks k' text) eqn:R; [discriminate|]. destruct Hin as [E|Hin]; [injection E as -> _ _; exact R|].
      apply IH; try assumption. simpl in Lk. destruct (str_eqb text k'); [discriminate|exact Lk].
    + destruct Hin as [E|Hin]; [discriminate|]. apply IH; try assumption.
      simpl in Lk. destruct (str_eqb text k'); [discriminate|exact Lk].
  - intros Hin. clear T Bl. induction K as [|(k', e') K IH]; [destruct Hin|]. simpl in Lk, Hin.
    destruct (str_eqb text k') eqn:E; [discriminate|]. destruct Hin as [->|Hin]; [|auto].
    apply str_eqb_neq in E. congruence.
Qed.

Lemma first_not_wide K P k e text : ~ parse_panics (Level K P) text -> In (k, e) K -> k <> [] -> text <> [] -> wide k = false.
Proof.
  intros NP Hin Nk Nt. destruct (wide k) eqn:E; [exfalso|reflexivity]. apply NP.
  apply (pp_literal _ _ K P text); [constructor|]. exists [], text, k, k. split; [left; reflexivity|].
  split; [reflexivity|]. split; [exact Nt|]. split; [apply in_map_iff; exists (k, e); auto|]. split; [reflexivity|].
  split; [exact Nk|right; exact E].
Qed.

Lemma s_parse_narrow L : solid L -> forall text r,
  ~ parse_panics L text -> s_parse L text = Some r ->
  exists path, stored L path (mr_pattern r) /\ narrow_steps true path.
Proof.
  induction L as [K P IHK IHP] using level_nested_ind; intros S text r NP H.
  inversion S as [K0 P0 SK SKc SPc]; subst. rewrite s_parse_unfold in H.
  destruct (try_literals s_parse (keys K) K text) as [o|] eqn:Et.
  { subst o. apply try_literals_some in Et. destruct Et as (k & po & c & Hin & R & Er). symmetry in Er.
    destruct (IHK k po c Hin (SKc k po c Hin)) with (2 := Er) as (path & Hs & Hn).
    { intros X. apply NP. apply (parse_panics_below _ _ c (skipn (length k) text)); [|exact X].
      apply (reaches_below K P k po c); [exact Hin|exact R|constructor]. }
    exists (map inl k ++ path). split; [apply (st_literal k (po, Some c)); [exact Hin|constructor; exact Hs]|].
    apply narrow_key; [apply (SK _ _ Hin)| |exact Hn].
    apply (first_not_wide K P k (po, Some c) text NP Hin (SK _ _ Hin)).
    intros ->. apply routes_skipn in R. rewrite skipn_nil, app_nil_r in R. apply (SK _ _ Hin). symmetry. exact R. }
  destruct (lookup text K) as [(po, co)|] eqn:El.
  { apply lookup_in in El. destruct po as [p|]; [|discriminate]. simpl in H. inversion H; subst r.
    exists (map inl text ++ []). split; [apply (st_literal text (Some p, co)); [exact El|constructor]|].
    pose proof (SK _ _ El) as Nt. apply narrow_key; [exact Nt| |exact I]. apply (first_not_wide K P text (Some p, co) text NP El Nt Nt). }
  destruct (blocked (keys K) text) eqn:Eb; [discriminate|]. pose proof (no_literal_here K text Et El Eb) as NL.
  apply try_parsers_split in H. destruct H as (A & x & e & B & -> & HA & Ht).
  unfold try_parser in Ht. destruct (capture x text) as [v|] eqn:Ec; [|discriminate].
  assert (In (x, e) (A ++ (x, e) :: B)) as Hin by apply in_elt.
  destruct e as (po, [c|]); simpl in Ht.
  - destruct (s_parse c (skipn (length v) text)) as [r'|] eqn:Es; [|discriminate]. simpl in Ht. inversion Ht; subst r.
    rewrite match_result_insert_pattern.
    destruct (IHP x po c Hin (SPc x po c Hin)) with (2 := Es) as (path & Hs & Hn).
    { intros X. apply NP. apply (pp_below _ _ K A x po c B text v); auto. constructor. }
    exists (inr x :: path). split; [apply (st_parser x (po, Some c)); [exact Hin|constructor; exact Hs]|exact Hn].
  - destruct (skipn (length v) text) as [|b rest]; [|discriminate]. destruct po as [p|]; [|discriminate].
    simpl in Ht. inversion Ht; subst r. rewrite match_result_insert_pattern. exists [inr x].
    split; [apply (st_parser x (Some p, None)); [exact Hin|constructor]|exact I].
Qed.

Lemma narrow_flat ts : shaped ts -> forall start, (start = false -> match ts with Literal _ :: _ => False | _ => True end) ->
  narrow_steps start (flat ts) -> narrow ts.
Proof.
  induction ts as [|t ts IH]; intros S start Hst H l I; [destruct I|]. pose proof (shaped_tail _ _ S) as S'.
  destruct t as [q|k]; simpl in H.
  - destruct I as [E|I]; [discriminate|]. apply (IH S' true); [discriminate|exact H|exact I].
  - destruct start; [|exfalso; apply Hst; reflexivity].
    assert (k <> []) as Nk by (apply S; left; reflexivity). destruct k as [|b k]; [contradiction|].
    destruct H as (Hb & H). destruct I as [E|I]; [injection E as <-; apply Hb; reflexivity|].
    apply narrow_after in H. apply (IH S' false); [|exact H|exact I].
    intros _. destruct S as (_ & Sa & _). destruct ts as [|[q'|l'] ts]; [exact Logic.I|exact Logic.I|]. simpl in Sa. tauto.
Qed.

Theorem reported_narrow sip ps t text r :
  Forall compiled_pattern_of ps -> collision_free sip ps -> Trie.add_patterns sip Trie.tree_new ps = Ret t ->
  utf8 text -> Trie.parse t text = Ret (Some r) ->
  exists p, In p ps /\ mr_pattern r = stripped p /\ forall l, In (Literal l) (pat_tokens p) -> wide l = false.
Proof.
  intros Cp C Ha Hu Pr. pose proof (compiled_valid ps Cp) as V.
  destruct (matching_panics sip ps t text V C Ha Hu) as (P & R).
  assert (~ parse_panics (s_adds ps) text) as NP by (intros X; apply P in X; congruence).
  specialize (R NP). rewrite Pr in R. injection R as R. symmetry in R.
  rewrite Forall_forall in Cp.
  destruct (s_parse_narrow (s_adds ps)) with (2 := NP) (3 := R) as (path & Hs & Hn).
  { apply s_adds_solid, Forall_forall. intros p I. destruct (Cp p I) as (s & U & E).
    intros l. apply (compile_literals s _ l U E). }
  apply s_adds_stored in Hs. destruct Hs as (p & I & E & ->). exists p. split; [exact I|]. split; [exact E|].
  destruct (Cp p I) as (s & U & Es). destruct (compile_shaped s _ U Es) as (_ & S).
  apply (narrow_flat (pat_tokens p) S true); [discriminate|exact Hn].
Qed.

(** ** C150 *)
Lemma token_good ts : Forall valid_token ts -> (forall q, In (Parser q) ts -> parser_ascii_set q) -> Forall (good_token utf8) ts.
Proof.
  rewrite !Forall_forall. intros V H [q|l] I; [apply H, I|]. split; apply (V _ I).
Qed.
Lemma all_bytes (text : str) : Forall (fun _ => True) text.
Proof. apply Forall_forall. auto. Qed.

Theorem trie_live_utf8 sip s p : utf8 s -> compile s = Ret (Ok (pat_tokens p)) ->
  (forall q, In (Parser q) (pat_tokens p) -> parser_ascii_set q) -> collision_free sip [p] ->
  exists t, Trie.add_patterns sip Trie.tree_new [p] = Ret t /\
    ((exists text r, utf8 text /\ Trie.parse t text = Ret (Some r)) <->
     can_match (fun _ => True) (pat_tokens p) /\ forall l, In (Literal l) (pat_tokens p) -> wide l = false).
Proof.
  intros U C Hs F. destruct (compile_shaped s _ U C) as (N & S). pose proof (compile_valid s _ U C) as V.
  destruct (own_messages sip p V Hs F) as (t & Ht & Ho). exists t. split; [exact Ht|]. split.
  - intros (text & r & Hu & Pr). destruct (trie_one sip p t text (Some r) V F Ht Hu Pr) as (_ & caps & W & _). split.
    + apply (walk_live (fun _ => True) _ text caps S); [apply all_bytes|apply trie_walk_is_walk, W].
    + intros l I. destruct (wide l) eqn:E; [exfalso|reflexivity].
      destruct (Ho text caps Hu W) as (_ & H). rewrite H in Pr; [discriminate|]. exists l. auto.
  - intros (L & Nw). destruct (trie_builds (fun _ => True) utf8 utf8_nil utf8_app utf8_one beyond_ascii _ N
      (token_good _ V Hs) S L) as (text & caps & W & Hu).
    destruct (Ho text caps Hu W) as (H & _). destruct (H Nw) as (r & Pr & _). exists text, r. auto.
Qed.

Theorem table_live_utf8 sip s p : utf8 s -> compile s = Ret (Ok (pat_tokens p)) ->
  (forall q, In (Parser q) (pat_tokens p) -> parser_ascii_set q) -> collision_free sip [p] ->
  exists t, SuffixArray.add_patterns sip SuffixArray.table_new [p] = Ret t /\
    ((exists text r, utf8 text /\ SuffixArray.parse t text = Ret (Some r)) <->
     can_match_loosely (fun _ => True) (pat_tokens p)).
Proof.
  intros U C Hs F. destruct (compile_shaped s _ U C) as (N & S). pose proof (compile_valid s _ U C) as V.
  destruct (table_total sip [p]) as (t & Ht & Hp); [constructor; [exact V|constructor]| |].
  { intros q (p' & [<-|[]] & I). apply Hs, I. }
  exists t. split; [exact Ht|]. split.
  - intros (text & r & Hu & Pr). pose proof (table_single sip p t text (Some r) V Hs F Ht Hu Pr) as (_ & caps & W & _).
    apply (table_walk_live (fun _ => True) _ text caps S); [apply all_bytes|exact W].
  - intros L. destruct (table_builds (fun _ => True) utf8 utf8_nil utf8_app utf8_one beyond_ascii _ N
      (token_good _ V Hs) S L) as (text & caps & W & Hu).
    destruct (Hp text Hu) as (r & Pr). pose proof (table_single sip p t text r V Hs F Ht Hu Pr) as H.
    destruct r as [r|]; [exists text, r; auto|]. exfalso. apply (H caps), W.
Qed.
