(** * Continued messages *)
From Verif Require Import Base Base_facts Utils Parsers Parsers_facts Pattern Spec Spec_grammar Spec_table Spec_trie Spec_live Spec_separate Separate_claims Grammar Grammar_claims Trie_total
  TrieSpec_cases Trie_main Trie_claims Single_claims Table_claims Live_claims Spec_continued.
From Verif Require Trie SuffixArray.

Lemma last_split (x : str) b (v t : str) : v ++ t = x ++ [b] -> (t = [] /\ v = x ++ [b]) \/ (exists y, t = y ++ [b]).
Proof.
  destruct t as [|t0 t'].
  - rewrite app_nil_r. auto.
  - intros H. right. destruct (exists_last (l := t0 :: t') ltac:(discriminate)) as (y & c & Ey). rewrite Ey in *. rewrite app_assoc in H.
    apply app_inj_tail in H. destruct H as (_ & ->). eauto.
Qed.

Lemma greedy_not_last e v : before_first e v v -> e <> [] -> False.
Proof.
  intros ((r & E) & _) N0. apply (f_equal (@length byte)) in E. rewrite !app_length in E. destruct e; [congruence|simpl in E; lia].
Qed.
Lemma linked_greedy x rest e : shaped (Parser (PGreedy x) :: rest) -> gp_end_string x = Some e -> e <> [] /\ exists rest', rest = Literal e :: rest'.
Proof.
  intros (S & _ & L & _) E. rewrite E in L. destruct rest as [|[q|l] rest]; try discriminate. injection L as <-. split; [apply S; right; left; reflexivity|eauto].
Qed.
Lemma captures_foreign q v b x : captures q v v -> foreign_token b (Parser q) -> v = x ++ [b] ->
  exists g, q = PGreedy g.
Proof.
  assert (forall s, set_captures (sp_character_set s) (sp_min_length s) (sp_max_length s) v v -> ~ In b (sp_character_set s) -> v = x ++ [b] -> False) as H.
  { intros s ((_ & F & _) & _) N0 ->. apply Forall_app in F. destruct F as (_ & F). inversion F; subst. contradiction. }
  destruct q as [s|s|g]; cbn [captures foreign_token]; intros C N0 E; [destruct (H s C N0 E)|destruct (H s C N0 E)|eauto].
Qed.

(** ** What ends with a byte that is in no pattern *)
Lemma walk_foreign ts : forall text caps b x, walk ts text caps -> shaped ts -> (forall t, In t ts -> foreign_token b t) -> text = x ++ [b] ->
  exists a g, ts = a ++ [Parser (PGreedy g)].
Proof.
  induction ts as [|t ts IH]; intros text caps b x W S F E; [inversion W; subst; destruct x; discriminate|].
  inversion W as [|l toks text' caps' W' E1 E2|q toks v text' caps' C W' E1 E2]; subst.
  - destruct (last_split _ _ _ _ E2) as [(-> & ->)|(y & ->)].
    + exfalso. apply (F (Literal (x ++ [b])) (or_introl eq_refl)). apply in_app_iff. right. left. reflexivity.
    + destruct (IH _ _ b y W' (shaped_tail _ _ S) (fun t J => F t (or_intror J)) eq_refl) as (a & g & ->). exists (Literal l :: a), g. reflexivity.
  - destruct (last_split _ _ _ _ E2) as [(-> & Ev)|(y & ->)].
    + rewrite app_nil_r in C. destruct (captures_foreign q v b x C (F _ (or_introl eq_refl)) Ev) as (g & ->).
      pose proof (walk_nil_text _ _ (shaped_tail _ _ S) W') as T. destruct ts as [|t ts]; [exists [], g; reflexivity|].
      destruct (exists_last (l := t :: ts) ltac:(discriminate)) as (a & c & Ea). rewrite Ea in *. apply Forall_app in T. destruct T as (_ & T). inversion T as [|? ? (g' & -> & _) _]; subst.
      exists (Parser (PGreedy g) :: a), g'. reflexivity.
    + destruct (IH _ _ b y W' (shaped_tail _ _ S) (fun t J => F t (or_intror J)) eq_refl) as (a & g & ->). exists (Parser q :: a), g. reflexivity.
Qed.
Lemma table_nil_greedy ts : forall q caps, table_walk (Parser q :: ts) [] caps -> shaped (Parser q :: ts) -> exists a g, Parser q :: ts = a ++ [Parser (PGreedy g)].
Proof.
  induction ts as [|t ts IH]; intros q caps W S.
  - inversion W as [| ? ? C| |? ? ? ? ? N0]; subst; [|congruence]. destruct q as [s|s|g]; [destruct C as (_ & C & _); congruence|destruct C as (_ & C & _); congruence|].
    exists [], g. reflexivity.
  - inversion W as [| | |? ? v text caps' N0 C W' E1 E2]; subst. apply app_eq_nil in E2. destruct E2 as (-> & ->).
    destruct q as [s|s|g]; [destruct C as (_ & C & _); congruence|destruct C as (_ & C & _); congruence|].
    destruct t as [q'|l].
    + destruct (IH q' _ W' (shaped_tail _ _ S)) as (a & g' & Ea). rewrite Ea. exists (Parser (PGreedy g) :: a), g'. reflexivity.
    + exfalso. pose proof S as (_ & _ & L & _). destruct (linked_greedy _ _ _ S L) as (Nl & _).
      unfold captures, greedy_captures in C. rewrite L in C. exact (greedy_not_last _ _ C Nl).
Qed.
Lemma common_foreign l w text (b : byte) x : longest_common_chars l (w ++ text) w -> ~ In b l -> text <> [] -> w ++ text = x ++ [b] -> exists y, text = y ++ [b].
Proof. intros _ _ N0 E. destruct (last_split _ _ _ _ E) as [(-> & _)|Z]; [congruence|exact Z]. Qed.
Lemma table_walk_foreign ts text caps : table_walk ts text caps -> forall b x, shaped ts -> (forall t, In t ts -> foreign_token b t) -> text = x ++ [b] ->
  exists a g, ts = a ++ [Parser (PGreedy g)].
Proof.
  induction 1 as [l text P|q v C|l ts w text caps N0 Nl Nt W IH|q ts v text caps N0 C W IH]; intros b x S F E.
  - exfalso. apply (F (Literal l) (or_introl eq_refl)). destruct P as (r & ->). rewrite E. rewrite in_app_iff, in_app_iff. left. right. left. reflexivity.
  - destruct (captures_foreign q v b x C (F _ (or_introl eq_refl)) E) as (g & ->). exists [], g. reflexivity.
  - destruct (common_foreign _ _ _ _ _ Nl (F _ (or_introl eq_refl)) Nt E) as (y & ->).
    destruct (IH b y (shaped_tail _ _ S) (fun t J => F t (or_intror J)) eq_refl) as (a & g & ->). exists (Literal l :: a), g. reflexivity.
  - destruct (last_split _ _ _ _ E) as [(-> & Ev)|(y & ->)].
    + rewrite app_nil_r in C. destruct (captures_foreign q v b x C (F _ (or_introl eq_refl)) Ev) as (g & ->).
      destruct ts as [|t ts]; [congruence|]. destruct t as [q'|l].
      * destruct (table_nil_greedy ts q' _ W (shaped_tail _ _ S)) as (a & g' & Ea). rewrite Ea. exists (Parser (PGreedy g) :: a), g'. reflexivity.
      * exfalso. pose proof S as (_ & _ & L & _). destruct (linked_greedy _ _ _ S L) as (Nl & _).
        unfold captures, greedy_captures in C. rewrite L in C. exact (greedy_not_last _ _ C Nl).
    + destruct (IH b y (shaped_tail _ _ S) (fun t J => F t (or_intror J)) eq_refl) as (a & g & ->). exists (Parser q :: a), g. reflexivity.
Qed.

Theorem trie_foreign sip ps t text b r :
  Forall compiled_pattern_of ps -> collision_free sip ps -> Trie.add_patterns sip Trie.tree_new ps = Ret t -> foreign b ps -> utf8 (text ++ [b]) ->
  Trie.parse t (text ++ [b]) = Ret (Some r) -> exists p g, In p ps /\ mr_pattern r = stripped p /\ ends_with p (Parser (PGreedy g)).
Proof.
  intros V C A F U E. destruct (trie_sound sip ps t _ r (compiled_valid ps V) C A U E) as (p & caps & J & Ep & W & _).
  rewrite Forall_forall in V. destruct (V p J) as (s & Us & Cs).
  destruct (walk_foreign _ _ _ b text W (proj2 (compile_shaped s _ Us Cs)) (fun t => F p t J) eq_refl) as (a & g & Ea).
  exists p, g. split; [exact J|]. split; [exact Ep|]. exists a. exact Ea.
Qed.
Theorem table_foreign sip ps t text b r :
  Forall compiled_pattern_of ps -> collision_free sip ps -> SuffixArray.add_patterns sip SuffixArray.table_new ps = Ret t -> foreign b ps -> utf8 (text ++ [b]) ->
  SuffixArray.parse t (text ++ [b]) = Ret (Some r) -> exists p g, In p ps /\ mr_pattern r = stripped p /\ ends_with p (Parser (PGreedy g)).
Proof.
  intros V C A F U E. destruct (table_sound sip ps t _ r (compiled_valid ps V) C A U E) as (p & caps & J & Ep & W & _).
  rewrite Forall_forall in V. destruct (V p J) as (s & Us & Cs).
  destruct (table_walk_foreign _ _ _ W b text (proj2 (compile_shaped s _ Us Cs)) (fun t => F p t J) eq_refl) as (a & g & Ea).
  exists p, g. split; [exact J|]. split; [exact Ep|]. exists a. exact Ea.
Qed.

(** ** A message and a continuation *)
Lemma prefix_shorten (x y w : str) : prefix_of x (y ++ w) -> length x <= length y -> prefix_of x y.
Proof.
  intros (r & E) L. revert y E L. induction x as [|a x IH]; intros y E L; [exists y; reflexivity|]. destruct y as [|c y]; [simpl in L; lia|].
  injection E as -> E. destruct (IH y E ltac:(simpl in L; lia)) as (r' & ->). exists r'. reflexivity.
Qed.
Lemma captures_extend q v text w : text <> [] -> captures q (v ++ text) v -> captures q (v ++ text ++ w) v.
Proof.
  intros N0. assert (forall s, set_captures (sp_character_set s) (sp_min_length s) (sp_max_length s) (v ++ text) v ->
    set_captures (sp_character_set s) (sp_min_length s) (sp_max_length s) (v ++ text ++ w) v) as H.
  { intros s ((_ & F & M) & B). split; [|exact B]. split; [exists (text ++ w); reflexivity|]. split; [exact F|].
    intros w' P F'. destruct (Nat.le_gt_cases (length w') (length v)) as [L|L]; [exact L|exfalso].
    assert (prefix_of (firstn (S (length v)) w') (v ++ text)) as P'.
    { apply (prefix_shorten _ _ w).
      - rewrite <- app_assoc. destruct P as (r & ->). exists (skipn (S (length v)) w' ++ r). rewrite app_assoc, firstn_skipn. reflexivity.
      - rewrite firstn_length, app_length. destruct text; [congruence|simpl length; lia]. }
    specialize (M _ P'). rewrite firstn_length in M. rewrite Nat.min_l in M by lia.
    assert (Forall (fun b => In b (sp_character_set s)) (firstn (S (length v)) w')) as F2.
    { rewrite <- (firstn_skipn (S (length v)) w') in F'. apply Forall_app in F'. apply F'. }
    specialize (M F2). lia. }
  destruct q as [s|s|g]; cbn [captures]; [apply H|apply H|]. unfold greedy_captures. destruct (gp_end_string g) as [e|].
  - intros ((r & E) & M). split; [exists (r ++ w); rewrite app_assoc, E, <- app_assoc; reflexivity|].
    intros w' P. destruct (Nat.le_gt_cases (length v) (length w')) as [L|L]; [exact L|]. apply M. rewrite app_assoc in P. apply (prefix_shorten _ _ w P).
    rewrite E, !app_length. lia.
  - intros E. exfalso. apply N0. apply (f_equal (@length byte)) in E. rewrite app_length in E. destruct text; [reflexivity|simpl in E; lia].
Qed.
Lemma walk_rest ts : forall caps, ts <> [] -> Forall takes_the_rest ts -> walk ts [] caps -> exists c q a, caps = c ++ [(q, [])] /\ ts = a ++ [Parser q].
Proof.
  induction ts as [|t ts IH]; intros caps N0 T W; [congruence|]. inversion T as [|? ? (g & -> & _) T']; subst.
  inversion W as [| |q toks v text caps' C W' E1 E2]; subst. apply app_eq_nil in E2. destruct E2 as (-> & ->).
  destruct ts as [|t ts]; [inversion W'; subst; exists [], (PGreedy g), []; auto|].
  destruct (IH caps' ltac:(discriminate) T' W') as (c & q & a & -> & Ea). rewrite Ea. exists ((PGreedy g, []) :: c), q, (Parser (PGreedy g) :: a). auto.
Qed.
Lemma walk_continued ts : forall text caps w caps', walk ts text caps -> shaped ts -> w <> [] -> walk ts (text ++ w) caps' ->
  exists c q v a, caps = c ++ [(q, v)] /\ ts = a ++ [Parser q] /\ (v <> [] -> caps' = c ++ [(q, v ++ w)]).
Proof.
  induction ts as [|t ts IH]; intros text caps w caps' W S Nw W2.
  - inversion W; subst. simpl in W2. inversion W2; subst. congruence.
  - inversion W as [|l toks text' caps1 W1 E1 E2|q toks v text' caps1 C W1 E1 E2]; subst.
    + inversion W2 as [|l2 toks2 text2 caps2 W2' E3 E4|]; subst. rewrite <- app_assoc in E4. apply app_inv_head in E4. subst text2.
      destruct (IH _ _ w caps' W1 (shaped_tail _ _ S) Nw W2') as (c & q & v & a & -> & -> & H). exists c, q, v, (Literal l :: a). auto.
    + inversion W2 as [| |q2 toks2 v2 text2 caps2 C2 W2' E3 E4]; subst. destruct text' as [|b text'].
      * destruct ts as [|t ts].
        -- inversion W1; subst. inversion W2'; subst. rewrite !app_nil_r in E4. subst v2. exists [], q, v, []. auto.
        -- pose proof (walk_nil_text _ _ (shaped_tail _ _ S) W1) as T. destruct (walk_rest (t :: ts) _ ltac:(discriminate) T W1) as (c & q' & a & -> & Ea). rewrite Ea.
           exists ((q, v) :: c), q', [], (Parser q :: a). split; [reflexivity|]. split; [reflexivity|]. congruence.
      * rewrite <- app_assoc in E4. pose proof (captures_extend q v (b :: text') w ltac:(discriminate) C) as C'. rewrite <- E4 in C'.
        pose proof (captures_unique _ _ _ _ C2 C') as ->. apply app_inv_head in E4. subst text2.
        destruct (IH _ _ w caps2 W1 (shaped_tail _ _ S) Nw W2') as (c & q' & v' & a & -> & -> & H). exists ((q, v) :: c), q', v', (Parser q :: a).
        split; [reflexivity|]. split; [reflexivity|]. intros Nv. rewrite (H Nv). reflexivity.
Qed.

Lemma walk_value_short ts text caps : trie_walk ts text caps -> forall q v, In (q, v) caps -> text = [] -> v = [].
Proof.
  induction 1 as [l|q0 v0 C|l ts text caps N0 Nl Nt W IH|q0 ts v0 text caps N0 C W IH]; intros q v J E.
  - destruct J.
  - destruct J as [J|[]]. congruence.
  - destruct l; [congruence|discriminate].
  - apply app_eq_nil in E. destruct E as (-> & ->). destruct J as [J|J]; [congruence|]. exact (IH q v J eq_refl).
Qed.
Lemma walk_captures_some ts text caps : trie_walk ts text caps -> forall q, In (Parser q) ts -> caps <> [].
Proof.
  induction 1 as [l|q0 v0 C|l ts text caps N0 Nl Nt W IH|q0 ts v0 text caps N0 C W IH]; intros q J; try discriminate.
  - destruct J as [J|[]]. discriminate J.
  - destruct J as [J|J]; [discriminate J|exact (IH q J)].
Qed.
Lemma walk_open ts text caps : trie_walk ts text caps -> forall c q g v w, caps = c ++ [(q, v)] -> q = PGreedy g -> gp_end_string g = None -> v <> [] ->
  (exists a, ts = a ++ [Parser q]) -> trie_walk ts (text ++ w) (c ++ [(q, v ++ w)]).
Proof.
  induction 1 as [l|q0 v0 C|l ts text caps N0 Nl Nt W IH|q0 ts v0 text caps N0 C W IH]; intros c q g v w E Eq Eg Nv (a & Ea).
  - destruct c; discriminate.
  - destruct c as [|x c]; [|destruct c; discriminate]. injection E as -> ->. subst q. cbn [app]. constructor. cbn. unfold greedy_captures. rewrite Eg. reflexivity.
  - destruct a as [|? a]; [discriminate|]. injection Ea as <- Ea. rewrite <- app_assoc. apply tw_literal; [exact N0|exact Nl|destruct text; [congruence|discriminate]|].
    apply (IH c q g v w E Eq Eg Nv). exists a. exact Ea.
  - destruct a as [|? a]; [injection Ea as _ ->; congruence|]. injection Ea as <- Ea.
    destruct c as [|x c]; [injection E as _ _ ->; exfalso; apply (walk_captures_some _ _ _ W q); [rewrite Ea; apply in_app_iff; right; left; reflexivity|reflexivity]|].
    injection E as <- E. rewrite <- app_assoc. cbn [app]. apply tw_parser; [exact N0| |apply (IH c q g v w E Eq Eg Nv); exists a; exact Ea].
    apply captures_extend; [|exact C]. intros ->. apply Nv. apply (walk_value_short _ _ _ W q v); [|reflexivity]. rewrite E. apply in_app_iff. right. left. reflexivity.
Qed.

Theorem trie_continued sip s p t text w r r' :
  utf8 s -> compile s = Ret (Ok (pat_tokens p)) -> collision_free sip [p] -> Trie.add_patterns sip Trie.tree_new [p] = Ret t ->
  utf8 text -> utf8 (text ++ w) -> w <> [] -> Trie.parse t text = Ret (Some r) -> Trie.parse t (text ++ w) = Ret (Some r') ->
  exists q c v, ends_with p (Parser q) /\ trie_walk (pat_tokens p) text (c ++ [(q, v)]) /\ reports (c ++ [(q, v)]) (mr_values r) /\
    (v <> [] -> reports (c ++ [(q, v ++ w)]) (mr_values r')).
Proof.
  intros Us Cs C A U Uw Nw E E'. destruct (compile_shaped s _ Us Cs) as (_ & S).
  assert (valid_pattern p) as V by (pose proof (compiled_valid [p] (Forall_cons _ (ex_intro _ s (conj Us Cs)) (Forall_nil _))) as Z; inversion Z; assumption).
  destruct (trie_one sip p t text (Some r) V C A U E) as (_ & caps & W & R). destruct (trie_one sip p t _ (Some r') V C A Uw E') as (_ & caps' & W' & R').
  destruct (walk_continued _ text caps w caps' (trie_walk_is_walk _ _ _ W) S Nw (trie_walk_is_walk _ _ _ W')) as (c & q & v & a & -> & Ea & H).
  exists q, c, v. split; [exists a; exact Ea|]. split; [exact W|]. split; [exact R|]. intros Nv. rewrite <- (H Nv). exact R'.
Qed.
Theorem trie_open sip p t text w c g v o :
  valid_pattern p -> collision_free sip [p] -> Trie.add_patterns sip Trie.tree_new [p] = Ret t -> utf8 (text ++ w) ->
  ends_with p (Parser (PGreedy g)) -> gp_end_string g = None -> trie_walk (pat_tokens p) text (c ++ [(PGreedy g, v)]) -> v <> [] ->
  Trie.parse t (text ++ w) = Ret o -> exists r, o = Some r /\ mr_pattern r = stripped p /\ reports (c ++ [(PGreedy g, v ++ w)]) (mr_values r).
Proof.
  intros V C A U (a & Ea) Eg W Nv E. pose proof (walk_open _ _ _ W c (PGreedy g) g v w eq_refl eq_refl Eg Nv (ex_intro _ a Ea)) as W'.
  pose proof (trie_one sip p t _ o V C A U E) as Q. destruct o as [r|]; [|destruct (Q _ W')]. destruct Q as (Ep & caps & W2 & R).
  rewrite (trie_walk_unique _ _ _ W2 _ W') in R. eauto.
Qed.

(** ** Separate patterns *)
Lemma separate_same ps text w p p' caps caps' : separate ps -> In p ps -> In p' ps ->
  trie_walk (pat_tokens p) text caps -> trie_walk (pat_tokens p') (text ++ w) caps' -> p' = p.
Proof.
  intros S J J' W W'. pose proof S as (S1 & _). destruct (S1 p J) as (l & Hl), (S1 p' J') as (l' & Hl').
  pose proof (trie_walk_fits p l text caps Hl W) as F. pose proof (trie_walk_fits p' l' _ caps' Hl' W') as F'.
  assert (first_literal_fits (text ++ w) p = true) as F2.
  { apply (fits_prefix _ _ l Hl). apply (fits_prefix _ _ l Hl) in F. destruct F as (r & ->). exists (r ++ w). apply app_assoc_reverse. }
  destruct (separate_fits (text ++ w) ps S) as [E|(q & _ & E)].
  - assert (In p (filter (first_literal_fits (text ++ w)) ps)) as Z by (apply filter_In; auto). rewrite E in Z. destruct Z.
  - assert (In p (filter (first_literal_fits (text ++ w)) ps)) as Z by (apply filter_In; auto).
    assert (In p' (filter (first_literal_fits (text ++ w)) ps)) as Z' by (apply filter_In; auto). rewrite E in Z, Z'.
    destruct Z as [<-|[]], Z' as [<-|[]]. reflexivity.
Qed.
Lemma ends_once p t u : ends_with p t -> ends_with p u -> t = u.
Proof. intros (a & E) (b & E'). rewrite E in E'. apply app_inj_tail in E'. apply E'. Qed.
Theorem separate_continued sip ps t text w r r' :
  Forall compiled_pattern_of ps -> separate ps -> Trie.add_patterns sip Trie.tree_new ps = Ret t ->
  utf8 text -> utf8 (text ++ w) -> w <> [] -> Trie.parse t text = Ret (Some r) -> Trie.parse t (text ++ w) = Ret (Some r') ->
  exists p q c v, In p ps /\ mr_pattern r = stripped p /\ mr_pattern r' = stripped p /\
    ends_with p (Parser q) /\ trie_walk (pat_tokens p) text (c ++ [(q, v)]) /\ reports (c ++ [(q, v)]) (mr_values r) /\
    (v <> [] -> reports (c ++ [(q, v ++ w)]) (mr_values r')).
Proof.
  intros V S A U Uw Nw E E'. pose proof (compiled_valid ps V) as V'.
  destruct (separate_answers sip ps t text (Some r) V' S A U E) as (p & caps & (J & W & _) & Ep & R).
  destruct (separate_answers sip ps t _ (Some r') V' S A Uw E') as (p' & caps' & (J' & W' & _) & Ep' & R').
  pose proof (separate_same ps text w p p' _ _ S J J' W W') as ->. rewrite Forall_forall in V. destruct (V p J) as (s & Us & Cs).
  destruct (compile_shaped s _ Us Cs) as (_ & Sh).
  destruct (walk_continued _ text caps w caps' (trie_walk_is_walk _ _ _ W) Sh Nw (trie_walk_is_walk _ _ _ W')) as (c & q & v & a & -> & Ea & H).
  exists p, q, c, v. split; [exact J|]. split; [exact Ep|]. split; [exact Ep'|]. split; [exists a; exact Ea|]. split; [exact W|]. split; [exact R|].
  intros Nv. rewrite <- (H Nv). exact R'.
Qed.
Theorem separate_whole sip ps t p l text w caps o :
  Forall compiled_pattern_of ps -> separate ps -> Trie.add_patterns sip Trie.tree_new ps = Ret t ->
  utf8 (text ++ w) -> w <> [] -> In p ps -> ends_with p (Literal l) -> trie_walk (pat_tokens p) text caps ->
  Trie.parse t (text ++ w) = Ret o -> o = None.
Proof.
  intros V S A Uw Nw J El W E'. pose proof (compiled_valid ps V) as V'. destruct o as [r'|]; [exfalso|reflexivity].
  destruct (separate_answers sip ps t _ (Some r') V' S A Uw E') as (p' & caps' & (J' & W' & _) & _ & _).
  pose proof (separate_same ps text w p p' _ _ S J J' W W') as ->. rewrite Forall_forall in V. destruct (V p J) as (s & Us & Cs).
  destruct (compile_shaped s _ Us Cs) as (_ & Sh).
  destruct (walk_continued _ text caps w caps' (trie_walk_is_walk _ _ _ W) Sh Nw (trie_walk_is_walk _ _ _ W')) as (c & q & v & a & _ & Ea & _).
  pose proof (ends_once p _ _ El (ex_intro _ a Ea)). discriminate.
Qed.
Theorem separate_open sip ps t p text w c g v o :
  Forall valid_pattern ps -> separate ps -> Trie.add_patterns sip Trie.tree_new ps = Ret t -> utf8 (text ++ w) ->
  In p ps -> ends_with p (Parser (PGreedy g)) -> gp_end_string g = None -> trie_walk (pat_tokens p) text (c ++ [(PGreedy g, v)]) -> v <> [] ->
  Trie.parse t (text ++ w) = Ret o -> exists r, o = Some r /\ mr_pattern r = stripped p /\ reports (c ++ [(PGreedy g, v ++ w)]) (mr_values r).
Proof.
  intros V S A U J (a & Ea) Eg W Nv E. pose proof (walk_open _ _ _ W c (PGreedy g) g v w eq_refl eq_refl Eg Nv (ex_intro _ a Ea)) as W'.
  pose proof (separate_answers sip ps t _ o V S A U E) as Q. destruct o as [r|]; [|destruct (Q _ _ J W')].
  destruct Q as (p2 & caps & (_ & _ & One) & Ep & R). destruct (One _ _ J W') as (-> & ->). eauto.
Qed.
Theorem trie_whole sip s p t l text w caps o :
  utf8 s -> compile s = Ret (Ok (pat_tokens p)) -> collision_free sip [p] -> Trie.add_patterns sip Trie.tree_new [p] = Ret t ->
  utf8 (text ++ w) -> w <> [] -> ends_with p (Literal l) -> trie_walk (pat_tokens p) text caps -> Trie.parse t (text ++ w) = Ret o -> o = None.
Proof.
  intros Us Cs C A Uw Nw El W E'. destruct (compile_shaped s _ Us Cs) as (_ & Sh). destruct o as [r'|]; [exfalso|reflexivity].
  assert (valid_pattern p) as V by (pose proof (compiled_valid [p] (Forall_cons _ (ex_intro _ s (conj Us Cs)) (Forall_nil _))) as Z; inversion Z; assumption).
  destruct (trie_one sip p t _ (Some r') V C A Uw E') as (_ & caps' & W' & _).
  destruct (walk_continued _ text caps w caps' (trie_walk_is_walk _ _ _ W) Sh Nw (trie_walk_is_walk _ _ _ W')) as (c & q & v & a & _ & Ea & _).
  pose proof (ends_once p _ _ El (ex_intro _ a Ea)). discriminate.
Qed.
