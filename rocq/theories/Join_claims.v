(** * One pattern behind another *)
From Verif Require Import Base Base_facts Utils Parsers Parsers_facts Pattern Grammar Spec Spec_grammar Spec_trie Spec_table Table_claims Spec_live Live_claims
  Single_claims TrieSpec_cases Grammar_claims Fill_claims Spec_fill Continued_claims Spec_join.
From Verif Require Trie SuffixArray.

Definition closed_tokens (ts : list token) : Prop := forall g, In (Parser (PGreedy g)) ts -> gp_end_string g <> None.

Lemma closed_tail t ts : closed_tokens (t :: ts) -> closed_tokens ts.
Proof. intros H g J. apply H. right. exact J. Qed.

Lemma last_parser_set q v : captures q v v -> shaped [Parser q] -> closed_tokens [Parser q] ->
  exists s, (q = PSet s \/ q = PInt s) /\ set_captures (sp_character_set s) (sp_min_length s) (sp_max_length s) v v.
Proof.
  intros C S K. destruct q as [s|s|g]; [exists s; auto..|]. exfalso.
  destruct S as (_ & _ & G & _). apply (K g); [left; reflexivity|exact G].
Qed.

Lemma walk_some ts text caps : trie_walk ts text caps -> shaped ts -> closed_tokens ts -> text <> [].
Proof.
  induction 1 as [l|q v C|l ts text caps N0 Nl Nt W IH|q ts v text caps N0 C W IH]; intros S K.
  - apply (proj1 S). left. reflexivity.
  - destruct (last_parser_set q v C S K) as (s & _ & H). exact (proj1 (proj2 H)).
  - destruct l; [congruence|discriminate].
  - intros E. apply app_eq_nil in E. destruct E as (_ & E). revert E. exact (IH (shaped_tail _ _ S) (closed_tail _ _ K)).
Qed.

Definition stops_tokens (ts : list token) (b : byte) : Prop :=
  forall s, In (Parser (PSet s)) ts \/ In (Parser (PInt s)) ts -> ~ In b (sp_character_set s).

Lemma walk_join ts m caps : trie_walk ts m caps -> forall ts' b rest caps', shaped ts -> closed_tokens ts -> stops_tokens ts b ->
  ts' <> [] -> trie_walk ts' (b :: rest) caps' -> trie_walk (ts ++ ts') (m ++ b :: rest) (caps ++ caps').
Proof.
  induction 1 as [l|q v C|l ts text caps N0 Nl Nt W IH|q ts v text caps N0 C W IH]; intros ts' b rest caps' S K B N1 W'.
  - apply tw_literal; [exact N1| |discriminate|exact W']. apply (proj1 S). left. reflexivity.
  - destruct (last_parser_set q v C S K) as (s & Q & H). simpl. apply tw_parser; [exact N1| |exact W'].
    assert (~ In b (sp_character_set s)) as NB by (apply B; destruct Q as [->| ->]; [left|right]; left; reflexivity).
    assert (set_captures (sp_character_set s) (sp_min_length s) (sp_max_length s) (v ++ b :: rest) v) as G.
    { apply admissible_captures; [|exact NB]. destruct H as ((_ & F & _) & N2 & Mn & Mx). split; [exact N2|]. split; [exact F|]. split; [exact Mn|exact Mx]. }
    destruct Q as [->| ->]; exact G.
  - simpl. rewrite <- app_assoc. apply tw_literal; [destruct ts; [congruence|discriminate]|exact Nl|destruct text; discriminate|].
    apply IH; [exact (shaped_tail _ _ S)|exact (closed_tail _ _ K)|intros s J; apply B; destruct J as [J|J]; [left|right]; right; exact J|exact N1|exact W'].
  - simpl. rewrite <- app_assoc. apply tw_parser; [destruct ts; [congruence|discriminate]| |].
    + apply captures_extend; [|exact C]. exact (walk_some _ _ _ W (shaped_tail _ _ S) (closed_tail _ _ K)).
    + apply IH; [exact (shaped_tail _ _ S)|exact (closed_tail _ _ K)|intros s J; apply B; destruct J as [J|J]; [left|right]; right; exact J|exact N1|exact W'].
Qed.

Lemma captures_cut q v x y : captures q (v ++ x ++ y) v ->
  (forall g e, q = PGreedy g -> gp_end_string g = Some e -> prefix_of e x) -> (forall g, q = PGreedy g -> gp_end_string g <> None) ->
  captures q (v ++ x) v.
Proof.
  intros C L N0. assert (forall s, set_captures (sp_character_set s) (sp_min_length s) (sp_max_length s) (v ++ x ++ y) v ->
    set_captures (sp_character_set s) (sp_min_length s) (sp_max_length s) (v ++ x) v) as H.
  { intros s ((_ & F & M) & B). split; [|exact B]. split; [exists x; reflexivity|]. split; [exact F|].
    intros w' (r & E) F'. apply M; [|exact F']. exists (r ++ y). rewrite (app_assoc v), E, <- app_assoc. reflexivity. }
  destruct q as [s|s|g]; cbn [captures] in *; [exact (H s C)..|]. unfold greedy_captures in *.
  destruct (gp_end_string g) as [e|] eqn:Eg; [|destruct (N0 g eq_refl Eg)].
  destruct C as (_ & M). destruct (L g e eq_refl Eg) as (r & ->). split; [exists r; rewrite app_assoc; reflexivity|].
  intros w' (r' & E). apply M. exists (r' ++ y). rewrite (app_assoc v), E, <- app_assoc. reflexivity.
Qed.

Lemma walk_split ts : forall ts' x caps, ts <> [] -> ts' <> [] -> shaped ts -> closed_tokens ts -> trie_walk (ts ++ ts') x caps ->
  exists m m' c c', x = m ++ m' /\ caps = c ++ c' /\ trie_walk ts m c /\ trie_walk ts' m' c'.
Proof.
  induction ts as [|t ts IH]; intros ts' x caps N0 N1 S K W; [congruence|].
  destruct ts as [|u ts].
  - simpl in W. destruct t as [q|l].
    + inversion W as [|q' v C|  |q' toks v text caps' N2 C W' E1 E2 E3]; subst; [congruence|].
      exists v, text, [(q, v)], caps'. split; [reflexivity|]. split; [reflexivity|]. split; [|exact W'].
      apply tw_parser_last. rewrite <- (app_nil_r v) at 1. apply (captures_cut q v [] text); [exact C| |].
      * intros g e -> Eg. destruct S as (_ & _ & G & _). simpl in G. congruence.
      * intros g ->. apply K. left. reflexivity.
    + inversion W as [l'| |l' toks text caps' N2 Nl Nt W' E1 E2 E3|]; subst; [congruence|].
      exists l, text, [], caps. split; [reflexivity|]. split; [reflexivity|]. split; [apply tw_literal_last|exact W'].
  - change ((t :: u :: ts) ++ ts') with (t :: ((u :: ts) ++ ts')) in W.
    assert (forall text caps, trie_walk ((u :: ts) ++ ts') text caps -> exists m m' c c', text = m ++ m' /\ caps = c ++ c' /\
      trie_walk (u :: ts) m c /\ trie_walk ts' m' c') as R.
    { intros text c W'. apply IH; [discriminate|exact N1|exact (shaped_tail _ _ S)|exact (closed_tail _ _ K)|exact W']. }
    destruct t as [q|l].
    + inversion W as [|q' v C|  |q' toks v text caps' N2 C W' E1 E2 E3]; subst.
      destruct (R _ _ W') as (m & m' & c & c' & -> & -> & W1 & W2).
      exists (v ++ m), m', ((q, v) :: c), c'. split; [apply app_assoc|]. split; [reflexivity|]. split; [|exact W2].
      apply tw_parser; [discriminate| |exact W1]. apply (captures_cut q v m m'); [exact C| |].
      * intros g e -> Eg. destruct (linked_greedy g (u :: ts) e S Eg) as (_ & rest & E). rewrite E in W1.
        inversion W1; subst; [exists []; rewrite app_nil_r; reflexivity|eexists; reflexivity].
      * intros g ->. apply K. left. reflexivity.
    + inversion W as [l'| |l' toks text caps' N2 Nl Nt W' E1 E2 E3|]; subst.
      destruct (R _ _ W') as (m & m' & c & c' & -> & -> & W1 & W2).
      exists (l ++ m), m', c, c'. split; [apply app_assoc|]. split; [reflexivity|]. split; [|exact W2].
      apply tw_literal; [discriminate|exact Nl| |exact W1].
      exact (walk_some _ _ _ W1 (shaped_tail _ _ S) (closed_tail _ _ K)).
Qed.

Lemma name_is q (k : str) : {name_of q = Some k} + {name_of q <> Some k}.
Proof.
  destruct (name_of q) as [x|]; [|right; discriminate].
  destruct (str_eqb x k) eqn:E; [left; f_equal; apply str_eqb_eq; exact E|right; intros H; injection H as ->].
  rewrite str_eqb_refl in E. discriminate E.
Defined.
Lemma named_app c c' k v : named (c ++ c') k v <-> named c k v \/ (named c' k v /\ forall w, ~ named c k w).
Proof.
  induction c as [|(q, x) c IH]; simpl.
  - split; [intros H; right; split; [exact H|intros w J; inversion J]|intros [H|(H & _)]; [inversion H|exact H]].
  - split.
    + intros H. inversion H; subst; [left; constructor; assumption|].
      match goal with X : named (c ++ c') k v |- _ => apply IH in X; destruct X as [X|(X & Y)] end.
      * left. apply named_later; assumption.
      * right. split; [assumption|]. intros w J. inversion J; subst; [contradiction|]. exact (Y w ltac:(assumption)).
    + intros [H|(H & Y)].
      * inversion H; subst; [constructor; assumption|]. apply named_later; [assumption|]. apply IH. left. assumption.
      * apply named_later; [intros E; apply (Y x); constructor; exact E|]. apply IH. right. split; [exact H|].
        intros w J. destruct (name_is q k) as [E|E]; [apply (Y x); constructor; exact E|].
        apply (Y w). apply named_later; assumption.
Qed.

Lemma captures_ascii_utf8 q text v : utf8 text -> parser_utf8 q -> parser_ascii_set q -> captures q text v -> utf8 v.
Proof.
  intros U P A C. destruct q as [s|s|g].
  1, 2: apply ascii_utf8, ascii_forall; destruct C as ((_ & F & _) & _); revert F; apply Forall_impl; intros b J; exact (A b J).
  cbn [captures] in C. unfold greedy_captures in C. cbn [parser_utf8] in P. destruct (gp_end_string g) as [e|]; [|subst v; exact U].
  exact (before_first_utf8 e text v U P C).
Qed.

Lemma walk_utf8 ts m caps : trie_walk ts m caps -> forall m', utf8 (m ++ m') -> Forall valid_token ts ->
  (forall q, In (Parser q) ts -> parser_ascii_set q) -> shaped ts -> closed_tokens ts -> utf8 m.
Proof.
  induction 1 as [l|q v C|l ts text caps N0 Nl Nt W IH|q ts v text caps N0 C W IH]; intros m' U V A S K;
    inversion V as [|? ? V1 V2]; subst.
  - exact V1.
  - destruct (last_parser_set q v C S K) as (s & Q & H). apply ascii_utf8, ascii_forall.
    destruct H as ((_ & F & _) & _). revert F. apply Forall_impl. intros b J.
    specialize (A q (or_introl eq_refl)). destruct Q as [->| ->]; exact (A b J).
  - cbn [valid_token] in V1. apply utf8_app; [exact V1|].
    apply (IH m'); [|exact V2|intros q J; apply A; right; exact J|exact (shaped_tail _ _ S)|exact (closed_tail _ _ K)].
    rewrite <- app_assoc in U. exact (utf8_app_inv_r _ _ V1 U).
  - rewrite <- app_assoc in U.
    assert (captures q (v ++ text ++ m') v) as C'.
    { apply captures_extend; [|exact C]. exact (walk_some _ _ _ W (shaped_tail _ _ S) (closed_tail _ _ K)). }
    assert (utf8 v) as Uv.
    { apply (captures_ascii_utf8 q (v ++ text ++ m')); [exact U| |apply A; left; reflexivity|exact C'].
      destruct q; [exact Logic.I..|]. apply V1. }
    apply utf8_app; [exact Uv|].
    apply (IH m'); [|exact V2|intros q' J; apply A; right; exact J|exact (shaped_tail _ _ S)|exact (closed_tail _ _ K)].
    exact (utf8_app_inv_r _ _ Uv U).
Qed.

(** ** The suffix table *)
Lemma table_some q ts m c : table_walk (Parser q :: ts) m c -> shaped (Parser q :: ts) -> closed_tokens (Parser q :: ts) -> m <> [].
Proof.
  intros W S K. inversion W as [|q' v C|  |q' toks v text caps' N2 C W' E1 E2 E3]; subst.
  - destruct (last_parser_set q m C S K) as (s & _ & H). exact (proj1 (proj2 H)).
  - intros E. apply app_eq_nil in E. destruct E as (-> & ->). destruct q as [s|s|g].
    1, 2: exact (proj1 (proj2 C) eq_refl).
    destruct (gp_end_string g) as [e|] eqn:Eg; [|exact (K g (or_introl eq_refl) Eg)].
    destruct (linked_greedy g ts e S Eg) as (Ne & _). cbn [captures] in C. unfold greedy_captures in C. rewrite Eg in C.
    destruct C as ((r & E) & _). destruct e; [congruence|discriminate E].
Qed.

Lemma common_cut l w m m' : longest_common_chars l (w ++ m ++ m') w -> longest_common_chars l (w ++ m) w.
Proof.
  intros (U & P & _ & M). split; [exact U|]. split; [exact P|]. split; [exists m; reflexivity|].
  intros w' U' P' (r & E). apply M; [exact U'|exact P'|]. exists (r ++ m'). rewrite (app_assoc w), E, <- app_assoc. reflexivity.
Qed.

Lemma common_whole l x w : longest_common_chars l x w -> utf8 l -> prefix_of l x -> w = l.
Proof.
  intros (_ & (r & ->) & _ & M) U P. specialize (M _ U (ex_intro _ [] (eq_sym (app_nil_r _))) P).
  rewrite app_length in M. destruct r; [rewrite app_nil_r; reflexivity|simpl in M; lia].
Qed.

Lemma table_walk_split ts : forall ts' x caps, ts <> [] -> ts' <> [] -> shaped ts -> closed_tokens ts -> Forall valid_token ts ->
  (forall q, In (Parser q) ts -> parser_ascii_set q) -> utf8 x -> table_walk (ts ++ ts') x caps ->
  exists m m' c c', x = m ++ m' /\ caps = c ++ c' /\ table_walk ts m c /\ table_walk ts' m' c' /\ utf8 m /\
    (forall l rest, ts = Literal l :: rest -> prefix_of l x -> prefix_of l m).
Proof.
  induction ts as [|t ts IH]; intros ts' x caps N0 N1 S K V A U W; [congruence|].
  inversion V as [|? ? V1 V2]; subst.
  assert (forall q v text, t = Parser q -> captures q (v ++ text) v -> utf8 (v ++ text) -> utf8 v) as Uq.
  { intros q v text -> C Ux. apply (captures_ascii_utf8 q (v ++ text)); [exact Ux| |apply A; left; reflexivity|exact C].
    destruct q; [exact Logic.I..|]. apply V1. }
  destruct ts as [|u ts].
  - simpl in W. destruct t as [q|l].
    + inversion W as [|q' v C|  |q' toks v text caps' N2 C W' E1 E2 E3]; subst; [congruence|].
      exists v, text, [(q, v)], caps'. split; [reflexivity|]. split; [reflexivity|]. split; [|split; [exact W'|split; [exact (Uq q v text eq_refl C U)|discriminate]]].
      apply bw_parser_last. rewrite <- (app_nil_r v) at 1. apply (captures_cut q v [] text); [exact C| |].
      * intros g e -> Eg. destruct S as (_ & _ & G & _). simpl in G. congruence.
      * intros g ->. apply K. left. reflexivity.
    + inversion W as [l' text P| |l' toks w text caps' N2 L Nt W' E1 E2 E3|]; subst; [congruence|].
      exists w, text, [], caps. split; [reflexivity|]. split; [reflexivity|]. split; [apply bw_literal_last; exact (proj1 (proj2 L))|].
      split; [exact W'|]. split; [exact (proj1 L)|]. intros l0 rest E P. injection E as <- _.
      rewrite (common_whole l (w ++ text) w L V1 P). exists []. symmetry. apply app_nil_r.
  - change ((t :: u :: ts) ++ ts') with (t :: ((u :: ts) ++ ts')) in W.
    assert (forall text caps, utf8 text -> table_walk ((u :: ts) ++ ts') text caps -> exists m m' c c', text = m ++ m' /\ caps = c ++ c' /\
      table_walk (u :: ts) m c /\ table_walk ts' m' c' /\ utf8 m /\ (forall l rest, u :: ts = Literal l :: rest -> prefix_of l text -> prefix_of l m)) as R.
    { intros text c Ut W'. apply (IH ts' text c);
        [discriminate|exact N1|exact (shaped_tail _ _ S)|exact (closed_tail _ _ K)|exact V2|intros q J; apply A; right; exact J|exact Ut|exact W']. }
    destruct t as [q|l].
    + inversion W as [|q' v C|  |q' toks v text caps' N2 C W' E1 E2 E3]; subst.
      pose proof (Uq q v text eq_refl C U) as Uv.
      destruct (R _ _ (utf8_app_inv_r _ _ Uv U) W') as (m & m' & c & c' & -> & -> & W1 & W2 & Um & P).
      exists (v ++ m), m', ((q, v) :: c), c'. split; [apply app_assoc|]. split; [reflexivity|].
      split; [|split; [exact W2|split; [apply utf8_app; assumption|discriminate]]].
      apply bw_parser; [discriminate| |exact W1]. apply (captures_cut q v m m'); [exact C| |].
      * intros g e -> Eg. destruct (linked_greedy g (u :: ts) e S Eg) as (_ & rest & E). apply (P e rest E).
        cbn [captures] in C. unfold greedy_captures in C. rewrite Eg in C. destruct C as ((r & Er) & _).
        rewrite <- app_assoc in Er. apply app_inv_head in Er. exists r. exact Er.
      * intros g ->. apply K. left. reflexivity.
    + inversion W as [l' text P| |l' toks w text caps' N2 L Nt W' E1 E2 E3|]; subst.
      pose proof (proj1 L) as Uw.
      destruct (R _ _ (utf8_app_inv_r _ _ Uw U) W') as (m & m' & c & c' & -> & -> & W1 & W2 & Um & _).
      exists (w ++ m), m', c, c'. split; [apply app_assoc|]. split; [reflexivity|]. split; [|split; [exact W2|split; [apply utf8_app; assumption|]]].
      * apply bw_literal; [discriminate|exact (common_cut _ _ _ _ L)| |exact W1].
        destruct u as [q|l']; [|destruct S as (_ & ([] & _) & _)].
        exact (table_some _ _ _ _ W1 (shaped_tail _ _ S) (closed_tail _ _ K)).
      * intros l0 rest E P. injection E as <- _. rewrite (common_whole _ _ _ L V1 P). exists m. reflexivity.
Qed.

Section Join.
  Variables (sip : list byte -> N) (s s' : str) (p p' q : pattern) (t t' u : Trie.tree).
  Hypothesis Us : utf8 s.
  Hypothesis Us' : utf8 s'.
  Hypothesis Cs : compile s = Ret (Ok (pat_tokens p)).
  Hypothesis Cs' : compile s' = Ret (Ok (pat_tokens p')).
  Hypothesis Cq : compile (s ++ s') = Ret (Ok (pat_tokens q)).
  Hypothesis Parser_next : prefix_of ($"%{") s'.
  Hypothesis Closed : closed p.
  Hypothesis Free : collision_free sip [q].
  Hypothesis At : Trie.add_patterns sip Trie.tree_new [p] = Ret t.
  Hypothesis At' : Trie.add_patterns sip Trie.tree_new [p'] = Ret t'.
  Hypothesis Au : Trie.add_patterns sip Trie.tree_new [q] = Ret u.

  Lemma tokens_joined : pat_tokens q = pat_tokens p ++ pat_tokens p'.
  Proof.
    pose proof (compile_app s (pat_tokens p) s' (pat_tokens p') Us Us' Cs Cs' Parser_next) as H.
    rewrite H in Cq. injection Cq as ->. reflexivity.
  Qed.

  Lemma part_free r : (forall x, In x (pat_tokens r) -> In x (pat_tokens q)) -> collision_free sip [r].
  Proof.
    intros H a b (pa & Ia & Ja) (pb & Ib & Jb). apply Free; exists q; (split; [left; reflexivity|]).
    - destruct Ia as [<-|[]]. apply H. exact Ja.
    - destruct Ib as [<-|[]]. apply H. exact Jb.
  Qed.

  Lemma free_p : collision_free sip [p].
  Proof. apply part_free. intros x J. rewrite tokens_joined. apply in_or_app. left. exact J. Qed.
  Lemma free_p' : collision_free sip [p'].
  Proof. apply part_free. intros x J. rewrite tokens_joined. apply in_or_app. right. exact J. Qed.

  Lemma valid_of r x : utf8 x -> compile x = Ret (Ok (pat_tokens r)) -> valid_pattern r.
  Proof. intros U C. exact (compile_valid x _ U C). Qed.

  Lemma both_of caps caps' r r' j : reports caps (mr_values r) -> reports caps' (mr_values r') -> reports (caps ++ caps') (mr_values j) ->
    both_values r r' j.
  Proof.
    intros (R1 & _) (R2 & _) (R3 & _) k v. rewrite R3, named_app, R1, R2. split; (intros [H|(H & N0)]; [left; exact H|right; split; [exact H|]]);
      intros w J; apply (N0 w); apply R1; exact J.
  Qed.

  Theorem trie_join m m' r r' o :
    utf8 m -> utf8 m' -> stops_at p m' ->
    Trie.parse t m = Ret (Some r) -> Trie.parse t' m' = Ret (Some r') -> Trie.parse u (m ++ m') = Ret o ->
    exists j, o = Some j /\ mr_pattern j = stripped q /\ both_values r r' j.
  Proof.
    intros Um Um' (b & rest & -> & St) E E' Eo.
    destruct (compile_shaped s _ Us Cs) as (N0 & S). destruct (compile_shaped s' _ Us' Cs') as (N1 & _).
    destruct (trie_one sip p t m _ (valid_of p s Us Cs) free_p At Um E) as (_ & caps & W & R).
    destruct (trie_one sip p' t' _ _ (valid_of p' s' Us' Cs') free_p' At' Um' E') as (_ & caps' & W' & R').
    pose proof (walk_join _ _ _ W (pat_tokens p') b rest caps' S Closed St N1 W') as J. rewrite <- tokens_joined in J.
    assert (utf8 (m ++ b :: rest)) as U by (apply utf8_app; assumption).
    pose proof (trie_one sip q u _ o (valid_of q (s ++ s') (utf8_app _ _ Us Us') Cq) Free Au U Eo) as Q.
    destruct o as [j|]; [|destruct (Q _ J)]. destruct Q as (Ep & c & Wj & Rj). rewrite (trie_walk_unique _ _ _ Wj _ J) in Rj.
    exists j. split; [reflexivity|]. split; [exact Ep|]. exact (both_of _ _ _ _ _ R R' Rj).
  Qed.

  Theorem trie_walk_in_two x j :
    (forall z, In (Parser z) (pat_tokens p) -> parser_ascii_set z) -> utf8 x -> Trie.parse u x = Ret (Some j) ->
    exists m m', x = m ++ m' /\ utf8 m /\ utf8 m' /\
      forall o o', Trie.parse t m = Ret o -> Trie.parse t' m' = Ret o' ->
        exists r r', o = Some r /\ o' = Some r' /\ both_values r r' j.
  Proof.
    intros A Ux E. destruct (compile_shaped s _ Us Cs) as (N0 & S). destruct (compile_shaped s' _ Us' Cs') as (N1 & _).
    destruct (trie_one sip q u x _ (valid_of q (s ++ s') (utf8_app _ _ Us Us') Cq) Free Au Ux E) as (_ & caps & W & R).
    rewrite tokens_joined in W. destruct (walk_split _ _ _ _ N0 N1 S Closed W) as (m & m' & c & c' & -> & -> & W1 & W2).
    pose proof (walk_utf8 _ _ _ W1 m' Ux (valid_of p s Us Cs) A S Closed) as Um.
    pose proof (utf8_app_inv_r _ _ Um Ux) as Um'.
    exists m, m'. split; [reflexivity|]. split; [exact Um|]. split; [exact Um'|]. intros o o' Eo Eo'.
    pose proof (trie_one sip p t m o (valid_of p s Us Cs) free_p At Um Eo) as Q.
    pose proof (trie_one sip p' t' m' o' (valid_of p' s' Us' Cs') free_p' At' Um' Eo') as Q'.
    destruct o as [r|]; [|destruct (Q _ W1)]. destruct o' as [r'|]; [|destruct (Q' _ W2)].
    destruct Q as (_ & c1 & V1 & R1). destruct Q' as (_ & c2 & V2 & R2).
    rewrite (trie_walk_unique _ _ _ V1 _ W1) in R1. rewrite (trie_walk_unique _ _ _ V2 _ W2) in R2.
    exists r, r'. split; [reflexivity|]. split; [reflexivity|]. exact (both_of _ _ _ _ _ R1 R2 R).
  Qed.

  Theorem table_in_two x j b b' a :
    SuffixArray.add_patterns sip SuffixArray.table_new [p] = Ret b ->
    SuffixArray.add_patterns sip SuffixArray.table_new [p'] = Ret b' ->
    SuffixArray.add_patterns sip SuffixArray.table_new [q] = Ret a ->
    (forall z, In (Parser z) (pat_tokens p) -> parser_ascii_set z) -> utf8 x -> SuffixArray.parse a x = Ret (Some j) ->
    exists m m', x = m ++ m' /\ utf8 m /\ utf8 m' /\
      forall o o', SuffixArray.parse b m = Ret o -> SuffixArray.parse b' m' = Ret o' ->
        exists r r', o = Some r /\ o' = Some r' /\ both_values r r' j.
  Proof.
    intros Ab Ab' Aa A Ux E. destruct (compile_shaped s _ Us Cs) as (N0 & S). destruct (compile_shaped s' _ Us' Cs') as (N1 & _).
    destruct (table_one sip q a x _ (valid_of q (s ++ s') (utf8_app _ _ Us Us') Cq) Free Aa Ux E) as (_ & caps & W & R).
    rewrite tokens_joined in W. 
    destruct (table_walk_split _ _ _ _ N0 N1 S Closed (valid_of p s Us Cs) A Ux W) as (m & m' & c & c' & -> & -> & W1 & W2 & Um & _).
    pose proof (utf8_app_inv_r _ _ Um Ux) as Um'.
    exists m, m'. split; [reflexivity|]. split; [exact Um|]. split; [exact Um'|]. intros o o' Eo Eo'.
    pose proof (table_one sip p b m o (valid_of p s Us Cs) free_p Ab Um Eo) as Q.
    pose proof (table_one sip p' b' m' o' (valid_of p' s' Us' Cs') free_p' Ab' Um' Eo') as Q'.
    destruct o as [r|]; [|destruct (Q _ W1)]. destruct o' as [r'|]; [|destruct (Q' _ W2)].
    destruct Q as (_ & c1 & V1 & R1). destruct Q' as (_ & c2 & V2 & R2).
    rewrite (table_walk_unique _ _ _ V1 _ W1) in R1. rewrite (table_walk_unique _ _ _ V2 _ W2) in R2.
    exists r, r'. split; [reflexivity|]. split; [reflexivity|]. exact (both_of _ _ _ _ _ R1 R2 R).
  Qed.
End Join.
