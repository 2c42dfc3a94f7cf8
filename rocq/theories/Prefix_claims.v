(** * Plain text in front of a pattern *)
From Verif Require Import Base Base_facts Utils Utils_facts Parsers Pattern Spec Spec_table Grammar Spec_grammar
  Grammar_claims TrieSpec_cases Table_claims Single_claims Live_claims Deser Spec_deser Deser_claims Pdb2adb Spec_pdb Pdbread Spec_pdbread
  Pdbread_claims Spec_prefix.
From Verif Require Trie SuffixArray.

(** ** Compilation *)
Lemma occurs_behind b e pre s : ~ In b pre -> occurs_in (b :: e) (pre ++ s) -> occurs_in (b :: e) s.
Proof.
  intros N (x & y & E). revert pre N E. induction x as [|c x IH]; intros pre N E; destruct pre as [|d pre].
  - simpl in E. exists [], y. exact E.
  - simpl in E. injection E as -> _. destruct N. left. reflexivity.
  - exists (c :: x), y. exact E.
  - simpl in E. injection E as _ E. apply (IH pre); [intros I; apply N; right; exact I|exact E].
Qed.

Lemma unescaped_behind pre raw u : ~ In x5c pre -> unescaped raw u -> unescaped (pre ++ raw) (pre ++ u).
Proof.
  intros N [p H|p s v H U].
  - apply unescaped_plain. intros O. apply H. apply (occurs_behind x5c ($"%\{") pre p N O).
  - rewrite !(app_assoc pre). apply unescaped_more; [|exact U].
    intros O. apply H. apply (occurs_behind x5c ($"%\{") pre p N O).
Qed.

Lemma text_behind pre raw : plain_front pre -> item_text raw (IText raw) -> item_text (pre ++ raw) (IText (pre ++ raw)).
Proof.
  intros (_ & N & P & _) H. inversion H as [? Nr O| | |]; subst. constructor.
  - destruct pre; [congruence|discriminate].
  - intros O'. apply O. apply (occurs_behind x25 ($"{") pre raw P O').
Qed.

Lemma plain_text_item pre : plain_front pre -> item_text pre (IText pre).
Proof.
  intros (_ & N & P & _). constructor; [exact N|]. intros O. rewrite <- (app_nil_r pre) in O.
  apply (occurs_behind x25 ($"{") pre [] P) in O. destruct O as (x & y & E). destruct x; discriminate.
Qed.

Lemma plain_unescaped pre : plain_front pre -> unescaped pre pre.
Proof.
  intros (_ & _ & _ & P). apply unescaped_plain. intros O. rewrite <- (app_nil_r pre) in O.
  apply (occurs_behind x5c ($"%\{") pre [] P) in O. destruct O as (x & y & E). destruct x; discriminate.
Qed.

Theorem compile_behind pre s ts : plain_front pre -> utf8 s -> compile s = Ret (Ok ts) ->
  compile (pre ++ s) = Ret (Ok (with_text pre ts)).
Proof.
  intros P U C. apply (compile_accepts s ts U) in C. destruct C as (is & (Ht & N & A) & M).
  apply compile_accepts; [apply utf8_app; [apply P|exact U]|].
  destruct (match is with IText _ :: _ => true | _ => false end) eqn:F.
  - destruct is as [|[raw|n|cs bs n|bs n] is]; try discriminate.
    inversion Ht as [|t i s' is' Hi Hs]; subst. inversion M as [|? u ? ts' Hu Hm| | | |]; subst.
    assert (t = raw) as -> by (inversion Hi; reflexivity).
    exists (IText (pre ++ raw) :: is). split; [|cbn [with_text]; constructor; [apply unescaped_behind; [apply P|exact Hu]|exact Hm]].
    split; [|split; [discriminate|exact A]].
    rewrite app_assoc. constructor; [apply text_behind; assumption|exact Hs].
  - exists (IText pre :: is).
    assert (match is with i :: _ => is_text i = false | [] => True end) as F'
      by (destruct is as [|[]]; first [exact I|reflexivity|discriminate]).
    assert (with_text pre ts = Literal pre :: ts) as ->.
    { destruct is as [|i is]; [congruence|]. destruct i; try discriminate F'; inversion M; subst; reflexivity. }
    split; [split; [constructor; [apply plain_text_item; exact P|exact Ht]|split; [discriminate|]]|
            constructor; [apply plain_unescaped; exact P|exact M]].
    destruct is as [|i is]; [congruence|]. split; [|exact A]. rewrite F'. intros (_ & E). discriminate.
Qed.

(** ** What is matched *)
Lemma trie_walk_behind pre ts x caps : pre <> [] -> ts <> [] -> (forall l, In (Literal l) ts -> l <> []) ->
  (trie_walk (with_text pre ts) x caps <-> exists m, x = pre ++ m /\ m <> [] /\ trie_walk ts m caps).
Proof.
  intros Np Nt Hl. split.
  - destruct ts as [|[q|l] ts]; [congruence| |]; cbn [with_text]; intros W.
    + inversion W as [| |? ? text ? _ _ Nx W'|]; subst. exists text. auto.
    + pose proof (Hl l (or_introl eq_refl)) as Nl.
      inversion W as [| |? ? text ? N1 _ Nx W'|]; subst.
      * exists l. split; [reflexivity|]. split; [exact Nl|constructor].
      * exists (l ++ text). split; [apply eq_sym, app_assoc|]. split; [destruct l; [congruence|discriminate]|].
        constructor; assumption.
  - intros (m & -> & Nm & W). destruct ts as [|[q|l] ts]; [congruence| |]; cbn [with_text].
    + constructor; [discriminate|exact Np|exact Nm|exact W].
    + inversion W as [| |? ? text ? N1 Nl Nx W'|]; subst; [constructor|].
      rewrite app_assoc. constructor; try assumption. destruct pre; [congruence|discriminate].
Qed.

Lemma common_behind pre l m w : utf8 pre ->
  (longest_common_chars (pre ++ l) (pre ++ m) (pre ++ w) <-> longest_common_chars l m w).
Proof.
  intros U. split.
  - intros (Hu & (a & Ea) & (b & Eb) & H). split; [apply (utf8_app_inv_r pre); assumption|].
    rewrite <- app_assoc in Ea, Eb. apply app_inv_head in Ea, Eb.
    split; [exists a; exact Ea|]. split; [exists b; exact Eb|]. intros w' U' (c & ->) (d & ->).
    specialize (H (pre ++ w')). rewrite !app_length in H.
    enough (length pre + length w' <= length pre + length w) by lia.
    apply H; [apply utf8_app; assumption|exists c; apply app_assoc|exists d; apply app_assoc].
  - intros (Hu & (a & ->) & (b & ->) & H). split; [apply utf8_app; assumption|].
    split; [exists a; apply app_assoc|]. split; [exists b; apply app_assoc|].
    intros w' U' (c & Ec) (d & Ed). destruct (Nat.le_gt_cases (length w') (length pre)) as [L|L];
      [rewrite app_length; lia|].
    assert (exists v, w' = pre ++ v) as (v & ->).
    { exists (skipn (length pre) w'). rewrite <- (firstn_skipn (length pre) w') at 1. f_equal.
      apply (f_equal (firstn (length pre))) in Ec. rewrite !firstn_app, firstn_all, Nat.sub_diag in Ec.
      replace (length pre - length w') with 0 in Ec by lia. cbn [firstn] in Ec. rewrite !app_nil_r in Ec. congruence. }
    rewrite <- app_assoc in Ec, Ed. apply app_inv_head in Ec, Ed. rewrite !app_length. apply Nat.add_le_mono_l. apply H.
    + apply (utf8_app_inv_r pre); assumption.
    + exists c. exact Ec.
    + exists d. exact Ed.
Qed.

(** Everything that is shared begins with the text in front. *)
Lemma common_begins pre l m w : utf8 pre -> longest_common_chars (pre ++ l) (pre ++ m) w -> exists w', w = pre ++ w'.
Proof.
  intros U (Hu & (a & Ea) & (b & Eb) & H).
  assert (length pre <= length w) as L by (apply H; [exact U|exists l; reflexivity|exists m; reflexivity]).
  exists (skipn (length pre) w). rewrite <- (firstn_skipn (length pre) w) at 1. f_equal.
  apply (f_equal (firstn (length pre))) in Ea. rewrite !firstn_app, firstn_all, Nat.sub_diag in Ea.
  replace (length pre - length w) with 0 in Ea by lia. cbn [firstn] in Ea. rewrite !app_nil_r in Ea. congruence.
Qed.

Lemma table_walk_behind pre ts m caps : utf8 pre -> ts <> [] -> m <> [] ->
  (table_walk (with_text pre ts) (pre ++ m) caps <-> table_walk ts m caps).
Proof.
  intros U Nt Nm. split.
  - destruct ts as [|[q|l] ts]; [congruence| |]; cbn [with_text]; intros W.
    + inversion W as [| |? ? w text ? _ Hc _ W' E1 E2|]; subst.
      destruct (common_begins pre [] m w U) as (w' & ->); [rewrite app_nil_r, <- E2; exact Hc|].
      destruct Hc as (_ & (c & Ec) & _). rewrite <- app_assoc in Ec. rewrite <- (app_nil_r pre) in Ec at 1.
      apply app_inv_head in Ec. symmetry in Ec. apply app_eq_nil in Ec. destruct Ec as (-> & _).
      rewrite app_nil_r in E2. apply app_inv_head in E2. subst text. exact W'.
    + inversion W as [? ? (c & Ec)| |? ? w text ? N1 Hc Nx W' E1 E2|]; subst.
      * rewrite <- app_assoc in Ec. apply app_inv_head in Ec. constructor. exists c. exact Ec.
      * rewrite E2 in Hc. destruct (common_begins pre l m w U Hc) as (w' & ->). rewrite <- app_assoc in E2.
        apply app_inv_head in E2. subst m. constructor; try assumption. exact (proj1 (common_behind pre _ _ _ U) Hc).
  - intros W. destruct ts as [|[q|l] ts]; [congruence| |]; cbn [with_text].
    + constructor; [discriminate|apply common_all; exact U|exact Nm|exact W].
    + inversion W as [? ? (c & Ec)| |? ? w text ? N1 Hc Nx W' E1 E2|]; subst.
      * constructor. exists c. rewrite <- app_assoc. reflexivity.
      * rewrite app_assoc. constructor; try assumption. rewrite <- app_assoc. apply common_behind; assumption.
Qed.

(** ** The matchers *)
Lemma with_text_parsers pre ts q : In (Parser q) (with_text pre ts) <-> In (Parser q) ts.
Proof.
  destruct ts as [|[q'|l] ts]; cbn [with_text]; split; intros H; simpl in *; intuition congruence.
Qed.

Lemma reports_same caps m m' : reports caps m -> reports caps m' -> forall k v, maps_to m k v <-> maps_to m' k v.
Proof. intros (A & _) (B & _) k v. rewrite A, B. reflexivity. Qed.

Section Front.
Variables (sip : list byte -> N) (pre s : str) (p p' : pattern).
Hypotheses (P : plain_front pre) (U : utf8 s) (C : compile s = Ret (Ok (pat_tokens p)))
  (C' : compile (pre ++ s) = Ret (Ok (pat_tokens p'))) (F : collision_free sip [p]).

Lemma front_tokens : pat_tokens p' = with_text pre (pat_tokens p).
Proof. pose proof (compile_behind pre s _ P U C) as E. congruence. Qed.

Lemma front_valid : valid_pattern p /\ valid_pattern p' /\ collision_free sip [p'].
Proof.
  split; [apply (compile_valid s _ U C)|]. split; [apply (compile_valid (pre ++ s)); [apply utf8_app; [apply P|exact U]|exact C']|].
  assert (forall q, parser_in [p'] q -> parser_in [p] q) as H.
  { intros q (x & [<-|[]] & I). exists p. split; [left; reflexivity|]. rewrite front_tokens in I.
    apply with_text_parsers in I. exact I. }
  intros q q' I I'. apply F; apply H; assumption.
Qed.

Theorem trie_behind t t' x o' :
  Trie.add_patterns sip Trie.tree_new [p] = Ret t -> Trie.add_patterns sip Trie.tree_new [p'] = Ret t' ->
  utf8 x -> Trie.parse t' x = Ret o' ->
  (forall m o, x = pre ++ m -> m <> [] -> Trie.parse t m = Ret o -> same_answer o o') /\
  ((~ exists m, x = pre ++ m /\ m <> []) -> o' = None).
Proof.
  intros Ht Ht' Ux Ho'. destruct front_valid as (V & V' & F'). destruct (compile_shaped s _ U C) as (N & (Hl & _)).
  pose proof (trie_one sip p' t' x o' V' F' Ht' Ux Ho') as R'. rewrite front_tokens in R'.
  assert (pre <> []) as Np by apply P.
  split.
  - intros m o -> Nm Ho. assert (utf8 m) as Um by (apply (utf8_app_inv_r pre); [apply P|exact Ux]).
    pose proof (trie_one sip p t m o V F Ht Um Ho) as R.
    destruct o as [r|], o' as [r'|]; simpl.
    + destruct R as (_ & caps & W & Rr), R' as (_ & caps' & W' & Rr').
      apply trie_walk_behind in W'; try assumption. destruct W' as (m' & E & _ & W'). apply app_inv_head in E. subst m'.
      rewrite (trie_walk_unique _ _ _ W' _ W) in Rr'. exact (reports_same _ _ _ Rr Rr').
    + destruct R as (_ & caps & W & _). apply (R' caps). apply trie_walk_behind; eauto.
    + destruct R' as (_ & caps' & W' & _). apply trie_walk_behind in W'; try assumption.
      destruct W' as (m' & E & _ & W'). apply app_inv_head in E. subst m'. exact (R _ W').
    + exact I.
  - intros NE. destruct o' as [r'|]; [|reflexivity]. exfalso. destruct R' as (_ & caps' & W' & _).
    apply trie_walk_behind in W'; try assumption. destruct W' as (m' & E & Nm & _). apply NE. eauto.
Qed.

Theorem table_behind t t' m o o' :
  SuffixArray.add_patterns sip SuffixArray.table_new [p] = Ret t ->
  SuffixArray.add_patterns sip SuffixArray.table_new [p'] = Ret t' ->
  utf8 m -> m <> [] -> SuffixArray.parse t m = Ret o -> SuffixArray.parse t' (pre ++ m) = Ret o' -> same_answer o o'.
Proof.
  intros Ht Ht' Um Nm Ho Ho'. destruct front_valid as (V & V' & F'). destruct (compile_shaped s _ U C) as (N & _).
  assert (utf8 pre) as Up by apply P.
  pose proof (table_one sip p' t' _ o' V' F' Ht' (utf8_app _ _ Up Um) Ho') as R'. rewrite front_tokens in R'.
  pose proof (table_one sip p t m o V F Ht Um Ho) as R.
  destruct o as [r|], o' as [r'|]; simpl.
  - destruct R as (_ & caps & W & Rr), R' as (_ & caps' & W' & Rr').
    apply table_walk_behind in W'; try assumption.
    rewrite (table_walk_unique _ _ _ W' _ W) in Rr'. exact (reports_same _ _ _ Rr Rr').
  - destruct R as (_ & caps & W & _). apply (R' caps). apply table_walk_behind; assumption.
  - destruct R' as (_ & caps' & W' & _). apply table_walk_behind in W'; try assumption. exact (R _ W').
  - exact I.
Qed.
End Front.

(** ** The converter *)
Lemma becomes_fronted parse_uuid fresh res i p p' :
  becomes false parse_uuid fresh res i p -> becomes true parse_uuid fresh res i p' ->
  plain_front (src_program (snd (fst res)) ++ $": ") -> utf8 (snd res) ->
  fronted (src_program (snd (fst res)) ++ $": ")
    (map (fun e => match ex_program e with Some program => program | None => [] end) (rl_examples (src_rule (snd (fst res))))) p p'.
Proof.
  intros B B' P U. constructor.
  - rewrite (bc_name _ _ _ _ _ _ B), (bc_name _ _ _ _ _ _ B'). reflexivity.
  - pose proof (bc_uuid _ _ _ _ _ _ B) as E. rewrite (bc_uuid _ _ _ _ _ _ B') in E. congruence.
  - pose proof (bc_tokens _ _ _ _ _ _ B) as E. pose proof (bc_tokens _ _ _ _ _ _ B') as E'.
    unfold prefixed in E, E'. rewrite app_assoc in E'.
    rewrite (compile_behind _ _ _ P U E) in E'. congruence.
  - rewrite (bc_tags _ _ _ _ _ _ B), (bc_tags _ _ _ _ _ _ B'). reflexivity.
  - pose proof (bc_no_values _ _ _ _ _ _ B) as E. pose proof (bc_no_values _ _ _ _ _ _ B') as E'. rewrite <- E in E'.
    pose proof (bc_values _ _ _ _ _ _ B) as M. pose proof (bc_values _ _ _ _ _ _ B') as M'.
    destruct (pat_values p) as [m|], (pat_values p') as [m'|].
    + destruct (M m eq_refl) as (A & H), (M' m' eq_refl) as (A' & H'). f_equal. apply ascending_ext; [exact A'|exact A|].
      intros k x. rewrite H, H'. reflexivity.
    + destruct E' as (E' & _). discriminate (E' eq_refl).
    + destruct E' as (_ & E'). discriminate (E' eq_refl).
    + reflexivity.
  - destruct (bc_tests _ _ _ _ _ _ B) as (l & E & H), (bc_tests _ _ _ _ _ _ B') as (l' & E' & H').
    exists l, l'. split; [exact E|]. split; [exact E'|]. clear - H H'. revert l' H'.
    induction H as [|e t es l H0 H IH]; intros l' H'; inversion H' as [|? t' ? l'' H0' H1]; subst.
    + split; [reflexivity|]. split; [reflexivity|]. intros [|i] t t' program; discriminate.
    + destruct (IH l'' H1) as (L & L' & IH'). split; [simpl; f_equal; exact L|]. split; [simpl; f_equal; exact L'|].
      intros [|i] a a' program Ea Ea' Ep; simpl in Ea, Ea', Ep.
      * injection Ea as <-. injection Ea' as <-. injection Ep as <-.
        destruct H0 as (M & T & A & K), H0' as (M' & T' & A' & K'). unfold prefixed in M, M'.
        split; [rewrite M', M; reflexivity|]. split; [|congruence]. apply ascending_ext; [exact A'|exact A|].
        intros k x. rewrite K, K'. reflexivity.
      * apply (IH' i); assumption.
Qed.

Theorem programs_in_front examples fresh parse_uuid db doc doc' pats pats' :
  standard db ->
  script examples false fresh (pdb_xml db) = Ret doc -> de_pattern_file parse_uuid doc = Ret (Ok pats) ->
  script examples true fresh (pdb_xml db) = Ret doc' -> de_pattern_file parse_uuid doc' = Ret (Ok pats') ->
  length pats' = length pats /\
  forall i res p p', nth_error (results p2p (sources_in examples db)) i = Some res ->
    nth_error pats i = Some p -> nth_error pats' i = Some p' ->
    plain_front (src_program (snd (fst res)) ++ $": ") -> utf8 (snd res) ->
    fronted (src_program (snd (fst res)) ++ $": ")
      (map (fun e => match ex_program e with Some program => program | None => [] end) (rl_examples (src_rule (snd (fst res))))) p p'.
Proof.
  intros S D L D' L'. destruct (script_loaded _ _ _ _ _ _ _ S D L) as (E & H), (script_loaded _ _ _ _ _ _ _ S D' L') as (E' & H').
  split; [congruence|]. intros i res p p' R I I'. apply (becomes_fronted parse_uuid fresh res i); [apply H|apply H']; assumption.
Qed.
