(** * How often the parsers are called, and how large the matchers grow *)
From Coq Require Import Permutation.
From Verif Require Import Base Base_facts Utils Utils_facts Parsers Pattern TrieSpec Spec_effort Effort.
From Verif Require Trie Trie_refine SuffixArray TrieCalls TableCalls.

(** ** Recorded calls *)
Lemma tbind_snd {A B} (m : traced A) (k : A -> traced B) :
  snd (tbind m k) = bind (snd m) (fun a => snd (k a)).
Proof. unfold tbind. destruct (snd m); reflexivity. Qed.

Lemma tbind_quiet {A B} (m : outcome A) (k : A -> traced B) :
  fst (tbind (quiet m) k) = match m with Ret a => fst (k a) | _ => [] end.
Proof. destruct m; reflexivity. Qed.

Lemma tbind_call {B} q text (k : option str -> traced B) :
  fst (tbind (call q text) k) =
  [(q, text)] ++ match parser_parse q text with Ret a => fst (k a) | _ => [] end.
Proof. unfold tbind. cbn [call fst snd]. destruct (parser_parse q text); reflexivity. Qed.

Lemma slice_from_suffix s i r : slice_from s i = Ret r -> exists w, s = w ++ r.
Proof.
  unfold slice_from. destruct (is_char_boundary s i); [|discriminate]. intros H. inversion H.
  exists (firstn i s). symmetry. apply firstn_skipn.
Qed.

Definition suffix (r s : str) : Prop := exists w, s = w ++ r.

Lemma suffix_refl s : suffix s s.
Proof. exists []. reflexivity. Qed.

Lemma suffix_trans a b c : suffix a b -> suffix b c -> suffix a c.
Proof. intros (w & ->) (v & ->). exists (v ++ w). rewrite app_assoc. reflexivity. Qed.

Lemma list_sum_app_map {A} (f : A -> nat) a x b :
  list_sum (map f (a ++ x :: b)) = list_sum (map f a) + f x + list_sum (map f b).
Proof. rewrite map_app, list_sum_app. simpl. lia. Qed.

Lemma list_sum_in {A} (f : A -> nat) x l : In x l -> f x <= list_sum (map f l).
Proof.
  intros H. apply in_split in H. destruct H as (a & b & ->). rewrite list_sum_app_map. lia.
Qed.

Lemma list_sum_perm {A} (f : A -> nat) l l' :
  Permutation l l' -> list_sum (map f l) = list_sum (map f l').
Proof. induction 1; simpl in *; lia. Qed.

(** ** Sorting keeps the elements, whatever the order *)
Lemma sort_insert_perm {A} cmp (rl : list A) x r :
  sort_insert cmp rl x = Ret r -> Permutation (x :: rl) r.
Proof.
  revert r. induction rl as [|y rl IH]; intros r; cbn [sort_insert].
  { intros H. inversion H. apply Permutation_refl. }
  destruct (cmp x y) as [c| |]; try discriminate. cbn [bind].
  destruct c.
  1, 3: intros H; inversion H; apply Permutation_refl.
  destruct (sort_insert cmp rl x) as [r'| |] eqn:E; try discriminate. cbn [bind].
  intros H. inversion H; subst. specialize (IH r' eq_refl).
  eapply perm_trans; [apply perm_swap|]. apply perm_skip. exact IH.
Qed.

Lemma sort_perm {A} cmp (l r : list A) : sort cmp l = Ret r -> Permutation l r.
Proof.
  unfold sort. cut (forall rl, sort_loop cmp rl l = Ret r -> Permutation (l ++ rl) r).
  { intros H E. apply H in E. rewrite app_nil_r in E. exact E. }
  induction l as [|x l IH]; intros rl; cbn [sort_loop].
  { intros H. inversion H. apply Permutation_rev. }
  destruct (sort_insert cmp rl x) as [r'| |] eqn:E; try discriminate. cbn [bind]. intros H.
  apply IH in H. apply sort_insert_perm in E.
  eapply perm_trans; [|exact H]. simpl.
  eapply perm_trans; [apply Permutation_middle|]. apply Permutation_app_head. exact E.
Qed.

(** ** The trie *)
Section Trie.
  Import Trie.

  Lemma trie_weight_unfold a b lcs pcs :
    trie_weight a b (Tree lcs pcs) =
    list_sum (map (fun n => a + match ln_node n with Some c => trie_weight a b c | None => 0 end) lcs)
    + list_sum (map (fun n => b (pn_parser n) + match pn_node n with Some c => trie_weight a b c | None => 0 end) pcs).
  Proof. reflexivity. Qed.

  (** *** Calls *)
  Lemma trie_calls_snd fuel : forall t text,
    snd (TrieCalls.parse_fuel fuel t text) = parse_fuel fuel t text.
  Proof.
    induction fuel as [|fuel IH]; intros t text; [reflexivity|].
    cbn [TrieCalls.parse_fuel parse_fuel]. rewrite tbind_snd. cbn [quiet snd].
    destruct (lookup_literal t text) as [[[node pos]|[node n]]| |]; try reflexivity; cbn [bind].
    - rewrite tbind_snd. reflexivity.
    - rewrite tbind_snd. cbn [quiet snd]. destruct (usub (length text) n) as [d| |]; try reflexivity. cbn [bind].
      rewrite tbind_snd. cbn [quiet snd]. destruct (ltrunc text d) as [text'| |]; try reflexivity. cbn [bind].
      induction (parser_children node) as [|i pcs IHp]; [reflexivity|].
      cbn [TrieCalls.parse_with_parsers parse_with_parsers]. rewrite tbind_snd.
      assert (snd (TrieCalls.pnode_parse (TrieCalls.parse_fuel fuel) i text') =
              pnode_parse (parse_fuel fuel) i text') as ->.
      { unfold TrieCalls.pnode_parse, pnode_parse. rewrite tbind_snd. cbn [call snd].
        destruct (parser_parse (pn_parser i) text') as [[v|]| |]; try reflexivity. cbn [bind].
        rewrite tbind_snd. cbn [quiet snd]. destruct (ltrunc text' (length v)) as [rest| |]; try reflexivity.
        cbn [bind]. destruct (pn_node i) as [c|]; [|reflexivity].
        unfold TrieCalls.parse_then_push_kvpair, parse_then_push_kvpair. rewrite tbind_snd, IH.
        destruct (parse_fuel fuel c rest) as [[r|]| |]; reflexivity. }
      destruct (pnode_parse (parse_fuel fuel) i text') as [[r|]| |]; try reflexivity. exact IHp.
  Qed.

  Lemma trie_calls_result t text : snd (TrieCalls.parse t text) = parse t text.
  Proof. apply trie_calls_snd. Qed.

  Inductive below : tree -> tree -> Prop :=
  | below_refl t : below t t
  | below_lit lcs pcs n c x : In n lcs -> ln_node n = Some c -> below x c -> below x (Tree lcs pcs)
  | below_par lcs pcs n c x : In n pcs -> pn_node n = Some c -> below x c -> below x (Tree lcs pcs).

  Lemma below_weight a b x t : below x t -> trie_weight a b x <= trie_weight a b t.
  Proof.
    induction 1 as [t|lcs pcs n c x Hi Hc Hb IH|lcs pcs n c x Hi Hc Hb IH]; [lia| |];
      rewrite trie_weight_unfold.
    - pose proof (list_sum_in (fun n => a + match ln_node n with Some c => trie_weight a b c | None => 0 end) n lcs Hi) as H.
      cbv beta in H. rewrite Hc in H. lia.
    - pose proof (list_sum_in (fun n => b (pn_parser n) + match pn_node n with Some c => trie_weight a b c | None => 0 end) n pcs Hi) as H.
      cbv beta in H. rewrite Hc in H. lia.
  Qed.

  Fixpoint lookup_below t {struct t} : forall l node n,
    lookup_literal t l = Ret (inr (node, n)) -> below node t.
  Proof.
    destruct t as [lcs pcs]. intros l node n. cbn [lookup_literal].
    destruct (search (Tree lcs pcs) l) as [[pos| |pos rest]| |]; try discriminate; cbn [bind].
    - intros H. inversion H. constructor.
    - intros H.
      cut (exists m c, In m lcs /\ ln_node m = Some c /\ below node c).
      { intros (m & c & H1 & H2 & H3). exact (below_lit _ _ m c node H1 H2 H3). }
      revert pos H. induction lcs as [|m lcs IH]; intros pos H; [discriminate|].
      destruct pos as [|pos].
      + destruct m as [lit hv po [c|]]; [|discriminate]. apply lookup_below in H.
        exists (LNode lit hv po (Some c)), c. split; [left; reflexivity|]. split; [reflexivity|exact H].
      + apply IH in H. destruct H as (m' & c & H1 & H2). exists m', c. split; [right; exact H1|exact H2].
  Qed.

  Lemma below_trans x y z : below x y -> below y z -> below x z.
  Proof. intros H. induction 1; [exact H| |]; [eapply below_lit|eapply below_par]; eauto. Qed.

  (** The calls weigh no more than the trie, and are made on ends of the text. *)
  Section Calls.
    Variable b : parser -> nat.

    Definition calls_weight (cs : calls) : nat := list_sum (map (fun c => b (fst c)) cs).

    Lemma calls_weight_app cs cs' : calls_weight (cs ++ cs') = calls_weight cs + calls_weight cs'.
    Proof. unfold calls_weight. rewrite map_app. apply list_sum_app. Qed.

    Definition ends_of (text : str) (cs : calls) : Prop := forall q s, In (q, s) cs -> suffix s text.

    Lemma ends_app text cs cs' : ends_of text cs -> ends_of text cs' -> ends_of text (cs ++ cs').
    Proof. intros H H' q s Hi. apply in_app_or in Hi. destruct Hi; eauto. Qed.

    Lemma ends_suffix s text cs : suffix s text -> ends_of s cs -> ends_of text cs.
    Proof. intros S H q r Hi. exact (suffix_trans _ _ _ (H q r Hi) S). Qed.

    Lemma ends_nil text : ends_of text [].
    Proof. intros q s []. Qed.

    Notation good text w cs := (calls_weight cs <= w /\ ends_of text cs).

    Lemma good_nil text w : good text w [].
    Proof. split; [unfold calls_weight; simpl; lia|apply ends_nil]. Qed.

    Lemma trie_calls_good fuel : forall t text,
      good text (trie_weight 0 b t) (fst (TrieCalls.parse_fuel fuel t text)).
    Proof.
      induction fuel as [|fuel IH]; intros t text; [apply good_nil|].
      cbn [TrieCalls.parse_fuel]. rewrite tbind_quiet.
      destruct (lookup_literal t text) as [[[node pos]|[node n]]| |] eqn:El; try apply good_nil.
      { rewrite tbind_quiet. destruct (get_unwrap (literal_children node) pos); apply good_nil. }
      rewrite tbind_quiet. destruct (usub (length text) n) as [d| |]; try apply good_nil.
      rewrite tbind_quiet. destruct (ltrunc text d) as [text'| |] eqn:Et; try apply good_nil.
      apply slice_from_suffix in Et. change (suffix text' text) in Et.
      apply lookup_below in El. destruct node as [lcs pcs]. cbn [parser_children].
      cut (good text'
             (list_sum (map (fun n => b (pn_parser n) + match pn_node n with Some c => trie_weight 0 b c | None => 0 end) pcs))
             (fst (TrieCalls.parse_with_parsers (TrieCalls.parse_fuel fuel) pcs text'))).
      { intros (H1 & H2). split; [|exact (ends_suffix _ _ _ Et H2)].
        pose proof (below_weight 0 b _ _ El) as H. rewrite trie_weight_unfold in H. lia. }
      assert (forall i, good text'
          (b (pn_parser i) + match pn_node i with Some c => trie_weight 0 b c | None => 0 end)
          (fst (TrieCalls.pnode_parse (TrieCalls.parse_fuel fuel) i text'))) as Hone.
      { intros i. unfold TrieCalls.pnode_parse. 
        assert (good text' (b (pn_parser i)) [(pn_parser i, text')]) as (H0 & H0').
        { split; [unfold calls_weight; simpl; lia|]. intros q s [E|[]]. inversion E. apply suffix_refl. }
        rewrite tbind_call.
        destruct (parser_parse (pn_parser i) text') as [[v|]| |]; cbn [quiet fst snd app].
        2, 3, 4: split; [lia|exact H0'].
        rewrite tbind_quiet. destruct (ltrunc text' (length v)) as [rest| |] eqn:Er.
        2, 3: split; [lia|exact H0'].
        apply slice_from_suffix in Er. change (suffix rest text') in Er.
        destruct (pn_node i) as [c|] eqn:Ec; [|split; [cbn [quiet fst]; lia|exact H0']].
        unfold TrieCalls.parse_then_push_kvpair, tbind.
        destruct (IH c rest) as (G1 & G2). apply (ends_suffix _ _ _ Er) in G2.
        pose proof (ends_app _ _ _ H0' G2) as H1.
        pose proof (calls_weight_app [(pn_parser i, text')] (fst (TrieCalls.parse_fuel fuel c rest))) as H2.
        destruct (snd (TrieCalls.parse_fuel fuel c rest)) as [[r|]| |]; cbn [quiet fst]; rewrite ?app_nil_r;
          (split; [|exact H1]); cbn [app] in H2; lia. }
      clear -Hone. induction pcs as [|i pcs IHp]; [apply good_nil|].
      destruct IHp as (I1 & I2). destruct (Hone i) as (O1 & O2).
      cbn [TrieCalls.parse_with_parsers]. unfold tbind.
      change (list_sum (map ?f (i :: pcs))) with (f i + list_sum (map f pcs)). cbv beta.
      destruct (snd (TrieCalls.pnode_parse (TrieCalls.parse_fuel fuel) i text')) as [[r|]| |]; cbn [quiet fst];
        rewrite ?app_nil_r.
      1, 3, 4: split; [lia|exact O2].
      split; [rewrite calls_weight_app; lia|apply ends_app; assumption].
    Qed.
  End Calls.

  (** *** Growth *)
  Section Growth.
    Variables (a : nat) (b : parser -> nat).
    Notation tw := (trie_weight a b).
    Definition cw (o : option tree) : nat := match o with Some c => tw c | None => 0 end.

    (** [k] lets what hangs below a node grow by [d] at most. *)
    Definition lgrows (k : lnode tree -> outcome (lnode tree)) (d : nat) : Prop :=
      forall n n', k n = Ret n' -> cw (ln_node n') <= cw (ln_node n) + d.
    Definition pgrows (k : pnode tree -> outcome (pnode tree)) (d : nat) : Prop :=
      forall n n', k n = Ret n' -> pn_parser n' = pn_parser n /\ cw (pn_node n') <= cw (pn_node n) + d.

    Notation fl := (fun n : lnode tree => a + match ln_node n with Some c => tw c | None => 0 end).
    Notation fp := (fun n : pnode tree => b (pn_parser n) + match pn_node n with Some c => tw c | None => 0 end).

    Lemma update_grows {A} (f : A -> nat) l i k l' d :
      (forall x y, k x = Ret y -> f y <= f x + d) -> update_nth l i k = Ret l' ->
      list_sum (map f l') <= list_sum (map f l) + d.
    Proof.
      intros Hk H. apply update_nth_ret in H. destruct H as (x & y & u & v & -> & _ & E & ->).
      rewrite !list_sum_app_map. specialize (Hk x y E). lia.
    Qed.

    Lemma update_literal_grows t pos k t' d :
      lgrows k d -> update_literal_child t pos k = Ret t' -> tw t' <= tw t + d.
    Proof.
      unfold update_literal_child. destruct t as [lcs pcs]. cbn [literal_children parser_children]. intros Hk.
      destruct (update_nth lcs pos k) as [lcs'| |] eqn:E; try discriminate. cbn [bind]. intros H. inversion H; subst.
      rewrite !trie_weight_unfold. apply (update_grows fl) with (d := d) in E; [lia|].
      intros x y Ey. specialize (Hk x y Ey). unfold cw in Hk. lia.
    Qed.

    Lemma lookup_mut_grows g d :
      (forall t r t', g t r = Ret t' -> tw t' <= tw t + d) ->
      forall t l t', lookup_literal_mut t l g = Ret t' -> tw t' <= tw t + d.
    Proof.
      intros Hg. fix IH 1. intros [lcs pcs] l t'. cbn [lookup_literal_mut].
      destruct (search (Tree lcs pcs) l) as [[pos| |pos rest]| |]; try discriminate; cbn [bind].
      1, 2: apply Hg.
      match goal with |- bind ?X _ = _ -> _ => destruct X as [lcs'| |] eqn:E end; try discriminate.
      cbn [bind]. intros H. inversion H; subst. rewrite !trie_weight_unfold. clear H.
      cut (list_sum (map fl lcs') <= list_sum (map fl lcs) + d); [lia|].
      revert pos lcs' E. induction lcs as [|m lcs IHl]; intros pos lcs' E; [discriminate|].
      destruct pos as [|pos].
      - destruct m as [lit hv po [c|]]; [|discriminate].
        destruct (lookup_literal_mut c rest g) as [c'| |] eqn:Ec; try discriminate. cbn [bind] in E.
        inversion E; subst. apply IH in Ec.
        change (list_sum (map fl (?x :: lcs))) with (fl x + list_sum (map fl lcs)). cbn [ln_node]. lia.
      - match type of E with bind ?X _ = _ => destruct X as [r| |] eqn:Er end; try discriminate.
        cbn [bind] in E. inversion E; subst. apply IHl in Er.
        change (list_sum (map fl (?x :: ?y))) with (fl x + list_sum (map fl y)). lia.
    Qed.

    Lemma add_literal_node_weight t n t' :
      add_literal_node t n = Ret t' -> tw t' = tw t + a + cw (ln_node n).
    Proof.
      destruct t as [lcs pcs]. unfold add_literal_node, sv_push. cbn [literal_children parser_children].
      destruct (sort lnode_cmp (lcs ++ [n])) as [r| |] eqn:E; try discriminate. cbn [bind]. intros H. inversion H.
      apply sort_perm in E. rewrite !trie_weight_unfold, <- (list_sum_perm fl _ _ E), list_sum_app_map.
      unfold cw. cbn [map list_sum fold_right]. lia.
    Qed.

    Lemma split_weight n cpl l n' :
      Trie.split n cpl l = Ret n' -> cw (ln_node n') = cw (ln_node n) + 2 * a.
    Proof.
      unfold Trie.split. destruct (usub (length l) cpl) as [d| |]; try discriminate. cbn [bind].
      destruct (rtrunc l d) as [cp| |]; try discriminate. cbn [bind].
      destruct (ltrunc l cpl) as [lb| |]; try discriminate. cbn [bind].
      destruct (ltrunc (ln_literal n) cpl) as [rb| |]; try discriminate. cbn [bind]. cbv zeta.
      destruct (add_literal_node tree_new _) as [t1| |] eqn:E1; try discriminate. cbn [bind].
      destruct (add_literal_node t1 _) as [t2| |] eqn:E2; try discriminate. cbn [bind].
      intros H. inversion H. cbn [ln_node cw].
      apply add_literal_node_weight in E1, E2. rewrite E2, E1.
      change (tw tree_new) with 0. destruct (ln_pattern n); unfold lnode_set_pattern, lnode_set_has_value, lnode_set_node, lnode_new;
        cbn [ln_node]; unfold cw; lia.
    Qed.

    Lemma insert_literal_grows t l k t' d :
      lgrows k d -> insert_literal t l k = Ret t' -> tw t' <= tw t + (2 * a + d).
    Proof.
      intros Hk. unfold insert_literal. apply lookup_mut_grows. clear t t'.
      intros t [pos|n] t'.
      { intros H. apply (update_literal_grows _ _ _ _ d Hk) in H. lia. }
      destruct (usub (length l) n) as [e| |]; try discriminate. cbn [bind].
      destruct (ltrunc l e) as [tail| |]; try discriminate. cbn [bind].
      unfold insert_literal_tail.
      destruct (sv_binary_search_by _ _) as [[pos|pos]| |]; try discriminate; cbn [bind].
      - destruct (get_unwrap (literal_children t) pos) as [m| |]; try discriminate. cbn [bind].
        destruct (has_common_prefix (ln_literal m) tail) as [cpl|]; [|discriminate].
        apply update_literal_grows. intros h h'.
        destruct (Trie.split h cpl tail) as [h1| |] eqn:Es; try discriminate. cbn [bind].
        destruct (ltrunc tail cpl) as [suff| |]; try discriminate. cbn [bind].
        destruct (ln_node h1) as [node|] eqn:En; [|discriminate].
        destruct (lookup_freshly_inserted_literal node suff k) as [node'| |] eqn:Ef; try discriminate. cbn [bind].
        intros H. inversion H; subst. cbn [lnode_set_node ln_node]. apply split_weight in Es.
        rewrite En in Es. unfold cw in *. 
        unfold lookup_freshly_inserted_literal in Ef.
        apply (lookup_mut_grows _ d) in Ef; [lia|].
        intros u [p|p] u' Hu; [|discriminate]. exact (update_literal_grows _ _ _ _ d Hk Hu).
      - destruct (add_literal_node t _) as [t1| |] eqn:E1; try discriminate. cbn [bind].
        intros H. apply (update_literal_grows _ _ _ _ d Hk) in H. apply add_literal_node_weight in E1.
        cbn [lnode_set_has_value lnode_new ln_node cw] in E1. lia.
    Qed.

    (** Into an empty trie goes just one node. *)
    Lemma insert_literal_new_grows l k t' d :
      lgrows k d -> insert_literal tree_new l k = Ret t' -> tw t' <= a + d.
    Proof.
      intros Hk. unfold insert_literal. unfold tree_new, sv_new.
      rewrite Trie_refine.lookup_literal_mut_unfold. cbn [search literal_children].
      unfold search. cbn [literal_children sv_binary_search_by].
      replace (sv_binary_search_by (@nil (lnode tree)) (fun probe => cmp_str (ln_literal probe) l))
        with (@Ret (nat + nat) (inr 0)) by reflexivity.
      cbn [bind]. destruct (usub (length l) (length l)) as [e| |]; try discriminate. cbn [bind].
      destruct (ltrunc l e) as [tail| |]; try discriminate. cbn [bind].
      unfold insert_literal_tail. cbn [literal_children].
      replace (sv_binary_search_by (@nil (lnode tree)) (fun probe => cmp_str (ln_literal probe) tail))
        with (@Ret (nat + nat) (inr 0)) by reflexivity.
      cbn [bind]. destruct (add_literal_node (Tree [] []) _) as [t1| |] eqn:E1; try discriminate. cbn [bind].
      intros H. apply (update_literal_grows _ _ _ _ d Hk) in H. apply add_literal_node_weight in E1.
      cbn [lnode_set_has_value lnode_new ln_node cw] in E1. change (tw (Tree [] [])) with 0 in E1. lia.
    Qed.

    Variable sip : list byte -> N.

    Lemma insert_parser_grows t q k t' d :
      pgrows k d -> insert_parser sip t q k = Ret t' -> tw t' <= tw t + (b q + d).
    Proof.
      intros Hk. unfold insert_parser. destruct t as [lcs pcs]. cbn [literal_children parser_children].
      destruct (lookup_parser sip (Tree lcs pcs) q) as [i|].
      - destruct (update_nth pcs i k) as [pcs'| |] eqn:E; try discriminate. cbn [bind]. intros H. inversion H.
        rewrite !trie_weight_unfold. apply (update_grows fp) with (d := d) in E; [lia|].
        intros x y Ey. destruct (Hk x y Ey) as (E1 & E2). unfold cw in E2. rewrite E1. lia.
      - destruct (k (pnode_new q)) as [n| |] eqn:E; try discriminate. cbn [bind]. intros H. inversion H.
        destruct (Hk _ _ E) as (E1 & E2). cbn [pnode_new pn_parser pn_node cw] in E1, E2.
        rewrite !trie_weight_unfold, list_sum_app_map. cbn [map list_sum fold_right]. rewrite E1. unfold cw in E2. lia.
    Qed.

    Definition token_weight (tok : token) : nat :=
      match tok with Literal _ => a | Parser q => b q end.
    Definition tokens_weight (toks : list token) : nat := list_sum (map token_weight toks).

    Lemma insert_tokens_new toks : forall p t',
      insert_tokens sip toks tree_new p = Ret t' -> tw t' <= tokens_weight toks.
    Proof.
      induction toks as [|tok rest IH]; intros p t'; cbn [insert_tokens].
      { intros H. inversion H. simpl. lia. }
      change (tokens_weight (tok :: rest)) with (token_weight tok + tokens_weight rest).
      destruct tok as [q|l]; cbn [token_weight].
      2: { apply insert_literal_new_grows. intros n n'. destruct (is_empty rest).
        { intros H. inversion H. cbn [lnode_set_pattern ln_node]. lia. }
        destruct (insert_tokens sip rest tree_new _) as [c| |] eqn:E; try discriminate. cbn [bind].
        intros H. inversion H. cbn [lnode_set_node ln_node]. apply IH in E. unfold cw at 1. lia. }
      intros H. apply insert_parser_grows with (d := tokens_weight rest) in H; [change (tw tree_new) with 0 in H; lia|].
        intros n n'. destruct (is_empty rest).
        { intros E. inversion E. cbn [pnode_set_pattern pn_node pn_parser]. split; [reflexivity|lia]. }
        destruct (insert_tokens sip rest tree_new _) as [c| |] eqn:E; try discriminate. cbn [bind].
        intros E'. inversion E'. cbn [pnode_set_child pn_node pn_parser]. split; [reflexivity|].
        apply IH in E. unfold cw at 1. lia.
    Qed.

    (** A pattern beginning with a literal may in addition split a node. *)
    Definition start_weight (toks : list token) : nat :=
      match toks with Literal _ :: _ => a | _ => 0 end.

    Lemma add_pattern_grows t p t' :
      add_pattern sip t p = Ret t' ->
      tw t' <= tw t + (tokens_weight (pat_tokens p) + start_weight (pat_tokens p)).
    Proof.
      unfold add_pattern. destruct (pat_tokens p) as [|tok rest]; cbn [insert_tokens].
      { intros H. inversion H. lia. }
      change (tokens_weight (tok :: rest)) with (token_weight tok + tokens_weight rest).
      destruct tok as [q|l]; cbn [token_weight start_weight].
      2: { intros H. apply insert_literal_grows with (d := tokens_weight rest) in H; [lia|].
        intros n n'. destruct (is_empty rest).
        { intros E. inversion E. cbn [lnode_set_pattern ln_node]. lia. }
        destruct (insert_tokens sip rest tree_new _) as [c| |] eqn:E; try discriminate. cbn [bind].
        intros E'. inversion E'. cbn [lnode_set_node ln_node]. apply insert_tokens_new in E. unfold cw at 1. lia. }
      intros H. apply insert_parser_grows with (d := tokens_weight rest) in H; [lia|].
        intros n n'. destruct (is_empty rest).
        { intros E. inversion E. cbn [pnode_set_pattern pn_node pn_parser]. split; [reflexivity|lia]. }
        destruct (insert_tokens sip rest tree_new _) as [c| |] eqn:E; try discriminate. cbn [bind].
        intros E'. inversion E'. cbn [pnode_set_child pn_node pn_parser]. split; [reflexivity|].
        apply insert_tokens_new in E. unfold cw at 1. lia.
    Qed.

    Lemma add_patterns_grows ps : forall t t',
      add_patterns sip t ps = Ret t' ->
      tw t' <= tw t + (tokens_weight (flat_map pat_tokens ps) +
                       list_sum (map (fun p => start_weight (pat_tokens p)) ps)).
    Proof.
      induction ps as [|p ps IH]; intros t t'; cbn [add_patterns].
      { intros H. inversion H. lia. }
      destruct (add_pattern sip t p) as [t1| |] eqn:E; try discriminate. cbn [bind]. intros H.
      apply IH in H. apply add_pattern_grows in E. cbn [flat_map]. unfold tokens_weight in *.
      rewrite map_app, list_sum_app.
      change (list_sum (map (fun p => start_weight (pat_tokens p)) (p :: ps)))
        with (start_weight (pat_tokens p) + list_sum (map (fun p => start_weight (pat_tokens p)) ps)).
      lia.
    Qed.
  End Growth.
End Trie.

(** ** The suffix table *)
Section Table.
  Import SuffixArray.

  Lemma table_weight_unfold a b les pes :
    table_weight a b (Table les pes) =
    list_sum (map (fun e => a + match le_child e with Some c => table_weight a b c | None => 0 end) les)
    + list_sum (map (fun e => b (pe_parser e) + match pe_child e with Some c => table_weight a b c | None => 0 end) pes).
  Proof. reflexivity. Qed.

  (** *** Calls *)
  Lemma table_calls_snd fuel : forall t text,
    snd (TableCalls.parse_fuel fuel t text) = parse_fuel fuel t text.
  Proof.
    induction fuel as [|fuel IH]; intros t text; [reflexivity|].
    cbn [TableCalls.parse_fuel parse_fuel]. rewrite tbind_snd. cbn [quiet snd].
    destruct (longest_common_prefix t text) as [[e|]| |]; try reflexivity; cbn [bind].
    - cbv zeta. destruct (Nat.eqb _ _); [reflexivity|]. destruct (Nat.ltb _ _); [|reflexivity].
      rewrite tbind_snd. cbn [quiet snd]. destruct (ltrunc text _) as [rest| |]; try reflexivity. cbn [bind].
      destruct (le_child e) as [c|]; [apply IH|reflexivity].
    - induction (parser_entries t) as [|e pes IHp]; [reflexivity|].
      cbn [TableCalls.parse_with_parsers parse_with_parsers]. rewrite tbind_snd.
      assert (snd (TableCalls.parser_e_parse (TableCalls.parse_fuel fuel) e text) =
              parser_e_parse (parse_fuel fuel) e text) as ->.
      { unfold TableCalls.parser_e_parse, parser_e_parse. rewrite tbind_snd. cbn [call snd].
        destruct (parser_parse (pe_parser e) text) as [[v|]| |]; try reflexivity. cbn [bind].
        rewrite tbind_snd. cbn [quiet snd]. destruct (ltrunc text (length v)) as [rest| |]; try reflexivity.
        cbn [bind]. destruct (pe_child e) as [c|].
        - rewrite tbind_snd, IH. destruct (parse_fuel fuel c rest) as [[r|]| |]; reflexivity.
        - destruct (is_empty rest); reflexivity. }
      destruct (parser_e_parse (parse_fuel fuel) e text) as [[r|]| |]; try reflexivity. exact IHp.
  Qed.

  Lemma table_calls_result t text : snd (TableCalls.parse t text) = parse t text.
  Proof. apply table_calls_snd. Qed.

  Lemma lcp_in t text e : longest_common_prefix t text = Ret (Some e) -> In e (literal_entries t).
  Proof.
    unfold longest_common_prefix.
    destruct (binary_search_by _ _) as [[pos|pos]| |]; try discriminate; cbn [bind]; intros H; inversion H as [E].
    { exact (nth_error_In _ _ E). }
    clear H. unfold lcp_around_pos in E. destruct (Nat.eqb pos 0); [exact (nth_error_In _ _ E)|].
    unfold lcp_between_consecutive_entries in E.
    destruct (nth_error (literal_entries t) (pos - 1)) as [x|] eqn:E1.
    - destruct (nth_error (literal_entries t) (pos - 1 + 1)) as [y|] eqn:E2.
      + destruct (Nat.leb _ _); inversion E; subst; [exact (nth_error_In _ _ E1)|exact (nth_error_In _ _ E2)].
      + inversion E; subst. exact (nth_error_In _ _ E1).
    - exact (nth_error_In _ _ E).
  Qed.

  Section Calls.
    Variable b : parser -> nat.
    Notation calls_weight := (calls_weight b).
    Notation good text w cs := (calls_weight cs <= w /\ ends_of text cs).

    Lemma table_calls_good fuel : forall t text,
      good text (table_weight 0 b t) (fst (TableCalls.parse_fuel fuel t text)).
    Proof.
      induction fuel as [|fuel IH]; intros t text; [apply good_nil|].
      cbn [TableCalls.parse_fuel]. rewrite tbind_quiet.
      destruct (longest_common_prefix t text) as [[e|]| |] eqn:El; try apply good_nil.
      - cbv zeta. destruct (Nat.eqb _ _); [apply good_nil|]. destruct (Nat.ltb _ _); [|apply good_nil].
        rewrite tbind_quiet. destruct (ltrunc text _) as [rest| |] eqn:Er; try apply good_nil.
        destruct (le_child e) as [c|] eqn:Ec; [|apply good_nil].
        apply slice_from_suffix in Er. change (suffix rest text) in Er.
        destruct (IH c rest) as (G1 & G2). split; [|exact (ends_suffix _ _ _ Er G2)].
        apply lcp_in in El. destruct t as [les pes]. rewrite table_weight_unfold.
        pose proof (list_sum_in (fun e => 0 + match le_child e with Some c => table_weight 0 b c | None => 0 end) e les El) as H.
        cbv beta in H. rewrite Ec in H. lia.
      - destruct t as [les pes]. cbn [parser_entries]. rewrite table_weight_unfold.
        cut (good text
               (list_sum (map (fun e => b (pe_parser e) + match pe_child e with Some c => table_weight 0 b c | None => 0 end) pes))
               (fst (TableCalls.parse_with_parsers (TableCalls.parse_fuel fuel) pes text))).
        { intros (H1 & H2). split; [lia|exact H2]. }
        assert (forall e, good text
            (b (pe_parser e) + match pe_child e with Some c => table_weight 0 b c | None => 0 end)
            (fst (TableCalls.parser_e_parse (TableCalls.parse_fuel fuel) e text))) as Hone.
        { intros e. unfold TableCalls.parser_e_parse.
          assert (good text (b (pe_parser e)) [(pe_parser e, text)]) as (H0 & H0').
          { split; [unfold Effort_facts.calls_weight; simpl; lia|]. intros q s [E|[]]. inversion E. apply suffix_refl. }
          rewrite tbind_call.
          destruct (parser_parse (pe_parser e) text) as [[v|]| |]; cbn [quiet fst snd app].
          2, 3, 4: split; [lia|exact H0'].
          rewrite tbind_quiet. destruct (ltrunc text (length v)) as [rest| |] eqn:Er.
          2, 3: split; [lia|exact H0'].
          apply slice_from_suffix in Er. change (suffix rest text) in Er.
          destruct (pe_child e) as [c|] eqn:Ec.
          2: { destruct (is_empty rest); (split; [cbn [quiet fst]; lia|exact H0']). }
          unfold tbind.
          destruct (IH c rest) as (G1 & G2). apply (ends_suffix _ _ _ Er) in G2.
          pose proof (ends_app _ _ _ H0' G2) as H1.
          pose proof (calls_weight_app b [(pe_parser e, text)] (fst (TableCalls.parse_fuel fuel c rest))) as H2.
          destruct (snd (TableCalls.parse_fuel fuel c rest)) as [[r|]| |]; cbn [quiet fst]; rewrite ?app_nil_r;
            (split; [|exact H1]); cbn [app] in H2; lia. }
        clear -Hone. induction pes as [|e pes IHp]; [apply good_nil|].
        destruct IHp as (I1 & I2). destruct (Hone e) as (O1 & O2).
        cbn [TableCalls.parse_with_parsers]. unfold tbind.
        change (list_sum (map ?f (e :: pes))) with (f e + list_sum (map f pes)). cbv beta.
        destruct (snd (TableCalls.parser_e_parse (TableCalls.parse_fuel fuel) e text)) as [[r|]| |]; cbn [quiet fst];
          rewrite ?app_nil_r.
        1, 3, 4: split; [lia|exact O2].
        split; [rewrite calls_weight_app; lia|apply ends_app; assumption].
    Qed.
  End Calls.

  (** *** Growth *)
  Section Growth.
    Variables (a : nat) (b : parser -> nat).
    Notation tw := (table_weight a b).
    Definition tcw (o : option table) : nat := match o with Some c => tw c | None => 0 end.

    Definition legrows (k : literal_e table -> outcome (literal_e table)) (d : nat) : Prop :=
      forall n n', k n = Ret n' -> tcw (le_child n') <= tcw (le_child n) + d.
    Definition pegrows (k : parser_e table -> outcome (parser_e table)) (d : nat) : Prop :=
      forall n n', k n = Ret n' -> pe_parser n' = pe_parser n /\ tcw (pe_child n') <= tcw (pe_child n) + d.

    Notation fl := (fun e : literal_e table => a + match le_child e with Some c => tw c | None => 0 end).
    Notation fp := (fun e : parser_e table => b (pe_parser e) + match pe_child e with Some c => tw c | None => 0 end).

    Lemma table_literal_grows t l k t' d :
      legrows k d -> insert_literal t l k = Ret t' -> tw t' <= tw t + (a + d).
    Proof.
      intros Hk. assert (forall x y, k x = Ret y -> fl y <= fl x + d) as Hk'.
      { intros x y E. specialize (Hk x y E). unfold tcw in Hk. lia. }
      unfold insert_literal. destruct t as [les pes]. cbn [literal_entries parser_entries].
      destruct (binary_search_by _ _) as [[pos|pos]| |]; try discriminate; cbn [bind].
      - destruct (update_nth les pos k) as [les'| |] eqn:E; try discriminate. cbn [bind]. intros H. inversion H.
        rewrite !table_weight_unfold. apply (update_grows fl _ _ _ _ d Hk') in E. lia.
      - unfold vec_insert. destruct (Nat.leb pos (length les)); [|discriminate]. cbn [bind].
        destruct (update_nth _ pos k) as [les'| |] eqn:E; try discriminate. cbn [bind]. intros H. inversion H.
        rewrite !table_weight_unfold. apply (update_grows fl _ _ _ _ d Hk') in E.
        rewrite list_sum_app_map in E. cbn [literal_e_new le_child] in E.
        rewrite <- (firstn_skipn pos les) at 1. rewrite map_app, list_sum_app. lia.
    Qed.

    Variable sip : list byte -> N.

    Lemma table_parser_grows t q k t' d :
      pegrows k d -> insert_parser sip t q k = Ret t' -> tw t' <= tw t + (b q + d).
    Proof.
      intros Hk. unfold insert_parser. destruct t as [les pes]. cbn [literal_entries parser_entries].
      destruct (Trie.position _ pes) as [i|].
      - destruct (update_nth pes i k) as [pes'| |] eqn:E; try discriminate. cbn [bind]. intros H. inversion H.
        rewrite !table_weight_unfold. apply (update_grows fp) with (d := d) in E; [lia|].
        intros x y Ey. destruct (Hk x y Ey) as (E1 & E2). unfold tcw in E2. rewrite E1. lia.
      - destruct (k (parser_e_new q)) as [n| |] eqn:E; try discriminate. cbn [bind]. intros H. inversion H.
        destruct (Hk _ _ E) as (E1 & E2). cbn [parser_e_new pe_parser pe_child tcw] in E1, E2.
        rewrite !table_weight_unfold, list_sum_app_map. cbn [map list_sum fold_right]. rewrite E1. unfold tcw in E2. lia.
    Qed.

    Notation tokens_weight := (tokens_weight a b).

    Lemma table_tokens_grows toks : forall p t t',
      insert_tokens sip toks t p = Ret t' -> tw t' <= tw t + tokens_weight toks.
    Proof.
      induction toks as [|tok rest IH]; intros p t t'; cbn [insert_tokens].
      { intros H. inversion H. lia. }
      change (tokens_weight (tok :: rest)) with (token_weight a b tok + tokens_weight rest).
      destruct tok as [q|l]; cbn [token_weight].
      - apply table_parser_grows. intros n n'. destruct (is_empty rest).
        { intros E. inversion E. cbn [pe_set_pattern pe_child pe_parser]. split; [reflexivity|lia]. }
        destruct (insert_tokens sip rest table_new _) as [c| |] eqn:E; try discriminate. cbn [bind].
        intros E'. inversion E'. cbn [pe_set_child pe_child pe_parser]. split; [reflexivity|].
        apply IH in E. change (tw table_new) with 0 in E. unfold tcw at 1. lia.
      - apply table_literal_grows. intros n n'. destruct (is_empty rest).
        { intros E. inversion E. cbn [le_set_pattern le_child]. lia. }
        destruct (insert_tokens sip rest table_new _) as [c| |] eqn:E; try discriminate. cbn [bind].
        intros E'. inversion E'. cbn [le_set_child le_child].
        apply IH in E. change (tw table_new) with 0 in E. unfold tcw at 1. lia.
    Qed.

    Lemma table_patterns_grows ps : forall t t',
      add_patterns sip t ps = Ret t' -> tw t' <= tw t + tokens_weight (flat_map pat_tokens ps).
    Proof.
      induction ps as [|p ps IH]; intros t t'; cbn [add_patterns].
      { intros H. inversion H. lia. }
      destruct (add_pattern sip t p) as [t1| |] eqn:E; try discriminate. cbn [bind]. intros H.
      apply IH in H. apply table_tokens_grows in E. cbn [flat_map]. unfold Effort_facts.tokens_weight in *.
      rewrite map_app, list_sum_app. lia.
    Qed.
  End Growth.
End Table.

(** ** The statements *)
Lemma sum_filter {A} (f : A -> bool) l :
  list_sum (map (fun x => if f x then 1 else 0) l) = length (filter f l).
Proof.
  induction l as [|x l IH]; [reflexivity|]. cbn [map filter].
  change (list_sum (?x :: ?y)) with (x + list_sum y). destruct (f x); simpl; lia.
Qed.

Lemma list_sum_ext {A} (f g : A -> nat) l : (forall x, f x = g x) -> list_sum (map f l) = list_sum (map g l).
Proof. intros H. f_equal. apply map_ext. exact H. Qed.

Definition one (q q' : parser) : nat := if parser_eq_dec q' q then 1 else 0.

Lemma calls_one q cs : calls_weight (one q) cs = parser_calls q cs.
Proof.
  unfold calls_weight, parser_calls. rewrite <- sum_filter. apply list_sum_ext. intros c. unfold one.
  destruct (parser_eq_dec (fst c) q); reflexivity.
Qed.

Lemma calls_all cs : calls_weight (fun _ => 1) cs = length cs.
Proof. unfold calls_weight. induction cs; simpl in *; lia. Qed.

Lemma tokens_one q ps : tokens_weight 0 (one q) (flat_map pat_tokens ps) = parser_uses q ps.
Proof.
  unfold tokens_weight, parser_uses. rewrite <- sum_filter. apply list_sum_ext. intros [q'|l]; [|reflexivity].
  cbn [token_weight]. unfold one. destruct (parser_eq_dec q' q); reflexivity.
Qed.

Lemma tokens_parsers ps : tokens_weight 0 (fun _ => 1) (flat_map pat_tokens ps) = parser_tokens ps.
Proof.
  unfold tokens_weight, parser_tokens. rewrite <- sum_filter. apply list_sum_ext. intros [q|l]; reflexivity.
Qed.

Lemma tokens_literals ps : tokens_weight 1 (fun _ => 0) (flat_map pat_tokens ps) = literal_tokens ps.
Proof.
  unfold tokens_weight, literal_tokens. rewrite <- sum_filter. apply list_sum_ext. intros [q|l]; reflexivity.
Qed.

Lemma starts_none ps : list_sum (map (fun p => start_weight 0 (pat_tokens p)) ps) = 0.
Proof.
  induction ps as [|p ps IH]; [reflexivity|]. cbn [map]. change (list_sum (?x :: ?y)) with (x + list_sum y).
  rewrite IH. destruct (pat_tokens p) as [|[|]]; reflexivity.
Qed.

Lemma starts_literal ps : list_sum (map (fun p => start_weight 1 (pat_tokens p)) ps) = literal_starts ps.
Proof.
  unfold literal_starts. rewrite <- sum_filter. apply list_sum_ext. intros p.
  destruct (pat_tokens p) as [|[|]]; reflexivity.
Qed.

Lemma trie_grows a b sip ps t :
  Trie.add_patterns sip Trie.tree_new ps = Ret t ->
  trie_weight a b t <= tokens_weight a b (flat_map pat_tokens ps) +
                       list_sum (map (fun p => start_weight a (pat_tokens p)) ps).
Proof. intros H. apply (add_patterns_grows a b) in H. change (trie_weight a b Trie.tree_new) with 0 in H. lia. Qed.

Lemma table_grows a b sip ps t :
  SuffixArray.add_patterns sip SuffixArray.table_new ps = Ret t ->
  table_weight a b t <= tokens_weight a b (flat_map pat_tokens ps).
Proof.
  intros H. apply (table_patterns_grows a b) in H. change (table_weight a b SuffixArray.table_new) with 0 in H. lia.
Qed.

Lemma trie_calls sip ps t text :
  Trie.add_patterns sip Trie.tree_new ps = Ret t ->
  let cs := fst (TrieCalls.parse t text) in
  snd (TrieCalls.parse t text) = Trie.parse t text /\
  length cs <= parser_tokens ps /\
  (forall q, parser_calls q cs <= parser_uses q ps) /\
  (forall q s, In (q, s) cs -> exists w, text = w ++ s).
Proof.
  intros H cs. split; [apply trie_calls_result|]. split; [|split].
  - rewrite <- tokens_parsers, <- calls_all. apply (trie_grows 0 (fun _ => 1)) in H. rewrite starts_none in H.
    pose proof (trie_calls_good (fun _ => 1) (Trie.height t) t text) as (G & _). unfold cs, TrieCalls.parse. lia.
  - intros q. rewrite <- tokens_one, <- calls_one. apply (trie_grows 0 (one q)) in H. rewrite starts_none in H.
    pose proof (trie_calls_good (one q) (Trie.height t) t text) as (G & _). unfold cs, TrieCalls.parse. lia.
  - intros q s Hi. apply (proj2 (trie_calls_good (fun _ => 1) (Trie.height t) t text) q s Hi).
Qed.

Lemma table_calls sip ps t text :
  SuffixArray.add_patterns sip SuffixArray.table_new ps = Ret t ->
  let cs := fst (TableCalls.parse t text) in
  snd (TableCalls.parse t text) = SuffixArray.parse t text /\
  length cs <= parser_tokens ps /\
  (forall q, parser_calls q cs <= parser_uses q ps) /\
  (forall q s, In (q, s) cs -> exists w, text = w ++ s).
Proof.
  intros H cs. split; [apply table_calls_result|]. split; [|split].
  - rewrite <- tokens_parsers, <- calls_all. apply (table_grows 0 (fun _ => 1)) in H.
    pose proof (table_calls_good (fun _ => 1) (SuffixArray.height t) t text) as (G & _).
    unfold cs, TableCalls.parse. lia.
  - intros q. rewrite <- tokens_one, <- calls_one. apply (table_grows 0 (one q)) in H.
    pose proof (table_calls_good (one q) (SuffixArray.height t) t text) as (G & _).
    unfold cs, TableCalls.parse. lia.
  - intros q s Hi. apply (proj2 (table_calls_good (fun _ => 1) (SuffixArray.height t) t text) q s Hi).
Qed.

Lemma trie_size sip ps t :
  Trie.add_patterns sip Trie.tree_new ps = Ret t ->
  trie_parsers t <= parser_tokens ps /\ trie_literals t <= literal_tokens ps + literal_starts ps.
Proof.
  intros H. split.
  - apply (trie_grows 0 (fun _ => 1)) in H. rewrite starts_none, tokens_parsers in H. unfold trie_parsers. lia.
  - apply (trie_grows 1 (fun _ => 0)) in H. rewrite starts_literal, tokens_literals in H. exact H.
Qed.

Lemma table_size sip ps t :
  SuffixArray.add_patterns sip SuffixArray.table_new ps = Ret t ->
  table_parsers t <= parser_tokens ps /\ table_literals t <= literal_tokens ps.
Proof.
  intros H. split.
  - apply (table_grows 0 (fun _ => 1)) in H. rewrite tokens_parsers in H. exact H.
  - apply (table_grows 1 (fun _ => 0)) in H. rewrite tokens_literals in H. exact H.
Qed.
