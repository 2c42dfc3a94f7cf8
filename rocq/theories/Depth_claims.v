(** * How deep the recursion of the matchers goes *)
From Coq Require Import List Arith Lia Permutation.
From Verif Require Import Base Base_facts Utils Parsers Pattern Spec_depth Effort_facts.
From Verif Require Trie Trie_refine Trie_total SuffixArray Table_refine.
Import ListNotations.

Lemma update_nth_in {A} (l : list A) i k l' :
  update_nth l i k = Ret l' ->
  exists x y, In x l /\ k x = Ret y /\ (forall z, In z l' -> z = y \/ In z l).
Proof.
  intros H. apply update_nth_ret in H. destruct H as (x & y & u & v & -> & _ & E & ->).
  exists x, y. split; [apply in_or_app; right; left; reflexivity|]. split; [exact E|].
  intros z Hz. apply in_app_or in Hz. destruct Hz as [Hz|[->|Hz]]; [right|left; reflexivity|right];
    apply in_or_app; [left|right; right]; exact Hz.
Qed.

(** ** The trie *)
Section Trie.
  Import Trie.

  (** At most [n] parser nodes with a child one below the other. *)
  Inductive nested : nat -> tree -> Prop :=
  | nested_tree n lcs pcs :
      (forall m c, In m lcs -> ln_node m = Some c -> nested n c) ->
      (forall m c, In m pcs -> pn_node m = Some c -> 1 <= n) ->
      (forall m c, In m pcs -> pn_node m = Some c -> nested (pred n) c) ->
      nested n (Tree lcs pcs).

  Definition lnested n (m : lnode tree) : Prop := forall c, ln_node m = Some c -> nested n c.
  Definition pnested n (m : pnode tree) : Prop :=
    forall c, pn_node m = Some c -> 1 <= n /\ nested (pred n) c.

  Lemma nested_iff n t :
    nested n t <->
    (forall m, In m (literal_children t) -> lnested n m) /\
    (forall m, In m (parser_children t) -> pnested n m).
  Proof.
    destruct t as [lcs pcs]. cbn [literal_children parser_children]. split.
    - intros H. inversion H as [? ? ? H1 H2 H3]; subst. split; [intros m Hm c; eauto|].
      intros m Hm c Hc. split; eauto.
    - intros (H1 & H2). constructor.
      + intros m c Hm. exact (H1 m Hm c).
      + intros m c Hm Hc. exact (proj1 (H2 m Hm c Hc)).
      + intros m c Hm Hc. exact (proj2 (H2 m Hm c Hc)).
  Qed.

  Lemma nested_new n : nested n tree_new.
  Proof. apply nested_iff. split; intros m []. Qed.

  Lemma update_literal_nested n t pos k t' :
    (forall m m', lnested n m -> k m = Ret m' -> lnested n m') ->
    nested n t -> update_literal_child t pos k = Ret t' -> nested n t'.
  Proof.
    intros Hk H. unfold update_literal_child.
    destruct (update_nth _ pos k) as [lcs'| |] eqn:E; try discriminate. cbn [bind].
    intros R. inversion R; subst. apply nested_iff in H. destruct H as (H1 & H2).
    apply update_nth_in in E. destruct E as (x & y & Hx & Ey & Hz).
    apply nested_iff. cbn [literal_children parser_children]. split; [|exact H2].
    intros m Hm. destruct (Hz m Hm) as [->|Hi]; [|exact (H1 m Hi)].
    exact (Hk x y (H1 x Hx) Ey).
  Qed.

  Lemma lookup_mut_nested n g :
    (forall u r u', nested n u -> g u r = Ret u' -> nested n u') ->
    forall t l t', nested n t -> lookup_literal_mut t l g = Ret t' -> nested n t'.
  Proof.
    intros Hg. fix IH 1. intros [lcs pcs] l t' H. cbn [lookup_literal_mut].
    destruct (search (Tree lcs pcs) l) as [[pos| |pos rest]| |]; try discriminate; cbn [bind].
    1, 2: exact (Hg _ _ _ H).
    match goal with |- bind ?X _ = _ -> _ => destruct X as [lcs'| |] eqn:E end; try discriminate.
    cbn [bind]. intros R. inversion R; subst. apply nested_iff in H. destruct H as (H1 & H2).
    apply nested_iff. cbn [literal_children parser_children] in *. split; [|exact H2].
    clear R H2. revert H1 pos lcs' E. induction lcs as [|m lcs IHl]; intros H1 pos lcs' E; [discriminate|].
    destruct pos as [|pos].
    - destruct m as [lit hv po [c|]]; [|discriminate].
      destruct (lookup_literal_mut c rest g) as [c'| |] eqn:Ec; try discriminate. cbn [bind] in E.
      inversion E; subst. intros m [<-|Hm]; [|apply H1; right; exact Hm].
      intros d Hd. cbn [ln_node] in Hd. inversion Hd; subst.
      refine (IH c rest _ _ Ec). exact (H1 _ (or_introl eq_refl) c eq_refl).
    - match type of E with bind ?X _ = _ => destruct X as [r| |] eqn:Er end; try discriminate.
      cbn [bind] in E. inversion E; subst. intros m' [<-|Hm]; [apply H1; left; reflexivity|].
      refine (IHl _ _ _ Er m' Hm). intros x Hx. apply H1. right. exact Hx.
  Qed.

  Lemma add_literal_node_nested n t m t' :
    nested n t -> lnested n m -> add_literal_node t m = Ret t' -> nested n t'.
  Proof.
    intros H Hm. unfold add_literal_node, sv_push.
    destruct (sort lnode_cmp _) as [r| |] eqn:E; try discriminate. cbn [bind]. intros R. injection R as <-.
    apply sort_perm in E. apply nested_iff in H. destruct H as (H1 & H2). apply nested_iff.
    cbn [literal_children parser_children]. split; [|exact H2]. intros x Hx.
    apply (Permutation_in _ (Permutation_sym E)), in_app_or in Hx.
    destruct Hx as [Hx|[<-|[]]]; auto.
  Qed.

  Lemma lnew_nested n l : lnested n (lnode_set_has_value (lnode_new l) true).
  Proof. intros c H. discriminate H. Qed.

  Lemma split_nested n m cpl l m' : lnested n m -> Trie.split m cpl l = Ret m' -> lnested n m'.
  Proof.
    intros Hm. unfold Trie.split. destruct (usub (length l) cpl) as [d| |]; try discriminate. cbn [bind].
    destruct (rtrunc l d) as [cp| |]; try discriminate. cbn [bind].
    destruct (ltrunc l cpl) as [lb| |]; try discriminate. cbn [bind].
    destruct (ltrunc (ln_literal m) cpl) as [rb| |]; try discriminate. cbn [bind]. cbv zeta.
    destruct (add_literal_node tree_new _) as [t1| |] eqn:E1; try discriminate. cbn [bind].
    destruct (add_literal_node t1 _) as [t2| |] eqn:E2; try discriminate. cbn [bind].
    intros R. inversion R; subst. intros c Hc. cbn [ln_node] in Hc. inversion Hc; subst.
    apply (add_literal_node_nested n) in E1; [|apply nested_new|apply lnew_nested].
    apply (add_literal_node_nested n) in E2; [exact E2|exact E1|].
    destruct (ln_pattern m); exact Hm.
  Qed.

  Lemma insert_literal_nested n t l k t' :
    (forall m m', lnested n m -> k m = Ret m' -> lnested n m') ->
    nested n t -> insert_literal t l k = Ret t' -> nested n t'.
  Proof.
    intros Hk. unfold insert_literal. apply lookup_mut_nested. clear t t'.
    intros t [pos|r] t' H.
    { apply update_literal_nested; assumption. }
    destruct (usub (length l) r) as [e| |]; try discriminate. cbn [bind].
    destruct (ltrunc l e) as [tail| |]; try discriminate. cbn [bind].
    unfold insert_literal_tail.
    destruct (sv_binary_search_by _ _) as [[pos|pos]| |]; try discriminate; cbn [bind].
    - destruct (get_unwrap (literal_children t) pos) as [m| |]; try discriminate. cbn [bind].
      destruct (has_common_prefix (ln_literal m) tail) as [cpl|]; [|discriminate].
      apply update_literal_nested; [|exact H]. intros h h' Hh.
      destruct (Trie.split h cpl tail) as [h1| |] eqn:Es; try discriminate. cbn [bind].
      destruct (ltrunc tail cpl) as [suff| |]; try discriminate. cbn [bind].
      destruct (ln_node h1) as [node|] eqn:En; [|discriminate].
      destruct (lookup_freshly_inserted_literal node suff k) as [node'| |] eqn:Ef; try discriminate.
      cbn [bind]. intros R. inversion R; subst. intros c Hc. cbn [lnode_set_node ln_node] in Hc.
      inversion Hc; subst. unfold lookup_freshly_inserted_literal in Ef.
      refine (lookup_mut_nested n _ _ _ _ _ (split_nested _ _ _ _ _ Hh Es _ En) Ef).
      intros u [p|p] u' Hu E; [|discriminate]. exact (update_literal_nested _ _ _ _ _ Hk Hu E).
    - destruct (add_literal_node t _) as [t1| |] eqn:E1; try discriminate. cbn [bind].
      apply (add_literal_node_nested n) in E1; [|exact H|apply lnew_nested].
      apply update_literal_nested; assumption.
  Qed.

  Lemma insert_tokens_nested sip toks : forall n t p t',
    length (filter is_parser_token (removelast toks)) <= n -> nested n t ->
    insert_tokens sip toks t p = Ret t' -> nested n t'.
  Proof.
    induction toks as [|tok toks IH]; intros n t p t' L H; cbn [insert_tokens].
    { intros R. inversion R; subst. exact H. }
    destruct tok as [q|l].
    - assert (forall m m', pnested n m ->
                (if is_empty toks then Ret (pnode_set_pattern m (Some (set_pattern_tokens p toks)))
                 else let* c := insert_tokens sip toks tree_new (set_pattern_tokens p toks) in
                      Ret (pnode_set_child m (Some c))) = Ret m' -> pnested n m') as Hk.
      { intros m m' Hm. destruct toks as [|tok toks]; cbn [is_empty].
        - intros R. inversion R; subst. exact Hm.
        - destruct (insert_tokens sip (tok :: toks) tree_new _) as [c| |] eqn:E; try discriminate. cbn [bind].
          intros R. inversion R; subst. intros d Hd. cbn [pnode_set_child pn_node] in Hd.
          inversion Hd; subst.
          change (removelast (Parser q :: tok :: toks)) with (Parser q :: removelast (tok :: toks)) in L.
          cbn [filter is_parser_token length] in L. split; [lia|].
          refine (IH (pred n) _ _ _ _ (nested_new _) E). lia. }
      apply nested_iff in H. destruct H as (H1 & H2).
      unfold insert_parser. destruct (lookup_parser sip t q) as [i|].
      + destruct (update_nth _ i _) as [pcs'| |] eqn:E; try discriminate. cbn [bind].
        intros R. inversion R; subst. apply update_nth_in in E. destruct E as (x & y & Hx & Ey & Hz).
        apply nested_iff. cbn [literal_children parser_children]. split; [exact H1|].
        intros m Hm. destruct (Hz m Hm) as [->|Hi]; [|exact (H2 m Hi)].
        exact (Hk x y (H2 x Hx) Ey).
      + match goal with |- bind ?X _ = _ -> _ => destruct X as [e| |] eqn:E end; try discriminate.
        cbn [bind]. intros R. inversion R; subst. apply nested_iff.
        cbn [literal_children parser_children]. split; [exact H1|].
        intros m Hm. apply in_app_or in Hm. destruct Hm as [Hm|[<-|[]]]; [exact (H2 m Hm)|].
        refine (Hk _ _ _ E). intros c Hc. discriminate Hc.
    - apply insert_literal_nested; [|exact H]. intros m m' Hm.
      destruct toks as [|tok toks]; cbn [is_empty].
      + intros R. inversion R; subst. exact Hm.
      + destruct (insert_tokens sip (tok :: toks) tree_new _) as [c| |] eqn:E; try discriminate. cbn [bind].
        intros R. inversion R; subst. intros d Hd. cbn [lnode_set_node ln_node] in Hd.
        inversion Hd; subst. refine (IH n _ _ _ _ (nested_new _) E). exact L.
  Qed.

  Lemma add_patterns_nested sip n ps : forall t t',
    (forall p, In p ps -> parsers_before_end p <= n) -> nested n t ->
    add_patterns sip t ps = Ret t' -> nested n t'.
  Proof.
    induction ps as [|p ps IH]; intros t t' L H; cbn [add_patterns].
    { intros R. inversion R; subst. exact H. }
    destruct (add_pattern sip t p) as [t1| |] eqn:E; try discriminate. cbn [bind].
    apply IH; [intros q Hq; apply L; right; exact Hq|].
    refine (insert_tokens_nested _ _ _ _ _ _ _ H E). exact (L p (or_introl eq_refl)).
  Qed.

  Lemma lookup_nested n t : nested n t -> forall l node r,
    lookup_literal t l = Ret (inr (node, r)) -> nested n node.
  Proof.
    induction 1 as [n lcs pcs H1 IH1 H2 H3 IH3]. intros l node r. cbn [lookup_literal].
    destruct (search (Tree lcs pcs) l) as [[pos| |pos rest]| |]; try discriminate; cbn [bind].
    - intros R. inversion R; subst. constructor; assumption.
    - clear H1 H2 H3 IH3. revert pos. induction lcs as [|m lcs IH]; intros pos R; [discriminate|].
      destruct pos as [|pos].
      + destruct m as [lit hv po [c|]]; [|discriminate].
        exact (IH1 _ c (or_introl eq_refl) eq_refl _ _ _ R).
      + refine (IH _ _ R). intros x c Hx. apply IH1. right. exact Hx.
  Qed.

  Lemma with_parsers_ext f g pcs text :
    (forall m c s, In m pcs -> pn_node m = Some c -> f c s = g c s) ->
    parse_with_parsers f pcs text = parse_with_parsers g pcs text.
  Proof.
    intros H. induction pcs as [|m pcs IH]; [reflexivity|]. cbn [parse_with_parsers].
    assert (pnode_parse f m text = pnode_parse g m text) as ->.
    { unfold pnode_parse. destruct (parser_parse (pn_parser m) text) as [[v|]| |]; try reflexivity.
      cbn [bind]. destruct (ltrunc text (length v)) as [s| |]; try reflexivity. cbn [bind].
      destruct (pn_node m) as [c|] eqn:E; [|reflexivity].
      unfold parse_then_push_kvpair. rewrite (H m c s (or_introl eq_refl) E). reflexivity. }
    rewrite IH; [reflexivity|]. intros x c s Hx. apply H. right. exact Hx.
  Qed.

  Lemma nested_fuel : forall n t, nested n t -> forall k text,
    n < k -> parse_fuel k t text = parse_fuel (S n) t text.
  Proof.
    induction n as [|n IH]; intros t H [|k] text L; try lia;
      cbn [parse_fuel]; destruct (lookup_literal t text) as [[[node pos]|[node r]]| |] eqn:E;
      try reflexivity; cbn [bind]; destruct (usub (length text) r) as [d| |]; try reflexivity;
      cbn [bind]; destruct (ltrunc text d) as [s| |]; try reflexivity; cbn [bind];
      apply (lookup_nested _ _ H) in E; apply nested_iff in E; destruct E as (_ & E);
      apply with_parsers_ext; intros m c x Hm Hc; destruct (E m Hm c Hc) as (P & Q); [lia|].
    change (parse_fuel k c x = parse_fuel (S n) c x). apply IH; [exact Q|lia].
  Qed.

  Lemma list_max_le {A} (f : A -> nat) x l : In x l -> f x <= list_max_by f l.
  Proof.
    induction l as [|y l IH]; [intros []|]. intros [<-|H]; unfold list_max_by; cbn [fold_right]; [lia|].
    apply IH in H. unfold list_max_by in H. lia.
  Qed.

  Lemma nested_more n t : nested n t -> forall k, n <= k -> nested k t.
  Proof.
    induction 1 as [n lcs pcs H1 IH1 H2 H3 IH3]. intros k L. constructor.
    - intros m c Hm Hc. exact (IH1 m c Hm Hc k L).
    - intros m c Hm Hc. specialize (H2 m c Hm Hc). lia.
    - intros m c Hm Hc. apply (IH3 m c Hm Hc). lia.
  Qed.

  Lemma height_parser_child lcs pcs m c :
    In m pcs -> pn_node m = Some c -> height c < height (Tree lcs pcs).
  Proof.
    intros Hm Hc. cbn [height].
    pose proof (list_max_le (fun n => match pn_node n with Some c => height c | None => 0 end) m pcs Hm) as G.
    cbv beta in G. rewrite Hc in G. lia.
  Qed.

  Lemma height_literal_child lcs pcs m c :
    In m lcs -> ln_node m = Some c -> height c < height (Tree lcs pcs).
  Proof.
    intros Hm Hc. cbn [height].
    pose proof (list_max_le (fun n => match ln_node n with Some c => height c | None => 0 end) m lcs Hm) as G.
    cbv beta in G. rewrite Hc in G. lia.
  Qed.

  Lemma height_pos t : 1 <= height t.
  Proof. destruct t. cbn [height]. lia. Qed.

  Lemma nested_height : forall k t, height t <= S k -> nested k t.
  Proof.
    induction k as [|k IH]; intros [lcs pcs] L; apply nested_tree; intros m c Hm Hc.
    1, 2, 3: pose proof (height_pos c);
      try pose proof (height_literal_child lcs pcs m c Hm Hc);
      try pose proof (height_parser_child lcs pcs m c Hm Hc); lia.
    - pose proof (height_literal_child lcs pcs m c Hm Hc). apply (nested_more k); [|lia]. apply IH. lia.
    - lia.
    - pose proof (height_parser_child lcs pcs m c Hm Hc). apply IH. cbn [pred]. lia.
  Qed.

  Lemma trie_depth sip ps t n :
    add_patterns sip tree_new ps = Ret t ->
    (forall p, In p ps -> parsers_before_end p <= n) ->
    forall k text, n < k -> parse_fuel k t text = parse t text.
  Proof.
    intros E L k text K. pose proof (add_patterns_nested _ n _ _ _ L (nested_new n) E) as H.
    assert (nested (pred (height t)) t) as H'.
    { apply nested_height. pose proof (height_pos t). lia. }
    unfold parse. pose proof (height_pos t) as G.
    pose proof (nested_fuel _ _ H) as F. pose proof (nested_fuel _ _ H') as F'.
    rewrite (F k text) by lia. rewrite <- (F (S (n + height t)) text) by lia.
    rewrite (F' (S (n + height t)) text) by lia. f_equal. lia.
  Qed.

  Lemma trie_depth_enough sip ps t n :
    add_patterns sip tree_new ps = Ret t ->
    (forall p, In p ps -> parsers_before_end p <= n) ->
    forall k text, n < k -> parse_fuel k t text = parse t text /\ parse_fuel k t text <> OutOfFuel.
  Proof.
    intros E L k text K. rewrite (trie_depth _ _ _ _ E L k text K).
    split; [reflexivity|apply Trie_total.parse_terminates].
  Qed.
End Trie.

(** ** The suffix table *)
Section Table.
  Import SuffixArray.

  Definition child_le n (c : option table) : Prop := forall t, c = Some t -> height t <= n.

  Lemma max_by_le {A} (f : A -> nat) l n :
    Trie.list_max_by f l <= n <-> forall x, In x l -> f x <= n.
  Proof.
    induction l as [|y l IH]; unfold Trie.list_max_by; cbn [fold_right].
    { split; [intros _ x []|lia]. }
    unfold Trie.list_max_by in IH. split.
    - intros H x [<-|Hx]; [lia|]. apply IH; [lia|exact Hx].
    - intros H. apply Nat.max_lub; [apply H; left; reflexivity|]. apply IH. intros x Hx. apply H. right. exact Hx.
  Qed.

  Lemma height_le n t :
    height t <= S n <->
    (forall e, In e (literal_entries t) -> child_le n (le_child e)) /\
    (forall e, In e (parser_entries t) -> child_le n (pe_child e)).
  Proof.
    destruct t as [les pes]. cbn [height literal_entries parser_entries].
    assert (forall o : option table, match o with Some c => height c | None => 0 end <= n <-> child_le n o) as C.
    { intros [c|]; unfold child_le.
      - split; [intros H t E; inversion E; subst; exact H|intros H; apply H; reflexivity].
      - split; [intros _ t E; discriminate E|lia]. }
    split.
    - intros H. split; intros e He; apply C; revert e He; apply max_by_le; lia.
    - intros (H1 & H2). apply le_n_S, Nat.max_lub; apply max_by_le; intros e He; apply C; auto.
  Qed.

  Lemma table_insert_height sip toks : forall n t p t',
    length toks <= n -> 1 <= n -> height t <= n ->
    insert_tokens sip toks t p = Ret t' -> height t' <= n.
  Proof.
    induction toks as [|tok toks IH]; intros n t p t' L P H; cbn [insert_tokens].
    { intros R. inversion R; subst. exact H. }
    destruct n as [|n]; [lia|]. simpl length in L.
    apply height_le in H. destruct H as (H1 & H2).
    assert (forall c, toks <> [] -> insert_tokens sip toks table_new (set_pattern_tokens p toks) = Ret c ->
                      height c <= n) as Hc.
    { intros c T E. destruct toks; [congruence|]. simpl length in L.
      refine (IH n table_new _ _ _ _ _ E); [simpl; lia|lia|cbn; lia]. }
    destruct tok as [q|l].
    - assert (forall e e', child_le n (pe_child e) ->
                (if is_empty toks then Ret (pe_set_pattern e (Some (set_pattern_tokens p toks)))
                 else let* c := insert_tokens sip toks table_new (set_pattern_tokens p toks) in
                      Ret (pe_set_child e (Some c))) = Ret e' -> child_le n (pe_child e')) as Hk.
      { intros e e' He. destruct toks as [|tok toks]; cbn [is_empty].
        - intros R. inversion R; subst. exact He.
        - destruct (insert_tokens sip (tok :: toks) table_new _) as [c| |] eqn:E; try discriminate. cbn [bind].
          intros R. inversion R; subst. intros d Hd. cbn [pe_set_child pe_child] in Hd. inversion Hd; subst.
          apply Hc; [discriminate|reflexivity]. }
      unfold insert_parser. destruct (Trie.position _ _) as [i|].
      + destruct (update_nth _ i _) as [pes'| |] eqn:E; try discriminate. cbn [bind].
        intros R. inversion R; subst. apply update_nth_in in E. destruct E as (x & y & Hx & Ey & Hz).
        apply height_le. cbn [literal_entries parser_entries]. split; [exact H1|].
        intros m Hm. destruct (Hz m Hm) as [->|Hi]; [|exact (H2 m Hi)].
        exact (Hk x y (H2 x Hx) Ey).
      + match goal with |- bind ?X _ = _ -> _ => destruct X as [e| |] eqn:E end; try discriminate.
        cbn [bind]. intros R. inversion R; subst. apply height_le.
        cbn [literal_entries parser_entries]. split; [exact H1|].
        intros m Hm. apply in_app_or in Hm. destruct Hm as [Hm|[<-|[]]]; [exact (H2 m Hm)|].
        refine (Hk _ _ _ E). intros c Hd. discriminate Hd.
    - assert (forall e e', child_le n (le_child e) ->
                (if is_empty toks then Ret (le_set_pattern e (Some (set_pattern_tokens p toks)))
                 else let* c := insert_tokens sip toks table_new (set_pattern_tokens p toks) in
                      Ret (le_set_child e (Some c))) = Ret e' -> child_le n (le_child e')) as Hk.
      { intros e e' He. destruct toks as [|tok toks]; cbn [is_empty].
        - intros R. inversion R; subst. exact He.
        - destruct (insert_tokens sip (tok :: toks) table_new _) as [c| |] eqn:E; try discriminate. cbn [bind].
          intros R. inversion R; subst. intros d Hd. cbn [le_set_child le_child] in Hd. inversion Hd; subst.
          apply Hc; [discriminate|reflexivity]. }
      unfold insert_literal. destruct (binary_search_by _ _) as [[pos|pos]| |]; try discriminate; cbn [bind].
      + destruct (update_nth _ pos _) as [les'| |] eqn:E; try discriminate. cbn [bind].
        intros R. inversion R; subst. apply update_nth_in in E. destruct E as (x & y & Hx & Ey & Hz).
        apply height_le. cbn [literal_entries parser_entries]. split; [|exact H2].
        intros m Hm. destruct (Hz m Hm) as [->|Hi]; [|exact (H1 m Hi)].
        exact (Hk x y (H1 x Hx) Ey).
      + unfold vec_insert. destruct (Nat.leb pos (length (literal_entries t))); [|discriminate]. cbn [bind].
        destruct (update_nth _ pos _) as [les'| |] eqn:E; try discriminate. cbn [bind].
        intros R. inversion R; subst.
        assert (forall e, In e (firstn pos (literal_entries t) ++ literal_e_new l :: skipn pos (literal_entries t)) ->
                          child_le n (le_child e)) as H1'.
        { intros e He. apply in_app_or in He.
          assert (In e (firstn pos (literal_entries t)) \/ In e (skipn pos (literal_entries t)) -> In e (literal_entries t)) as G.
          { intros G. rewrite <- (firstn_skipn pos (literal_entries t)). apply in_or_app. exact G. }
          destruct He as [He|[<-|He]]; [auto|intros c Hd; discriminate Hd|auto]. }
        apply update_nth_in in E. destruct E as (x & y & Hx & Ey & Hz).
        apply height_le. cbn [literal_entries parser_entries]. split; [|exact H2].
        intros m Hm. destruct (Hz m Hm) as [->|Hi]; [|exact (H1' m Hi)].
        exact (Hk x y (H1' x Hx) Ey).
  Qed.

  Lemma table_adds_height sip n ps : forall t t',
    1 <= n -> (forall p, In p ps -> tokens_of p <= n) -> height t <= n ->
    add_patterns sip t ps = Ret t' -> height t' <= n.
  Proof.
    induction ps as [|p ps IH]; intros t t' P L H; cbn [add_patterns].
    { intros R. inversion R; subst. exact H. }
    destruct (add_pattern sip t p) as [t1| |] eqn:E; try discriminate. cbn [bind].
    apply IH; [exact P|intros q Hq; apply L; right; exact Hq|].
    refine (table_insert_height _ _ _ _ _ _ _ P H E). exact (L p (or_introl eq_refl)).
  Qed.

  Lemma table_parsers_ext f g pes value :
    (forall e c s, In e pes -> pe_child e = Some c -> f c s = g c s) ->
    parse_with_parsers f pes value = parse_with_parsers g pes value.
  Proof.
    intros H. induction pes as [|e pes IH]; [reflexivity|]. cbn [parse_with_parsers].
    assert (parser_e_parse f e value = parser_e_parse g e value) as ->.
    { unfold parser_e_parse. destruct (parser_parse (pe_parser e) value) as [[v|]| |]; try reflexivity.
      cbn [bind]. destruct (ltrunc value (length v)) as [s| |]; try reflexivity. cbn [bind].
      destruct (pe_child e) as [c|] eqn:E; [|reflexivity].
      rewrite (H e c s (or_introl eq_refl) E). reflexivity. }
    rewrite IH; [reflexivity|]. intros x c s Hx. apply H. right. exact Hx.
  Qed.

  Lemma lcp_in t value e : longest_common_prefix t value = Ret (Some e) -> In e (literal_entries t).
  Proof.
    unfold longest_common_prefix. destruct (binary_search_by _ _) as [[pos|pos]| |]; try discriminate;
      cbn [bind]; intros R.
    - apply (nth_error_In _ pos). congruence.
    - assert (lcp_around_pos (literal_entries t) value pos = Some e) as G by congruence.
      revert G. unfold lcp_around_pos, lcp_between_consecutive_entries.
      destruct (Nat.eqb pos 0); [apply nth_error_In|].
      destruct (nth_error (literal_entries t) (pos - 1)) as [a|] eqn:A; [|apply nth_error_In].
      destruct (nth_error (literal_entries t) (pos - 1 + 1)) as [b|] eqn:B.
      + destruct (Nat.leb _ _); intros G; inversion G; subst; eapply nth_error_In; eassumption.
      + intros G; inversion G; subst; eapply nth_error_In; eassumption.
  Qed.

  Lemma table_fuel_enough : forall n t, height t <= n -> forall k value,
    n <= k -> parse_fuel k t value = parse_fuel n t value.
  Proof.
    induction n as [|n IH]; intros t H k value L; [destruct t; cbn [height] in H; lia|].
    destruct k as [|k]; [lia|].
    apply height_le in H. destruct H as (H1 & H2). cbn [parse_fuel].
    destruct (longest_common_prefix t value) as [[e|]| |] eqn:E; try reflexivity; cbn [bind].
    - apply lcp_in in E. destruct (Nat.eqb _ _); [reflexivity|]. destruct (Nat.ltb _ _); [|reflexivity].
      destruct (ltrunc value _) as [s| |]; try reflexivity. cbn [bind].
      destruct (le_child e) as [c|] eqn:C; [|reflexivity]. apply IH; [exact (H1 e E c C)|lia].
    - apply table_parsers_ext. intros e c s He C. apply IH; [exact (H2 e He c C)|lia].
  Qed.

  Lemma table_depth sip ps t n :
    add_patterns sip table_new ps = Ret t ->
    (forall p, In p ps -> tokens_of p <= n) ->
    forall k value, n <= k -> 1 <= k -> parse_fuel k t value = parse t value.
  Proof.
    intros E L k value K P. unfold parse. apply table_fuel_enough; [lia|].
    assert (1 <= k) as P' by exact P.
    refine (table_adds_height _ k _ _ _ P' _ _ E); [|cbn; lia].
    intros p Hp. specialize (L p Hp). lia.
  Qed.

  Lemma table_depth_enough sip ps t n :
    add_patterns sip table_new ps = Ret t ->
    (forall p, In p ps -> tokens_of p <= n) ->
    forall k value, n <= k -> 1 <= k -> parse_fuel k t value = parse t value /\ parse_fuel k t value <> OutOfFuel.
  Proof.
    intros E L k value K P. rewrite (table_depth _ _ _ _ E L k value K P).
    split; [reflexivity|apply Table_refine.parse_terminates].
  Qed.
End Table.
