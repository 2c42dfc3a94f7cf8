(** * The matchers with patterns changed by a function *)
From Verif Require Import Base Base_facts Utils Parsers Pattern Source.
From Verif Require Trie SuffixArray.

Definition omap {A B : Type} (f : A -> B) (o : outcome A) : outcome B :=
  match o with Ret a => Ret (f a) | Panic => Panic | OutOfFuel => OutOfFuel end.

Lemma bind_omap {A B C} (g : A -> B) (o : outcome A) (k : B -> outcome C) :
  bind (omap g o) k = bind o (fun a => k (g a)).
Proof. destruct o; reflexivity. Qed.
Lemma omap_bind {A B C} (g : B -> C) (o : outcome A) (k : A -> outcome B) :
  omap g (bind o k) = bind o (fun a => omap g (k a)).
Proof. destruct o; reflexivity. Qed.
Lemma bind_ext {A B} (o : outcome A) (k k' : A -> outcome B) :
  (forall a, o = Ret a -> k a = k' a) -> bind o k = bind o k'.
Proof. destruct o; cbn; auto. Qed.

Section Lists.
  Context {A B : Type} (g : A -> B).
  Lemma get_unwrap_map l i : get_unwrap (map g l) i = omap g (get_unwrap l i).
  Proof. unfold get_unwrap. rewrite nth_error_map. destruct (nth_error l i); reflexivity. Qed.

  Lemma bsearch_map l (c : B -> outcome comparison) :
    binary_search_by (map g l) c = binary_search_by l (fun x => c (g x)).
  Proof.
    unfold binary_search_by. rewrite map_length. generalize (length l) at 1 3 as fuel. generalize 0 as base. generalize (length l) as lim.
    intros lim base fuel. revert lim base. induction fuel as [|fuel IH]; intros [|lim] base; cbn; auto.
    rewrite get_unwrap_map, bind_omap. apply bind_ext. intros x _. apply bind_ext. intros [] _; auto.
  Qed.

  Lemma bsearch_ext l (c c' : A -> outcome comparison) :
    (forall x, c x = c' x) -> binary_search_by l c = binary_search_by l c'.
  Proof.
    intros E. unfold binary_search_by. generalize (length l) at 1 3 as fuel. generalize 0 as base. generalize (length l) as lim.
    intros lim base fuel. revert lim base. induction fuel as [|fuel IH]; intros [|lim] base; cbn; auto.
    apply bind_ext. intros x _. rewrite E. apply bind_ext. intros [] _; auto.
  Qed.

  Lemma update_nth_map l i (k : A -> outcome A) (k' : B -> outcome B) :
    (forall x, k' (g x) = omap g (k x)) -> update_nth (map g l) i k' = omap (map g) (update_nth l i k).
  Proof.
    intros E. revert i. induction l as [|x l IH]; intros [|i]; cbn; auto.
    - rewrite E, bind_omap, omap_bind. reflexivity.
    - rewrite IH, bind_omap, omap_bind. reflexivity.
  Qed.

  Lemma position_map (c : B -> bool) l : Trie.position c (map g l) = Trie.position (fun x => c (g x)) l.
  Proof. induction l as [|x l IH]; cbn; [reflexivity|]. rewrite IH. reflexivity. Qed.

  Lemma vec_insert_map l pos x : SuffixArray.vec_insert (map g l) pos (g x) = omap (map g) (SuffixArray.vec_insert l pos x).
  Proof.
    unfold SuffixArray.vec_insert. rewrite map_length. destruct (Nat.leb pos (length l)); cbn; [|reflexivity].
    rewrite map_app. cbn. rewrite firstn_map, skipn_map. reflexivity.
  Qed.

  Lemma sort_map (cmp : A -> A -> outcome comparison) (cmp' : B -> B -> outcome comparison) l :
    (forall x y, cmp' (g x) (g y) = cmp x y) -> sort cmp' (map g l) = omap (map g) (sort cmp l).
  Proof.
    intros E. unfold sort.
    assert (I : forall x rl, sort_insert cmp' (map g rl) (g x) = omap (map g) (sort_insert cmp rl x)).
    { intros x. induction rl as [|y rl IH]; cbn; [reflexivity|]. rewrite E, omap_bind. apply bind_ext.
      intros [] _; cbn; try reflexivity. rewrite IH, bind_omap, omap_bind. reflexivity. }
    change (@nil B) with (map g []). generalize (@nil A) as rl. induction l as [|x l IH]; intros rl; cbn.
    - rewrite map_rev. reflexivity.
    - rewrite I, bind_omap, omap_bind. apply bind_ext. intros a _. apply IH.
  Qed.
End Lists.

Section Changed.
  Variable phi : pattern -> pattern.
  Hypothesis phi_tokens : forall p, pat_tokens (phi p) = pat_tokens p.
  Hypothesis phi_set : forall p toks, phi (set_pattern_tokens p toks) = set_pattern_tokens (phi p) toks.

  Definition rmap (r : match_result) : match_result :=
    {| mr_pattern := phi (mr_pattern r); mr_values := mr_values r |}.

  Lemma rmap_insert r kv : match_result_insert (rmap r) kv = rmap (match_result_insert r kv).
  Proof. unfold match_result_insert. destruct (parser_name (fst kv)); reflexivity. Qed.

  (** ** The trie *)
  Section TrieChanged.
    Import Trie.

    Fixpoint tmap (t : tree) : tree :=
      match t with
      | Tree lcs pcs =>
          Tree (map (fun n => LNode (ln_literal n) (ln_has_value n) (option_map phi (ln_pattern n))
                                (match ln_node n with Some c => Some (tmap c) | None => None end)) lcs)
               (map (fun n => PNode (pn_parser n) (option_map phi (pn_pattern n))
                                (match pn_node n with Some c => Some (tmap c) | None => None end)) pcs)
      end.
    Definition lmap (n : lnode tree) : lnode tree :=
      LNode (ln_literal n) (ln_has_value n) (option_map phi (ln_pattern n)) (option_map tmap (ln_node n)).
    Definition pmap (n : pnode tree) : pnode tree :=
      PNode (pn_parser n) (option_map phi (pn_pattern n)) (option_map tmap (pn_node n)).
    Lemma tmap_tree lcs pcs : tmap (Tree lcs pcs) = Tree (map lmap lcs) (map pmap pcs).
    Proof.
      reflexivity.
    Qed.
    Lemma literal_children_map t : literal_children (tmap t) = map lmap (literal_children t).
    Proof. destruct t. rewrite tmap_tree. reflexivity. Qed.
    Lemma parser_children_map t : parser_children (tmap t) = map pmap (parser_children t).
    Proof. destruct t. rewrite tmap_tree. reflexivity. Qed.

    Fixpoint tree_nested (P : tree -> Prop)
      (H : forall lcs pcs, Forall (fun n => match ln_node n with Some c => P c | None => True end) lcs ->
             Forall (fun n => match pn_node n with Some c => P c | None => True end) pcs -> P (Tree lcs pcs))
      (t : tree) : P t.
    Proof.
      destruct t as [lcs pcs]. apply H.
      - induction lcs as [|[a b c [d|]] l IH]; constructor; cbn [ln_node]; try exact IH; [exact (tree_nested P H d)|exact I].
      - induction pcs as [|[a b [d|]] l IH]; constructor; cbn [pn_node]; try exact IH; [exact (tree_nested P H d)|exact I].
    Qed.

    Lemma search_map t literal : search (tmap t) literal = search t literal.
    Proof.
      unfold search, sv_binary_search_by. rewrite literal_children_map, bsearch_map.
      apply bind_ext. intros [pos|pos] _; [|reflexivity].
      unfold search_prefix_is_found. rewrite get_unwrap_map, bind_omap. apply bind_ext. intros [a b c [d|]] _; reflexivity.
    Qed.

    Definition found_map (r : (tree * nat) + (tree * nat)) : (tree * nat) + (tree * nat) :=
      match r with inl (t, n) => inl (tmap t, n) | inr (t, n) => inr (tmap t, n) end.

    Lemma lookup_literal_map t : forall literal, lookup_literal (tmap t) literal = omap found_map (lookup_literal t literal).
    Proof.
      induction t as [lcs pcs Hl _] using tree_nested. intros literal.
      pose proof (search_map (Tree lcs pcs) literal) as S. rewrite tmap_tree in *. cbn [lookup_literal]. rewrite S, omap_bind.
      apply bind_ext. intros [pos| |pos rest] _; cbn [omap found_map]; rewrite ?tmap_tree; try reflexivity.
      clear S. revert pos. induction Hl as [|[a b c [d|]] l Hd Hl IH]; intros pos; [reflexivity| |].
      - destruct pos; cbn; [apply Hd|apply IH].
      - destruct pos; cbn; [reflexivity|apply IH].
    Qed.

    Lemma lookup_literal_mut_map k k' :
      (forall n r, k' (tmap n) r = omap tmap (k n r)) ->
      forall t literal, lookup_literal_mut (tmap t) literal k' = omap tmap (lookup_literal_mut t literal k).
    Proof.
      intros E t. induction t as [lcs pcs Hl _] using tree_nested. intros literal.
      pose proof (search_map (Tree lcs pcs) literal) as S. rewrite tmap_tree in *. cbn [lookup_literal_mut]. rewrite S, omap_bind.
      apply bind_ext. intros [pos| |pos rest] _; rewrite <- ?tmap_tree; auto.
      rewrite omap_bind. cbn [omap].
      match goal with |- bind (?F (map lmap lcs) pos) _ = bind (?G lcs pos) _ =>
        assert (X : F (map lmap lcs) pos = omap (map lmap) (G lcs pos)) end.
      { clear S. revert pos. induction Hl as [|[a b c [d|]] l Hd Hl IH]; intros pos; [reflexivity| |].
        - destruct pos; cbn [map lmap ln_literal ln_has_value ln_pattern ln_node option_map].
          + cbn [ln_node] in Hd. rewrite Hd, bind_omap, omap_bind. reflexivity.
          + rewrite IH, bind_omap, omap_bind. reflexivity.
        - destruct pos; cbn [map lmap ln_literal ln_has_value ln_pattern ln_node option_map]; [reflexivity|].
          rewrite IH, bind_omap, omap_bind. reflexivity. }
      rewrite X, bind_omap. apply bind_ext. intros l _. rewrite tmap_tree. reflexivity.
    Qed.

    Lemma update_literal_child_map t pos k k' :
      (forall n, k' (lmap n) = omap lmap (k n)) ->
      update_literal_child (tmap t) pos k' = omap tmap (update_literal_child t pos k).
    Proof.
      intros E. unfold update_literal_child. rewrite literal_children_map, (update_nth_map lmap _ _ k k' E), bind_omap, omap_bind.
      apply bind_ext. intros l _. cbn [omap]. rewrite parser_children_map, tmap_tree. reflexivity.
    Qed.

    Lemma add_literal_node_map t n : add_literal_node (tmap t) (lmap n) = omap tmap (add_literal_node t n).
    Proof.
      unfold add_literal_node, sv_push. rewrite literal_children_map. change [lmap n] with (map lmap [n]). rewrite <- map_app.
      rewrite (sort_map lmap lnode_cmp lnode_cmp) by reflexivity. rewrite bind_omap, omap_bind.
      apply bind_ext. intros l _. cbn [omap]. rewrite parser_children_map, tmap_tree. reflexivity.
    Qed.

    Lemma split_map n cpl literal : split (lmap n) cpl literal = omap lmap (split n cpl literal).
    Proof.
      unfold split. rewrite !omap_bind. apply bind_ext. intros d _. rewrite !omap_bind. apply bind_ext. intros cp _.
      rewrite !omap_bind. apply bind_ext. intros lb _. cbn [lmap ln_literal]. rewrite !omap_bind. apply bind_ext. intros rb _.
      rewrite !omap_bind.
      change (lnode_set_has_value (lnode_new lb) true) with (lmap (lnode_set_has_value (lnode_new lb) true)) at 1.
      change tree_new with (tmap tree_new) at 1. rewrite add_literal_node_map, bind_omap. apply bind_ext. intros t1 _.
      rewrite !omap_bind.
      match goal with |- bind (add_literal_node (tmap t1) ?x) _ = bind (add_literal_node t1 ?y) _ => assert (X : x = lmap y) end.
      { destruct n as [a b [c|] e]; reflexivity. }
      rewrite X, add_literal_node_map, bind_omap. reflexivity.
    Qed.

    Section Update.
      Variables k k' : lnode tree -> outcome (lnode tree).
      Hypothesis E : forall n, k' (lmap n) = omap lmap (k n).

      Lemma freshly_map t literal :
        lookup_freshly_inserted_literal (tmap t) literal k' = omap tmap (lookup_freshly_inserted_literal t literal k).
      Proof.
        apply lookup_literal_mut_map. intros n [pos|len]; [|reflexivity]. apply update_literal_child_map, E.
      Qed.

      Lemma insert_tail_map t tail : insert_literal_tail (tmap t) tail k' = omap tmap (insert_literal_tail t tail k).
      Proof.
        unfold insert_literal_tail, sv_binary_search_by. rewrite literal_children_map, bsearch_map, omap_bind.
        apply bind_ext. intros [pos|pos] _.
        - rewrite get_unwrap_map, bind_omap, omap_bind. apply bind_ext. intros n _.
          change (ln_literal (lmap n)) with (ln_literal n). destruct (has_common_prefix (ln_literal n) tail); [|reflexivity].
          apply update_literal_child_map. intros hit. rewrite split_map, bind_omap, omap_bind. apply bind_ext. intros hit' _.
          rewrite omap_bind. apply bind_ext. intros suffix _. destruct hit' as [a b c [d|]]; cbn [lmap ln_node option_map]; [|reflexivity].
          rewrite freshly_map, bind_omap, omap_bind. reflexivity.
        - change (lnode_set_has_value (lnode_new tail) true) with (lmap (lnode_set_has_value (lnode_new tail) true)) at 1.
          rewrite add_literal_node_map, bind_omap, omap_bind. apply bind_ext. intros t' _. apply update_literal_child_map, E.
      Qed.

      Lemma insert_literal_map t literal : insert_literal (tmap t) literal k' = omap tmap (insert_literal t literal k).
      Proof.
        apply lookup_literal_mut_map. intros n [pos|len]; [apply update_literal_child_map, E|].
        rewrite omap_bind. apply bind_ext. intros d _. rewrite omap_bind. apply bind_ext. intros tail _. apply insert_tail_map.
      Qed.
    End Update.

    Lemma insert_parser_map sip t q k k' :
      (forall n, k' (pmap n) = omap pmap (k n)) ->
      insert_parser sip (tmap t) q k' = omap tmap (insert_parser sip t q k).
    Proof.
      intros E. unfold insert_parser, lookup_parser. rewrite parser_children_map, position_map, literal_children_map.
      cbn [pmap pn_parser]. destruct (position _ (parser_children t)) as [i|].
      - rewrite (update_nth_map pmap _ _ k k' E), bind_omap, omap_bind. apply bind_ext. intros l _. cbn [omap]. rewrite tmap_tree. reflexivity.
      - change (pnode_new q) with (pmap (pnode_new q)) at 1. rewrite E, bind_omap, omap_bind. apply bind_ext. intros n _.
        cbn [omap]. rewrite tmap_tree, map_app. reflexivity.
    Qed.

    Lemma insert_tokens_map sip toks : forall t p, insert_tokens sip toks (tmap t) (phi p) = omap tmap (insert_tokens sip toks t p).
    Proof.
      induction toks as [|tok toks IH]; intros t p; [reflexivity|]. cbn [insert_tokens]. rewrite <- phi_set.
      destruct tok as [q|l].
      - apply insert_parser_map. intros n. destruct (is_empty toks); [reflexivity|].
        change tree_new with (tmap tree_new) at 1. rewrite IH, bind_omap, omap_bind. reflexivity.
      - apply insert_literal_map. intros n. destruct (is_empty toks); [reflexivity|].
        change tree_new with (tmap tree_new) at 1. rewrite IH, bind_omap, omap_bind. reflexivity.
    Qed.

    Lemma trie_add_map sip t p : add_pattern sip (tmap t) (phi p) = omap tmap (add_pattern sip t p).
    Proof. unfold add_pattern. rewrite phi_tokens. apply insert_tokens_map. Qed.

    Lemma height_map t : height (tmap t) = height t.
    Proof.
      induction t as [lcs pcs Hl Hp] using tree_nested. rewrite tmap_tree. cbn [height]. f_equal. f_equal.
      - induction Hl as [|[a b c [d|]] l Hd Hl IH]; cbn; [reflexivity| |]; unfold list_max_by in IH; rewrite IH; [|reflexivity].
        cbn [ln_node] in Hd. rewrite Hd. reflexivity.
      - induction Hp as [|[a c [d|]] l Hd Hp IH]; cbn; [reflexivity| |]; unfold list_max_by in IH; rewrite IH; [|reflexivity].
        cbn [pn_node] in Hd. rewrite Hd. reflexivity.
    Qed.

    Lemma parse_fuel_map fuel : forall t text, parse_fuel fuel (tmap t) text = omap (option_map rmap) (parse_fuel fuel t text).
    Proof.
      induction fuel as [|fuel IH]; intros t text; [reflexivity|]. cbn [parse_fuel].
      rewrite lookup_literal_map, bind_omap, omap_bind. apply bind_ext. intros [[node pos]|[node len]] _; cbn [found_map].
      - rewrite literal_children_map, get_unwrap_map, bind_omap, omap_bind. apply bind_ext. intros [a b [c|] d] _; reflexivity.
      - rewrite omap_bind. apply bind_ext. intros d _. rewrite omap_bind. apply bind_ext. intros text' _.
        rewrite parser_children_map. induction (parser_children node) as [|n l IHl]; [reflexivity|]. cbn [map parse_with_parsers].
        match goal with |- bind ?x _ = _ => assert (X : x = omap (option_map rmap) (pnode_parse (parse_fuel fuel) n text')) end.
        { unfold pnode_parse. destruct n as [q po co]. cbn [pmap pn_parser pn_node pn_pattern]. rewrite omap_bind. apply bind_ext.
          intros [v|] _; [|reflexivity]. rewrite omap_bind. apply bind_ext. intros text'' _. destruct co as [c|]; cbn [option_map].
          - unfold parse_then_push_kvpair. rewrite IH, bind_omap, omap_bind. apply bind_ext. intros [r|] _; cbn; [|reflexivity].
            rewrite rmap_insert. reflexivity.
          - unfold push_last_kvpair. cbn [pn_pattern]. destruct (is_empty text''); [|reflexivity]. destruct po as [p|]; [|reflexivity].
            cbn. rewrite <- rmap_insert. reflexivity. }
        rewrite X, bind_omap, omap_bind. apply bind_ext. intros [r|] _; [reflexivity|]. apply IHl.
    Qed.

    Lemma trie_parse_map t text : parse (tmap t) text = omap (option_map rmap) (parse t text).
    Proof. unfold parse. rewrite height_map. apply parse_fuel_map. Qed.
  End TrieChanged.

  (** ** The suffix table *)
  Section TableChanged.
    Import SuffixArray.

    Fixpoint smap (t : table) : table :=
      match t with
      | Table les pes =>
          Table (map (fun e => LiteralE (le_literal e) (option_map phi (le_pattern e))
                                 (match le_child e with Some c => Some (smap c) | None => None end)) les)
                (map (fun e => ParserE (pe_parser e) (option_map phi (pe_pattern e))
                                 (match pe_child e with Some c => Some (smap c) | None => None end)) pes)
      end.
    Definition lemap (e : literal_e table) : literal_e table :=
      LiteralE (le_literal e) (option_map phi (le_pattern e)) (option_map smap (le_child e)).
    Definition pemap (e : parser_e table) : parser_e table :=
      ParserE (pe_parser e) (option_map phi (pe_pattern e)) (option_map smap (pe_child e)).
    Lemma smap_table les pes : smap (Table les pes) = Table (map lemap les) (map pemap pes).
    Proof.
      reflexivity.
    Qed.
    Lemma literal_entries_map t : literal_entries (smap t) = map lemap (literal_entries t).
    Proof. destruct t. rewrite smap_table. reflexivity. Qed.
    Lemma parser_entries_map t : parser_entries (smap t) = map pemap (parser_entries t).
    Proof. destruct t. rewrite smap_table. reflexivity. Qed.

    Fixpoint table_nested (P : table -> Prop)
      (H : forall les pes, Forall (fun n => match le_child n with Some c => P c | None => True end) les ->
             Forall (fun n => match pe_child n with Some c => P c | None => True end) pes -> P (Table les pes))
      (t : table) : P t.
    Proof.
      destruct t as [les pes]. apply H.
      - induction les as [|[a b [d|]] l IH]; constructor; cbn [le_child]; try exact IH; [exact (table_nested P H d)|exact I].
      - induction pes as [|[a b [d|]] l IH]; constructor; cbn [pe_child]; try exact IH; [exact (table_nested P H d)|exact I].
    Qed.

    Lemma table_insert_literal_map t literal k k' :
      (forall n, k' (lemap n) = omap lemap (k n)) ->
      insert_literal (smap t) literal k' = omap smap (insert_literal t literal k).
    Proof.
      intros E. unfold insert_literal. rewrite literal_entries_map, parser_entries_map, bsearch_map, omap_bind. cbn [lemap le_literal].
      apply bind_ext. intros [pos|pos] _.
      - rewrite (update_nth_map lemap _ _ k k' E), bind_omap, omap_bind. apply bind_ext. intros l _. cbn [omap]. rewrite smap_table. reflexivity.
      - change (literal_e_new literal) with (lemap (literal_e_new literal)) at 1. rewrite vec_insert_map, bind_omap, omap_bind.
        apply bind_ext. intros l _. rewrite (update_nth_map lemap _ _ k k' E), bind_omap, omap_bind. apply bind_ext. intros l' _.
        cbn [omap]. rewrite smap_table. reflexivity.
    Qed.

    Lemma table_insert_parser_map sip t q k k' :
      (forall n, k' (pemap n) = omap pemap (k n)) ->
      insert_parser sip (smap t) q k' = omap smap (insert_parser sip t q k).
    Proof.
      intros E. unfold insert_parser. rewrite parser_entries_map, position_map, literal_entries_map.
      cbn [pemap pe_parser]. destruct (Trie.position _ (parser_entries t)) as [i|].
      - rewrite (update_nth_map pemap _ _ k k' E), bind_omap, omap_bind. apply bind_ext. intros l _. cbn [omap]. rewrite smap_table. reflexivity.
      - change (parser_e_new q) with (pemap (parser_e_new q)) at 1. rewrite E, bind_omap, omap_bind. apply bind_ext. intros n _.
        cbn [omap]. rewrite smap_table, map_app. reflexivity.
    Qed.

    Lemma table_insert_tokens_map sip toks : forall t p, insert_tokens sip toks (smap t) (phi p) = omap smap (insert_tokens sip toks t p).
    Proof.
      induction toks as [|tok toks IH]; intros t p; [reflexivity|]. cbn [insert_tokens]. rewrite <- phi_set.
      destruct tok as [q|l].
      - apply table_insert_parser_map. intros n. destruct (is_empty toks); [reflexivity|].
        change table_new with (smap table_new) at 1. rewrite IH, bind_omap, omap_bind. reflexivity.
      - apply table_insert_literal_map. intros n. destruct (is_empty toks); [reflexivity|].
        change table_new with (smap table_new) at 1. rewrite IH, bind_omap, omap_bind. reflexivity.
    Qed.

    Lemma table_add_map sip t p : add_pattern sip (smap t) (phi p) = omap smap (add_pattern sip t p).
    Proof. unfold add_pattern. rewrite phi_tokens. apply table_insert_tokens_map. Qed.

    Lemma table_height_map t : height (smap t) = height t.
    Proof.
      induction t as [les pes Hl Hp] using table_nested. rewrite smap_table. cbn [height]. f_equal. f_equal.
      - induction Hl as [|[a c [d|]] l Hd Hl IH]; cbn; [reflexivity| |]; unfold Trie.list_max_by in IH; rewrite IH; [|reflexivity].
        cbn [le_child] in Hd. rewrite Hd. reflexivity.
      - induction Hp as [|[a c [d|]] l Hd Hp IH]; cbn; [reflexivity| |]; unfold Trie.list_max_by in IH; rewrite IH; [|reflexivity].
        cbn [pe_child] in Hd. rewrite Hd. reflexivity.
    Qed.

    Lemma longest_common_prefix_map t value :
      longest_common_prefix (smap t) value = omap (option_map lemap) (longest_common_prefix t value).
    Proof.
      unfold longest_common_prefix. rewrite literal_entries_map, bsearch_map, omap_bind. cbn [lemap le_literal].
      apply bind_ext. intros [pos|pos] _; cbn [omap]; f_equal.
      - apply nth_error_map.
      - unfold lcp_around_pos, lcp_between_consecutive_entries. rewrite !nth_error_map. destruct (Nat.eqb pos 0); [reflexivity|].
        destruct (nth_error (literal_entries t) (pos - 1)) as [a|]; [|reflexivity].
        destruct (nth_error (literal_entries t) (pos - 1 + 1)) as [b|]; [|reflexivity].
        cbn [option_map]. change (le_literal (lemap a)) with (le_literal a). change (le_literal (lemap b)) with (le_literal b).
        destruct (Nat.leb _ _); reflexivity.
    Qed.

    Lemma table_parse_fuel_map fuel : forall t text, parse_fuel fuel (smap t) text = omap (option_map rmap) (parse_fuel fuel t text).
    Proof.
      induction fuel as [|fuel IH]; intros t text; [reflexivity|]. cbn [parse_fuel].
      rewrite longest_common_prefix_map, bind_omap, omap_bind. apply bind_ext. intros [e|] _; cbn [option_map].
      - destruct e as [l po co]. cbn [lemap le_literal le_pattern le_child].
        destruct (Nat.eqb _ _); [destruct po; reflexivity|]. destruct (Nat.ltb _ _); [|reflexivity].
        rewrite omap_bind. apply bind_ext. intros value' _. destruct co; [apply IH|reflexivity].
      - rewrite parser_entries_map. induction (parser_entries t) as [|n l IHl]; [reflexivity|]. cbn [map parse_with_parsers].
        match goal with |- bind ?x _ = _ => assert (X : x = omap (option_map rmap) (parser_e_parse (parse_fuel fuel) n text)) end.
        { unfold parser_e_parse. destruct n as [q po co]. cbn [pemap pe_parser pe_child]. rewrite omap_bind. apply bind_ext.
          intros [v|] _; [|reflexivity]. rewrite omap_bind. apply bind_ext. intros text'' _. destruct co as [c|]; cbn [option_map].
          - rewrite IH, bind_omap, omap_bind. apply bind_ext. intros [r|] _; cbn; [|reflexivity].
            rewrite rmap_insert. reflexivity.
          - destruct (is_empty text''); [|reflexivity]. unfold create_match_result. cbn [pe_pattern]. destruct po as [p|]; [|reflexivity].
            cbn. rewrite <- rmap_insert. reflexivity. }
        rewrite X, bind_omap, omap_bind. apply bind_ext. intros [r|] _; [reflexivity|]. apply IHl.
    Qed.

    Lemma table_parse_map t text : parse (smap t) text = omap (option_map rmap) (parse t text).
    Proof. unfold parse. rewrite table_height_map. apply table_parse_fuel_map. Qed.
  End TableChanged.
End Changed.
