(** * Exactly when the trie panics *)
From Coq Require Import Sorted.
From Verif Require Import Base Base_facts Utils Utils_facts Parsers Parsers_facts Pattern Spec
  Spec_trie Spec_panics Trie TrieSpec TrieSpec_facts TrieSpec_props TrieSpec_cases Trie_refine
  Trie_total Trie_main.

(** ** First bytes *)
Lemma wide_app a b : a <> [] -> wide (a ++ b) = wide a.
Proof. destruct a; [congruence|reflexivity]. Qed.

Lemma wide_ne s : wide s = true -> s <> [].
Proof. destruct s; [discriminate|]. intros _. discriminate. Qed.

(** The first character of a text. *)
Lemma utf8_first s :
  utf8 s -> s <> [] ->
  exists c s', s = c ++ s' /\ utf8 c /\ c <> [] /\ utf8 s' /\
    ((wide s = false /\ exists x, c = [x]) \/
     (wide s = true /\ 2 <= length c /\ Forall (fun b => N.leb 128 (Byte.to_N b) = true) c)).
Proof.
  intros H Hne. destruct H as [|c s' Hc Hs]; [congruence|]. exists c, s'. split; [reflexivity|].
  split. { rewrite <- (app_nil_r c). constructor; [exact Hc|constructor]. }
  assert (c <> []) as Hc0 by (intros ->; discriminate). split; [exact Hc0|]. split; [exact Hs|].
  rewrite (wide_app c s' Hc0).
  unfold utf8_char in Hc.
  destruct c as [|x [|y [|z [|u [|v c]]]]]; try discriminate; cbn [wide length].
  - left. split; [|eauto]. destruct (N.leb_spec 128 (Byte.to_N x)); [|reflexivity].
    unfold in_rng in Hc. rewrite andb_true_iff, !N.leb_le in Hc. lia.
  - right. unfold in_rng, is_cont in Hc. repeat rewrite ?orb_true_iff, ?andb_true_iff in Hc; rewrite ?N.leb_le, ?N.ltb_lt in Hc.
    assert (N.leb 128 (Byte.to_N x) = true) by (apply N.leb_le; lia).
    split; [assumption|]. split; [lia|]. repeat constructor; try assumption; apply N.leb_le; lia.
  - right. unfold in_rng, is_cont in Hc. repeat rewrite ?orb_true_iff, ?andb_true_iff in Hc; rewrite ?N.leb_le, ?N.ltb_lt in Hc.
    assert (N.leb 128 (Byte.to_N x) = true) by (apply N.leb_le; lia).
    split; [assumption|]. split; [lia|]. repeat constructor; try assumption; apply N.leb_le; lia.
  - right. unfold in_rng, is_cont in Hc. repeat rewrite ?orb_true_iff, ?andb_true_iff in Hc; rewrite ?N.leb_le, ?N.ltb_lt in Hc.
    assert (N.leb 128 (Byte.to_N x) = true) by (apply N.leb_le; lia).
    split; [assumption|]. split; [lia|]. repeat constructor; try assumption; apply N.leb_le; lia.
Qed.

Lemma boundary_wide s : utf8 s -> s <> [] -> is_char_boundary s 1 = negb (wide s).
Proof.
  intros H Hne. destruct (utf8_first s H Hne) as (c & s' & E & Hc & Hc0 & Hs' & [(W & x & ->)|(W & L & F)]).
  - rewrite W, E. apply (boundary_app [x] s'). right. apply utf8_head. exact Hs'.
  - rewrite W. destruct (is_char_boundary s 1) eqn:B; [|reflexivity]. exfalso.
    destruct s as [|x s]; [congruence|]. apply (boundary_app [x] s) in B.
    destruct (utf8_cut [x] s H B) as (Hx & _).
    destruct (utf8_first [x] Hx) as (c1 & r1 & E1 & _ & Hc1 & _ & [(W1 & _)|(W1 & L1 & _)]); [discriminate| |].
    + simpl in W, W1. congruence.
    + destruct c1 as [|? [|? c1]]; simpl in L1; try lia. discriminate.
Qed.

(** Whether comparing two literals panics. *)
Definition clash (a b : str) : bool :=
  (negb (is_empty a) && negb (is_empty b) && (wide a || wide b))%bool.

Lemma clash_true a b : clash a b = true <-> a <> [] /\ b <> [] /\ (wide a = true \/ wide b = true).
Proof.
  unfold clash. rewrite !andb_true_iff, !negb_true_iff, !is_empty_false, orb_true_iff. tauto.
Qed.

Lemma cmp_str_exact a b :
  utf8 a -> utf8 b -> cmp_str a b = if clash a b then Panic else Ret (head_cmp a b).
Proof.
  intros Ha Hb. destruct a as [|x a], b as [|y b]; try reflexivity.
  unfold cmp_str, clash. cbn [is_empty andb negb]. unfold slice.
  rewrite (boundary_wide (x :: a) Ha), (boundary_wide (y :: b) Hb) by discriminate.
  change (is_char_boundary (x :: a) 0) with true. change (is_char_boundary (y :: b) 0) with true.
  destruct (wide (x :: a)); [reflexivity|]. cbn [Nat.leb andb negb orb bind].
  destruct (wide (y :: b)); [reflexivity|]. simpl. destruct (byte_cmp x y); reflexivity.
Qed.

(** ** Searching a list of literal nodes *)

(** Some node literal cannot be compared with [l]. *)
Definition blocks (lcs : list (lnode tree)) (l : str) : bool :=
  existsb (fun n => clash (ln_literal n) l) lcs.

Lemma blocks_spec lcs l :
  blocks lcs l = true <-> exists n, In n lcs /\ clash (ln_literal n) l = true.
Proof. unfold blocks. apply existsb_exists. Qed.

Lemma blocks_false lcs l :
  blocks lcs l = false <-> forall n, In n lcs -> clash (ln_literal n) l = false.
Proof.
  split.
  - intros H n Hn. destruct (clash (ln_literal n) l) eqn:E; [|reflexivity].
    assert (blocks lcs l = true); [apply blocks_spec; eauto|congruence].
  - intros H. destruct (blocks lcs l) eqn:E; [|reflexivity]. apply blocks_spec in E.
    destruct E as (n & Hn & Hc). rewrite (H n Hn) in Hc. discriminate.
Qed.

(** Of two nodes with a literal, neither begins with a wide character. *)
Definition comparable (lcs : list (lnode tree)) : Prop :=
  forall n m, In n lcs -> In m lcs -> head_lt n m -> clash (ln_literal n) (ln_literal m) = false.

Lemma sorted_trichotomy (lcs : list (lnode tree)) n m :
  StronglySorted head_lt lcs -> In n lcs -> In m lcs -> n = m \/ head_lt n m \/ head_lt m n.
Proof.
  induction 1 as [|x lcs HS IH HF]; [intros []|]. rewrite Forall_forall in HF.
  intros [<-|Hn] [<-|Hm]; auto.
Qed.

Lemma search_free lcs l :
  (forall n, In n lcs -> utf8 (ln_literal n)) -> utf8 l -> blocks lcs l = false ->
  exists r, sv_binary_search_by lcs (fun probe => cmp_str (ln_literal probe) l) = Ret r.
Proof.
  intros Hu Hl Hb. apply binary_search_by_total. intros n Hn. eexists.
  rewrite (cmp_str_exact _ _ (Hu n Hn) Hl), (proj1 (blocks_false lcs l) Hb n Hn). reflexivity.
Qed.

Lemma search_stuck lcs l :
  StronglySorted head_lt lcs -> comparable lcs ->
  (forall n, In n lcs -> utf8 (ln_literal n)) -> utf8 l -> blocks lcs l = true ->
  sv_binary_search_by lcs (fun probe => cmp_str (ln_literal probe) l) = Panic.
Proof.
  intros HS Hcmp Hu Hl Hb. apply blocks_spec in Hb. destruct Hb as (n & Hn & Hc).
  assert (exists m, nth_error lcs (Nat.div2 (length lcs)) = Some m /\
            (ln_literal m <> [] \/ m = n)) as (m & Em & Hm).
  { destruct lcs as [|n1 [|n2 lcs]]; [destruct Hn| |].
    - exists n1. split; [reflexivity|]. right. destruct Hn as [->|[]]; reflexivity.
    - assert (exists i, Nat.div2 (length (n1 :: n2 :: lcs)) = S i) as (i & Ei) by (simpl; eauto).
      rewrite Ei. assert (S i < length (n1 :: n2 :: lcs)) as Li.
      { rewrite <- Ei. apply Nat.lt_div2. simpl. lia. }
      destruct (nth_error (n1 :: n2 :: lcs) (S i)) as [m|] eqn:Em; [|apply nth_error_None in Em; lia].
      exists m. split; [reflexivity|]. left. simpl in Em. apply nth_error_In in Em.
      inversion HS as [|? ? _ HF]; subst. rewrite Forall_forall in HF. specialize (HF m Em).
      unfold head_lt in HF. intros E. rewrite E in HF. destruct (ln_literal n1); discriminate. }
  assert (clash (ln_literal m) l = true) as Hcm.
  { destruct Hm as [Hm| ->]; [|exact Hc]. apply clash_true in Hc. destruct Hc as (H1 & H2 & H3).
    apply clash_true. split; [exact Hm|]. split; [exact H2|]. destruct H3 as [H3|H3]; [|auto].
    pose proof (nth_error_In _ _ Em) as Im.
    destruct (sorted_trichotomy lcs n m HS Hn Im) as [->|[Hlt|Hlt]]; [auto| |]; exfalso.
    - pose proof (Hcmp n m Hn Im Hlt) as X. assert (clash (ln_literal n) (ln_literal m) = true); [|congruence].
      apply clash_true. auto.
    - pose proof (Hcmp m n Im Hn Hlt) as X. assert (clash (ln_literal m) (ln_literal n) = true); [|congruence].
      apply clash_true. auto. }
  unfold sv_binary_search_by, binary_search_by.
  destruct (length lcs) as [|k] eqn:El; [destruct lcs; [destruct Hn|discriminate]|].
  cbn [bsearch_loop]. rewrite Nat.add_0_l. unfold get_unwrap. rewrite Em. cbn [bind].
  rewrite cmp_str_exact, Hcm; [reflexivity| |exact Hl]. apply Hu. apply (nth_error_In _ _ Em).
Qed.

(** ** Levels on which literals can be compared *)
Definition tidy (ks : list str) : Prop :=
  forall k1 k2 s1 s2, In k1 ks -> In k2 ks -> k1 <> k2 ->
    k1 = blcp k1 k2 ++ s1 -> k2 = blcp k1 k2 ++ s2 -> clash s1 s2 = false.

Inductive tidies : level -> Prop :=
| tidies_level K P :
    tidy (keys K) ->
    (forall k po c, In (k, (po, Some c)) K -> tidies c) ->
    (forall q po c, In (q, (po, Some c)) P -> tidies c) ->
    tidies (Level K P).

Lemma tidy_prepend lit ks : tidy (map (app lit) ks) -> tidy ks.
Proof.
  intros H k1 k2 s1 s2 H1 H2 Hn E1 E2. apply (H (lit ++ k1) (lit ++ k2)).
  - apply in_map. exact H1.
  - apply in_map. exact H2.
  - intros X. apply app_inv_head in X. contradiction.
  - rewrite blcp_app, <- app_assoc, <- E1. reflexivity.
  - rewrite blcp_app, <- app_assoc, <- E2. reflexivity.
Qed.

Lemma tidy_nil : tidy [].
Proof. intros k1 k2 s1 s2 []. Qed.

Lemma tidy_single k : tidy [k].
Proof. intros k1 k2 s1 s2 [<-|[]] [<-|[]] H. congruence. Qed.

Section Panics.
  Variable okp : parser -> Prop.
  Hypothesis okp_utf8 : forall p, okp p -> parser_utf8 p.
  Notation wf := (wf okp utf8).
  Notation lnode_ok := (lnode_ok utf8).

  Lemma node_key_clash n k l :
    lnode_ok n -> In k (keys (node_entries n)) -> clash k l = clash (ln_literal n) l.
  Proof.
    destruct n as [lit hv po co]; intros (_ & H); simpl in *. destruct hv; simpl.
    - intros [<-|[]]. reflexivity.
    - destruct (H eq_refl) as (Hl & _). destruct co as [c|]; [|intros []].
      rewrite keys_prepend, in_map_iff. intros (k' & <- & _).
      unfold clash. rewrite (wide_app lit k' Hl). destruct lit; [congruence|reflexivity].
  Qed.

  Lemma clash_sym a b : clash a b = clash b a.
  Proof. unfold clash. destruct (is_empty a), (is_empty b), (wide a), (wide b); reflexivity. Qed.

  Lemma tidy_comparable lcs pcs :
    wf (Tree lcs pcs) -> tidy (keys (entries lcs)) -> comparable lcs.
  Proof.
    intros W T n m Hn Hm Hlt. pose proof (node_has_key okp utf8 _ W) as HK. simpl in HK.
    inversion W as [? ? HS Hok _ _ _]; subst.
    destruct (HK n Hn) as (k1 & H1). destruct (HK m Hm) as (k2 & H2).
    assert (head_cmp k1 k2 <> Eq) as Hd.
    { rewrite (node_key_head utf8 n k1 k2 (Hok n Hn) H1). apply head_neq_sym.
      rewrite (node_key_head utf8 m k2 _ (Hok m Hm) H2). apply head_neq_sym.
      unfold head_lt in Hlt. rewrite Hlt. discriminate. }
    rewrite <- (node_key_clash n k1 _ (Hok n Hn) H1), clash_sym,
      <- (node_key_clash m k2 _ (Hok m Hm) H2), clash_sym.
    apply (T k1 k2).
    - apply entries_keys. eauto.
    - apply entries_keys. eauto.
    - intros ->. apply Hd. apply (to_refl _ head_cmp_order).
    - rewrite blcp_nil_head by exact Hd. reflexivity.
    - rewrite blcp_nil_head by exact Hd. reflexivity.
  Qed.

  Lemma search_cases lcs pcs l :
    wf (Tree lcs pcs) -> comparable lcs -> utf8 l ->
    (blocks lcs l = true /\ search (Tree lcs pcs) l = Panic) \/
    (blocks lcs l = false /\ exists r, search (Tree lcs pcs) l = Ret r /\ search_spec lcs l r).
  Proof.
    intros W T Hl. inversion W as [? ? HS Hok Hw _ _]; subst.
    assert (forall n, In n lcs -> utf8 (ln_literal n)) as Hu by (intros n Hn; apply (Hok n Hn)).
    destruct (blocks lcs l) eqn:Eb; [left|right]; (split; [reflexivity|]).
    - unfold search. simpl literal_children. rewrite (search_stuck lcs l HS T Hu Hl Eb). reflexivity.
    - assert (exists r, search (Tree lcs pcs) l = Ret r) as (r & Er).
      { unfold search. simpl literal_children.
        destruct (search_free lcs l Hu Hl Eb) as (r & Er). rewrite Er. cbn [bind].
        destruct (children_search lcs l r HS Er) as
          [(A & n & C & El & -> & HA & HE & HC)|(A & C & El & -> & HA & HC)]; [|eauto].
        unfold search_prefix_is_found. rewrite El. unfold get_unwrap. rewrite nth_error_app_mid.
        cbn [bind]. destruct (lnode_is_leaf n) eqn:Elf; [eauto|]. unfold lnode_is_leaf in Elf.
        destruct (ln_node n) as [c|] eqn:En; [|discriminate].
        assert (utf8 (ln_literal n)) as Hun by (apply Hu; rewrite El; apply in_elt).
        unfold search_not_leaf. rewrite En.
        destruct (Nat.ltb_spec (common_prefix_len (ln_literal n) l) (length (ln_literal n))) as [|Hge]; [eauto|].
        destruct (_ && _)%bool; [eauto|].
        destruct (prefixb (ln_literal n) l) eqn:Ep.
        - rewrite (cpl_prefix _ _ Hun Hl Ep).
          apply prefixb_app in Ep. destruct Ep as (q & ->).
          rewrite ltrunc_ok by assumption. cbn [bind]; eauto.
        - pose proof (cpl_not_prefix _ _ Hun Hl Ep). lia. }
      exists r. split; [exact Er|]. apply (search_ret okp utf8 (fun _ H => H) lcs pcs l r W Hl Er).
  Qed.

  (** *** Keys and nodes *)
  Lemma blocks_keys lcs pcs l :
    wf (Tree lcs pcs) ->
    (blocks lcs l = true <-> exists k, In k (keys (entries lcs)) /\ clash k l = true).
  Proof.
    intros W. pose proof (node_has_key okp utf8 _ W) as HK. simpl in HK.
    inversion W as [? ? HS Hok _ _ _]; subst. rewrite blocks_spec. split.
    - intros (n & Hn & Hc). destruct (HK n Hn) as (k & Hk). exists k.
      split; [apply entries_keys; eauto|]. rewrite (node_key_clash n k l (Hok n Hn) Hk). exact Hc.
    - intros (k & Hk & Hc). apply entries_keys in Hk. destruct Hk as (n & Hn & Hk).
      exists n. split; [exact Hn|]. rewrite <- (node_key_clash n k l (Hok n Hn) Hk). exact Hc.
  Qed.

  (** Nodes with the same first byte are the same. *)
  Lemma same_node lcs n m :
    StronglySorted head_lt lcs -> In n lcs -> In m lcs ->
    head_cmp (ln_literal n) (ln_literal m) = Eq -> n = m.
  Proof.
    intros HS Hn Hm He. destruct (sorted_trichotomy lcs n m HS Hn Hm) as [H|[H|H]]; [exact H| |];
      unfold head_lt in H; [congruence|].
    apply (to_lt_gt _ head_cmp_order) in H. congruence.
  Qed.

  Lemma key_node lcs n k l :
    StronglySorted head_lt lcs -> (forall m, In m lcs -> lnode_ok m) -> In n lcs ->
    head_cmp (ln_literal n) l = Eq ->
    In k (keys (entries lcs)) -> head_cmp k l = Eq -> In k (keys (node_entries n)).
  Proof.
    intros HS Hok Hn He Hk Hkl. apply entries_keys in Hk. destruct Hk as (m & Hm & Hk).
    assert (n = m) as ->; [|exact Hk]. apply (same_node lcs); auto.
    rewrite (node_key_head utf8 m k l (Hok m Hm) Hk) in Hkl.
    rewrite (to_eq_l _ head_cmp_order _ _ _ He).
    apply (to_eq_sym _ head_cmp_order). exact Hkl.
  Qed.

  Lemma head_app_eq (w a b : str) : w <> [] -> head_cmp (w ++ a) (w ++ b) = Eq.
  Proof. destruct w; [congruence|]. intros _. simpl. apply byte_cmp_refl. Qed.

  Lemma stuck_inner lcs pcs n c r :
    wf (Tree lcs pcs) -> In n lcs -> ln_has_value n = false -> ln_node n = Some c ->
    (stuck (keys (entries lcs)) (ln_literal n ++ r) <->
     blocks lcs (ln_literal n ++ r) = true \/ stuck (keys (lits_of (abs c))) r).
  Proof.
    intros W Hn Hv Hc. rewrite (blocks_keys lcs pcs _ W).
    inversion W as [? ? HS Hok Hw _ _]; subst. destruct (Hok n Hn) as (_ & Hint).
    destruct (Hint Hv) as (Hlit & c' & Hc' & Hpc & Hlen & _). assert (c' = c) as -> by congruence.
    assert (forall k, In k (keys (node_entries n)) <->
              exists k', k = ln_literal n ++ k' /\ In k' (keys (lits_of (abs c)))) as Hkeys.
    { intros k. rewrite (node_entries_inner n c Hv Hc), keys_prepend, in_map_iff. split.
      - intros (k' & <- & H). eauto.
      - intros (k' & -> & H). eauto. }
    assert (forall k l0, head_cmp (ln_literal n) l0 = Eq -> In k (keys (entries lcs)) ->
              head_cmp k l0 = Eq ->
              exists k', k = ln_literal n ++ k' /\ In k' (keys (lits_of (abs c)))) as Hfind.
    { intros k l0 He Hk Hkl. apply Hkeys. apply (key_node lcs n k l0); assumption. }
    assert (forall k', In k' (keys (lits_of (abs c))) -> In (ln_literal n ++ k') (keys (entries lcs))) as Hin.
    { intros k' Hk'. apply entries_keys. exists n. split; [exact Hn|]. apply Hkeys. eauto. }
    assert (forall x, head_cmp (ln_literal n) (ln_literal n ++ x) = Eq) as Hself.
    { intros x. rewrite <- (app_nil_r (ln_literal n)) at 1. apply head_app_eq. exact Hlit. }
    split.
    - intros (w & r0 & k & s & Hf & El & Hr0 & Hk & Ek & Hs & Hw0). destruct Hf as [->|(k1 & k2 & H1 & H2 & Hne & Hb)].
      + simpl in El, Ek. subst. left. exists s. split; [exact Hk|]. apply clash_true.
        split; [exact Hs|]. split; [exact Hr0|]. tauto.
      + destruct w as [|x w].
        { simpl in El, Ek. subst. left. exists s. split; [exact Hk|]. apply clash_true.
          split; [exact Hs|]. split; [exact Hr0|]. tauto. }
        right. set (W0 := x :: w) in *. assert (W0 <> []) as HW by discriminate.
        destruct (blcp_prefix_l k1 k2) as (q1 & Q1). destruct (blcp_prefix_r k1 k2) as (q2 & Q2).
        rewrite Hb in Q1, Q2.
        assert (forall y, head_cmp (W0 ++ y) (ln_literal n ++ r) = Eq) as Hh.
        { intros y. rewrite El. apply head_app_eq. exact HW. }
        destruct (Hfind k1 (ln_literal n ++ r)) as (k1' & E1 & I1); [apply Hself|exact H1|rewrite Q1; apply Hh|].
        destruct (Hfind k2 (ln_literal n ++ r)) as (k2' & E2 & I2); [apply Hself|exact H2|rewrite Q2; apply Hh|].
        destruct (Hfind k (ln_literal n ++ r)) as (k' & E' & I'); [apply Hself|exact Hk|rewrite Ek; apply Hh|].
        assert (W0 = ln_literal n ++ blcp k1' k2') as EW by (rewrite <- Hb, E1, E2; apply blcp_app).
        exists (blcp k1' k2'), r0, k', s. rewrite EW, <- app_assoc in El. apply app_inv_head in El.
        rewrite E', EW, <- app_assoc in Ek. apply app_inv_head in Ek.
        split; [right; exists k1', k2'; split; [exact I1|split; [exact I2|split; [congruence|reflexivity]]]|].
        auto 10.
    - intros [(k & Hk & Hcl)|(w & r0 & k & s & Hf & El & Hr0 & Hk & Ek & Hs & Hw0)].
      + apply clash_true in Hcl. destruct Hcl as (H1 & H2 & H3).
        exists [], (ln_literal n ++ r), k, k. split; [left; reflexivity|]. tauto.
      + exists (ln_literal n ++ w), r0, (ln_literal n ++ k), s.
        split.
        { right. destruct Hf as [->|(k1 & k2 & H1 & H2 & Hne & Hb)].
          - destruct (wf_branching okp utf8 c (Hw n c Hn Hc) Hlen) as (k1 & k2 & H1 & H2 & Hne & Hb).
            exists (ln_literal n ++ k1), (ln_literal n ++ k2).
            split; [auto|]. split; [auto|]. split; [intros X; apply app_inv_head in X; contradiction|].
            rewrite blcp_app, Hb. reflexivity.
          - exists (ln_literal n ++ k1), (ln_literal n ++ k2).
            split; [auto|]. split; [auto|]. split; [intros X; apply app_inv_head in X; contradiction|].
            rewrite blcp_app, Hb. reflexivity. }
        split; [rewrite El, app_assoc; reflexivity|]. split; [exact Hr0|]. split; [auto|].
        split; [rewrite Ek, app_assoc; reflexivity|]. auto.
  Qed.

  (** Away from inner nodes, only the first comparison matters. *)
  Lemma stuck_outer lcs pcs l :
    wf (Tree lcs pcs) ->
    (forall n, In n lcs -> ln_has_value n = false -> prefixb (ln_literal n) l = false) ->
    (stuck (keys (entries lcs)) l <-> blocks lcs l = true).
  Proof.
    intros W Hno. rewrite (blocks_keys lcs pcs _ W).
    inversion W as [? ? HS Hok Hw _ _]; subst. split.
    - intros (w & r & k & s & Hf & El & Hr & Hk & Ek & Hs & Hwd).
      assert (w = []) as ->.
      { destruct w as [|x w]; [reflexivity|]. exfalso.
        destruct Hf as [Hf|(k1 & k2 & H1 & H2 & Hne & Hb)]; [discriminate|].
        destruct (blcp_prefix_l k1 k2) as (q1 & Q1). destruct (blcp_prefix_r k1 k2) as (q2 & Q2).
        rewrite Hb in Q1, Q2.
        pose proof H1 as H1'. apply entries_keys in H1'. destruct H1' as (n & Hn & H1').
        assert (In k2 (keys (node_entries n))) as H2'.
        { apply (key_node lcs n k2 k1); auto.
          - rewrite <- (node_key_head utf8 n k1 k1 (Hok n Hn) H1'). apply (to_refl _ head_cmp_order).
          - rewrite Q1, Q2. apply head_app_eq. discriminate. }
        destruct (ln_has_value n) eqn:Ev.
        - rewrite (node_entries_single n Ev) in H1', H2'. simpl in H1', H2'.
          destruct H1' as [H1'|[]], H2' as [H2'|[]]. congruence.
        - destruct (Hok n Hn) as (_ & Hint). destruct (Hint Ev) as (Hlit & c & Hc & _ & _).
          rewrite (node_entries_inner n c Ev Hc), keys_prepend in H1', H2'.
          apply in_map_iff in H1', H2'. destruct H1' as (k1' & E1 & _), H2' as (k2' & E2 & _).
          assert (prefixb (ln_literal n) l = true) as X; [|rewrite (Hno n Hn Ev) in X; discriminate].
          apply prefixb_app. rewrite El, <- Hb, <- E1, <- E2, blcp_app, <- app_assoc. eauto. }
      simpl in El, Ek. subst. exists s. split; [exact Hk|]. apply clash_true. tauto.
    - intros (k & Hk & Hcl). apply clash_true in Hcl. destruct Hcl as (H1 & H2 & H3).
      exists [], l, k, k. split; [left; reflexivity|]. tauto.
  Qed.

  (** *** Following routes *)
  Definition ends (X : level -> str -> Prop) (L : level) (l : str) : Prop :=
    exists L' l', reaches L l L' l' /\ X L' l'.

  Definition goes_on (K : list (str * entry)) (l : str) (Y : level -> str -> Prop) : Prop :=
    exists k po c, In (k, (po, Some c)) K /\ routes (keys K) k l = true /\ Y c (skipn (length k) l).

  Lemma ends_unfold X K P l :
    ends X (Level K P) l <-> X (Level K P) l \/ goes_on K l (ends X).
  Proof.
    split.
    - intros (L' & l' & Hr & Hx). inversion Hr; subst; [left; exact Hx|]. right.
      exists k, po, c. split; [assumption|]. split; [assumption|]. exists L', l'. auto.
    - intros [H|(k & po & c & H1 & H2 & L' & l' & Hr & Hx)].
      + exists (Level K P), l. split; [constructor|exact H].
      + exists L', l'. split; [|exact Hx]. eapply reaches_below; eassumption.
  Qed.

  Lemma goes_on_none K l Y : no_route K l -> ~ goes_on K l Y.
  Proof. intros H (k & po & c & H1 & H2 & _). rewrite (H k po c H1) in H2. discriminate. Qed.

  Lemma entry_node (lcs : list (lnode tree)) k e :
    In (k, e) (entries lcs) -> exists n, In n lcs /\ In (k, e) (node_entries n).
  Proof. unfold entries. rewrite in_flat_map. auto. Qed.

  Lemma in_keys {A} k (e : A) K : In (k, e) K -> In k (keys K).
  Proof. intros H. apply (in_map fst _ _ H). Qed.

  Lemma entry_focus lcs n k e l :
    StronglySorted head_lt lcs -> (forall m, In m lcs -> lnode_ok m) -> In n lcs ->
    head_cmp (ln_literal n) l = Eq ->
    In (k, e) (entries lcs) -> head_cmp k l = Eq -> In (k, e) (node_entries n).
  Proof.
    intros HS Hok Hn He Hk Hkl. apply entry_node in Hk. destruct Hk as (m & Hm & Hk).
    assert (n = m) as ->; [|exact Hk]. apply (same_node lcs); auto.
    rewrite (node_key_head utf8 m k l (Hok m Hm) (in_keys _ _ _ Hk)) in Hkl.
    rewrite (to_eq_l _ head_cmp_order _ _ _ He).
    apply (to_eq_sym _ head_cmp_order). exact Hkl.
  Qed.

  Lemma goes_on_inner lcs pcs n c r Y :
    wf (Tree lcs pcs) -> In n lcs -> ln_has_value n = false -> ln_node n = Some c ->
    (goes_on (entries lcs) (ln_literal n ++ r) Y <-> goes_on (lits_of (abs c)) r Y).
  Proof.
    intros W Hn Hv Hc. inversion W as [? ? HS Hok Hw _ _]; subst.
    destruct (Hok n Hn) as (_ & Hint).
    destruct (Hint Hv) as (Hlit & c' & Hc' & Hpc & Hlen & _). assert (c' = c) as -> by congruence.
    set (l := ln_literal n ++ r).
    assert (head_cmp (ln_literal n) l = Eq) as Hself.
    { unfold l. rewrite <- (app_nil_r (ln_literal n)) at 1. apply head_app_eq. exact Hlit. }
    assert (forall k', routes (keys (entries lcs)) (ln_literal n ++ k') l =
                       routes (keys (lits_of (abs c))) k' r) as Hr.
    { intros k'. apply in_split in Hn. destruct Hn as (A & C & ->).
      rewrite entries_app, entries_cons, !keys_app.
      assert (forall m, In m (A ++ C) -> m <> n -> head_cmp (ln_literal m) l <> Eq) as Hoff.
      { intros m Hm Hmn He. apply Hmn. apply (same_node (A ++ n :: C)); auto.
        - apply in_app_or in Hm. apply in_or_app. destruct Hm; [auto|right; right; assumption].
        - apply in_elt.
        - rewrite (to_eq_l _ head_cmp_order _ _ _ He). apply (to_eq_sym _ head_cmp_order). exact Hself. }
      pose proof (proj1 (StronglySorted_app _ A (n :: C)) HS) as (_ & S2 & S3).
      inversion S2 as [|? ? _ F2]; subst. rewrite Forall_forall in F2.
      assert (forall m, In m A -> m <> n) as HA.
      { intros m Hm ->. specialize (S3 n n Hm (or_introl eq_refl)). unfold head_lt in S3.
        rewrite (to_refl _ head_cmp_order) in S3. discriminate. }
      assert (forall m, In m C -> m <> n) as HC.
      { intros m Hm ->. specialize (F2 n Hm). unfold head_lt in F2.
        rewrite (to_refl _ head_cmp_order) in F2. discriminate. }
      rewrite routes_focus.
      - rewrite (node_entries_inner n c Hv Hc), keys_prepend. apply routes_prepend.
        apply branching_nonempty. apply (wf_branching okp utf8); [apply (Hw n c); [apply in_elt|exact Hc]|exact Hlen].
      - apply Forall_forall. intros k Hk. apply entries_keys in Hk. destruct Hk as (m & Hm & Hk).
        rewrite (node_key_head utf8 m k l); [apply Hoff; [apply in_or_app; auto|auto]| |exact Hk].
        apply Hok. apply in_or_app. auto.
      - apply Forall_forall. intros k Hk. apply entries_keys in Hk. destruct Hk as (m & Hm & Hk).
        rewrite (node_key_head utf8 m k l); [apply Hoff; [apply in_or_app; auto|auto]| |exact Hk].
        apply Hok. apply in_or_app. right. right. exact Hm. }
    split.
    - intros (k & po & c0 & H1 & H2 & H3). pose proof H2 as H2'. apply routes_spec in H2'.
      destruct H2' as (Hk0 & (q & Elq & _) & _).
      assert (In (k, (po, Some c0)) (node_entries n)) as H1'.
      { apply (entry_focus lcs n k _ l); auto. rewrite Elq. rewrite <- (app_nil_r k) at 1.
        apply head_app_eq. exact Hk0. }
      rewrite (node_entries_inner n c Hv Hc) in H1'. apply in_map_iff in H1'.
      destruct H1' as ((k', e') & E & H1'). unfold prepend in E. simpl in E. inversion E; subst k e'.
      exists k', po, c0. split; [exact H1'|]. rewrite Hr in H2. split; [exact H2|].
      unfold l in H3. rewrite app_length, skipn_app, skipn_all2 in H3 by lia.
      replace (length (ln_literal n) + length k' - length (ln_literal n)) with (length k') in H3 by lia.
      exact H3.
    - intros (k' & po & c0 & H1 & H2 & H3). exists (ln_literal n ++ k'), po, c0.
      split.
      { unfold entries. apply in_flat_map. exists n. split; [exact Hn|].
        rewrite (node_entries_inner n c Hv Hc). apply in_map_iff. exists (k', (po, Some c0)). auto. }
      split; [rewrite Hr; exact H2|]. unfold l. rewrite app_length, skipn_app, skipn_all2 by lia.
      replace (length (ln_literal n) + length k' - length (ln_literal n)) with (length k') by lia.
      exact H3.
  Qed.

  Lemma goes_on_single lcs pcs n c r Y :
    wf (Tree lcs pcs) -> In n lcs -> ln_has_value n = true -> ln_node n = Some c ->
    ln_literal n <> [] -> r <> [] ->
    (goes_on (entries lcs) (ln_literal n ++ r) Y <-> Y (abs c) r).
  Proof.
    intros W Hn Hv Hc Hlit Hr. inversion W as [? ? HS Hok Hw _ _]; subst.
    set (l := ln_literal n ++ r).
    assert (head_cmp (ln_literal n) l = Eq) as Hself.
    { unfold l. rewrite <- (app_nil_r (ln_literal n)) at 1. apply head_app_eq. exact Hlit. }
    assert (forall x, skipn (length (ln_literal n)) (ln_literal n ++ x) = x) as Hsk.
    { intros x. rewrite skipn_app, skipn_all, Nat.sub_diag. reflexivity. }
    split.
    - intros (k & po & c0 & H1 & H2 & H3). pose proof H2 as H2'. apply routes_spec in H2'.
      destruct H2' as (Hk0 & (q & Elq & _) & _).
      assert (In (k, (po, Some c0)) (node_entries n)) as H1'.
      { apply (entry_focus lcs n k _ l); auto. rewrite Elq. rewrite <- (app_nil_r k) at 1.
        apply head_app_eq. exact Hk0. }
      rewrite (node_entries_single n Hv), Hc in H1'. destruct H1' as [H1'|[]]. inversion H1'; subst.
      unfold l in H3. rewrite Hsk in H3. exact H3.
    - intros H. exists (ln_literal n), (ln_pattern n), (abs c).
      assert (In (ln_literal n, (ln_pattern n, Some (abs c))) (entries lcs)) as Hin.
      { unfold entries. apply in_flat_map. exists n. split; [exact Hn|].
        rewrite (node_entries_single n Hv), Hc. left. reflexivity. }
      split; [exact Hin|]. split; [|unfold l; rewrite Hsk; exact H].
      apply routes_spec. split; [exact Hlit|]. split; [exists r; auto|].
      intros k' Hk'. destruct (proper_prefixb (ln_literal n) k') eqn:Ep; [|reflexivity].
      exfalso. pose proof Ep as Ep'. apply proper_prefixb_head in Ep'; [|exact Hlit].
      apply (key_node lcs n k' (ln_literal n)) in Hk'; auto.
      + rewrite (node_entries_single n Hv) in Hk'. destruct Hk' as [Hk'|[]]. subst k'.
        apply proper_prefixb_spec in Ep. destruct Ep as (q & Elq & Hq).
        rewrite <- (app_nil_r (ln_literal n)) in Elq at 1. apply app_inv_head in Elq. congruence.
      + apply (to_refl _ head_cmp_order).
      + apply (to_eq_sym _ head_cmp_order). exact Ep'.
  Qed.

  (** *** Where a search ends *)
  Lemma notfound_nodes lcs l :
    search_spec lcs l NotFound -> StronglySorted head_lt lcs ->
    forall m, In m lcs -> head_cmp (ln_literal m) l = Eq -> prefixb (ln_literal m) l = true ->
      ln_node m = None /\ ln_literal m <> l.
  Proof.
    intros Hs HS m Hm He Hp. inversion Hs as [A C E HA HC|A n C E HA HE HC Hn Hne
                   |A n C c E HA HE HC Hn Hp'| |].
    - exfalso. rewrite Forall_forall in HA, HC. rewrite E in Hm. apply in_app_or in Hm.
      destruct Hm as [Hm|Hm]; [apply HA in Hm|apply HC in Hm]; congruence.
    - assert (n = m) as <-; [|auto]. apply (same_node lcs); auto; [rewrite E; apply in_elt|].
      rewrite (to_eq_l _ head_cmp_order _ _ _ HE). apply (to_eq_sym _ head_cmp_order). exact He.
    - exfalso. assert (n = m) as <-; [|congruence]. apply (same_node lcs); auto; [rewrite E; apply in_elt|].
      rewrite (to_eq_l _ head_cmp_order _ _ _ HE). apply (to_eq_sym _ head_cmp_order). exact He.
  Qed.

  Lemma no_route_nodes lcs pcs l :
    wf (Tree lcs pcs) ->
    (forall m, In m lcs -> head_cmp (ln_literal m) l = Eq -> prefixb (ln_literal m) l = true ->
       ln_has_value m = true /\ (ln_node m = None \/ ln_literal m = l)) ->
    no_route (entries lcs) l.
  Proof.
    intros W H k po c Hin. inversion W as [? ? HS Hok Hw _ _]; subst.
    destruct (routes (keys (entries lcs)) k l) eqn:Er; [|reflexivity]. exfalso.
    apply routes_spec in Er. destruct Er as (Hk0 & (q & Elq & Hq) & _).
    apply entry_node in Hin. destruct Hin as (m & Hm & Hin).
    pose proof (in_keys _ _ _ Hin) as Hk. destruct (node_keys m k Hk) as (x & Ex).
    assert (head_cmp k l = Eq) as Hh.
    { rewrite Elq. rewrite <- (app_nil_r k) at 1. apply head_app_eq. exact Hk0. }
    rewrite (node_key_head utf8 m k l (Hok m Hm) Hk) in Hh.
    assert (prefixb (ln_literal m) l = true) as Hp.
    { apply prefixb_app. exists (x ++ q). rewrite Elq, Ex, <- app_assoc. reflexivity. }
    destruct (H m Hm Hh Hp) as (Hv & Hcase). rewrite (node_entries_single m Hv) in Hin.
    destruct Hin as [Hin|[]]. inversion Hin as [[E1 E2 E3]]. destruct Hcase as [Hnone|Hl].
    - rewrite Hnone in E3. discriminate.
    - rewrite <- E1, Hl in Elq. rewrite <- (app_nil_r l) in Elq at 1. apply app_inv_head in Elq. congruence.
  Qed.

  Lemma leaf_has_value n : lnode_ok n -> ln_node n = None -> ln_has_value n = true.
  Proof.
    intros (_ & H) Hn. destruct (ln_has_value n); [reflexivity|].
    destruct (H eq_refl) as (_ & c & Hc & _). congruence.
  Qed.

  Lemma notfound_no_route lcs pcs l :
    wf (Tree lcs pcs) -> search_spec lcs l NotFound -> no_route (entries lcs) l.
  Proof.
    intros W Hs. inversion W as [? ? HS Hok Hw _ _]; subst.
    apply (no_route_nodes lcs pcs l W). intros m Hm He Hp.
    destruct (notfound_nodes lcs l Hs HS m Hm He Hp) as (H1 & _).
    split; [apply (leaf_has_value m (Hok m Hm) H1)|auto].
  Qed.

  Lemma found_no_route lcs pcs n :
    wf (Tree lcs pcs) -> In n lcs -> ln_has_value n = true -> no_route (entries lcs) (ln_literal n).
  Proof.
    intros W Hn Hv. inversion W as [? ? HS Hok Hw _ _]; subst.
    apply (no_route_nodes lcs pcs _ W). intros m Hm He Hp.
    assert (m = n) as -> by (apply (same_node lcs); auto). auto.
  Qed.

  Lemma notfound_no_literal lcs pcs l :
    wf (Tree lcs pcs) -> search_spec lcs l NotFound -> no_literal (entries lcs) l.
  Proof.
    intros W Hs. split; [apply (notfound_no_route lcs pcs l W Hs)|].
    inversion W as [? ? HS Hok Hw _ _]; subst. split.
    - intros Hin. apply entries_keys in Hin. destruct Hin as (m & Hm & Hk).
      destruct (node_keys m l Hk) as (x & Ex).
      assert (head_cmp (ln_literal m) l = Eq) as Hh.
      { rewrite <- (node_key_head utf8 m l l (Hok m Hm) Hk). apply (to_refl _ head_cmp_order). }
      destruct (notfound_nodes lcs l Hs HS m Hm Hh) as (H1 & H2).
      { apply prefixb_app. eauto. }
      rewrite (node_entries_single m (leaf_has_value m (Hok m Hm) H1)) in Hk.
      destruct Hk as [Hk|[]]. simpl in Hk. contradiction.
    - destruct (blocked (keys (entries lcs)) l) eqn:Eb; [|reflexivity]. exfalso.
      apply blocked_spec in Eb. destruct Eb as (k1 & k2 & r & H1 & H2 & Hne & Hb & El).
      destruct (blcp_prefix_l k1 k2) as (q1 & Q1). destruct (blcp_prefix_r k1 k2) as (q2 & Q2).
      apply entries_keys in H1. destruct H1 as (m & Hm & H1).
      assert (head_cmp k1 l = Eq) as Hh1 by (rewrite Q1, El; apply head_app_eq; exact Hb).
      assert (head_cmp k2 l = Eq) as Hh2 by (rewrite Q2, El; apply head_app_eq; exact Hb).
      rewrite (node_key_head utf8 m k1 l (Hok m Hm) H1) in Hh1.
      apply (key_node lcs m k2 l) in H2; auto.
      destruct (ln_has_value m) eqn:Ev.
      + rewrite (node_entries_single m Ev) in H1, H2. destruct H1 as [H1|[]], H2 as [H2|[]]. congruence.
      + destruct (Hok m Hm) as (_ & Hint). destruct (Hint Ev) as (_ & c & Hc & _).
        rewrite (node_entries_inner m c Ev Hc), keys_prepend in H1, H2.
        apply in_map_iff in H1, H2. destruct H1 as (k1' & E1 & _), H2 as (k2' & E2 & _).
        destruct (notfound_nodes lcs l Hs HS m Hm Hh1) as (H3 & _); [|congruence].
        apply prefixb_app. rewrite El, <- E1, <- E2, blcp_app, <- app_assoc. eauto.
  Qed.

  Lemma notfound_not_inner lcs l :
    StronglySorted head_lt lcs -> (forall m, In m lcs -> lnode_ok m) -> search_spec lcs l NotFound ->
    forall n, In n lcs -> ln_has_value n = false -> prefixb (ln_literal n) l = false.
  Proof.
    intros HS Hok Hs n Hn Hv. destruct (prefixb (ln_literal n) l) eqn:Hp; [|reflexivity]. exfalso.
    destruct (Hok n Hn) as (_ & Hint). destruct (Hint Hv) as (Hlit & c & Hc & _).
    destruct (notfound_nodes lcs l Hs HS n Hn) as (H & _); [|exact Hp|congruence].
    apply prefixb_head; assumption.
  Qed.

  Lemma focus_not_inner lcs n l :
    StronglySorted head_lt lcs -> (forall m, In m lcs -> lnode_ok m) -> In n lcs ->
    head_cmp (ln_literal n) l = Eq -> ln_has_value n = true ->
    forall m, In m lcs -> ln_has_value m = false -> prefixb (ln_literal m) l = false.
  Proof.
    intros HS Hok Hn He Hv m Hm Hv'. destruct (prefixb (ln_literal m) l) eqn:Hp; [|reflexivity]. exfalso.
    destruct (Hok m Hm) as (_ & Hint). destruct (Hint Hv') as (Hlit & c & Hc & _).
    assert (n = m) as ->; [|congruence]. apply (same_node lcs); auto.
    rewrite (to_eq_l _ head_cmp_order _ _ _ He). apply (to_eq_sym _ head_cmp_order).
    apply prefixb_head; assumption.
  Qed.

  (** *** The levels below nodes *)
  Lemma tidies_child lcs pcs n c :
    wf (Tree lcs pcs) -> tidies (abs (Tree lcs pcs)) -> In n lcs -> ln_node n = Some c -> tidies (abs c).
  Proof.
    intros W T Hn Hc. rewrite abs_unfold in T. inversion T as [K P TK TS TP]; subst.
    inversion W as [? ? HS Hok Hw _ _]; subst.
    destruct (ln_has_value n) eqn:Ev.
    - apply (TS (ln_literal n) (ln_pattern n)). unfold entries. apply in_flat_map. exists n.
      split; [exact Hn|]. rewrite (node_entries_single n Ev), Hc. left. reflexivity.
    - destruct (Hok n Hn) as (_ & Hint). destruct (Hint Ev) as (Hlit & c' & Hc' & Hpc & _).
      assert (c' = c) as -> by congruence. destruct c as [lcs' pcs']. simpl in Hpc. subst pcs'.
      rewrite abs_unfold. 
      assert (forall k e, In (k, e) (entries lcs') -> In (ln_literal n ++ k, e) (entries lcs)) as Hin.
      { intros k e H. unfold entries. apply in_flat_map. exists n. split; [exact Hn|].
        rewrite (node_entries_inner n _ Ev Hc). apply in_map_iff. exists (k, e). auto. }
      constructor.
      + apply (tidy_prepend (ln_literal n)). intros k1 k2 s1 s2 H1 H2. apply TK.
        * apply in_map_iff in H1. destruct H1 as (k & <- & H1). unfold keys in H1.
          apply in_map_iff in H1. destruct H1 as ((k0, e) & <- & H1). apply (in_keys _ e). apply Hin. exact H1.
        * apply in_map_iff in H2. destruct H2 as (k & <- & H2). unfold keys in H2.
          apply in_map_iff in H2. destruct H2 as ((k0, e) & <- & H2). apply (in_keys _ e). apply Hin. exact H2.
      + intros k po c H. apply (TS (ln_literal n ++ k) po). apply Hin. exact H.
      + intros q po c [].
  Qed.

  Lemma tidies_comparable lcs pcs :
    wf (Tree lcs pcs) -> tidies (abs (Tree lcs pcs)) -> comparable lcs.
  Proof.
    intros W T. rewrite abs_unfold in T. inversion T; subst. apply (tidy_comparable lcs pcs W).
    assumption.
  Qed.

  (** *** Literal lookup *)
  Definition gets_stuck (L : level) (l : str) : Prop := stuck (keys (lits_of L)) l.
  Definition tries (Q : list (parser * entry) -> str -> Prop) (L : level) (l : str) : Prop :=
    no_literal (lits_of L) l /\ Q (pars_of L) l.

  Definition lookup_cases (t : tree) (l : str) : Prop :=
    (lookup_literal t l = Panic /\ ends gets_stuck (abs t) l) \/
    (exists r, lookup_literal t l = Ret r /\ ~ ends gets_stuck (abs t) l /\
       forall Q : list (parser * entry) -> str -> Prop, (forall l, ~ Q [] l) ->
         match r with
         | inl _ => ~ ends (tries Q) (abs t) l
         | inr (node, len) =>
             tidies (abs node) /\
             (ends (tries Q) (abs t) l <-> Q (pars_of (abs node)) (skipn (length l - len) l))
         end).

  Lemma skipn_len (pre l : str) : skipn (length (pre ++ l) - length l) (pre ++ l) = l.
  Proof.
    rewrite app_length. replace (length pre + length l - length l) with (length pre) by lia.
    rewrite skipn_app, skipn_all, Nat.sub_diag. reflexivity.
  Qed.

  Lemma lookup_literal_cases t : wf t -> forall l, tidies (abs t) -> utf8 l -> lookup_cases t l.
  Proof.
    induction 1 as [lcs pcs HS Hok Hw IH Hpok Hpw IHp]. intros l T Hl.
    assert (wf (Tree lcs pcs)) as W by (constructor; assumption).
    pose proof (tidies_comparable lcs pcs W T) as Tc.
    unfold lookup_cases. rewrite lookup_literal_unfold.
    destruct (search_cases lcs pcs l W Tc Hl) as [(Eb & Es)|(Eb & sr & Es & Hs)]; rewrite Es; cbn [bind].
    - left. split; [reflexivity|]. rewrite abs_unfold. apply ends_unfold. left.
      apply (blocks_keys lcs pcs l W) in Eb. destruct Eb as (k & Hk & Hc).
      apply clash_true in Hc. destruct Hc as (H1 & H2 & H3).
      exists [], l, k, k. split; [left; reflexivity|]. cbn [lits_of]. tauto.
    - destruct sr as [pos| |pos r].
      + (* found *)
        right. eexists. split; [reflexivity|].
        inversion Hs as [| | |A n C E HA HC Hlit Hv|]; subst.
        assert (In n (A ++ n :: C)) as Hn by apply in_elt.
        pose proof (found_no_route _ pcs n W Hn Hv) as Hnr.
        rewrite abs_unfold. split.
        * intros H. apply ends_unfold in H. destruct H as [H|H]; [|apply (goes_on_none _ _ _ Hnr H)].
          unfold gets_stuck in H. cbn [lits_of] in H. apply (stuck_outer _ pcs) in H; [congruence|exact W|].
          apply (focus_not_inner _ n); auto. apply (to_refl _ head_cmp_order).
        * intros Q HQ H. apply ends_unfold in H. destruct H as [((_ & H & _) & _)|H];
            [|apply (goes_on_none _ _ _ Hnr H)].
          apply H. cbn [lits_of]. apply entries_keys. exists n. split; [exact Hn|].
          rewrite (node_entries_single n Hv). left. reflexivity.
      + (* not found *)
        right. eexists. split; [reflexivity|].
        pose proof (notfound_no_literal lcs pcs l W Hs) as Hnl. pose proof (proj1 Hnl) as Hnr.
        split.
        * rewrite abs_unfold. intros H. apply ends_unfold in H.
          destruct H as [H|H]; [|apply (goes_on_none _ _ _ Hnr H)].
          unfold gets_stuck in H. cbn [lits_of] in H. apply (stuck_outer _ pcs) in H; [congruence|exact W|].
          apply notfound_not_inner; auto.
        * intros Q HQ. split; [exact T|]. rewrite Nat.sub_diag. cbn [skipn].
          rewrite abs_unfold, ends_unfold. unfold tries. cbn [lits_of pars_of]. split.
          -- intros [(_ & H)|H]; [exact H|]. exfalso. apply (goes_on_none _ _ _ Hnr H).
          -- intros H. left. auto.
      + (* down *)
        inversion Hs as [| | | |A n C c r0 E HA HC Hlit Hlr Hr Hn Hv HX]; subst r0 pos.
        assert (In n lcs) as Hin by (rewrite E; apply in_elt).
        assert (nth_error lcs (length A) = Some n) as Hnth by (rewrite E; apply nth_error_app_mid).
        assert (match nth_error lcs (length A) with
                | Some (LNode _ _ _ (Some c)) => lookup_literal c r
                | _ => Panic
                end = lookup_literal c r) as Edown.
        { rewrite Hnth. destruct n as [lit hv po co]. simpl in Hn. subst co. reflexivity. }
        rewrite Edown.
        pose proof (IH n c Hin Hn r (tidies_child lcs pcs n c W T Hin Hn) Hr) as IHc.
        assert (ends gets_stuck (abs (Tree lcs pcs)) l <-> ends gets_stuck (abs c) r) as HX1.
        { rewrite abs_unfold, ends_unfold. unfold gets_stuck at 1. cbn [lits_of].
          destruct (ln_has_value n) eqn:Ev.
          - rewrite (stuck_outer lcs pcs l W).
            + rewrite Eb, Hlr, (goes_on_single lcs pcs n c r) by auto. split; [intros [H|H]; [discriminate|exact H]|auto].
            + apply (focus_not_inner lcs n); auto. rewrite Hlr.
              rewrite <- (app_nil_r (ln_literal n)) at 1. apply head_app_eq. exact Hlit.
          - rewrite Hlr in *. rewrite (stuck_inner lcs pcs n c r W Hin Ev Hn), Eb.
            rewrite (goes_on_inner lcs pcs n c r _ W Hin Ev Hn).
            destruct (abs c) as [Kc Pc]. rewrite ends_unfold. unfold gets_stuck at 2. cbn [lits_of].
            split; [intros [[H|H]|H]; [discriminate|auto|auto]|]. intros [H|H]; auto. }
        assert (forall Q : list (parser * entry) -> str -> Prop, (forall l, ~ Q [] l) ->
                  (ends (tries Q) (abs (Tree lcs pcs)) l <-> ends (tries Q) (abs c) r)) as HX2.
        { intros Q HQ. rewrite abs_unfold, ends_unfold. destruct (ln_has_value n) eqn:Ev.
          - rewrite Hlr, (goes_on_single lcs pcs n c r) by auto. split; [|auto]. intros [((H & _) & _)|H]; [|exact H].
            exfalso. cbn [lits_of] in H.
            assert (goes_on (entries lcs) (ln_literal n ++ r) (fun _ _ => True)) as G.
            { apply (goes_on_single lcs pcs n c r); auto. }
            apply (goes_on_none _ _ _ H G).
          - rewrite Hlr. rewrite (goes_on_inner lcs pcs n c r _ W Hin Ev Hn).
            destruct (Hok n Hin) as (_ & Hint). destruct (Hint Ev) as (_ & c' & Hc' & Hpc & Hlen & _).
            assert (c' = c) as -> by congruence. pose proof (Hw n c Hin Hn) as Wc.
            pose proof (wf_branching okp utf8 c Wc Hlen) as HB.
            destruct c as [lcs' pcs']. simpl in Hpc. subst pcs'.
            rewrite abs_unfold. cbn [lits_of]. rewrite ends_unfold. split.
            + intros [((_ & _ & H) & _)|H]; [|auto]. exfalso. cbn [lits_of] in H.
              rewrite abs_unfold in HB. cbn [lits_of] in HB. destruct HB as (k1 & k2 & H1 & H2 & Hne & Hb).
              assert (blocked (keys (entries lcs)) (ln_literal n ++ r) = true) as X; [|congruence].
              assert (forall k, In k (keys (entries lcs')) -> In (ln_literal n ++ k) (keys (entries lcs))) as Hup.
              { intros k Hk. apply entries_keys. exists n. split; [exact Hin|].
                rewrite (node_entries_inner n _ Ev Hn), keys_prepend. apply in_map. exact Hk. }
              apply blocked_spec. exists (ln_literal n ++ k1), (ln_literal n ++ k2), r.
              split; [apply Hup; exact H1|]. split; [apply Hup; exact H2|].
              split; [intros X; apply app_inv_head in X; contradiction|].
              rewrite blcp_app, Hb, app_nil_r. auto.
            + intros [(_ & H)|H]; [|auto]. exfalso. apply (HQ _ H). }
        destruct IHc as [(E1 & E2)|(res & E1 & E2 & E3)].
        * left. split; [exact E1|]. apply HX1. exact E2.
        * right. exists res. split; [exact E1|]. split; [rewrite HX1; exact E2|].
          intros Q HQ. specialize (E3 Q HQ). destruct res as [(node, p)|(node, len)].
          -- rewrite (HX2 Q HQ). exact E3.
          -- destruct E3 as (E3 & E4). split; [exact E3|]. rewrite (HX2 Q HQ), E4.
             apply (lookup_literal_ret okp utf8 (fun _ H => H) c (Hw n c Hin Hn) r _ Hr) in E1.
             simpl in E1. destruct E1 as (_ & _ & pre & l' & -> & <- & _).
             rewrite skipn_len, Hlr, app_assoc, skipn_len. reflexivity.
  Qed.

  (** *** Parsing *)
  Definition parser_fails (q : parser) (e : entry) (l : str) : Prop :=
    parser_parse q l = Panic \/
    exists v c, capture q l = Some v /\ snd e = Some c /\ parse_panics c (skipn (length v) l).

  Definition parsers_fail (P : list (parser * entry)) (l : str) : Prop :=
    exists A q e B, P = A ++ (q, e) :: B /\ try_parsers s_parse A l = None /\ parser_fails q e l.

  Lemma parsers_fail_nil l : ~ parsers_fail [] l.
  Proof. intros (A & q & e & B & E & _). destruct A; discriminate. Qed.

  Lemma parsers_fail_cons q e P l :
    parsers_fail ((q, e) :: P) l <->
    parser_fails q e l \/ (try_parser s_parse q e l = None /\ parsers_fail P l).
  Proof.
    split.
    - intros (A & q' & e' & B & E & Ht & Hf). destruct A as [|(q0, e0) A]; simpl in E; inversion E; subst.
      + left. exact Hf.
      + right. simpl in Ht. destruct (try_parser s_parse q0 e0 l); [discriminate|].
        split; [reflexivity|]. exists A, q', e', B. auto.
    - intros [H|(Ht & A & q' & e' & B & -> & Ht' & Hf)].
      + exists [], q, e, P. auto.
      + exists ((q, e) :: A), q', e', B. split; [reflexivity|]. split; [|exact Hf].
        simpl. rewrite Ht. exact Ht'.
  Qed.

  Lemma parse_panics_iff L text :
    parse_panics L text <-> ends gets_stuck L text \/ ends (tries parsers_fail) L text.
  Proof.
    split.
    - intros H. destruct H as [L text K P l Hr Hs|L text K A q e B l Hr Hn Ht Hp
                              |L text K A q po c B l v Hr Hn Ht Hc Hp].
      + left. exists (Level K P), l. auto.
      + right. exists (Level K (A ++ (q, e) :: B)), l. split; [exact Hr|]. split; [exact Hn|].
        exists A, q, e, B. split; [reflexivity|]. split; [exact Ht|]. left. exact Hp.
      + right. exists (Level K (A ++ (q, (po, Some c)) :: B)), l. split; [exact Hr|]. split; [exact Hn|].
        exists A, q, (po, Some c), B. split; [reflexivity|]. split; [exact Ht|]. right. exists v, c. auto.
    - intros [([K P] & l & Hr & Hs)|([K P] & l & Hr & Hn & A & q & e & B & E & Ht & Hf)].
      + apply (pp_literal L text K P l Hr Hs).
      + cbn [pars_of lits_of] in *. subst P. destruct Hf as [Hf|(v & c & Hc & Ec & Hp)].
        * apply (pp_parser L text K A q e B l); assumption.
        * destruct e as (po, co). simpl in Ec. subst co. apply (pp_below L text K A q po c B l v); assumption.
  Qed.

  Definition parse_cases (fuel : nat) (t : tree) (text : str) : Prop :=
    (parse_fuel fuel t text = Panic /\ parse_panics (abs t) text) \/
    (exists r, parse_fuel fuel t text = Ret r /\ ~ parse_panics (abs t) text).

  Lemma pnode_cases fuel n text :
    (forall t text, wf t -> height t <= fuel -> tidies (abs t) -> utf8 text -> parse_cases fuel t text) ->
    pnode_ok okp n ->
    (forall c, pn_node n = Some c -> wf c /\ height c <= fuel /\ tidies (abs c)) -> utf8 text ->
    (pnode_parse (parse_fuel fuel) n text = Panic /\
       parser_fails (fst (parser_entry n)) (snd (parser_entry n)) text) \/
    (exists r, pnode_parse (parse_fuel fuel) n text = Ret r /\
       ~ parser_fails (fst (parser_entry n)) (snd (parser_entry n)) text).
  Proof.
    intros IH (Hq & Hleaf) Hc Hu. unfold pnode_parse, parser_fails.
    destruct n as [q po co]. simpl in *. pose proof (parser_parse_fuel q text) as Hfuel.
    destruct (parser_parse q text) as [[v|]| |] eqn:Ep; cbn [bind].
    - assert (captures q text v /\ utf8 v) as (Hcap & Hv) by (apply parser_parse_some; auto).
      apply captures_prefix in Hcap. destruct Hcap as (rest & Et).
      assert (utf8 rest) as Hrest by (rewrite Et in Hu; apply (utf8_app_inv_r v rest Hv Hu)).
      assert (ltrunc text (length v) = Ret rest) as ->.
      { rewrite Et in Hu |- *. apply ltrunc_ok; assumption. }
      assert (skipn (length v) text = rest) as Esk.
      { rewrite Et, skipn_app, skipn_all, Nat.sub_diag. reflexivity. }
      cbn [bind]. assert (capture q text = Some v) as Ec by (unfold capture; rewrite Ep; reflexivity).
      destruct co as [c|].
      + destruct (Hc c eq_refl) as (Wc & Hh & Tc). unfold parse_then_push_kvpair.
        destruct (IH c rest Wc Hh Tc Hrest) as [(E1 & E2)|(r & E1 & E2)]; rewrite E1; cbn [bind].
        * left. split; [reflexivity|]. right. exists v, (abs c). rewrite Esk. auto.
        * right. destruct r as [r|]; (eexists; split; [reflexivity|]);
            (intros [H|(v' & c' & H1 & H2 & H3)]; [discriminate|]);
            inversion H2; subst c'; rewrite Ec in H1; inversion H1; subst v'; rewrite Esk in H3;
            contradiction.
      + right. unfold push_last_kvpair. cbn [pn_pattern].
        assert (~ ((Ret (Some v) = Panic) \/ exists v0 c, capture q text = Some v0 /\ @None level = Some c /\
                    parse_panics c (skipn (length v0) text))) as HN.
        { intros [H|(v' & c' & H1 & H2 & H3)]; discriminate. }
        destruct (is_empty rest).
        * destruct po as [p|]; [eexists; split; [reflexivity|exact HN]|]. exfalso. apply Hleaf; reflexivity.
        * eexists. split; [reflexivity|exact HN].
    - right. eexists. split; [reflexivity|]. intros [H|(v' & c' & H1 & _)]; [discriminate|].
      unfold capture in H1. rewrite Ep in H1. discriminate.
    - left. auto.
    - congruence.
  Qed.

  Lemma parsers_cases fuel pcs text :
    (forall t text, wf t -> height t <= fuel -> tidies (abs t) -> utf8 text -> parse_cases fuel t text) ->
    (forall n, In n pcs -> pnode_ok okp n) ->
    (forall n c, In n pcs -> pn_node n = Some c -> wf c /\ height c <= fuel /\ tidies (abs c)) ->
    utf8 text ->
    (parse_with_parsers (parse_fuel fuel) pcs text = Panic /\ parsers_fail (map parser_entry pcs) text) \/
    (exists r, parse_with_parsers (parse_fuel fuel) pcs text = Ret r /\
       ~ parsers_fail (map parser_entry pcs) text).
  Proof.
    intros IH. induction pcs as [|n pcs IHp]; intros Hok Hc Hu; cbn [parse_with_parsers map].
    - right. exists None. split; [reflexivity|]. apply parsers_fail_nil.
    - destruct (pnode_cases fuel n text IH (Hok n (or_introl eq_refl)) (fun c => Hc n c (or_introl eq_refl)) Hu)
        as [(E1 & E2)|(r & E1 & E2)].
      + left. rewrite E1. split; [reflexivity|]. destruct (parser_entry n) as (q, e).
        apply parsers_fail_cons. left. exact E2.
      + rewrite E1. cbn [bind].
        apply (pnode_parse_ret okp okp_utf8 utf8 fuel n text r) in E1.
        * destruct (parser_entry n) as (q, e) eqn:Epe. simpl in E1, E2. destruct r as [r|].
          -- right. eexists. split; [reflexivity|]. intros H. apply parsers_fail_cons in H.
             destruct H as [H|(H & _)]; [contradiction|congruence].
          -- destruct IHp as [(F1 & F2)|(r & F1 & F2)]; auto.
             ++ intros m Hm. apply Hok. right. exact Hm.
             ++ intros m c Hm. apply Hc. right. exact Hm.
             ++ left. split; [exact F1|]. apply parsers_fail_cons. right. auto.
             ++ right. exists r. split; [exact F1|]. intros H. apply parsers_fail_cons in H. tauto.
        * intros t text' r' Wt Hu'. apply (parse_fuel_ret okp okp_utf8 utf8 (fun _ H => H)); assumption.
        * apply Hok. left. reflexivity.
        * intros c Ec. apply (Hc n c (or_introl eq_refl) Ec).
        * exact Hu.
  Qed.

  Lemma parse_fuel_cases fuel : forall t text,
    wf t -> height t <= fuel -> tidies (abs t) -> utf8 text -> parse_cases fuel t text.
  Proof.
    induction fuel as [|fuel IH]; intros t text W Hh T Hu.
    { destruct t; simpl in Hh; lia. }
    unfold parse_cases. setoid_rewrite parse_panics_iff. cbn [parse_fuel].
    destruct (lookup_literal_cases t W text T Hu) as [(E1 & E2)|(r & E1 & E2 & E3)].
    - rewrite E1. left. split; [reflexivity|]. left. exact E2.
    - rewrite E1. cbn [bind]. specialize (E3 parsers_fail parsers_fail_nil).
      apply (lookup_literal_ret okp utf8 (fun _ H => H) t W text r Hu) in E1.
      destruct r as [(node, pos)|(node, len)]; simpl in E1.
      + destruct E1 as (n & Hn & _). unfold get_unwrap. rewrite Hn. cbn [bind].
        right. eexists. split; [reflexivity|]. cbv iota beta in E3. intros [H|H]; [exact (E2 H)|exact (E3 H)].
      + destruct E1 as (Wn & Hhn & pre & l' & -> & <- & Hu' & _). destruct E3 as (Tn & E3).
        rewrite skipn_len in E3. unfold usub.
        destruct (Nat.leb_spec (length l') (length (pre ++ l'))) as [|L]; [|rewrite app_length in L; lia].
        cbn [bind]. rewrite app_length. replace (length pre + length l' - length l') with (length pre) by lia.
        assert (ltrunc (pre ++ l') (length pre) = Ret l') as ->.
        { unfold ltrunc. apply slice_from_ret. exists pre. split; [reflexivity|]. split; [reflexivity|].
          right. apply utf8_head. exact Hu'. }
        cbn [bind]. inversion Wn as [lcs pcs HS Hok Hw Hpok Hpw]; subst. cbn [parser_children].
        rewrite abs_unfold in E3, Tn. cbn [pars_of] in E3. inversion Tn as [K P TK TS TP]; subst.
        destruct (parsers_cases fuel pcs l' IH Hpok) as [(F1 & F2)|(r & F1 & F2)]; [|exact Hu'| |].
        * intros n c Hn Hc. split; [apply (Hpw n c Hn Hc)|].
          pose proof (height_parser lcs pcs n c Hn Hc). split; [lia|].
          apply (TP (pn_parser n) (pn_pattern n)). apply in_map_iff. exists n. split; [|exact Hn].
          destruct n as [q po co]. simpl in Hc. subst co. reflexivity.
        * left. split; [exact F1|]. right. apply E3. exact F2.
        * right. exists r. split; [exact F1|]. rewrite E3. tauto.
  Qed.

  (** *** Adding a literal *)
  Definition enters (L : level) (l : str) : Prop :=
    stuck (keys (lits_of L)) l \/ (no_route (lits_of L) l /\ torn (keys (lits_of L)) l).

  Lemma literal_panics_iff L l : literal_panics L l <-> ends enters L l.
  Proof.
    split.
    - intros H. destruct H as [L text K P l Hr Hs|L text K P l Hr Hn Ht].
      + exists (Level K P), l. split; [exact Hr|]. left. exact Hs.
      + exists (Level K P), l. split; [exact Hr|]. right. auto.
    - intros ([K P] & l' & Hr & [Hs|(Hn & Ht)]).
      + apply (lp_stuck L l K P l' Hr Hs).
      + apply (lp_torn L l K P l' Hr Hn Ht).
  Qed.

  Lemma no_route_goes_on K l : no_route K l <-> ~ goes_on K l (fun _ _ => True).
  Proof.
    split; [apply goes_on_none|]. intros H k po c Hin.
    destruct (routes (keys K) k l) eqn:E; [|reflexivity]. exfalso. apply H. exists k, po, c. auto.
  Qed.

  (** Keys that share the first byte with a literal. *)
  Lemma torn_key ks k w a s l :
    In k ks -> w = blcp k l -> w <> [] -> l = w ++ a -> k = w ++ s -> head_cmp k l = Eq.
  Proof. intros _ _ Hw -> ->. apply head_app_eq. exact Hw. Qed.

  Lemma torn_found lcs pcs n :
    wf (Tree lcs pcs) -> In n lcs -> ln_has_value n = true ->
    ~ torn (keys (entries lcs)) (ln_literal n).
  Proof.
    intros W Hn Hv (k & w & a & s & Hk & Ew & Hw & El & Ek & Hwd).
    inversion W as [? ? HS Hok _ _ _]; subst.
    pose proof (torn_key _ _ _ _ _ _ Hk eq_refl Hw El Ek) as Hh.
    apply (key_node lcs n k (ln_literal n)) in Hk; auto; [|apply (to_refl _ head_cmp_order)].
    rewrite (node_entries_single n Hv) in Hk. destruct Hk as [Hk|[]]. simpl in Hk. subst k.
    assert (forall s0, blcp s0 s0 = s0) as Hself.
    { clear. induction s0 as [|x s0 IH]; simpl; [reflexivity|]. rewrite byte_eqb_refl, IH. reflexivity. }
    rewrite Hself in El. rewrite <- (app_nil_r (ln_literal n)) in El at 1. apply app_inv_head in El.
    subst a. destruct Hwd as [Hwd|(Hwd & _)]; [discriminate|congruence].
  Qed.

  Lemma torn_inner lcs pcs n c r :
    wf (Tree lcs pcs) -> In n lcs -> ln_has_value n = false -> ln_node n = Some c ->
    (torn (keys (entries lcs)) (ln_literal n ++ r) ->
       torn (keys (lits_of (abs c))) r \/ stuck (keys (lits_of (abs c))) r) /\
    (torn (keys (lits_of (abs c))) r -> torn (keys (entries lcs)) (ln_literal n ++ r)).
  Proof.
    intros W Hn Hv Hc. inversion W as [? ? HS Hok Hw _ _]; subst.
    destruct (Hok n Hn) as (_ & Hint).
    destruct (Hint Hv) as (Hlit & c' & Hc' & Hpc & Hlen & _). assert (c' = c) as -> by congruence.
    split.
    - intros (k & w & a & s & Hk & Ew & Hwn & El & Ek & Hwd).
      pose proof (torn_key _ _ _ _ _ _ Hk Ew Hwn El Ek) as Hh.
      apply (key_node lcs n k (ln_literal n ++ r)) in Hk; auto.
      2: { rewrite <- (app_nil_r (ln_literal n)) at 1. apply head_app_eq. exact Hlit. }
      rewrite (node_entries_inner n c Hv Hc), keys_prepend in Hk. apply in_map_iff in Hk.
      destruct Hk as (k' & <- & Hk). rewrite blcp_app in Ew.
      rewrite Ew, <- app_assoc in El, Ek. apply app_inv_head in El, Ek.
      destruct (blcp k' r) as [|x y] eqn:Eb.
      + right. simpl in El, Ek. subst r k'.
        destruct s as [|x s].
        * (* some other key goes on *)
          destruct Hwd as [Hwd|(_ & Hwd)]; [|discriminate].
          destruct (branching_nonempty _ (wf_branching okp utf8 c (Hw n c Hn Hc) Hlen)) as (k0 & H0 & H0').
          exists [], a, k0, k0. split; [left; reflexivity|]. split; [reflexivity|].
          split; [apply wide_ne; exact Hwd|]. auto.
        * exists [], a, (x :: s), (x :: s). split; [left; reflexivity|]. split; [reflexivity|].
          split; [destruct Hwd as [Hwd|(Hwd & _)]; [apply wide_ne; exact Hwd|exact Hwd]|].
          split; [exact Hk|]. split; [reflexivity|]. split; [discriminate|]. tauto.
      + left. exists k', (x :: y), a, s. split; [exact Hk|]. split; [auto|]. split; [discriminate|]. auto.
    - intros (k & w & a & s & Hk & Ew & Hwn & El & Ek & Hwd).
      exists (ln_literal n ++ k), (ln_literal n ++ w), a, s.
      split.
      { apply entries_keys. exists n. split; [exact Hn|].
        rewrite (node_entries_inner n c Hv Hc), keys_prepend. apply in_map. exact Hk. }
      split; [rewrite blcp_app, <- Ew; reflexivity|].
      split; [destruct (ln_literal n); [congruence|discriminate]|].
      split; [rewrite El, app_assoc; reflexivity|]. split; [rewrite Ek, app_assoc; reflexivity|exact Hwd].
  Qed.

  (** The common part of two texts ends inside a character only between two
      characters that are not ASCII. *)
  Lemma blcp_inside a b y :
    utf8 a -> (forall u, utf8 u -> prefix_of u a -> prefix_of u b -> u = []) ->
    y <> [] -> prefix_of y a -> prefix_of y b ->
    wide a = true /\ forall a', a = y ++ a' -> wide a' = true.
  Proof.
    intros Ha M Hy (a1 & Ea) (b1 & Eb).
    assert (a <> []) as Hne by (destruct y; [congruence|subst; discriminate]).
    destruct (utf8_first a Ha Hne) as (c & s' & E & Hc & Hc0 & _ & [(_ & x & ->)|(Hwd & _ & F)]).
    - exfalso. assert (@cons byte x [] = []) as X; [|discriminate]. apply M; [exact Hc|exists s'; exact E|].
      destruct y as [|x' y]; [congruence|]. subst. simpl in E. inversion E; subst.
      exists (y ++ b1). reflexivity.
    - split; [exact Hwd|]. intros a' Ea'.
      assert (length y < length c) as L.
      { destruct (Nat.lt_ge_cases (length y) (length c)) as [|Hge]; [assumption|]. exfalso. apply Hc0.
        apply M; [exact Hc|exists s'; exact E|].
        assert (prefix_of c y) as (z & Ez).
        { rewrite E in Ea'. exists (skipn (length c) y).
          rewrite <- (firstn_skipn (length c) y) at 1. f_equal.
          apply (f_equal (firstn (length c))) in Ea'.
          rewrite firstn_app, firstn_all, Nat.sub_diag, firstn_O, app_nil_r in Ea'.
          rewrite firstn_app in Ea'. replace (length c - length y) with 0 in Ea' by lia.
          rewrite firstn_O, app_nil_r in Ea'. congruence. }
        exists (z ++ b1). rewrite Eb, Ez, <- app_assoc. reflexivity. }
      rewrite E in Ea'. apply (f_equal (skipn (length y))) in Ea'.
      rewrite (skipn_app _ y), skipn_all, Nat.sub_diag in Ea'. cbn [skipn app] in Ea'.
      rewrite skipn_app in Ea'. replace (length y - length c) with 0 in Ea' by lia.
      cbn [skipn] in Ea'. rewrite <- Ea'.
      destruct (skipn (length y) c) as [|z zs] eqn:Es.
      { apply (f_equal (@length _)) in Es. rewrite skipn_length in Es. simpl in Es. lia. }
      simpl. rewrite Forall_forall in F. apply F.
      rewrite <- (firstn_skipn (length y) c), Es. apply in_elt.
  Qed.

  Lemma blcp_app_l b k a : prefixb b a = false -> blcp (b ++ k) a = blcp b a.
  Proof.
    revert a. induction b as [|x b IH]; intros [|y a]; simpl; try discriminate; try reflexivity.
    destruct (byte_eqb x y); [|reflexivity]. simpl. intros H. rewrite IH by exact H. reflexivity.
  Qed.

  Lemma torn_node lcs pcs n l w a b :
    wf (Tree lcs pcs) -> In n lcs -> utf8 l -> ln_literal n <> l ->
    (ln_has_value n = true \/ prefixb (ln_literal n) l = false) ->
    longest_common_chars (ln_literal n) l w -> w <> [] -> l = w ++ a -> ln_literal n = w ++ b ->
    (torn (keys (entries lcs)) l <-> wide a = true \/ (a <> [] /\ wide b = true)).
  Proof.
    intros W Hn Hl Hne Hcase (Hw & _ & _ & M) Hwn El En.
    pose proof (node_has_key okp utf8 _ W) as HK. simpl in HK.
    inversion W as [? ? HS Hok _ _ _]; subst lcs0 pcs0. destruct (Hok n Hn) as (Hu & Hint).
    assert (utf8 a) as Ha by (rewrite El in Hl; apply (utf8_app_inv_r w a Hw Hl)).
    assert (utf8 b) as Hb by (rewrite En in Hu; apply (utf8_app_inv_r w b Hw Hu)).
    assert (forall u, utf8 u -> prefix_of u a -> prefix_of u b -> u = []) as M'.
    { intros u Hu' (q1 & E1) (q2 & E2).
      assert (length (w ++ u) <= length w) as L.
      { apply M; [apply utf8_app; assumption| |].
        - exists q2. rewrite En, E2, app_assoc. reflexivity.
        - exists q1. rewrite El, E1, app_assoc. reflexivity. }
      rewrite app_length in L. destruct u; [reflexivity|simpl in L; lia]. }
    assert (head_cmp (ln_literal n) l = Eq) as Hh by (rewrite En, El; apply head_app_eq; exact Hwn).
    assert (forall k, In k (keys (entries lcs)) -> head_cmp k l = Eq -> In k (keys (node_entries n))) as Hfind.
    { intros k Hk Hkl. apply (key_node lcs n k l); assumption. }
    assert (prefixb b a = true -> b = []) as Hpre.
    { intros Hp. apply prefixb_app in Hp. apply M'; [exact Hb|exact Hp|exists []; rewrite app_nil_r; reflexivity]. }
    destruct b as [|b0 b1].
    - (* the whole literal is a prefix of [l] *)
      rewrite app_nil_r in En. assert (ln_has_value n = true) as Hv.
      { destruct Hcase as [H|H]; [exact H|]. rewrite En, El in H.
        assert (prefixb w (w ++ a) = true) as X by (apply prefixb_app; eauto). congruence. }
      assert (blcp (ln_literal n) l = w) as Ebl.
      { rewrite En, El. rewrite <- (app_nil_r w) at 1. rewrite blcp_app. simpl. apply app_nil_r. }
      split.
      + intros (k & w' & a' & s & Hk & Ew & Hw' & El' & Ek & Hwd).
        pose proof (torn_key _ _ _ _ _ _ Hk Ew Hw' El' Ek) as Hkh.
        apply Hfind in Hk; [|exact Hkh]. rewrite (node_entries_single n Hv) in Hk.
        destruct Hk as [Hk|[]]. simpl in Hk. subst k. rewrite Ebl in Ew. subst w'.
        rewrite El' in El. apply app_inv_head in El. subst a'.
        rewrite En in Ek. rewrite <- (app_nil_r w) in Ek at 1. apply app_inv_head in Ek. subst s.
        destruct Hwd as [Hwd|(_ & Hwd)]; [auto|discriminate].
      + intros Hwd. exists (ln_literal n), w, a, []. split.
        { apply entries_keys. exists n. split; [exact Hn|]. rewrite (node_entries_single n Hv). left. reflexivity. }
        split; [auto|]. split; [exact Hwn|]. split; [exact El|]. split; [rewrite app_nil_r; exact En|].
        destruct Hwd as [Hwd|(_ & Hwd)]; [auto|discriminate].
    - set (b := b0 :: b1) in *. assert (prefixb b a = false) as Hnp.
      { destruct (prefixb b a); [specialize (Hpre eq_refl); discriminate|reflexivity]. }
      set (y := blcp b a). destruct (blcp_prefix_l b a) as (b' & Eb). destruct (blcp_prefix_r b a) as (a' & Ea).
      fold y in Eb, Ea.
      assert (b' <> []) as Hb'.
      { intros ->. rewrite app_nil_r in Eb. assert (prefixb b a = true) as X; [|congruence].
        apply prefixb_app. exists a'. rewrite Eb at 1. exact Ea. }
      assert (forall x, blcp (ln_literal n ++ x) l = w ++ y) as Ebl.
      { intros x. rewrite En, El, <- app_assoc, blcp_app, blcp_app_l by exact Hnp. reflexivity. }
      assert ((wide a' = true \/ (a' <> [] /\ wide b' = true)) <->
              (wide a = true \/ (a <> [] /\ wide b = true))) as Hiff.
      { destruct y as [|y0 y1] eqn:Ey.
        - simpl in Ea, Eb. rewrite <- Ea, <- Eb. tauto.
        - destruct (blcp_inside a b (y0 :: y1) Ha M') as (Wa & Wa'); [discriminate|exists a'; exact Ea|exists b'; exact Eb|].
          specialize (Wa' a' Ea). tauto. }
      rewrite <- Hiff. clear Hiff. split.
      + intros (k & w' & a'' & s & Hk & Ew & Hw' & El' & Ek & Hwd).
        pose proof (torn_key _ _ _ _ _ _ Hk Ew Hw' El' Ek) as Hkh.
        apply Hfind in Hk; [|exact Hkh]. apply node_keys in Hk. destruct Hk as (x & Ex).
        rewrite Ex, Ebl in Ew. subst w'. rewrite El, Ea, app_assoc in El'. apply app_inv_head in El'. subst a''.
        rewrite Ex, En, Eb, <- !app_assoc in Ek. apply app_inv_head in Ek. apply app_inv_head in Ek. subst s.
        rewrite wide_app in Hwd by exact Hb'. exact Hwd.
      + intros Hwd. destruct (HK n Hn) as (k & Hk). pose proof Hk as Hk'.
        apply node_keys in Hk'. destruct Hk' as (x & Ex).
        exists k, (w ++ y), a', (b' ++ x). split; [apply entries_keys; eauto|].
        split; [rewrite Ex; auto|].
        split; [destruct w; [congruence|discriminate]|].
        split; [rewrite El, Ea, app_assoc; reflexivity|].
        split; [rewrite Ex, En, Eb, <- !app_assoc; reflexivity|].
        rewrite wide_app by exact Hb'. exact Hwd.
  Qed.

  (** Nothing is torn when no node shares the first byte. *)
  Lemma torn_none lcs l :
    (forall m, In m lcs -> lnode_ok m) ->
    (forall m, In m lcs -> head_cmp (ln_literal m) l <> Eq) -> ~ torn (keys (entries lcs)) l.
  Proof.
    intros Hok Hoff (k & w & a & s & Hk & Ew & Hw & El & Ek & Hwd).
    pose proof (torn_key _ _ _ _ _ _ Hk Ew Hw El Ek) as Hh.
    apply entries_keys in Hk. destruct Hk as (m & Hm & Hk). apply (Hoff m Hm).
    rewrite <- (node_key_head utf8 m k l (Hok m Hm) Hk). exact Hh.
  Qed.

  Definition ktotal (k : lnode tree -> outcome (lnode tree)) : Prop :=
    forall n, ln_has_value n = true -> exists n', k n = Ret n'.

  Lemma update_child_free A n C pcs k :
    ktotal k -> ln_has_value n = true ->
    exists t', update_literal_child (Tree (A ++ n :: C) pcs) (length A) k = Ret t'.
  Proof.
    intros Hk Hv. unfold update_literal_child. simpl.
    destruct (Hk n Hv) as (n' & En).
    rewrite (update_nth_total A C n k n' En). cbn [bind]. eauto.
  Qed.

  Lemma lookup_mut_cases (g : tree -> nat + nat -> outcome tree) (Q : str -> Prop) :
    (forall a b, utf8 a -> Q (a ++ b) -> Q b) ->
    (forall A n C pcs, wf (Tree (A ++ n :: C) pcs) -> ln_has_value n = true ->
       exists t', g (Tree (A ++ n :: C) pcs) (inl (length A)) = Ret t') ->
    (forall lcs pcs l, wf (Tree lcs pcs) -> comparable lcs -> utf8 l -> Q l ->
       search_spec lcs l NotFound -> blocks lcs l = false ->
       (g (Tree lcs pcs) (inr (length l)) = Panic /\ torn (keys (entries lcs)) l) \/
       (exists t', g (Tree lcs pcs) (inr (length l)) = Ret t' /\ ~ torn (keys (entries lcs)) l)) ->
    forall t, wf t -> forall l, tidies (abs t) -> utf8 l -> Q l ->
      (lookup_literal_mut t l g = Panic /\ ends enters (abs t) l) \/
      (exists t', lookup_literal_mut t l g = Ret t' /\ ~ ends enters (abs t) l).
  Proof.
    intros HQ Hfound Hnot.
    induction 1 as [lcs pcs HS Hok Hw IH Hpok Hpw IHp]. intros l T Hl Ql.
    assert (wf (Tree lcs pcs)) as W by (constructor; assumption).
    pose proof (tidies_comparable lcs pcs W T) as Tc.
    rewrite lookup_literal_mut_unfold.
    destruct (search_cases lcs pcs l W Tc Hl) as [(Eb & Es)|(Eb & sr & Es & Hs)]; rewrite Es; cbn [bind].
    - left. split; [reflexivity|]. rewrite abs_unfold. apply ends_unfold. left. left.
      apply (blocks_keys lcs pcs l W) in Eb. destruct Eb as (k & Hk & Hc).
      apply clash_true in Hc. destruct Hc as (H1 & H2 & H3).
      exists [], l, k, k. split; [left; reflexivity|]. cbn [lits_of]. tauto.
    - destruct sr as [pos| |pos r].
      + right. inversion Hs as [| | |A n C E HA HC Hlit Hv|]; subst.
        assert (In n (A ++ n :: C)) as Hn by apply in_elt.
        destruct (Hfound A n C pcs W Hv) as (t' & Et'). exists t'. split; [exact Et'|].
        pose proof (found_no_route _ pcs n W Hn Hv) as Hnr.
        rewrite abs_unfold. intros H. apply ends_unfold in H. destruct H as [[H|(_ & H)]|H].
        * cbn [lits_of] in H. apply (stuck_outer _ pcs) in H; [congruence|exact W|].
          apply (focus_not_inner _ n); auto. apply (to_refl _ head_cmp_order).
        * apply (torn_found _ pcs n W Hn Hv H).
        * apply (goes_on_none _ _ _ Hnr H).
      + pose proof (notfound_no_route lcs pcs l W Hs) as Hnr.
        assert (ends enters (abs (Tree lcs pcs)) l <-> torn (keys (entries lcs)) l) as HX.
        { rewrite abs_unfold, ends_unfold. unfold enters at 1. cbn [lits_of]. split.
          - intros [[H|(_ & H)]|H]; [|exact H|exfalso; apply (goes_on_none _ _ _ Hnr H)].
            exfalso. apply (stuck_outer _ pcs) in H; [congruence|exact W|].
            apply notfound_not_inner; auto.
          - auto. }
        destruct (Hnot lcs pcs l W Tc Hl Ql Hs Eb) as [(E1 & E2)|(t' & E1 & E2)].
        * left. split; [exact E1|]. apply HX. exact E2.
        * right. exists t'. split; [exact E1|]. rewrite HX. exact E2.
      + inversion Hs as [| | | |A n C c r0 E HA HC Hlit Hlr Hr Hn Hv HX]; subst r0 pos.
        assert (In n lcs) as Hin by (rewrite E; apply in_elt).
        rewrite Hlr in Ql. apply HQ in Ql; [|apply (Hok n Hin)].
        pose proof (IH n c Hin Hn r (tidies_child lcs pcs n c W T Hin Hn) Hr Ql) as IHc.
        assert (ends enters (abs (Tree lcs pcs)) l <-> ends enters (abs c) r) as HX1.
        { rewrite abs_unfold, ends_unfold. unfold enters at 1. cbn [lits_of].
          destruct (ln_has_value n) eqn:Ev.
          - rewrite (stuck_outer lcs pcs l W).
            + rewrite Eb, Hlr, (goes_on_single lcs pcs n c r) by auto.
              split; [|auto]. intros [[H|(H & _)]|H]; [discriminate| |exact H]. exfalso.
              apply (goes_on_none _ _ (fun _ _ => True) H). apply (goes_on_single lcs pcs n c r); auto.
            + apply (focus_not_inner lcs n); auto. rewrite Hlr.
              rewrite <- (app_nil_r (ln_literal n)) at 1. apply head_app_eq. exact Hlit.
          - rewrite Hlr in *. rewrite (stuck_inner lcs pcs n c r W Hin Ev Hn), Eb.
            rewrite no_route_goes_on.
            rewrite !(goes_on_inner lcs pcs n c r _ W Hin Ev Hn), <- no_route_goes_on.
            destruct (torn_inner lcs pcs n c r W Hin Ev Hn) as (T1 & T2).
            destruct (abs c) as [Kc Pc]. rewrite ends_unfold. unfold enters at 2. cbn [lits_of] in *.
            split.
            + intros [[[H|H]|(H1 & H)]|H]; [discriminate|auto| |auto].
              apply T1 in H. tauto.
            + intros [[H|(H1 & H)]|H]; auto. }
        destruct IHc as [(E1 & E2)|(c' & E1 & E2)].
        * left. split; [|apply HX1; exact E2].
          assert (descend_mut r g n = Panic) as En.
          { destruct n as [lit hv po co]. simpl in *. subst co. rewrite E1. reflexivity. }
          assert (forall (f : lnode tree -> outcome (lnode tree)) B, f n = Panic ->
                    update_nth (B ++ n :: C) (length B) f = Panic) as Hup.
          { intros f B Hf. induction B as [|b B IHB]; simpl; [rewrite Hf; reflexivity|rewrite IHB; reflexivity]. }
          rewrite E, (Hup _ A En). reflexivity.
        * right. assert (exists n', descend_mut r g n = Ret n') as (n' & En').
          { destruct n as [lit hv po co]. simpl in *. subst co. rewrite E1. cbn [bind]. eauto. }
          exists (Tree (A ++ n' :: C) pcs). split; [|rewrite HX1; exact E2].
          rewrite E, (update_nth_total A C n _ n' En'). reflexivity.
  Qed.

  Lemma cmp_node x y :
    utf8 (ln_literal x) -> utf8 (ln_literal y) -> clash (ln_literal x) (ln_literal y) = false ->
    lnode_cmp x y = Ret (head_cmp (ln_literal x) (ln_literal y)).
  Proof. intros Hx Hy Hc. unfold lnode_cmp. rewrite cmp_str_exact by assumption. rewrite Hc. reflexivity. Qed.

  Lemma push_free lcs pcs n :
    StronglySorted head_lt lcs -> comparable lcs ->
    (forall m, In m lcs -> utf8 (ln_literal m)) -> utf8 (ln_literal n) ->
    (forall m, In m lcs -> head_cmp (ln_literal m) (ln_literal n) <> Eq) ->
    blocks lcs (ln_literal n) = false ->
    exists t', add_literal_node (Tree lcs pcs) n = Ret t'.
  Proof.
    intros HS Hc Hu Hn Hoff Hb. unfold add_literal_node. simpl literal_children.
    assert (forall m, In m lcs -> clash (ln_literal m) (ln_literal n) = false) as Hcn.
    { apply blocks_false. exact Hb. }
    assert (forall u m : lnode tree, head_cmp (ln_literal u) (ln_literal m) <> Eq ->
              wide (ln_literal m) = true -> clash (ln_literal u) (ln_literal m) = false ->
              ln_literal u = []) as Hempty.
    { intros u m He Hw Hcl. destruct (ln_literal u) as [|x s] eqn:Eu; [reflexivity|]. exfalso.
      assert (clash (x :: s) (ln_literal m) = true) as X; [|congruence].
      apply clash_true. split; [discriminate|]. split; [apply wide_ne; exact Hw|auto]. }
    destruct (existsb (fun m => wide (ln_literal m)) (n :: lcs)) eqn:Ew.
    - assert (lcs = [] \/ exists m, lcs = [m]) as [->|(m & ->)].
      { destruct lcs as [|m1 [|m2 lcs]]; [auto|eauto|]. exfalso.
        assert (head_cmp (ln_literal m1) (ln_literal m2) = Lt) as Hlt.
        { inversion HS as [|? ? _ F]; subst. inversion F; subst. assumption. }
        assert (forall u v, In u (m1 :: m2 :: lcs) -> In v (m1 :: m2 :: lcs) ->
                  ln_literal u = [] -> ln_literal v = [] -> u = v) as Hone.
        { intros u v Iu Iv Eu Ev. apply (same_node (m1 :: m2 :: lcs)); auto. rewrite Eu, Ev. reflexivity. }
        assert (m1 <> m2) as Hd.
        { intros ->. rewrite (to_refl _ head_cmp_order) in Hlt. discriminate. }
        simpl in Ew. apply orb_true_iff in Ew. destruct Ew as [Ew|Ew].
        - apply Hd. apply Hone; simpl; auto.
          + apply (Hempty m1 n); [apply Hoff; simpl; auto|exact Ew|apply Hcn; simpl; auto].
          + apply (Hempty m2 n); [apply Hoff; simpl; auto|exact Ew|apply Hcn; simpl; auto].
        - assert (exists m, In m (m1 :: m2 :: lcs) /\ wide (ln_literal m) = true) as (m & Im & Wm).
          { apply existsb_exists. exact Ew. }
          assert (ln_literal n = []) as En.
          { apply (Hempty n m); [|exact Wm|rewrite clash_sym; apply Hcn; exact Im].
            intros He. apply (Hoff m Im). apply (to_eq_sym _ head_cmp_order). exact He. }
          assert (forall u, In u (m1 :: m2 :: lcs) -> u = m) as Hall.
          { intros u Iu. destruct (sorted_trichotomy _ u m HS Iu Im) as [H|H]; [exact H|]. exfalso.
            apply (Hoff u Iu). rewrite En.
            assert (ln_literal u = []) as ->; [|reflexivity].
            apply (Hempty u m); [|exact Wm|].
            - destruct H as [H|H]; unfold head_lt in H; [congruence|].
              apply (to_lt_gt _ head_cmp_order) in H. congruence.
            - destruct H as [H|H]; [|rewrite clash_sym]; apply Hc; auto. }
          apply Hd. rewrite (Hall m1), (Hall m2); simpl; auto. }
      + cbv [sv_push sort app sort_loop sort_insert bind]. eauto.
      + cbn [sv_push sort app sort_loop sort_insert bind]. unfold sv_push, sort. simpl.
        rewrite cmp_node; [|exact Hn|apply Hu; simpl; auto|rewrite clash_sym; apply Hcn; simpl; auto].
        cbn [bind]. destruct (head_cmp _ _); cbn [bind]; eauto.
    - destruct (sv_push_total lnode_head_cmp lnode_cmp) with (l := lcs) (x := n) as (r & ->);
        [intros x y k Hk; apply cmp_str_ret in Hk; apply Hk| |cbn [bind]; eauto].
      assert (forall m, In m (lcs ++ [n]) -> wide (ln_literal m) = false /\ utf8 (ln_literal m)) as H.
      { intros m Hm. assert (In m (n :: lcs)) as Hm'.
        { apply in_app_or in Hm. destruct Hm as [Hm|[<-|[]]]; simpl; auto. }
        split; [|destruct Hm' as [<-|Hm']; auto].
        destruct (wide (ln_literal m)) eqn:X; [|reflexivity].
        rewrite <- Ew. symmetry. apply existsb_exists. eauto. }
      intros y z Hy Hz. eexists. apply cmp_node; [apply H; exact Hy|apply H; exact Hz|].
      destruct (clash (ln_literal y) (ln_literal z)) eqn:X; [|reflexivity].
      apply clash_true in X. destruct X as (_ & _ & [X|X]).
      + rewrite (proj1 (H y Hy)) in X. discriminate.
      + rewrite (proj1 (H z Hz)) in X. discriminate.
  Qed.

  Lemma split_cases n l w a b :
    utf8 (ln_literal n) -> utf8 l -> utf8 w -> l = w ++ a -> ln_literal n = w ++ b ->
    (clash b a = true /\ split n (length w) l = Panic) \/
    (clash b a = false /\ exists hit, split n (length w) l = Ret hit).
  Proof.
    intros Hn Hl Hw Ea Eb.
    assert (utf8 a) as Ha by (rewrite Ea in Hl; apply (utf8_app_inv_r w a Hw Hl)).
    assert (utf8 b) as Hb by (rewrite Eb in Hn; apply (utf8_app_inv_r w b Hw Hn)).
    unfold split. rewrite Eb. unfold usub. rewrite Ea in *. rewrite app_length.
    destruct (Nat.leb_spec (length w) (length w + length a)); [|lia]. cbn [bind].
    replace (length w + length a - length w) with (length a) by lia.
    rewrite (rtrunc_ok w a Hl Hw), (ltrunc_ok w a Hl Hw). cbn [bind].
    rewrite Eb in Hn. rewrite (ltrunc_ok w b Hn Hw). cbn [bind].
    assert (forall p, ln_literal (match p with
            | Some p => lnode_set_pattern (lnode_set_has_value (lnode_set_node (lnode_new b) (ln_node n)) (ln_has_value n)) (Some p)
            | None => lnode_set_has_value (lnode_set_node (lnode_new b) (ln_node n)) (ln_has_value n)
            end) = b) as Er by (intros [?|]; reflexivity).
    specialize (Er (ln_pattern n)).
    match goal with |- context [add_literal_node _ ?y] =>
      match type of Er with ln_literal ?z = b => set (rn := z) in * end end.
    assert (add_literal_node tree_new (lnode_set_has_value (lnode_new a) true) =
            Ret (Tree [lnode_set_has_value (lnode_new a) true] [])) as E1 by reflexivity.
    rewrite E1. cbn [bind]. clear E1.
    set (ln := lnode_set_has_value (lnode_new a) true). assert (ln_literal ln = a) as Eln by reflexivity.
    assert (add_literal_node (Tree [ln] []) rn =
            let* c := lnode_cmp rn ln in Ret (Tree (match c with Lt => [rn; ln] | _ => [ln; rn] end) [])) as E2.
    { unfold add_literal_node, sv_push, sort. simpl. destruct (lnode_cmp rn ln) as [[]| |]; reflexivity. }
    rewrite E2. unfold lnode_cmp. rewrite Er, Eln, cmp_str_exact by assumption.
    destruct (clash b a); [left|right]; (split; [reflexivity|]); cbn [bind]; eauto.
  Qed.

  Lemma fresh_cases k n a b lcs :
    ktotal k -> wf (Tree lcs []) -> utf8 a -> clash b a = false ->
    (head_cmp b a = Lt /\ lcs = [split_right n b; split_left a]) \/
    (head_cmp b a = Gt /\ lcs = [split_left a; split_right n b]) ->
    (wide a = true /\ lookup_freshly_inserted_literal (Tree lcs []) a k = Panic) \/
    (wide a = false /\ exists t', lookup_freshly_inserted_literal (Tree lcs []) a k = Ret t').
  Proof.
    intros Hk W Ha Hcl Hlcs. unfold lookup_freshly_inserted_literal.
    assert (In (split_left a) lcs) as Hin by (destruct Hlcs as [(_ & ->)|(_ & ->)]; simpl; auto).
    assert (forall m, In m lcs -> m = split_left a \/ m = split_right n b) as Hin'.
    { intros m Hm. destruct Hlcs as [(_ & ->)|(_ & ->)]; destruct Hm as [<-|[<-|[]]]; auto. }
    assert (forall m, In m lcs -> head_cmp (ln_literal m) a = Eq -> m = split_left a) as Huniq.
    { intros m Hm He. destruct Hlcs as [(Hd & ->)|(Hd & ->)];
        destruct Hm as [<-|[<-|[]]]; auto; simpl in He; congruence. }
    assert (comparable lcs) as Hcomp.
    { intros x y Hx Hy Hd. unfold head_lt in Hd. apply Hin' in Hx, Hy.
      destruct Hx as [->| ->], Hy as [->| ->]; try (rewrite (to_refl _ head_cmp_order) in Hd; discriminate);
        simpl; [rewrite clash_sym|]; exact Hcl. }
    assert (blocks lcs a = wide a) as Hb.
    { destruct (wide a) eqn:Ewa.
      - apply blocks_spec. exists (split_left a). split; [exact Hin|]. simpl. apply clash_true.
        pose proof (wide_ne a Ewa). auto.
      - destruct (blocks lcs a) eqn:X; [|reflexivity]. apply blocks_spec in X.
        destruct X as (m & Hm & X). apply Hin' in Hm. destruct Hm as [->| ->]; simpl in X; [|congruence].
        apply clash_true in X. destruct X as (_ & _ & [X|X]); congruence. }
    rewrite lookup_literal_mut_unfold, <- Hb.
    destruct (search_cases lcs [] a W Hcomp Ha) as [(Eb & Es)|(Eb & sr & Es & Hs)]; rewrite Es; cbn [bind];
      [left; auto|right; split; [exact Eb|]].
    inversion Hs; subst sr.
    - exfalso. rewrite H in Hin. rewrite Forall_forall in H0, H1. apply in_app_or in Hin.
      assert (head_cmp a a = Eq) by apply (to_refl _ head_cmp_order).
      destruct Hin as [Hi|Hi]; [apply H0 in Hi|apply H1 in Hi]; simpl in Hi; congruence.
    - exfalso. assert (n0 = split_left a) as -> by (apply Huniq; [rewrite H; apply in_elt|exact H1]).
      simpl in H4. congruence.
    - exfalso. assert (n0 = split_left a) as -> by (apply Huniq; [rewrite H; apply in_elt|exact H1]).
      discriminate.
    - rewrite H. apply (update_child_free A n0 C [] k Hk H3).
    - exfalso. assert (n0 = split_left a) as ->; [|discriminate].
      apply Huniq; [rewrite H; apply in_elt|]. rewrite H3. destruct (ln_literal n0); [congruence|].
      simpl. apply byte_cmp_refl.
  Qed.

  Lemma update_nth_panic {A} (a b : list A) x (f : A -> outcome A) :
    f x = Panic -> update_nth (a ++ x :: b) (length a) f = Panic.
  Proof. intros Hf. induction a as [|y a IH]; simpl; [rewrite Hf; reflexivity|rewrite IH; reflexivity]. Qed.

  Lemma insert_tail_cases k lcs pcs l :
    ktotal k -> wf (Tree lcs pcs) -> comparable lcs -> utf8 l ->
    search_spec lcs l NotFound -> blocks lcs l = false ->
    (insert_literal_tail (Tree lcs pcs) l k = Panic /\ torn (keys (entries lcs)) l) \/
    (exists t', insert_literal_tail (Tree lcs pcs) l k = Ret t' /\ ~ torn (keys (entries lcs)) l).
  Proof.
    intros Hk W Tc Hl Hs Hb. inversion W as [? ? HS Hok Hw Hpok Hpw]; subst.
    unfold insert_literal_tail. simpl.
    assert (forall n, In n lcs -> utf8 (ln_literal n)) as Hu by (intros n Hn; apply (Hok n Hn)).
    destruct (search_free lcs l Hu Hl Hb) as (r & Er). rewrite Er. cbn [bind].
    destruct (children_search lcs l r HS Er) as
      [(A & n & C & El & -> & HA & HE & HC)|(A & C & El & -> & HA & HC)].
    - assert (In n lcs) as In_n by (rewrite El; apply in_elt).
      pose proof (Hok n In_n) as (Hun & Hint).
      assert (ln_literal n <> l) as Hne.
      { intros X. destruct (notfound_nodes lcs l Hs HS n In_n HE) as (_ & Y); [rewrite X; apply prefixb_refl|]. contradiction. }
      assert (ln_has_value n = false -> prefixb (ln_literal n) l = false) as Hnp.
      { apply (notfound_not_inner lcs l HS Hok Hs n In_n). }
      assert (get_unwrap lcs (length A) = Ret n) as ->.
      { unfold get_unwrap. rewrite El, nth_error_app_mid. reflexivity. }
      cbn [bind].
      destruct (cpl_longest (ln_literal n) l Hun Hl) as (w & Lw & Hlc).
      pose proof Hlc as (Hw8 & (b & Eb) & (a & Ea) & M).
      assert (w <> []) as Hwn.
      { apply head_cmp_eq in HE. destruct HE as [(E1 & E2)|(x & u & v & E1 & E2)].
        - exfalso. apply Hne. congruence.
        - assert (clash (ln_literal n) l = false) as Hcl by (apply (proj1 (blocks_false lcs l) Hb); exact In_n).
          assert (wide (ln_literal n) = false) as Hwd.
          { destruct (wide (ln_literal n)) eqn:X; [|reflexivity].
            assert (clash (ln_literal n) l = true) as Y; [|congruence]. apply clash_true.
            rewrite E2. split; [rewrite E1; discriminate|]. split; [discriminate|auto]. }
          assert (length [x] <= length w) as L1.
          { apply M; [|exists u; exact E1|exists v; exact E2].
            destruct (utf8_first (ln_literal n) Hun) as (c & s' & E & Hc8 & _ & _ & [(_ & y & ->)|(X & _)]);
              [rewrite E1; discriminate| |congruence].
            rewrite E1 in E. simpl in E. inversion E; subst. exact Hc8. }
          intros ->. simpl in L1. lia. }
      assert (has_common_prefix (ln_literal n) l = Some (length w)) as Ecp.
      { unfold has_common_prefix. rewrite <- Lw. destruct w; [congruence|]. reflexivity. }
      rewrite Ecp.
      assert (utf8 a) as Ha8 by (rewrite Ea in Hl; apply (utf8_app_inv_r w a Hw8 Hl)).
      assert (utf8 b) as Hb8 by (rewrite Eb in Hun; apply (utf8_app_inv_r w b Hw8 Hun)).
      assert (torn (keys (entries lcs)) l <-> wide a = true \/ (a <> [] /\ wide b = true)) as HT.
      { apply (torn_node lcs pcs n l w a b W In_n Hl Hne); auto. destruct (ln_has_value n); auto. }
      unfold update_literal_child. simpl literal_children.
      set (f := fun hit => _).
      assert ((f n = Panic /\ (wide a = true \/ (a <> [] /\ wide b = true))) \/
              (exists n', f n = Ret n' /\ ~ (wide a = true \/ (a <> [] /\ wide b = true)))) as Hf.
      { unfold f. destruct (split_cases n l w a b Hun Hl Hw8 Ea Eb) as [(Hcl & ->)|(Hcl & hit & Ehit)].
        - left. split; [reflexivity|]. apply clash_true in Hcl. tauto.
        - rewrite Ehit. cbn [bind].
          destruct (split_ret n (length w) l hit Hun Hl Hne Ecp Ehit)
            as (w' & a' & b' & Ea' & Eb' & _ & Lw' & _ & _ & _ & Hhit).
          rewrite Ea in Ea'. apply app_len_inj in Ea'; [|auto]. destruct Ea' as (<- & <-).
          rewrite Eb in Eb'. apply app_inv_head in Eb'. subst b'.
          assert (ltrunc l (length w) = Ret a) as ->.
          { rewrite Ea in Hl |- *. apply (ltrunc_ok w a Hl Hw8). }
          cbn [bind].
          assert (exists lcs', hit = LNode w false None (Some (Tree lcs' [])) /\
                  ((head_cmp b a = Lt /\ lcs' = [split_right n b; split_left a]) \/
                   (head_cmp b a = Gt /\ lcs' = [split_left a; split_right n b])))
            as (lcs' & Ehit' & Hlcs').
          { destruct Hhit as [(Hd & ->)|(Hd & ->)]; eexists; split; [reflexivity|auto|reflexivity|auto]. }
          rewrite Ehit'. simpl ln_node. cbv iota.
          assert (wf (Tree lcs' [])) as W'.
          { apply (split_node_wf okp utf8 n a b lcs'); auto.
            - intros c. apply (Hw n c In_n).
            - intros Hv ->. assert (prefixb (ln_literal n) l = true) as X.
              { apply prefixb_app. exists a. rewrite Eb, app_nil_r. exact Ea. }
              rewrite Hnp in X; congruence. }
          destruct (fresh_cases k n a b lcs' Hk W' Ha8 Hcl Hlcs') as [(Hwa & ->)|(Hwa & t' & ->)].
          + left. auto.
          + right. cbn [bind]. eexists. split; [reflexivity|]. intros [X|(X & Y)]; [congruence|].
            assert (clash b a = true) as Z; [|congruence]. apply clash_true.
            split; [apply wide_ne; exact Y|auto]. }
      destruct Hf as [(Hf & Hc)|(n' & Hf & Hc)].
      + left. split; [|apply HT; exact Hc]. rewrite El, (update_nth_panic A C n f Hf). reflexivity.
      + right. exists (Tree (A ++ n' :: C) pcs). split; [|rewrite HT; exact Hc].
        rewrite El, (update_nth_total A C n f n' Hf). reflexivity.
    - assert (forall m, In m lcs -> head_cmp (ln_literal m) l <> Eq) as Hoff.
      { intros m Hm. rewrite El in Hm. rewrite Forall_forall in HA, HC. apply in_app_or in Hm.
        destruct Hm as [Hm|Hm]; [apply HA in Hm|apply HC in Hm]; congruence. }
      right. set (n := lnode_set_has_value (lnode_new l) true).
      destruct (push_free lcs pcs n HS Tc Hu Hl Hoff Hb) as (t1 & E1).
      rewrite E1. cbn [bind]. rewrite El in E1.
      apply push_literal_ret in E1; [|rewrite <- El; exact HS|exact HA|exact HC]. subst t1.
      destruct (update_child_free A n C pcs k Hk eq_refl) as (t' & Et').
      exists t'. split; [exact Et'|]. apply torn_none; auto.
  Qed.

  Lemma insert_literal_cases k t l :
    ktotal k -> wf t -> tidies (abs t) -> utf8 l ->
    (insert_literal t l k = Panic /\ literal_panics (abs t) l) \/
    (exists t', insert_literal t l k = Ret t' /\ ~ literal_panics (abs t) l).
  Proof.
    intros Hk W T Hl. setoid_rewrite literal_panics_iff. unfold insert_literal.
    refine (lookup_mut_cases _ (fun l' => exists pre, utf8 pre /\ l = pre ++ l') _ _ _ t W l T Hl _).
    - intros a b Ha (pre & Hpre & E). exists (pre ++ a).
      split; [apply utf8_app; assumption|]. rewrite <- app_assoc. exact E.
    - intros A n C pcs W0 Hv. apply update_child_free; assumption.
    - intros lcs pcs l' W0 Tc Hl' (pre & Hpre & E) Hs Hb. unfold usub. rewrite E, app_length.
      destruct (Nat.leb_spec (length l') (length pre + length l')); [|lia]. cbn [bind].
      replace (length pre + length l' - length l') with (length pre) by lia.
      rewrite E in Hl.
      rewrite ltrunc_ok by assumption. cbn [bind].
      apply insert_tail_cases; assumption.
    - exists []. split; [constructor|reflexivity].
  Qed.
End Panics.

(** ** Adding keeps literals comparable *)
Definition tidy_entry (e : entry) : Prop := forall c, snd e = Some c -> tidies c.

Lemma tidies_empty : tidies level_empty.
Proof. constructor; [apply tidy_nil|intros k po c []|intros q po c []]. Qed.

Lemma no_literal_panics_empty l : ~ literal_panics level_empty l.
Proof.
  intros H. apply literal_panics_iff in H. destruct H as (L' & l' & Hr & Hx).
  inversion Hr; subst; [|destruct H1].
  destruct Hx as [(w & r & k & s & _ & _ & _ & [] & _)|(_ & k & w & a & s & [] & _)].
Qed.

Lemma enter_literals_no_route K l f :
  enter_literals enter (keys K) K l f = None -> no_route K l.
Proof.
  intros H k po c Hin. apply in_split in Hin. destruct Hin as (A & B & E).
  destruct (routes (keys K) k l) eqn:R; [|reflexivity]. exfalso.
  rewrite E in H at 2. rewrite enter_literals_app in H.
  destruct (enter_literals enter (keys K) A l f); [discriminate|].
  cbn [enter_literals] in H. rewrite R in H. discriminate.
Qed.

Lemma blcp_comm a b : blcp a b = blcp b a.
Proof.
  revert b. induction a as [|x a IH]; intros [|y b]; simpl; try reflexivity.
  destruct (byte_eqb x y) eqn:E.
  - apply byte_eqb_eq in E. subst y. rewrite byte_eqb_refl, IH. reflexivity.
  - destruct (byte_eqb y x) eqn:E'; [|reflexivity]. apply byte_eqb_eq in E'. subst y.
    rewrite byte_eqb_refl in E. discriminate.
Qed.

Lemma tidy_add ks l :
  tidy ks -> ~ stuck ks l -> ~ torn ks l -> tidy (l :: ks).
Proof.
  intros T Hs Ht.
  assert (forall k w s a, In k ks -> k <> l -> w = blcp k l -> k = w ++ s -> l = w ++ a ->
            clash s a = false) as Hl.
  { intros k w s a Hk Hn Ew Ek El. destruct (clash s a) eqn:X; [|reflexivity]. exfalso.
    apply clash_true in X. destruct X as (X1 & X2 & X3). destruct w as [|x w'] eqn:Ew'.
    - apply Hs. exists [], l, k, k. simpl in Ek, El. subst s a.
      split; [left; reflexivity|]. tauto.
    - apply Ht. exists k, (x :: w'), a, s. split; [exact Hk|]. split; [exact Ew|].
      split; [discriminate|]. tauto. }
  intros k1 k2 s1 s2 [<-|H1] [<-|H2] Hn E1 E2.
  - congruence.
  - rewrite clash_sym. rewrite blcp_comm in E1, E2. apply (Hl k2 (blcp k2 l)); auto.
  - apply (Hl k1 (blcp k1 l)); auto.
  - apply (T k1 k2); auto.
Qed.

Lemma tidies_enter L : tidies L -> forall l f,
  (forall e, tidy_entry e -> tidy_entry (f e)) -> ~ literal_panics L l -> tidies (enter L l f).
Proof.
  induction 1 as [K P TK TS IHS TP IHP]. intros l f Hf Hn. rewrite enter_unfold.
  destruct (enter_literals enter (keys K) K l f) as [K'|] eqn:E.
  - pose proof (enter_literals_keys _ _ _ _ _ E) as Ek.
    apply enter_literals_some in E. destruct E as (A & k & po & c & C & EK & R & ->).
    assert (In (k, (po, Some c)) K) as Hin by (rewrite EK; apply in_elt).
    constructor; [rewrite Ek; exact TK| |exact TP].
    intros k' po' c' H. apply in_elt_inv in H. destruct H as [H|H].
    + inversion H; subst k' po' c'. apply (IHS k po c Hin); [exact Hf|].
      intros X. apply Hn. apply literal_panics_iff in X. destruct X as (L' & l' & Hr & Hx).
      apply literal_panics_iff. exists L', l'. split; [|exact Hx]. eapply reaches_below; eassumption.
    + apply (TS k' po' c'). rewrite EK. apply in_app_or in H. apply in_or_app.
      destruct H; [auto|right; right; assumption].
  - assert (no_route K l) as Hnr by (apply enter_literals_no_route in E; exact E).
    assert (~ stuck (keys K) l) as H1 by (intros X; apply Hn; apply (lp_stuck _ _ K P l); [constructor|exact X]).
    assert (~ torn (keys K) l) as H2
      by (intros X; apply Hn; apply (lp_torn _ _ K P l); [constructor|exact Hnr|exact X]).
    constructor; [| |exact TP].
    + intros k1 k2 s1 s2 I1 I2. apply (tidy_add (keys K) l TK H1 H2).
      * apply upsert_keys in I1. destruct I1 as [->|I1]; simpl; auto.
      * apply upsert_keys in I2. destruct I2 as [->|I2]; simpl; auto.
    + intros k po c H. destruct (upsert_split l f K) as (A & C & [(E1 & E2)|(e & E1 & E2)]);
        rewrite E1 in H; apply in_elt_inv in H; (destruct H as [H|H];
        [inversion H as [[X1 X2]]|apply (TS k po c); rewrite E2; apply in_app_or in H; apply in_or_app;
          destruct H; [auto|right; first [assumption|right; assumption]]]).
      * apply (Hf (None, None)); [intros c0; discriminate|]. rewrite <- X2; reflexivity.
      * apply (Hf e); [|rewrite <- X2; reflexivity]. destruct e as [po0 co0]. intros c0 Ec. simpl in Ec.
        subst co0. apply (TS l po0 c0). rewrite E2. apply in_elt.
Qed.

Lemma tidies_at_parser P q f :
  (forall e, tidy_entry e -> tidy_entry (f e)) ->
  (forall q po c, In (q, (po, Some c)) P -> tidies c) ->
  forall q' po c, In (q', (po, Some c)) (at_parser P q f) -> tidies c.
Proof.
  intros Hf HP q' po c H.
  destruct (at_parser_split P q f) as (A & C & [(E1 & E2)|(e & E1 & E2)]);
    rewrite E1 in H; apply in_elt_inv in H; (destruct H as [H|H];
    [inversion H as [[X1 X2]]|apply (HP q' po c); rewrite E2; apply in_app_or in H; apply in_or_app;
      destruct H; [auto|right; first [assumption|right; assumption]]]).
  - apply (Hf (None, None)); [intros c0; discriminate|]. rewrite <- X2; reflexivity.
  - apply (Hf e); [|rewrite <- X2; reflexivity]. destruct e as [po0 co0]. intros c0 Ec. simpl in Ec.
    subst co0. apply (HP q po0 c0). rewrite E2. apply in_elt.
Qed.

Lemma s_insert_tidies toks : forall L p,
  tidies L -> (forall l rest, toks = Literal l :: rest -> ~ literal_panics L l) ->
  tidies (s_insert toks L p).
Proof.
  induction toks as [|tok rest IH]; intros L p T Hn; cbn [s_insert]; [exact T|].
  set (f := fun e : entry => _).
  assert (forall e, tidy_entry e -> tidy_entry (f e)) as Hf.
  { intros e He. unfold f. destruct (is_empty rest); [exact He|]. intros c Ec. simpl in Ec.
    inversion Ec; subst. apply IH; [apply tidies_empty|]. intros l rest' _. apply no_literal_panics_empty. }
  destruct tok as [q|l].
  - destruct T as [K P TK TS TP]. constructor; [exact TK|exact TS|].
    apply tidies_at_parser; assumption.
  - apply tidies_enter; [exact T|exact Hf|]. apply (Hn l rest). reflexivity.
Qed.

Lemma s_add_tidies L p : tidies L -> ~ add_panics L p -> tidies (s_add L p).
Proof.
  intros T Hn. apply s_insert_tidies; [exact T|]. intros l rest E X. apply Hn. exists l, rest. auto.
Qed.

(** ** Adding patterns *)
Section Adding.
  Variable okp : parser -> Prop.
  Hypothesis okp_utf8 : forall p, okp p -> parser_utf8 p.
  Variable sip : list byte -> N.
  Hypothesis okp_inj : forall p q, okp p -> okp q -> hash_os sip p = hash_os sip q -> p = q.
  Notation wf := (wf okp utf8).

  Lemma insert_parser_free k t q :
    (forall n, exists n', k n = Ret n') -> exists t', insert_parser sip t q k = Ret t'.
  Proof.
    intros Hk. destruct t as [lcs pcs]. unfold insert_parser, lookup_parser. simpl.
    destruct (position _ pcs) as [i|] eqn:El.
    - apply position_some in El. destruct El as (A & n & C & -> & <- & _).
      destruct (Hk n) as (n' & En).
      rewrite (update_nth_total A C n k n' En). cbn [bind]. eauto.
    - destruct (Hk (pnode_new q)) as (n' & ->). cbn [bind]. eauto.
  Qed.

  Lemma insert_tokens_cases toks : forall t p,
    Forall (token_ok okp utf8) toks -> wf t -> tidies (abs t) ->
    (insert_tokens sip toks t p = Panic /\
     exists l rest, toks = Literal l :: rest /\ literal_panics (abs t) l) \/
    (exists t', insert_tokens sip toks t p = Ret t' /\
     ~ exists l rest, toks = Literal l :: rest /\ literal_panics (abs t) l).
  Proof.
    induction toks as [|tok rest IH]; intros t p Hok W T; simpl.
    - right. eexists. split; [reflexivity|]. intros (l & rest & H & _). discriminate.
    - inversion Hok as [|? ? Htok Hrest]; subst.
      destruct (IH tree_new (set_pattern_tokens p rest) Hrest (wf_new okp utf8) tidies_empty)
        as [(_ & l0 & r0 & _ & X)|(c & Ec & _)].
      { exfalso. apply (no_literal_panics_empty _ X). }
      destruct tok as [q|l].
      + right. match goal with |- context [insert_parser sip t q ?k] =>
          destruct (insert_parser_free k t q) as (t' & Et') end.
        { intros n. destruct (is_empty rest); [eauto|]. rewrite Ec. cbn [bind]. eauto. }
        exists t'. split; [exact Et'|]. intros (l & r0 & H & _). discriminate.
      + match goal with |- context [insert_literal t l ?k] =>
          destruct (insert_literal_cases okp k t l) as [(E1 & E2)|(t' & E1 & E2)] end.
        * intros n Hv. destruct (is_empty rest); [eauto|]. rewrite Ec. cbn [bind]. eauto.
        * exact W.
        * exact T.
        * exact Htok.
        * left. split; [exact E1|]. eauto.
        * right. exists t'. split; [exact E1|]. intros (l0 & r0 & H & X). inversion H; subst. contradiction.
  Qed.
End Adding.

(** ** Packaged *)
Lemma adds_cases sip ps :
  Forall valid_pattern ps -> collision_free sip ps ->
  (add_patterns sip tree_new ps = Panic /\
   exists A p B, ps = A ++ p :: B /\ add_panics (s_adds A) p) \/
  (exists t, add_patterns sip tree_new ps = Ret t /\ tidies (s_adds ps) /\
   ~ exists A p B, ps = A ++ p :: B /\ add_panics (s_adds A) p).
Proof.
  induction ps as [|p ps IH] using rev_ind; intros V C.
  - right. exists tree_new. split; [reflexivity|]. split; [apply tidies_empty|].
    intros ([|a A] & q & B & E & _); discriminate.
  - pose proof V as V'. apply Forall_app in V'. destruct V' as (V1 & V2).
    assert (collision_free sip ps) as C1
      by (apply (collision_free_incl sip (ps ++ [p])); [apply incl_appl, incl_refl|exact C]).
    rewrite adds_snoc. destruct (IH V1 C1) as [(-> & A & q & B & E & X)|(t & Et & T & N)].
    + left. split; [reflexivity|]. exists A, q, (B ++ [p]). rewrite E, <- app_assoc. auto.
    + rewrite Et. cbn [bind]. destruct (adds_wf sip ps t V1 C1 Et) as (W & Ea).
      rewrite <- Ea in T. pose proof (okt_of [p] V2) as Hok. inversion Hok as [|? ? Hp _]; subst.
      assert (wf (okp_of (ps ++ [p])) utf8 t) as W'.
      { pose proof (okt_of (ps ++ [p]) V) as Hok'. apply Forall_app in Hok'.
        apply (add_patterns_ret (okp_of (ps ++ [p])) utf8 (fun _ H => H) utf8_both sip
                 (okp_of_inj sip (ps ++ [p]) C)) in Et; [apply Et|apply Hok'|apply wf_new]. }
      assert (Forall (token_ok (okp_of (ps ++ [p])) utf8) (pat_tokens p)) as Hp'.
      { pose proof (okt_of (ps ++ [p]) V) as Hok'. apply Forall_app in Hok'.
        destruct Hok' as (_ & Hok'). inversion Hok'; assumption. }
      unfold add_pattern.
      destruct (insert_tokens_cases (okp_of (ps ++ [p])) sip (pat_tokens p) t p Hp' W' T)
        as [(E1 & E2)|(t' & E1 & E2)]; rewrite Ea in E2.
      * left. split; [exact E1|]. exists ps, p, []. split; [reflexivity|]. exact E2.
      * right. exists t'. split; [exact E1|]. split.
        -- rewrite s_adds_snoc. apply s_add_tidies; [rewrite <- Ea; exact T|exact E2].
        -- intros (A & q & B & E & X). destruct B as [|b B] using rev_ind.
           ++ apply app_inj_tail in E. destruct E as (-> & ->). exact (E2 X).
           ++ clear IHB. change (A ++ q :: B ++ [b]) with (A ++ (q :: B) ++ [b]) in E.
              rewrite app_assoc in E. apply app_inj_tail in E. destruct E as (E & _).
              apply N. exists A, q, B. auto.
Qed.

Lemma adding_panics sip ps :
  Forall valid_pattern ps -> collision_free sip ps ->
  (add_patterns sip tree_new ps = Panic <->
   exists A p B, ps = A ++ p :: B /\ add_panics (s_adds A) p) /\
  (add_patterns sip tree_new ps <> Panic -> exists t, add_patterns sip tree_new ps = Ret t).
Proof.
  intros V C. destruct (adds_cases sip ps V C) as [(E & H)|(t & E & _ & H)].
  - split; [tauto|congruence].
  - split; [|eauto]. rewrite E. split; [discriminate|contradiction].
Qed.

Lemma matching_panics sip ps t text :
  Forall valid_pattern ps -> collision_free sip ps -> add_patterns sip tree_new ps = Ret t ->
  utf8 text ->
  (parse t text = Panic <-> parse_panics (s_adds ps) text) /\
  (~ parse_panics (s_adds ps) text -> parse t text = Ret (s_parse (s_adds ps) text)).
Proof.
  intros V C Ha Hu. destruct (adds_cases sip ps V C) as [(E & _)|(t0 & E & T & _)]; [congruence|].
  destruct (adds_wf sip ps t V C Ha) as (W & Ea).
  destruct (parse_fuel_cases (okp_of ps) (okp_of_utf8 ps) (height t) t text W (le_n _)) as [(E1 & E2)|(r & E1 & E2)].
  - rewrite Ea. exact T.
  - exact Hu.
  - rewrite Ea in E2. fold (parse t text) in E1. split; [tauto|contradiction].
  - rewrite Ea in E2. fold (parse t text) in E1. split.
    + rewrite E1. split; [discriminate|contradiction].
    + intros _. rewrite E1. f_equal. apply (trie_refines sip ps t text r V C Ha Hu E1).
Qed.
