(** * When the trie does not panic, and that it always terminates *)
From Coq Require Import Sorted.
From Verif Require Import Base Base_facts Utils Utils_facts Parsers Parsers_facts Pattern Spec
  Trie TrieSpec TrieSpec_facts Trie_refine.

(** ** ASCII data *)
Definition asciip (s : str) : Prop := ascii s = true.

Lemma asciip_utf8 s : asciip s -> utf8 s.
Proof. apply ascii_utf8. Qed.

Lemma asciip_app a b : asciip (a ++ b) <-> asciip a /\ asciip b.
Proof. unfold asciip. rewrite ascii_app, andb_true_iff. reflexivity. Qed.

Lemma asciip_cut a b : asciip (a ++ b) -> utf8 a -> asciip a /\ asciip b.
Proof. intros H _. apply asciip_app. exact H. Qed.

Lemma ascii_boundary x s : asciip (x :: s) -> is_char_boundary (x :: s) 1 = true.
Proof.
  intros H. change (x :: s) with ([x] ++ s) in *. apply asciip_app in H. destruct H as (_ & H).
  apply (boundary_app [x] s). right. apply ascii_head. exact H.
Qed.

Lemma cmp_str_total a b : asciip a -> asciip b -> cmp_str a b = Ret (head_cmp a b).
Proof.
  intros Ha Hb. destruct a as [|x a], b as [|y b]; try reflexivity.
  unfold cmp_str. cbn [is_empty andb]. unfold slice.
  rewrite (ascii_boundary x a Ha), (ascii_boundary y b Hb).
  change (is_char_boundary (x :: a) 0) with true. change (is_char_boundary (y :: b) 0) with true.
  simpl. destruct (byte_cmp x y); reflexivity.
Qed.

Section Total.
  Variable okp : parser -> Prop.
  Hypothesis okp_utf8 : forall p, okp p -> parser_utf8 p.
  Hypothesis okp_ascii : forall p, okp p -> parser_ascii_set p.
  Notation wf := (wf okp asciip).
  Notation lnode_ok := (lnode_ok asciip).
  Notation children_wf := (children_wf okp asciip).

  Lemma children_search_total lcs l :
    (forall n, In n lcs -> lnode_ok n) -> asciip l ->
    exists r, sv_binary_search_by lcs (fun probe => cmp_str (ln_literal probe) l) = Ret r.
  Proof.
    intros Hok Hl. apply binary_search_by_total. intros n Hn. eexists.
    apply cmp_str_total; [apply (Hok n Hn)|exact Hl].
  Qed.

  Lemma search_total lcs pcs l :
    wf (Tree lcs pcs) -> asciip l -> exists r, search (Tree lcs pcs) l = Ret r.
  Proof.
    intros W Hl. inversion W as [? ? HS Hok Hw _ _]; subst. unfold search. simpl.
    destruct (children_search_total lcs l Hok Hl) as (r & Er). rewrite Er. cbn [bind].
    destruct (children_search lcs l r HS Er) as
      [(A & n & C & El & -> & HA & HE & HC)|(A & C & El & -> & HA & HC)]; [|eauto].
    unfold search_prefix_is_found. rewrite El. unfold get_unwrap. rewrite nth_error_app_mid.
    cbn [bind]. destruct (lnode_is_leaf n) eqn:Elf; [eauto|]. unfold lnode_is_leaf in Elf.
    destruct (ln_node n) as [c|] eqn:En; [|discriminate].
    assert (lnode_ok n) as (Hu & _) by (apply Hok; rewrite El; apply in_elt).
    unfold search_not_leaf. rewrite En.
    destruct (Nat.ltb_spec (common_prefix_len (ln_literal n) l) (length (ln_literal n))) as [|Hge]; [eauto|].
    destruct (_ && _)%bool; [eauto|].
    destruct (prefixb (ln_literal n) l) eqn:Ep.
    - rewrite (cpl_prefix _ _ (asciip_utf8 _ Hu) (asciip_utf8 _ Hl) Ep).
      apply prefixb_app in Ep. destruct Ep as (q & ->).
      rewrite ltrunc_ok; [cbn [bind]; eauto|apply asciip_utf8; exact Hl|apply asciip_utf8; exact Hu].
    - pose proof (cpl_not_prefix _ _ (asciip_utf8 _ Hu) (asciip_utf8 _ Hl) Ep). lia.
  Qed.

  (** *** Parsing *)
  Lemma lookup_literal_total t : wf t -> forall l, asciip l -> exists r, lookup_literal t l = Ret r.
  Proof.
    induction 1 as [lcs pcs HS Hok Hw IH Hpok Hpw IHp]. intros l Hl.
    assert (wf (Tree lcs pcs)) as W by (constructor; assumption).
    rewrite lookup_literal_unfold. destruct (search_total lcs pcs l W Hl) as (sr & Es).
    rewrite Es. cbn [bind].
    apply (search_ret okp asciip asciip_utf8 lcs pcs l sr W (asciip_utf8 _ Hl)) in Es.
    destruct Es as [A C E HA HC|A n C E HA HE HC Hn Hne|A n C c E HA HE HC Hn Hp
                   |A n C E HA HC Hlit Hv|A n C c r0 E HA HC Hne Hlr Hr Hn Hv]; eauto.
    assert (In n lcs) as In_n by (rewrite E; apply in_elt).
    rewrite E, nth_error_app_mid. rewrite Hlr in Hl. apply asciip_app in Hl.
    destruct n as [lit hv po co]. simpl in *. subst co.
    apply (IH _ c In_n eq_refl). apply Hl.
  Qed.

  Lemma parse_with_parsers_total fuel pcs text :
    (forall t text, wf t -> height t <= fuel -> asciip text -> exists r, parse_fuel fuel t text = Ret r) ->
    (forall n, In n pcs -> pnode_ok okp n) ->
    (forall n c, In n pcs -> pn_node n = Some c -> wf c) ->
    (forall n c, In n pcs -> pn_node n = Some c -> height c <= fuel) ->
    asciip text ->
    exists r, parse_with_parsers (parse_fuel fuel) pcs text = Ret r.
  Proof.
    intros IH. induction pcs as [|n pcs IHp]; intros Hok Hw Hh Ht; cbn [parse_with_parsers]; [eauto|].
    assert (exists r, pnode_parse (parse_fuel fuel) n text = Ret r) as (r & ->).
    { unfold pnode_parse. destruct (Hok n (or_introl eq_refl)) as (Hq & Hleaf).
      pose proof (asciip_utf8 _ Ht) as Hu.
      destruct (parser_parse_total (pn_parser n) text Hu (okp_utf8 _ Hq) (okp_ascii _ Hq)) as (o & Eo).
      rewrite Eo. cbn [bind]. destruct o as [v|]; [|eauto].
      apply parser_parse_some in Eo; [|exact Hu|apply okp_utf8; exact Hq].
      destruct Eo as (Hc & Hv). apply captures_prefix in Hc. destruct Hc as (rest & ->).
      rewrite ltrunc_ok by assumption. cbn [bind]. apply asciip_app in Ht. destruct Ht as (_ & Ht).
      destruct (pn_node n) as [c|] eqn:En.
      - unfold parse_then_push_kvpair.
        destruct (IH c rest) as (r & ->);
          [apply (Hw n c (or_introl eq_refl) En)|apply (Hh n c (or_introl eq_refl) En)|exact Ht|].
        cbn [bind]. destruct r; eauto.
      - unfold push_last_kvpair. destruct (is_empty rest); [|eauto].
        destruct (pn_pattern n); [eauto|]. exfalso. apply Hleaf; reflexivity. }
    cbn [bind]. destruct r; [eauto|]. apply IHp; auto.
    - intros m Hm. apply Hok. right. exact Hm.
    - intros m c Hm. apply Hw. right. exact Hm.
    - intros m c Hm. apply Hh. right. exact Hm.
  Qed.

  Lemma parse_fuel_total fuel : forall t text,
    wf t -> height t <= fuel -> asciip text -> exists r, parse_fuel fuel t text = Ret r.
  Proof.
    induction fuel as [|fuel IH]; intros t text W Hh Ht.
    { destruct t; simpl in Hh; lia. }
    cbn [parse_fuel]. destruct (lookup_literal_total t W text Ht) as (lr & El). rewrite El. cbn [bind].
    apply (lookup_literal_ret okp asciip asciip_utf8 t W) in El; [|apply asciip_utf8; exact Ht].
    destruct lr as [(node, pos)|(node, len)]; simpl in El.
    - destruct El as (n & Hn & _). unfold get_unwrap. rewrite Hn. cbn [bind]. eauto.
    - destruct El as (Wn & Hhn & pre & l' & -> & <- & Hu' & _).
      unfold usub. rewrite app_length.
      destruct (Nat.leb_spec (length l') (length pre + length l')); [|lia]. cbn [bind].
      replace (length pre + length l' - length l') with (length pre) by lia.
      pose proof Ht as Ht'. apply asciip_app in Ht'. destruct Ht' as (Hp & Hl').
      rewrite ltrunc_ok by (apply asciip_utf8; assumption). cbn [bind].
      inversion Wn as [lcs pcs HS Hok Hw Hpok Hpw]; subst. simpl parser_children.
      apply parse_with_parsers_total; auto.
      intros n c Hn Hc. pose proof (height_parser lcs pcs n c Hn Hc). lia.
  Qed.

  Lemma parse_total t text : wf t -> asciip text -> exists r, parse t text = Ret r.
  Proof. intros W Ht. apply parse_fuel_total; auto. Qed.

  (** *** Insertion *)
  Definition lktotal (k : lnode tree -> outcome (lnode tree)) : Prop :=
    forall n, ln_has_value n = true -> children_wf n -> exists n', k n = Ret n'.

  Lemma update_nth_total {A} (a b : list A) x (f : A -> outcome A) y :
    f x = Ret y -> update_nth (a ++ x :: b) (length a) f = Ret (a ++ y :: b).
  Proof. intros H. apply update_nth_ret. exists x, y, a, b. auto. Qed.

  Lemma update_child_total A n C pcs k :
    lktotal k -> wf (Tree (A ++ n :: C) pcs) -> ln_has_value n = true ->
    exists t', update_literal_child (Tree (A ++ n :: C) pcs) (length A) k = Ret t'.
  Proof.
    intros Hk W Hv. unfold update_literal_child. simpl.
    inversion W as [? ? HS Hok Hw Hpok Hpw]; subst.
    destruct (Hk n Hv) as (n' & En); [intros c; apply Hw; apply in_elt|].
    rewrite (update_nth_total A C n k n' En). cbn [bind]. eauto.
  Qed.

  Lemma lookup_mut_total (g : tree -> nat + nat -> outcome tree) (Q : str -> Prop) :
    (forall a b, Q (a ++ b) -> Q b) ->
    (forall A n C pcs, wf (Tree (A ++ n :: C) pcs) -> ln_has_value n = true ->
       exists t', g (Tree (A ++ n :: C) pcs) (inl (length A)) = Ret t') ->
    (forall lcs pcs l, wf (Tree lcs pcs) -> asciip l -> Q l -> search_spec lcs l NotFound ->
       exists t', g (Tree lcs pcs) (inr (length l)) = Ret t') ->
    forall t, wf t -> forall l, asciip l -> Q l -> exists t', lookup_literal_mut t l g = Ret t'.
  Proof.
    intros HQ Hfound Hnot.
    induction 1 as [lcs pcs HS Hok Hw IH Hpok Hpw IHp]. intros l Hl Ql.
    assert (wf (Tree lcs pcs)) as W by (constructor; assumption).
    rewrite lookup_literal_mut_unfold. destruct (search_total lcs pcs l W Hl) as (sr & Es).
    rewrite Es. cbn [bind].
    apply (search_ret okp asciip asciip_utf8 lcs pcs l sr W (asciip_utf8 _ Hl)) in Es.
    inversion Es; subst sr.
    - apply Hnot; auto.
    - apply Hnot; auto.
    - apply Hnot; auto.
    - subst. apply Hfound; auto.
    - rename H into E, H0 into HA, H1 into HC, H2 into Hne, H3 into El, H4 into Hr, H5 into Hn.
      assert (In n lcs) as In_n by (rewrite E; apply in_elt).
      rewrite El in Hl, Ql. apply asciip_app in Hl. apply HQ in Ql.
      destruct (IH n c In_n Hn r (proj2 Hl) Ql) as (c' & Hc').
      assert (exists n', descend_mut r g n = Ret n') as (n' & En').
      { destruct n as [lit hv po co]. simpl in *. subst co. rewrite Hc'. cbn [bind]. eauto. }
      rewrite E, (update_nth_total A C n _ n' En'). cbn [bind]. eauto.
  Qed.

  Lemma push_total lcs pcs n :
    (forall m, In m lcs -> asciip (ln_literal m)) -> asciip (ln_literal n) ->
    exists t', add_literal_node (Tree lcs pcs) n = Ret t'.
  Proof.
    intros Hl Hn. unfold add_literal_node. simpl.
    destruct (sv_push_total lnode_head_cmp lnode_cmp) with (l := lcs) (x := n) as (r & ->);
      [intros x y k Hk; apply cmp_str_ret in Hk; apply Hk| |cbn [bind]; eauto].
    intros y z Hy Hz. unfold lnode_cmp.
    assert (forall m, In m (lcs ++ [n]) -> asciip (ln_literal m)) as H.
    { intros m Hm. apply in_app_or in Hm. destruct Hm as [Hm|[<-|[]]]; auto. }
    eexists. apply cmp_str_total; auto.
  Qed.

  Lemma split_total n cpl l :
    asciip (ln_literal n) -> asciip l -> has_common_prefix (ln_literal n) l = Some cpl ->
    exists hit, split n cpl l = Ret hit.
  Proof.
    intros Hn Hl Hp. pose proof (asciip_utf8 _ Hn) as Hn8. pose proof (asciip_utf8 _ Hl) as Hl8.
    destruct (cpl_longest (ln_literal n) l Hn8 Hl8) as (w & Lw & Hw & (b & Eb) & (a & Ea) & M).
    unfold has_common_prefix in Hp. rewrite <- Lw in Hp.
    destruct (Nat.ltb 0 (length w)); [|discriminate]. inversion Hp; subst cpl.
    unfold split. rewrite Eb. unfold usub. rewrite Ea in *. rewrite app_length.
    destruct (Nat.leb_spec (length w) (length w + length a)); [|lia]. cbn [bind].
    replace (length w + length a - length w) with (length a) by lia.
    rewrite (rtrunc_ok w a Hl8 Hw), (ltrunc_ok w a Hl8 Hw). cbn [bind].
    rewrite Eb in Hn8, Hn. rewrite (ltrunc_ok w b Hn8 Hw). cbn [bind].
    apply asciip_app in Hn. apply asciip_app in Hl.
    assert (forall p, ln_literal (match p with
            | Some p => lnode_set_pattern (lnode_set_has_value (lnode_set_node (lnode_new b) (ln_node n)) (ln_has_value n)) (Some p)
            | None => lnode_set_has_value (lnode_set_node (lnode_new b) (ln_node n)) (ln_has_value n)
            end) = b) as Er by (intros [?|]; reflexivity).
    change tree_new with (Tree [] []).
    destruct (push_total [] [] (lnode_set_has_value (lnode_new a) true)) as (t1 & E1);
      [intros m []|apply Hl|].
    assert (t1 = Tree [lnode_set_has_value (lnode_new a) true] []) as Et1.
    { simpl in E1. inversion E1. reflexivity. }
    rewrite E1. cbn [bind]. rewrite Et1.
    match goal with |- context [add_literal_node (Tree ?x []) ?y] => destruct (push_total x [] y) as (t2 & E2) end.
    - intros m [<-|[]]. apply Hl.
    - rewrite Er. apply Hn.
    - rewrite E2. cbn [bind]. eauto.
  Qed.

  (** The freshly inserted left branch is found again. *)
  Lemma fresh_total k n a b lcs :
    lktotal k -> wf (Tree lcs []) -> asciip a ->
    (head_cmp b a = Lt /\ lcs = [split_right n b; split_left a]) \/
    (head_cmp b a = Gt /\ lcs = [split_left a; split_right n b]) ->
    exists t', lookup_freshly_inserted_literal (Tree lcs []) a k = Ret t'.
  Proof.
    intros Hk W Ha Hlcs. unfold lookup_freshly_inserted_literal.
    assert (In (split_left a) lcs) as Hin by (destruct Hlcs as [(_ & ->)|(_ & ->)]; simpl; auto).
    assert (forall m, In m lcs -> head_cmp (ln_literal m) a = Eq -> m = split_left a) as Huniq.
    { intros m Hm He. destruct Hlcs as [(Hd & ->)|(Hd & ->)];
        destruct Hm as [<-|[<-|[]]]; auto; simpl in He; congruence. }
    rewrite lookup_literal_mut_unfold. destruct (search_total lcs [] a W Ha) as (sr & Es).
    rewrite Es. cbn [bind].
    apply (search_ret okp asciip asciip_utf8 lcs [] a sr W (asciip_utf8 _ Ha)) in Es.
    inversion Es; subst sr.
    - exfalso. rewrite H in Hin. rewrite Forall_forall in H0, H1. apply in_app_or in Hin.
      assert (head_cmp a a = Eq) by apply (to_refl _ head_cmp_order).
      destruct Hin as [Hin|Hin]; [apply H0 in Hin|apply H1 in Hin]; simpl in Hin; congruence.
    - exfalso. assert (n0 = split_left a) as -> by (apply Huniq; [rewrite H; apply in_elt|exact H1]).
      simpl in H4. congruence.
    - exfalso. assert (n0 = split_left a) as -> by (apply Huniq; [rewrite H; apply in_elt|exact H1]).
      discriminate.
    - rewrite H in W |- *. apply (update_child_total A n0 C [] k Hk W H3).
    - exfalso. assert (n0 = split_left a) as ->; [|discriminate].
      apply Huniq; [rewrite H; apply in_elt|]. rewrite H3. destruct (ln_literal n0); [congruence|].
      simpl. apply byte_cmp_refl.
  Qed.

  Lemma insert_literal_tail_total k lcs pcs l :
    lktotal k -> wf (Tree lcs pcs) -> asciip l -> search_spec lcs l NotFound ->
    exists t', insert_literal_tail (Tree lcs pcs) l k = Ret t'.
  Proof.
    intros Hk W Hl Hs. inversion W as [? ? HS Hok Hw Hpok Hpw]; subst.
    unfold insert_literal_tail. simpl.
    destruct (children_search_total lcs l Hok Hl) as (r & Er). rewrite Er. cbn [bind].
    destruct (children_search lcs l r HS Er) as
      [(A & n & C & El & -> & HA & HE & HC)|(A & C & El & -> & HA & HC)].
    - assert (In n lcs) as In_n by (rewrite El; apply in_elt).
      assert (lnode_ok n) as Hokn by (apply Hok; exact In_n).
      pose proof Hokn as (Hu & Hint).
      pose proof (asciip_utf8 _ Hu) as Hu8. pose proof (asciip_utf8 _ Hl) as Hl8.
      assert (forall m, In m lcs -> head_cmp (ln_literal m) l = Eq -> m = n) as Huniq.
      { intros m Hm He. rewrite El in Hm. apply in_elt_inv in Hm. destruct Hm as [->|Hm]; [reflexivity|].
        rewrite Forall_forall in HA, HC. apply in_app_or in Hm.
        destruct Hm as [Hm|Hm]; [apply HA in Hm|apply HC in Hm]; congruence. }
      assert (ln_literal n <> l /\ (ln_node n <> None -> prefixb (ln_literal n) l = false)) as (Hne & Hnp).
      { inversion Hs as [A' C' E HA' HC'|A' n' C' E HA' HE' HC' Hn' Hne'|A' n' C' c' E HA' HE' HC' Hn' Hp'| |].
        - exfalso. rewrite E in In_n. rewrite Forall_forall in HA', HC'. apply in_app_or in In_n.
          destruct In_n as [Hin|Hin]; [apply HA' in Hin|apply HC' in Hin]; congruence.
        - assert (n' = n) as -> by (apply Huniq; [rewrite E; apply in_elt|exact HE']).
          split; [exact Hne'|]. congruence.
        - assert (n' = n) as -> by (apply Huniq; [rewrite E; apply in_elt|exact HE']).
          split; [|auto]. intros X. rewrite X, prefixb_refl in Hp'. discriminate. }
      rewrite El. unfold get_unwrap. rewrite nth_error_app_mid. cbn [bind].
      assert (exists cpl, has_common_prefix (ln_literal n) l = Some cpl) as (cpl & Ecp).
      { apply head_cmp_eq in HE. destruct HE as [(E1 & E2)|(x & u & v & E1 & E2)].
        - exfalso. apply Hne. congruence.
        - unfold has_common_prefix.
          destruct (cpl_longest (ln_literal n) l Hu8 Hl8) as (w & Lw & _ & _ & _ & M).
          assert (length [x] <= length w) as L1.
          { apply M.
            - apply asciip_utf8. rewrite E1 in Hu. change (x :: u) with ([x] ++ u) in Hu.
              apply asciip_app in Hu. apply Hu.
            - exists u. exact E1.
            - exists v. exact E2. }
          rewrite <- Lw. simpl in L1. destruct (Nat.ltb_spec 0 (length w)); [eauto|lia]. }
      rewrite Ecp.
      assert (exists n', (let* hit' := split n cpl l in
                          let* suffix := ltrunc l cpl in
                          match ln_node hit' with
                          | Some node =>
                              let* node' := lookup_freshly_inserted_literal node suffix k in
                              Ret (lnode_set_node hit' (Some node'))
                          | None => Panic
                          end) = Ret n') as (n' & En').
      { destruct (split_total n cpl l Hu Hl Ecp) as (hit & Ehit). rewrite Ehit. cbn [bind].
        destruct (split_ret n cpl l hit Hu8 Hl8 Hne Ecp Ehit)
          as (w & a & b & Ea & Eb & Hwne & Lw & Hw8 & Ha8 & Hb8 & Hhit).
        rewrite Ea, <- Lw. rewrite Ea in Hl8. rewrite (ltrunc_ok w a Hl8 Hw8). cbn [bind].
        assert (asciip a) as Ha by (rewrite Ea in Hl; apply asciip_app in Hl; apply Hl).
        assert (asciip b) as Hb by (rewrite Eb in Hu; apply asciip_app in Hu; apply Hu).
        assert (exists lcs', hit = LNode w false None (Some (Tree lcs' [])) /\
                ((head_cmp b a = Lt /\ lcs' = [split_right n b; split_left a]) \/
                 (head_cmp b a = Gt /\ lcs' = [split_left a; split_right n b])))
          as (lcs' & Ehit' & Hlcs').
        { destruct Hhit as [(Hd & ->)|(Hd & ->)]; eexists; split; [reflexivity|auto|reflexivity|auto]. }
        rewrite Ehit'. simpl ln_node. cbv iota.
        destruct (fresh_total k n a b lcs') as (t' & ->); auto.
        - apply (split_node_wf okp asciip n a b lcs'); auto.
          + intros c. apply (Hw n c In_n).
          + intros Hv ->. destruct (Hint Hv) as (_ & c & Hc & _).
            assert (prefixb (ln_literal n) l = true) as X.
            { apply prefixb_app. exists a. rewrite Eb, app_nil_r. exact Ea. }
            rewrite Hnp in X; congruence.
        - cbn [bind]. eauto. }
      unfold update_literal_child. simpl literal_children.
      rewrite (update_nth_total A C n _ n' En'). cbn [bind]. eauto.
    - rewrite El in *. set (n := lnode_set_has_value (lnode_new l) true).
      destruct (push_total (A ++ C) pcs n) as (t1 & E1).
      { intros m Hm. apply (Hok m Hm). }
      { exact Hl. }
      rewrite E1. cbn [bind].
      apply push_literal_ret in E1; [|exact HS|exact HA|exact HC]. subst t1.
      apply update_child_total; [exact Hk| |reflexivity].
      apply wf_insert; auto.
      + split; [exact Hl|]. simpl. discriminate.
      + intros c Ec. discriminate.
  Qed.

  Lemma insert_literal_total k t l :
    lktotal k -> wf t -> asciip l -> exists t', insert_literal t l k = Ret t'.
  Proof.
    intros Hk W Hl. unfold insert_literal.
    refine (lookup_mut_total _ (fun l' => exists pre, l = pre ++ l') _ _ _ t W l Hl _).
    - intros a b (pre & E). exists (pre ++ a). rewrite <- app_assoc. exact E.
    - intros A n C pcs W0 Hv. apply update_child_total; assumption.
    - intros lcs pcs l' W0 Hl' (pre & E) Hs. unfold usub. rewrite E, app_length.
      destruct (Nat.leb_spec (length l') (length pre + length l')); [|lia]. cbn [bind].
      replace (length pre + length l' - length l') with (length pre) by lia.
      rewrite E in Hl. pose proof (asciip_utf8 _ Hl) as Hl8. apply asciip_app in Hl.
      rewrite ltrunc_ok by (exact Hl8 || apply asciip_utf8; apply Hl). cbn [bind].
      apply insert_literal_tail_total; assumption.
    - exists []. reflexivity.
  Qed.

  Variable sip : list byte -> N.

  Lemma insert_parser_total k t q :
    (forall n, okp (pn_parser n) -> exists n', k n = Ret n') ->
    wf t -> okp q -> exists t', insert_parser sip t q k = Ret t'.
  Proof.
    intros Hk W Hq. inversion W as [lcs pcs HS Hok Hw Hpok Hpw]; subst.
    unfold insert_parser, lookup_parser. simpl.
    destruct (position _ pcs) as [i|] eqn:El.
    - apply position_some in El. destruct El as (A & n & C & -> & <- & _).
      destruct (Hk n) as (n' & En); [apply (Hpok n); apply in_elt|].
      rewrite (update_nth_total A C n k n' En). cbn [bind]. eauto.
    - destruct (Hk (pnode_new q) Hq) as (n' & ->). cbn [bind]. eauto.
  Qed.

  Lemma insert_tokens_total toks : forall t p,
    Forall (token_ok okp asciip) toks -> wf t -> exists t', insert_tokens sip toks t p = Ret t'.
  Proof.
    induction toks as [|tok rest IH]; intros t p Hok W; simpl; [eauto|].
    inversion Hok as [|? ? Htok Hrest]; subst.
    destruct (IH tree_new (set_pattern_tokens p rest) Hrest (wf_new okp asciip)) as (c & Ec).
    destruct tok as [q|l].
    - apply insert_parser_total; [|exact W|exact Htok].
      intros n Hn. destruct (is_empty rest); [eauto|]. rewrite Ec. cbn [bind]. eauto.
    - apply insert_literal_total; [|exact W|exact Htok].
      intros n Hv _. destruct (is_empty rest); [eauto|]. rewrite Ec. cbn [bind]. eauto.
  Qed.

  Lemma add_patterns_total ps : forall t,
    Forall (fun p => Forall (token_ok okp asciip) (pat_tokens p)) ps -> wf t ->
    exists t', add_patterns sip t ps = Ret t' /\ wf t'.
  Proof.
    induction ps as [|p ps IH]; intros t Hok W; simpl; [eauto|].
    inversion Hok as [|? ? H1 H2]; subst.
    destruct (insert_tokens_total (pat_tokens p) t p H1 W) as (t1 & E1).
    unfold add_pattern at 1. rewrite E1. cbn [bind].
    apply IH; [exact H2|].
    apply (insert_tokens_wf okp asciip asciip_utf8 asciip_cut sip) in E1; assumption.
  Qed.
End Total.

(** ** Termination, for every trie and every text *)
Lemma bsearch_loop_fuel {A} (l : list A) f :
  (forall x, In x l -> f x <> OutOfFuel) ->
  forall fuel base lim, lim <= fuel -> bsearch_loop l f fuel base lim <> OutOfFuel.
Proof.
  intros Hf. induction fuel as [|fuel IH]; intros base lim L; destruct lim as [|lim]; try lia;
    cbn [bsearch_loop]; try discriminate.
  unfold get_unwrap.
  destruct (nth_error l (base + Nat.div2 (S lim))) as [x|] eqn:E; cbn [bind]; [|discriminate].
  apply nth_error_In in E. specialize (Hf x E). destruct (f x) as [[| |]| |]; cbn [bind]; try discriminate.
  - apply IH. pose proof (div2_le lim). lia.
  - apply IH. pose proof (div2_lt (S lim)). lia.
  - exfalso. apply Hf. reflexivity.
Qed.

Lemma cmp_str_fuel a b : cmp_str a b <> OutOfFuel.
Proof.
  unfold cmp_str, slice. destruct a as [|x a], b as [|y b]; try discriminate. cbn [is_empty andb].
  destruct (_ && _)%bool; cbn [bind]; [|discriminate].
  destruct (_ && _)%bool; cbn [bind]; discriminate.
Qed.

Lemma slice_from_fuel s i : slice_from s i <> OutOfFuel.
Proof. unfold slice_from. destruct (is_char_boundary s i); discriminate. Qed.

Lemma slice_to_fuel s i : slice_to s i <> OutOfFuel.
Proof. unfold slice_to. destruct (is_char_boundary s i); discriminate. Qed.

Lemma bind_fuel {A B} (m : outcome A) (k : A -> outcome B) :
  m <> OutOfFuel -> (forall a, m = Ret a -> k a <> OutOfFuel) -> bind m k <> OutOfFuel.
Proof. destruct m; simpl; intros H1 H2; [apply H2; reflexivity|discriminate|congruence]. Qed.

Lemma usub_fuel a b : usub a b <> OutOfFuel.
Proof. unfold usub. destruct (Nat.leb b a); discriminate. Qed.

Lemma get_unwrap_fuel {A} (l : list A) i : get_unwrap l i <> OutOfFuel.
Proof. unfold get_unwrap. destruct (nth_error l i); discriminate. Qed.

Lemma search_fuel t l : search t l <> OutOfFuel.
Proof.
  unfold search. apply bind_fuel.
  - apply bsearch_loop_fuel; [intros; apply cmp_str_fuel|lia].
  - intros [pos|] _; [|discriminate]. unfold search_prefix_is_found.
    apply bind_fuel; [apply get_unwrap_fuel|]. intros n _.
    destruct (lnode_is_leaf n); [discriminate|]. unfold search_not_leaf.
    destruct (Nat.ltb _ _); [discriminate|]. destruct (_ && _)%bool; [discriminate|].
    destruct (ln_node n); [|discriminate]. apply bind_fuel; [apply slice_from_fuel|discriminate].
Qed.

(** Induction over sub-tries reached through literal nodes. *)
Lemma tree_height_ind (P : tree -> Prop) :
  (forall t, (forall c, height c < height t -> P c) -> P t) -> forall t, P t.
Proof.
  intros H t. remember (height t) as h eqn:E. revert t E.
  induction h as [h IH] using lt_wf_ind. intros t ->. apply H. intros c L. apply (IH _ L). reflexivity.
Qed.

Lemma lookup_literal_fuel t : forall l,
  lookup_literal t l <> OutOfFuel /\
  (forall node len, lookup_literal t l = Ret (inr (node, len)) -> height node <= height t).
Proof.
  induction t as [t IH] using tree_height_ind. intros l. destruct t as [lcs pcs].
  rewrite lookup_literal_unfold. pose proof (search_fuel (Tree lcs pcs) l) as Hs.
  destruct (search (Tree lcs pcs) l) as [[pos| |pos rest]| |]; cbn [bind]; try (split; congruence).
  - split; [discriminate|]. intros node len H. inversion H; subst. lia.
  - destruct (nth_error lcs pos) as [[lit hv po [c|]]|] eqn:E; try (split; congruence).
    apply nth_error_In in E. pose proof (height_literal lcs pcs _ c E eq_refl) as L.
    destruct (IH c L rest) as (H1 & H2). split; [exact H1|]. intros node len H.
    apply H2 in H. lia.
Qed.

Lemma parser_parse_fuel p v : parser_parse p v <> OutOfFuel.
Proof.
  destruct p as [s|s|g]; simpl.
  - unfold set_parse. destruct (is_match_length_ok _ _); [|discriminate].
    apply bind_fuel; [apply slice_to_fuel|discriminate].
  - unfold set_parse. destruct (is_match_length_ok _ _); [|discriminate].
    apply bind_fuel; [apply slice_to_fuel|discriminate].
  - unfold greedy_parse. destruct (gp_end_string g) as [e|]; [|discriminate].
    destruct (str_find e v); [|discriminate]. apply bind_fuel; [apply slice_to_fuel|discriminate].
Qed.

Lemma parse_with_parsers_fuel (f : tree -> str -> outcome (option match_result)) pcs text :
  (forall n c text, In n pcs -> pn_node n = Some c -> f c text <> OutOfFuel) ->
  parse_with_parsers f pcs text <> OutOfFuel.
Proof.
  induction pcs as [|n pcs IH]; intros H; cbn [parse_with_parsers]; [discriminate|].
  apply bind_fuel.
  - unfold pnode_parse. apply bind_fuel; [apply parser_parse_fuel|]. intros [v|] _; [|discriminate].
    apply bind_fuel; [apply slice_from_fuel|]. intros text' _. destruct (pn_node n) as [c|] eqn:E.
    + unfold parse_then_push_kvpair. apply bind_fuel; [apply (H n c); [left; reflexivity|exact E]|].
      intros [r|] _; discriminate.
    + unfold push_last_kvpair. destruct (is_empty text'); [|discriminate].
      destruct (pn_pattern n); discriminate.
  - intros [r|] _; [discriminate|]. apply IH. intros m c text' Hm. apply H. right. exact Hm.
Qed.

Lemma parse_fuel_enough fuel : forall t text,
  height t <= fuel -> parse_fuel fuel t text <> OutOfFuel.
Proof.
  induction fuel as [|fuel IH]; intros t text L; [destruct t; simpl in L; lia|].
  cbn [parse_fuel]. destruct (lookup_literal_fuel t text) as (H1 & H2).
  apply bind_fuel; [exact H1|]. intros [(node, pos)|(node, len)] E.
  - apply bind_fuel; [apply get_unwrap_fuel|discriminate].
  - apply H2 in E. apply bind_fuel; [apply usub_fuel|]. intros d _.
    apply bind_fuel; [apply slice_from_fuel|]. intros text' _.
    apply parse_with_parsers_fuel. intros n c text'' Hn Hc. apply IH.
    destruct node as [lcs pcs]. pose proof (height_parser lcs pcs n c Hn Hc). lia.
Qed.

Lemma parse_terminates t text : parse t text <> OutOfFuel.
Proof. apply parse_fuel_enough. lia. Qed.
