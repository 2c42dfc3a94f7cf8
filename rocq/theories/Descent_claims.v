(** * How far looking up a literal goes down *)
From Coq Require Import List Arith Lia Permutation.
From Verif Require Import Base Base_facts Utils Parsers Pattern Grammar Spec Spec_grammar Spec_canon Live_claims Spec_depth Effort_facts Depth_claims
  Grammar_claims Anyhash_claims Trie.
Import ListNotations.

Lemma slice_from_len s i r : slice_from s i = Ret r -> i <= length s /\ length r = length s - i.
Proof.
  unfold slice_from. destruct (is_char_boundary s i) eqn:B; [|discriminate]. intros E. injection E as <-.
  split; [|apply skipn_length]. revert B. unfold is_char_boundary.
  destruct (Nat.eqb i 0) eqn:E0; [apply Nat.eqb_eq in E0; lia|].
  destruct (Nat.eqb i (length s)) eqn:E1; [apply Nat.eqb_eq in E1; lia|]. cbn [orb].
  destruct (nth_error s i) eqn:E2; [intros _|discriminate]. apply Nat.lt_le_incl, nth_error_Some. congruence.
Qed.

Lemma ltrunc_len s i r : ltrunc s i = Ret r -> i <= length s /\ length r = length s - i.
Proof. exact (slice_from_len s i r). Qed.

Lemma usub_some a b d : usub a b = Ret d -> b <= a /\ d = a - b.
Proof. unfold usub. destruct (Nat.leb b a) eqn:E; [|discriminate]. apply Nat.leb_le in E. intros H. injection H as <-. auto. Qed.

Lemma rtrunc_len s d r : rtrunc s d = Ret r -> length r = length s - d.
Proof.
  unfold rtrunc. destruct (usub (length s) d) as [n| |] eqn:U; try discriminate. cbn [bind].
  apply usub_some in U. destruct U as (L & ->). unfold slice_to. destruct (is_char_boundary s _); [|discriminate].
  intros E. injection E as <-. rewrite firstn_length. lia.
Qed.

Lemma bsearch_hit {A} (l : list A) f fuel : forall base lim i,
  bsearch_loop l f fuel base lim = Ret (inl i) -> exists x, nth_error l i = Some x /\ f x = Ret Eq.
Proof.
  induction fuel as [|fuel IH]; intros base lim i; destruct lim as [|lim]; cbn [bsearch_loop]; try discriminate.
  unfold get_unwrap. destruct (nth_error l _) as [x|] eqn:E; [|discriminate]. cbn [bind].
  destruct (f x) as [c| |] eqn:F; try discriminate. cbn [bind]. destruct c; [|apply IH..].
  intros R. injection R as <-. eauto.
Qed.

Section Spelled.
  Variable M : nat.

  (** Literal nodes one below the other hold at most [b] bytes, and behind a
      parser at most [M]. *)
  Inductive spelled : nat -> tree -> Prop :=
  | spelled_tree b lcs pcs :
      (forall m, In m lcs -> length (ln_literal m) <= b) ->
      (forall m c, In m lcs -> ln_node m = Some c -> spelled (b - length (ln_literal m)) c) ->
      (forall m c, In m pcs -> pn_node m = Some c -> spelled M c) ->
      spelled b (Tree lcs pcs).

  Definition lspelled b (m : lnode tree) : Prop :=
    length (ln_literal m) <= b /\ forall c, ln_node m = Some c -> spelled (b - length (ln_literal m)) c.
  Definition pspelled (m : pnode tree) : Prop := forall c, pn_node m = Some c -> spelled M c.

  Lemma spelled_iff b t :
    spelled b t <->
    (forall m, In m (literal_children t) -> lspelled b m) /\ (forall m, In m (parser_children t) -> pspelled m).
  Proof.
    destruct t as [lcs pcs]. cbn [literal_children parser_children]. split.
    - intros H. inversion H as [? ? ? H1 H2 H3]; subst. split; [|intros m Hm c; eauto].
      intros m Hm. split; [exact (H1 m Hm)|intros c; eauto].
    - intros (H1 & H2). constructor.
      + intros m Hm. exact (proj1 (H1 m Hm)).
      + intros m c Hm. exact (proj2 (H1 m Hm) c).
      + intros m c Hm. exact (H2 m Hm c).
  Qed.

  Lemma spelled_more b t : spelled b t -> forall b', b <= b' -> spelled b' t.
  Proof.
    induction 1 as [b lcs pcs H1 H2 IH2 H3 IH3]. intros b' L. constructor.
    - intros m Hm. specialize (H1 m Hm). lia.
    - intros m c Hm Hc. apply (IH2 m c Hm Hc). lia.
    - exact H3.
  Qed.

  Lemma spelled_new b : spelled b tree_new.
  Proof. apply spelled_iff. split; intros m []. Qed.

  Definition keeps (k : lnode tree -> outcome (lnode tree)) : Prop :=
    forall b m m', lspelled b m -> k m = Ret m' -> lspelled b m'.

  Lemma update_literal_spelled b t pos k t' :
    (forall m m', lspelled b m -> k m = Ret m' -> lspelled b m') ->
    spelled b t -> update_literal_child t pos k = Ret t' -> spelled b t'.
  Proof.
    intros Hk H. unfold update_literal_child.
    destruct (update_nth _ pos k) as [lcs'| |] eqn:E; try discriminate. cbn [bind].
    intros R. injection R as <-. apply spelled_iff in H. destruct H as (H1 & H2).
    apply update_nth_in in E. destruct E as (x & y & Hx & Ey & Hz).
    apply spelled_iff. cbn [literal_children parser_children]. split; [|exact H2].
    intros m Hm. destruct (Hz m Hm) as [->|Hi]; [|exact (H1 m Hi)].
    exact (Hk x y (H1 x Hx) Ey).
  Qed.

  Lemma search_down t l pos rest : search t l = Ret (GoDown pos rest) ->
    exists n, nth_error (literal_children t) pos = Some n /\ length (ln_literal n) <= length l /\
              length rest <= length l - length (ln_literal n).
  Proof.
    unfold search. destruct (sv_binary_search_by _ _) as [[i|i]| |]; try discriminate. cbn [bind].
    unfold search_prefix_is_found, get_unwrap. destruct (nth_error (literal_children t) i) as [n|] eqn:En; [|discriminate]. cbn [bind].
    destruct (lnode_is_leaf n).
    { unfold search_leaf. destruct (str_eqb _ _); discriminate. }
    unfold search_not_leaf. destruct (Nat.ltb _ _) eqn:L; [discriminate|]. apply Nat.ltb_ge in L.
    destruct (_ && _)%bool; [discriminate|]. destruct (ln_node n); [|discriminate].
    destruct (ltrunc l _) as [r| |] eqn:Er; try discriminate. cbn [bind]. intros E. injection E as <- <-.
    apply ltrunc_len in Er. exists n. split; [exact En|]. lia.
  Qed.

  Lemma lookup_mut_spelled g l0 :
    (forall b u r u', spelled b u -> match r with inl _ => True | inr n => n <= b /\ n <= l0 end -> g u r = Ret u' -> spelled b u') ->
    forall t l t' b, length l <= b -> length l <= l0 -> spelled b t -> lookup_literal_mut t l g = Ret t' -> spelled b t'.
  Proof.
    intros Hg. fix IH 1. intros [lcs pcs] l t' b Lb L0 H. cbn [lookup_literal_mut].
    destruct (search (Tree lcs pcs) l) as [[pos| |pos rest]| |] eqn:Es; try discriminate; cbn [bind].
    1: exact (Hg b _ (inl pos) _ H Logic.I).
    1: exact (Hg b _ (inr (length l)) _ H (conj Lb L0)).
    apply search_down in Es. destruct Es as (n & En & Ln & Lr). cbn [literal_children] in En.
    match goal with |- bind ?X _ = _ -> _ => destruct X as [lcs'| |] eqn:E end; try discriminate.
    cbn [bind]. intros R. injection R as <-. apply spelled_iff in H. destruct H as (H1 & H2).
    apply spelled_iff. cbn [literal_children parser_children] in *. split; [|exact H2].
    clear H2. revert H1 pos lcs' E En. induction lcs as [|m lcs IHl]; intros H1 pos lcs' E En; [discriminate|].
    destruct pos as [|pos].
    - destruct m as [lit hv po [c|]]; [|discriminate]. injection En as En.
      assert (length (ln_literal n) = length lit) as El by (rewrite <- En; reflexivity).
      destruct (lookup_literal_mut c rest g) as [c'| |] eqn:Ec; try discriminate. cbn [bind] in E.
      injection E as <-. intros m [<-|Hm]; [|apply H1; right; exact Hm].
      destruct (H1 _ (or_introl eq_refl)) as (G1 & G2). cbn [ln_literal ln_node] in *. split; [exact G1|].
      intros d Hd. cbn [ln_node] in Hd. injection Hd as <-. cbn [ln_literal].
      refine (IH c rest _ _ _ _ _ Ec); [lia|lia|]. exact (G2 c eq_refl).
    - match type of E with bind ?X _ = _ => destruct X as [r| |] eqn:Er end; try discriminate.
      cbn [bind] in E. injection E as <-. intros m' [<-|Hm]; [apply H1; left; reflexivity|].
      refine (IHl _ _ _ Er En m' Hm). intros x Hx. apply H1. right. exact Hx.
  Qed.

  Lemma add_literal_node_spelled b t m t' :
    spelled b t -> lspelled b m -> add_literal_node t m = Ret t' -> spelled b t'.
  Proof.
    intros H Hm. unfold add_literal_node, sv_push.
    destruct (sort lnode_cmp _) as [r| |] eqn:E; try discriminate. cbn [bind]. intros R. injection R as <-.
    apply sort_perm in E. apply spelled_iff in H. destruct H as (H1 & H2). apply spelled_iff.
    cbn [literal_children parser_children]. split; [|exact H2]. intros x Hx.
    apply (Permutation_in _ (Permutation_sym E)), in_app_or in Hx.
    destruct Hx as [Hx|[<-|[]]]; auto.
  Qed.

  Lemma lnew_spelled b l : length l <= b -> lspelled b (lnode_set_has_value (lnode_new l) true).
  Proof. intros L. split; [exact L|]. intros c H. discriminate H. Qed.

  Lemma split_spelled b m cpl l m' : length l <= b -> lspelled b m -> Trie.split m cpl l = Ret m' ->
    length (ln_literal m') = cpl /\ cpl <= length l /\ lspelled b m'.
  Proof.
    intros L (G1 & G2). unfold Trie.split. destruct (usub (length l) cpl) as [d| |] eqn:Ud; try discriminate. cbn [bind].
    apply usub_some in Ud. destruct Ud as (Lc & ->).
    destruct (rtrunc l _) as [cp| |] eqn:Ecp; try discriminate. cbn [bind]. apply rtrunc_len in Ecp.
    destruct (ltrunc l cpl) as [lb| |] eqn:Elb; try discriminate. cbn [bind]. apply ltrunc_len in Elb.
    destruct (ltrunc (ln_literal m) cpl) as [rb| |] eqn:Erb; try discriminate. cbn [bind]. cbv zeta. apply ltrunc_len in Erb.
    destruct (add_literal_node tree_new _) as [t1| |] eqn:E1; try discriminate. cbn [bind].
    destruct (add_literal_node t1 _) as [t2| |] eqn:E2; try discriminate. cbn [bind].
    intros R. injection R as <-. cbn [ln_literal]. split; [lia|]. split; [exact Lc|]. split; [cbn [ln_literal]; lia|].
    intros c Hc. cbn [ln_node] in Hc. injection Hc as <-. cbn [ln_literal].
    apply (add_literal_node_spelled (b - length cp)) in E1; [|apply spelled_new|apply lnew_spelled; lia].
    apply (add_literal_node_spelled (b - length cp)) in E2; [exact E2|exact E1|].
    assert (forall c, ln_node m = Some c -> spelled (b - length cp - length rb) c) as G.
    { intros c Hc. replace (b - length cp - length rb) with (b - length (ln_literal m)) by lia. exact (G2 c Hc). }
    destruct (ln_pattern m); (split; [cbn; lia|exact G]).
  Qed.

  Lemma insert_literal_spelled b t l k t' :
    keeps k -> length l <= b -> spelled b t -> insert_literal t l k = Ret t' -> spelled b t'.
  Proof.
    intros Hk Lb Ht. unfold insert_literal. apply (lookup_mut_spelled _ (length l)); [|exact Lb|lia|exact Ht]. clear b t t' Lb Ht.
    intros b t [pos|r] t' H Lr.
    { apply update_literal_spelled; [intros m m'; apply Hk|exact H]. }
    destruct Lr as (Lr & L0).
    destruct (usub (length l) r) as [e| |] eqn:Eu; try discriminate. cbn [bind]. apply usub_some in Eu. destruct Eu as (_ & ->).
    destruct (ltrunc l _) as [tail| |] eqn:Et; try discriminate. cbn [bind]. apply ltrunc_len in Et.
    assert (length tail <= b) as Lt by lia.
    unfold insert_literal_tail.
    destruct (sv_binary_search_by _ _) as [[pos|pos]| |]; try discriminate; cbn [bind].
    - destruct (get_unwrap (literal_children t) pos) as [m| |]; try discriminate. cbn [bind].
      destruct (has_common_prefix (ln_literal m) tail) as [cpl|]; [|discriminate].
      apply update_literal_spelled; [|exact H]. intros h h' Hh.
      destruct (Trie.split h cpl tail) as [h1| |] eqn:Es; try discriminate. cbn [bind].
      destruct (ltrunc tail cpl) as [suff| |] eqn:Ef0; try discriminate. cbn [bind]. apply ltrunc_len in Ef0.
      destruct (ln_node h1) as [node|] eqn:En; [|discriminate].
      destruct (lookup_freshly_inserted_literal node suff k) as [node'| |] eqn:Ef; try discriminate.
      cbn [bind]. intros R. injection R as <-.
      destruct (split_spelled _ _ _ _ _ Lt Hh Es) as (S1 & S2 & S3 & S4). split; [exact S3|].
      intros c Hc. cbn [lnode_set_node ln_node] in Hc. injection Hc as <-. cbn [lnode_set_node ln_literal].
      unfold lookup_freshly_inserted_literal in Ef.
      refine (lookup_mut_spelled _ (length suff) _ _ _ _ _ _ _ (S4 _ En) Ef); [|lia|lia].
      intros b' u [p|p] u' Hu _ E; [|discriminate]. refine (update_literal_spelled _ _ _ _ _ _ Hu E). intros x y; apply Hk.
    - destruct (add_literal_node t _) as [t1| |] eqn:E1; try discriminate. cbn [bind].
      apply (add_literal_node_spelled b) in E1; [|exact H|apply lnew_spelled; exact Lt].
      apply update_literal_spelled; [intros m m'; apply Hk|exact E1].
  Qed.

  Definition short_literals (ts : list token) : Prop := forall l, In (Literal l) ts -> length l <= M.

  (** Behind a parser or at the root the bound is [M]; a trie that begins with a
      parser fits below any literal. *)
  Lemma insert_tokens_spelled sip toks : forall t p t' b,
    literals_apart toks -> short_literals toks -> spelled b t ->
    (match toks with Literal _ :: _ => M <= b | _ => True end) ->
    insert_tokens sip toks t p = Ret t' -> spelled b t'.
  Proof.
    induction toks as [|tok toks IH]; intros t p t' b A L H B; cbn [insert_tokens].
    { intros R. injection R as <-. exact H. }
    assert (literals_apart toks) as A' by (destruct toks; [exact Logic.I|apply A]).
    assert (short_literals toks) as L' by (intros l J; apply L; right; exact J).
    destruct tok as [q|l].
    - assert (forall m m', pspelled m ->
                (if is_empty toks then Ret (pnode_set_pattern m (Some (set_pattern_tokens p toks)))
                 else let* c := insert_tokens sip toks tree_new (set_pattern_tokens p toks) in
                      Ret (pnode_set_child m (Some c))) = Ret m' -> pspelled m') as Hk.
      { intros m m' Hm. destruct (is_empty toks).
        - intros R. injection R as <-. exact Hm.
        - destruct (insert_tokens sip toks tree_new _) as [c| |] eqn:E; try discriminate. cbn [bind].
          intros R. injection R as <-. intros d Hd. cbn [pnode_set_child pn_node] in Hd. injection Hd as <-.
          refine (IH _ _ _ M A' L' (spelled_new _) _ E). destruct toks as [|[?|?] ?]; auto. }
      apply spelled_iff in H. destruct H as (H1 & H2).
      unfold insert_parser. destruct (lookup_parser sip t q) as [i|].
      + destruct (update_nth _ i _) as [pcs'| |] eqn:E; try discriminate. cbn [bind].
        intros R. injection R as <-. apply update_nth_in in E. destruct E as (x & y & Hx & Ey & Hz).
        apply spelled_iff. cbn [literal_children parser_children]. split; [exact H1|].
        intros m Hm. destruct (Hz m Hm) as [->|Hi]; [|exact (H2 m Hi)].
        exact (Hk x y (H2 x Hx) Ey).
      + match goal with |- bind ?X _ = _ -> _ => destruct X as [e| |] eqn:E end; try discriminate.
        cbn [bind]. intros R. injection R as <-. apply spelled_iff.
        cbn [literal_children parser_children]. split; [exact H1|].
        intros m Hm. apply in_app_or in Hm. destruct Hm as [Hm|[<-|[]]]; [exact (H2 m Hm)|].
        refine (Hk _ _ _ E). intros c Hc. discriminate Hc.
    - apply insert_literal_spelled; [|specialize (L l (or_introl eq_refl)); lia|exact H]. intros b' m m' Hm.
      destruct toks as [|tok toks]; cbn [is_empty].
      + intros R. injection R as <-. exact Hm.
      + destruct (insert_tokens sip (tok :: toks) tree_new _) as [c| |] eqn:E; try discriminate. cbn [bind].
        intros R. injection R as <-. split; [exact (proj1 Hm)|].
        intros d Hd. cbn [lnode_set_node ln_node] in Hd. injection Hd as <-.
        refine (IH _ _ _ _ A' L' (spelled_new _) _ E). destruct tok; [exact Logic.I|]. destruct A as ([] & _).
  Qed.

  Lemma add_patterns_spelled sip ps : forall t t',
    (forall p, In p ps -> literals_apart (pat_tokens p) /\ short_literals (pat_tokens p)) -> spelled M t ->
    add_patterns sip t ps = Ret t' -> spelled M t'.
  Proof.
    induction ps as [|p ps IH]; intros t t' L H; cbn [add_patterns].
    { intros R. injection R as <-. exact H. }
    destruct (add_pattern sip t p) as [t1| |] eqn:E; try discriminate. cbn [bind].
    apply IH; [intros q Hq; apply L; right; exact Hq|].
    destruct (L p (or_introl eq_refl)) as (A & S). refine (insert_tokens_spelled _ _ _ _ _ _ A S H _ E).
    destruct (pat_tokens p) as [|[?|?] ?]; auto.
  Qed.

  Lemma spelled_within u t : within u t -> forall b, spelled b t -> exists b', spelled b' u /\ b' <= Nat.max b M.
  Proof.
    induction 1 as [t|n c u lcs pcs J E W IH|n c u lcs pcs J E W IH]; intros b H.
    - exists b. split; [exact H|lia].
    - inversion H as [? ? ? H1 H2 H3]; subst. destruct (IH _ (H2 n c J E)) as (b' & S & L). exists b'. split; [exact S|lia].
    - inversion H as [? ? ? H1 H2 H3]; subst. destruct (IH _ (H3 n c J E)) as (b' & S & L). exists b'. split; [exact S|lia].
  Qed.

  Lemma compact_within u t : within u t -> compact t -> compact u.
  Proof.
    induction 1 as [t|n c u lcs pcs J E W IH|n c u lcs pcs J E W IH]; intros H; [exact H| |];
      inversion H as [? ? _ _ _ _ H1 H2]; subst; apply IH; [exact (proj2 (H1 n c J E))|exact (proj2 (H2 n c J E))].
  Qed.

  (** The empty literal is only there where some literal ends, and there the
      search is over. *)
  Lemma search_down_some t l pos rest n : compact t -> search t l = Ret (GoDown pos rest) ->
    nth_error (literal_children t) pos = Some n -> ln_literal n <> [].
  Proof.
    intros Hc. unfold search. destruct (sv_binary_search_by _ _) as [[i|i]| |] eqn:Eb; try discriminate. cbn [bind].
    unfold search_prefix_is_found, get_unwrap. destruct (nth_error (literal_children t) i) as [m|] eqn:Em; [|discriminate]. cbn [bind].
    destruct (lnode_is_leaf m).
    { unfold search_leaf. destruct (str_eqb _ _); discriminate. }
    unfold search_not_leaf. destruct (Nat.ltb _ _) eqn:L; [discriminate|]. 
    destruct (_ && _)%bool eqn:Eh; [discriminate|]. destruct (ln_node m); [|discriminate].
    destruct (ltrunc l _) as [r| |]; try discriminate. cbn [bind]. intros E. injection E as <- <-. intros En.
    assert (m = n) as -> by congruence. intros El.
    assert (compact_literal n) as Cn.
    { inversion Hc as [lcs pcs _ _ H1 _ _ _]; subst. apply H1. exact (nth_error_In _ _ En). }
    unfold compact_literal in Cn. destruct (ln_has_value n); [|destruct Cn; contradiction].
    apply bsearch_hit in Eb. destruct Eb as (x & Ex & Eq0). assert (x = n) as -> by congruence.
    rewrite El in Eq0. unfold cmp_str in Eq0. destruct l as [|y l]; [cbn [is_empty orb andb] in Eh; discriminate Eh|discriminate Eq0].
  Qed.

  Lemma down_spelled t l k : goes_down t l k -> forall b, spelled b t -> compact t -> k <= b.
  Proof.
    induction 1 as [t l|t l pos rest n c k Es En Ec G IH]; intros b S C; [lia|].
    pose proof (search_down_some t l pos rest n C Es En) as N0.
    apply nth_error_In in En. destruct t as [lcs pcs]. cbn [literal_children] in En.
    inversion S as [? ? ? H1 H2 H3]; subst. inversion C as [? ? _ _ _ _ G1 G2]; subst.
    specialize (IH _ (H2 n c En Ec) (proj2 (G1 n c En Ec))). specialize (H1 n En).
    destruct (ln_literal n); [congruence|]. simpl length in *. lia.
  Qed.
End Spelled.

Theorem trie_descent sip ps t longest :
  Forall (fun p => exists s, utf8 s /\ compile s = Ret (Ok (pat_tokens p))) ps ->
  add_patterns sip tree_new ps = Ret t ->
  (forall p l, In p ps -> In (Literal l) (pat_tokens p) -> length l <= longest) ->
  forall u text k, within u t -> goes_down u text k -> k <= longest.
Proof.
  intros C E L u text k W G.
  assert (spelled longest longest t) as S.
  { refine (add_patterns_spelled longest sip ps _ _ _ (spelled_new _ _) E). intros p J. split; [|intros l; apply L; exact J].
    rewrite Forall_forall in C. destruct (C p J) as (s & U & Cs). destruct (compile_shaped s _ U Cs) as (_ & _ & A & _). exact A. }
  assert (compact t) as K.
  { apply (loaded_compact_any sip ps t); [|exact E]. revert C. apply Forall_impl. intros p (s & U & Cs). exact (compile_valid s _ U Cs). }
  destruct (spelled_within longest u t W longest S) as (b & Sb & Lb).
  pose proof (down_spelled longest u text k G b Sb (compact_within u t W K)). lia.
Qed.
