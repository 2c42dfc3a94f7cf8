(** * What the trie holds determines the tree *)
From Coq Require Import Sorted.
From Verif Require Import Base Base_facts Utils Utils_facts Parsers Pattern Spec Spec_panics Trie TrieSpec TrieSpec_facts
  Trie_refine Trie_main.

Lemma block_split {A} (P : A -> bool) (a a' b b' : list A) :
  Forall (fun x => P x = true) a -> Forall (fun x => P x = true) a' ->
  Forall (fun x => P x = false) b -> Forall (fun x => P x = false) b' ->
  a ++ b = a' ++ b' -> a = a' /\ b = b'.
Proof.
  revert a'. induction a as [|x a IH]; intros [|x' a'] Ha Ha' Hb Hb' E; simpl in E.
  - auto.
  - subst b. inversion Ha'; subst. inversion Hb; subst. congruence.
  - subst b'. inversion Ha; subst. inversion Hb'; subst. congruence.
  - inversion E; subst x'. inversion Ha; subst. inversion Ha'; subst.
    destruct (IH a') as (-> & ->); auto.
Qed.

Lemma prefix_either {A} (a b c d : list A) : a ++ b = c ++ d -> (exists r, c = a ++ r) \/ exists r, a = c ++ r.
Proof.
  revert c. induction a as [|x a IH]; intros [|y c] E; simpl in E.
  - left. exists []. reflexivity.
  - left. eexists. reflexivity.
  - right. eexists. reflexivity.
  - inversion E; subst. destruct (IH c H1) as [(r & ->)|(r & ->)]; [left|right]; exists r; reflexivity.
Qed.

Lemma prepend_app a b (e : str * entry) : prepend (a ++ b) e = prepend a (prepend b e).
Proof. destruct e as (k, e). unfold prepend. simpl. rewrite app_assoc. reflexivity. Qed.

Lemma map_prepend_inj w (K K' : list (str * entry)) : map (prepend w) K = map (prepend w) K' -> K = K'.
Proof.
  revert K'. induction K as [|(k, e) K IH]; intros [|(k', e') K'] E; simpl in E; try discriminate; [reflexivity|].
  inversion E. apply app_inv_head in H0. subst. f_equal. auto.
Qed.

(** Two branching lists of keys below two prefixes: the prefixes are the same. *)
Lemma branching_prefix w r (K K' : list (str * entry)) :
  branching (keys K) -> map (prepend w) K = map (prepend (w ++ r)) K' -> r = [].
Proof.
  intros (a & b & Ha & Hb & N & HL) E. destruct r as [|x r]; [reflexivity|exfalso].
  assert (K = map (prepend (x :: r)) K') as ->.
  { apply (map_prepend_inj w). rewrite E, map_map. apply map_ext. intros e. apply prepend_app. }
  rewrite keys_prepend, in_map_iff in Ha, Hb. destruct Ha as (a' & <- & _), Hb as (b' & <- & _).
  cbn in HL. rewrite byte_eqb_refl in HL. discriminate.
Qed.

Section Canon.
  Variables (okp okp' : parser -> Prop) (okl okl' : str -> Prop).

  Lemma node_entries_nonempty okp0 okl0 lcs pcs n :
    wf okp0 okl0 (Tree lcs pcs) -> In n lcs -> exists e r, node_entries n = e :: r.
  Proof.
    intros W Hn. destruct (node_has_key okp0 okl0 _ W n Hn) as (k & Hk).
    destruct (node_entries n); [destruct Hk|]. eauto.
  Qed.

  Lemma node_heads okl0 n : lnode_ok okl0 n ->
    Forall (fun e : str * entry => head_cmp (fst e) (ln_literal n) = Eq) (node_entries n).
  Proof.
    intros H. apply Forall_forall. intros e He.
    rewrite (node_key_head okl0 n (fst e) (ln_literal n) H); [apply (to_refl _ head_cmp_order)|].
    apply in_map. exact He.
  Qed.

  (** A list of literal children is determined by its entries, when this holds below. *)
  Lemma entries_inj lcs : forall lcs' pcs pcs',
    wf okp okl (Tree lcs pcs) -> wf okp' okl' (Tree lcs' pcs') ->
    (forall n n', In n lcs -> In n' lcs' -> node_entries n = node_entries n' -> n = n') ->
    entries lcs = entries lcs' -> lcs = lcs'.
  Proof.
    induction lcs as [|n lcs IH]; intros lcs' pcs pcs' W W' Hn E.
    - destruct lcs' as [|n' lcs']; [reflexivity|].
      destruct (node_entries_nonempty _ _ _ _ n' W' (or_introl eq_refl)) as (e & r & Ee).
      rewrite entries_cons, Ee in E. discriminate.
    - destruct lcs' as [|n' lcs'].
      { destruct (node_entries_nonempty _ _ _ _ n W (or_introl eq_refl)) as (e & r & Ee).
        rewrite entries_cons, Ee in E. discriminate. }
      destruct (node_entries_nonempty _ _ _ _ n W (or_introl eq_refl)) as (e & r & Ee).
      destruct (node_entries_nonempty _ _ _ _ n' W' (or_introl eq_refl)) as (e' & r' & Ee').
      rewrite !entries_cons in E.
      inversion W as [? ? HS Hok Hw Hpok Hpw]; subst. inversion W' as [? ? HS' Hok' Hw' Hpok' Hpw']; subst.
      inversion HS as [|? ? S1 S2]; subst. inversion HS' as [|? ? S1' S2']; subst.
      assert (head_cmp (ln_literal n) (ln_literal n') = Eq) as Hnn.
      { pose proof (node_heads _ n (Hok n (or_introl eq_refl))) as H1.
        pose proof (node_heads _ n' (Hok' n' (or_introl eq_refl))) as H2.
        rewrite Ee in H1. rewrite Ee' in H2. apply Forall_inv in H1. apply Forall_inv in H2. cbv beta in H1, H2.
        assert (e = e') as <- by (rewrite Ee, Ee' in E; simpl in E; congruence).
        apply (to_eq_sym _ head_cmp_order) in H1.
        rewrite (to_eq_l _ head_cmp_order _ _ _ H1). assumption. }
      destruct (block_split (fun e => match head_cmp (fst e) (ln_literal n) with Eq => true | _ => false end)
                  (node_entries n) (node_entries n') (entries lcs) (entries lcs')) as (E1 & E2); auto.
      + eapply Forall_impl; [|apply (node_heads okl); apply Hok; left; reflexivity].
        intros a Ha. cbv beta in Ha. rewrite Ha. reflexivity.
      + eapply Forall_impl; [|apply (node_heads okl'); apply Hok'; left; reflexivity].
        intros a Ha. cbv beta in Ha. rewrite (to_eq_r _ head_cmp_order _ _ _ Hnn), Ha. reflexivity.
      + apply Forall_forall. intros a Ha.
        assert (In (fst a) (keys (entries lcs))) as Hk by (apply in_map; exact Ha).
        apply entries_keys in Hk. destruct Hk as (m & Hm & Hk).
        rewrite (node_key_head okl m _ _ (Hok m (or_intror Hm)) Hk).
        rewrite Forall_forall in S2. specialize (S2 m Hm). unfold head_lt in S2.
        apply (to_lt_gt _ head_cmp_order) in S2. rewrite S2. reflexivity.
      + apply Forall_forall. intros a Ha.
        assert (In (fst a) (keys (entries lcs'))) as Hk by (apply in_map; exact Ha).
        apply entries_keys in Hk. destruct Hk as (m & Hm & Hk).
        rewrite (node_key_head okl' m _ _ (Hok' m (or_intror Hm)) Hk).
        rewrite Forall_forall in S2'. specialize (S2' m Hm). unfold head_lt in S2'.
        rewrite (to_eq_r _ head_cmp_order _ _ _ Hnn).
        apply (to_lt_gt _ head_cmp_order) in S2'. rewrite S2'. reflexivity.
      + f_equal; [apply Hn; [left; reflexivity|left; reflexivity|exact E1]|].
        apply (IH lcs' pcs pcs'); [| |intros; apply Hn; auto; right; assumption|exact E2].
        * constructor; auto; intros; [apply Hok; right; assumption|eapply Hw; [right|]; eassumption].
        * constructor; auto; intros; [apply Hok'; right; assumption|eapply Hw'; [right|]; eassumption].
  Qed.

  Lemma abs_inj t : wf okp okl t -> forall t', wf okp' okl' t' -> abs t = abs t' -> t = t'.
  Proof.
    induction 1 as [lcs pcs HS Hok Hw IH Hpok Hpw IHp]. intros [lcs' pcs'] W' E.
    rewrite !abs_unfold in E. injection E as El Ep. f_equal.
    - pose proof W' as W0. inversion W0 as [? ? HS' Hok' Hw' Hpok' Hpw']; subst.
      apply (entries_inj lcs lcs' pcs pcs'); [constructor; assumption|exact W'| |exact El].
      intros n n' Hn Hn' E. pose proof (Hok n Hn) as (_ & O). pose proof (Hok' n' Hn') as (_ & O').
      specialize (Hw n). specialize (IH n). specialize (Hw' n').
      destruct n as [lit hv po co], n' as [lit' hv' po' co']; cbn [ln_literal ln_has_value ln_pattern ln_node node_entries] in *.
      assert (forall c, lits_of (abs c) = entries (literal_children c)) as HL by (intros [? ?]; reflexivity).
      destruct hv, hv'.
      + injection E as -> -> Ec. f_equal.
        destruct co as [c|], co' as [c'|]; cbn [option_map] in Ec; try discriminate; [|reflexivity].
        f_equal. apply (IH c Hn eq_refl c'); [apply Hw'; auto|congruence].
      + exfalso. destruct (O' eq_refl) as (_ & c & -> & _ & L & _).
        destruct (wf_branching okp' okl' c (Hw' c Hn' eq_refl) L) as (a & b & Ha & Hb & N & _).
        destruct (lits_of (abs c)) as [|e1 [|e2 K]]; cbn in E; try discriminate.
        cbn in Ha, Hb. destruct Ha as [<-|[]], Hb as [<-|[]]. apply N. reflexivity.
      + exfalso. destruct (O eq_refl) as (_ & c & -> & _ & L & _).
        destruct (wf_branching okp okl c (Hw c Hn eq_refl) L) as (a & b & Ha & Hb & N & _).
        destruct (lits_of (abs c)) as [|e1 [|e2 K]]; cbn in E; try discriminate.
        cbn in Ha, Hb. destruct Ha as [<-|[]], Hb as [<-|[]]. apply N. reflexivity.
      + destruct (O eq_refl) as (_ & c & -> & Hp & L & ->), (O' eq_refl) as (_ & c' & -> & Hp' & L' & ->).
        pose proof (wf_branching okp okl c (Hw c Hn eq_refl) L) as B.
        pose proof (wf_branching okp' okl' c' (Hw' c' Hn' eq_refl) L') as B'.
        assert (lit = lit') as <-.
        { pose proof B as (a & b & Ha0 & _).
          assert (In (lit ++ a) (keys (map (prepend lit) (lits_of (abs c))))) as Hk
            by (rewrite keys_prepend; apply in_map; exact Ha0).
          rewrite E, keys_prepend, in_map_iff in Hk. destruct Hk as (k & Hk & _).
          destruct (prefix_either _ _ _ _ Hk) as [(r & ->)|(r & ->)].
          - rewrite (branching_prefix lit' r _ _ B' (eq_sym E)), app_nil_r. reflexivity.
          - rewrite (branching_prefix lit r _ _ B E), app_nil_r. reflexivity. }
        apply map_prepend_inj in E. f_equal. f_equal. apply (IH c Hn eq_refl c'); [apply Hw'; auto|].
        destruct c as [lc pc], c' as [lc' pc']. cbn [parser_children] in Hp, Hp'. subst.
        rewrite !HL in E. rewrite !abs_unfold. cbn [literal_children] in E. rewrite E. reflexivity.
    - inversion W' as [? ? _ _ _ _ Hpw']; subst. clear - Ep Hpw' IHp.
      revert pcs' Ep Hpw'. induction pcs as [|[q po co] pcs IH]; intros [|[q' po' co'] pcs'] E H; cbn in E; try discriminate; [reflexivity|].
      injection E as -> -> Ec E. f_equal.
      + f_equal. destruct co as [c|], co' as [c'|]; cbn in Ec; try discriminate; [|reflexivity].
        f_equal. apply (IHp _ c (or_introl eq_refl) eq_refl); [|congruence].
        apply (H _ c' (or_introl eq_refl)). reflexivity.
      + apply IH; auto.
        * intros n c Hn. apply IHp. right. exact Hn.
        * intros n c Hn. apply H. right. exact Hn.
  Qed.
End Canon.

Theorem trie_canonical sip sip' ps qs t t' :
  Forall valid_pattern ps -> collision_free sip ps -> Forall valid_pattern qs -> collision_free sip' qs ->
  add_patterns sip tree_new ps = Ret t -> add_patterns sip' tree_new qs = Ret t' ->
  s_adds ps = s_adds qs -> t = t'.
Proof.
  intros V C V' C' H H' E.
  apply (adds_wf sip ps t V C) in H. apply (adds_wf sip' qs t' V' C') in H'.
  destruct H as (W & A), H' as (W' & A'). apply (abs_inj _ _ _ _ t W t' W'). congruence.
Qed.
