(** * The shape of loaded tries *)
From Coq Require Import Sorted.
From Verif Require Import Base Base_facts Utils Utils_facts Parsers Pattern Spec Spec_panics Spec_canon Trie
  TrieSpec TrieSpec_facts TrieSpec_props Trie_refine Trie_main Trie_canon.

(** ** Levels without idle entries *)
Inductive full : level -> Prop :=
| full_level K P :
    NoDup (map fst P) ->
    (forall e, In e (map snd K ++ map snd P) -> fst e <> None \/ snd e <> None) ->
    (forall e c, In e (map snd K ++ map snd P) -> snd e = Some c -> c <> level_empty) ->
    (forall e c, In e (map snd K ++ map snd P) -> snd e = Some c -> full c) ->
    full (Level K P).
Definition efull (e : entry) : Prop :=
  (fst e <> None \/ snd e <> None) /\ forall c, snd e = Some c -> c <> level_empty /\ full c.

Lemma full_iff K P :
  full (Level K P) <-> NoDup (map fst P) /\ Forall efull (map snd K) /\ Forall efull (map snd P).
Proof.
  rewrite <- Forall_app, Forall_forall. split.
  - intros H. inversion H as [? ? N H1 H2 H3]; subst. split; [exact N|]. intros e He. split; [auto|]. intros c Hc.
    split; [apply (H2 e)|apply (H3 e)]; assumption.
  - intros (N & H). constructor; [exact N| | |]; intros e; [|intros c|intros c]; intros He; apply H; exact He.
Qed.

Lemma full_empty : full level_empty.
Proof. apply full_iff. repeat constructor. Qed.

(** [f] makes entries that are not idle. *)
Definition fills (f : entry -> entry) : Prop := efull (f (None, None)) /\ forall e, efull e -> efull (f e).

Lemma upsert_full l f K : fills f -> Forall efull (map snd K) -> Forall efull (map snd (upsert l f K)).
Proof.
  intros (F1 & F2) H. induction K as [|(k, e) K IH]; cbn [upsert map snd]; [constructor; [exact F1|constructor]|].
  inversion H; subst. destruct (str_cmp l k); cbn [map snd]; constructor; auto.
Qed.

Lemma at_parser_full P x f : fills f -> Forall efull (map snd P) -> Forall efull (map snd (at_parser P x f)).
Proof.
  intros (F1 & F2) H. induction P as [|(k, e) P IH]; cbn [at_parser map snd]; [constructor; [exact F1|constructor]|].
  inversion H; subst. destruct (parser_eq_dec k x); cbn [map snd]; constructor; auto.
Qed.

Lemma at_parser_In_fst P x f y : In y (map fst (at_parser P x f)) -> y = x \/ In y (map fst P).
Proof.
  induction P as [|(k, e) P IH]; cbn [at_parser map fst]; [intros [<-|[]]; auto|].
  destruct (parser_eq_dec k x) as [->|]; cbn [map fst]; intros [<-|H]; try (right; left; reflexivity); [right; right; exact H|].
  destruct (IH H); [auto|right; right; assumption].
Qed.

Lemma at_parser_nodup P x f : NoDup (map fst P) -> NoDup (map fst (at_parser P x f)).
Proof.
  induction P as [|(k, e) P IH]; cbn [at_parser map fst]; intros N.
  - repeat constructor. intros [].
  - inversion N as [|? ? N1 N2]; subst. destruct (parser_eq_dec k x) as [->|Hx]; cbn [map fst]; constructor; auto.
    intros H. apply at_parser_In_fst in H. destruct H; contradiction.
Qed.

Lemma enter_full L : full L -> forall l f, fills f -> full (enter L l f) /\ enter L l f <> level_empty.
Proof.
  induction 1 as [K P N H1 H2 H3 IH]. intros l f F.
  assert (full (Level K P)) as HF by (constructor; assumption).
  apply full_iff in HF. destruct HF as (_ & HK & HP).
  cbn [enter]. destruct (enter_literals enter (keys K) K l f) as [K'|] eqn:E.
  - apply enter_literals_some in E. destruct E as (A & k & po & c & C & -> & _ & ->). split.
    + apply full_iff. split; [exact N|]. split; [|exact HP].
      rewrite map_app in HK |- *. apply Forall_app in HK. destruct HK as (KA & KC). apply Forall_app. split; [exact KA|].
      cbn [map snd] in KC |- *. inversion KC as [|? ? K1 K2]; subst. constructor; [|exact K2].
      assert (In (po, Some c) (map snd (A ++ (k, (po, Some c)) :: C) ++ map snd P)) as Hin.
      { apply in_or_app. left. rewrite map_app. apply in_or_app. right. left. reflexivity. }
      split; [right; discriminate|]. intros c' Ec. cbn in Ec. injection Ec as <-.
      destruct (IH _ c Hin eq_refl (skipn (length k) l) f F) as (X & Y). split; assumption.
    + destruct A; discriminate.
  - split.
    + apply full_iff. split; [exact N|]. split; [apply upsert_full; assumption|exact HP].
    + destruct K as [|(k, e) K]; cbn [upsert]; [discriminate|]. destruct (str_cmp l k); discriminate.
Qed.

Lemma at_parser_nonempty P x f : at_parser P x f <> [].
Proof. destruct P as [|(k, e) P]; cbn [at_parser]; [discriminate|]. destruct (parser_eq_dec k x); discriminate. Qed.

Lemma s_insert_full toks : forall L p,
  full L -> full (s_insert toks L p) /\ (toks <> [] -> s_insert toks L p <> level_empty).
Proof.
  induction toks as [|tok rest IH]; intros L p F; [split; [exact F|congruence]|].
  cbn [s_insert].
  set (f := fun e : entry => if is_empty rest then (Some p, snd e) else (fst e, Some (s_insert rest level_empty p))).
  assert (fills f) as Ff.
  { destruct (IH level_empty p full_empty) as (I1 & I2). unfold fills, f. destruct rest as [|t2 rest]; cbn [is_empty].
    - split; [|intros e (_ & He)]; (split; [left; discriminate|]); [discriminate|exact He].
    - split; [|intros e _]; (split; [right; discriminate|]); intros c E; cbn in E; injection E as <-;
        (split; [apply I2; discriminate|exact I1]). }
  destruct tok as [x|l].
  - destruct L as [K P]. apply full_iff in F. destruct F as (N & FK & FP). cbn [lits_of pars_of]. split.
    + apply full_iff. split; [apply at_parser_nodup, N|]. split; [exact FK|apply at_parser_full; assumption].
    + intros _ E. injection E as _ E. apply (at_parser_nonempty _ _ _ E).
  - destruct (enter_full L F l f Ff) as (X & Y). split; [exact X|intros _; exact Y].
Qed.

Lemma s_adds_full ps : full (s_adds ps).
Proof.
  induction ps as [|p ps IH] using rev_ind; [apply full_empty|].
  rewrite s_adds_snoc. apply s_insert_full. exact IH.
Qed.

(** ** From levels to tries *)
Lemma starts_before_iff a b : starts_before a b <-> head_cmp a b = Lt.
Proof.
  destruct a as [|x a], b as [|y b]; cbn; try (split; [intros []|discriminate]); [tauto|].
  rewrite byte_cmp_lt. reflexivity.
Qed.

Lemma ordered_sorted {A} (R : A -> A -> Prop) l : ordered_pairs R l <-> StronglySorted R l.
Proof.
  split.
  - induction l as [|x l IH]; intros H; constructor.
    + apply IH. intros i j a b Hij Ha Hb. apply (H (S i) (S j) a b); [lia|exact Ha|exact Hb].
    + apply Forall_forall. intros y Hy. apply In_nth_error in Hy. destruct Hy as (i & Hi).
      apply (H 0 (S i) x y); [lia|reflexivity|exact Hi].
  - induction 1 as [|x l S IH F]; intros i j a b Hij Ha Hb; [destruct i; discriminate|].
    destruct j as [|j]; [lia|]. cbn in Hb. destruct i as [|i]; cbn in Ha.
    + injection Ha as <-. rewrite Forall_forall in F. apply F. apply (nth_error_In _ _ Hb).
    + apply (IH i j a b); [lia|exact Ha|exact Hb].
Qed.

Lemma sorted_impl {A} (R R' : A -> A -> Prop) l : (forall x y, R x y -> R' x y) -> StronglySorted R l -> StronglySorted R' l.
Proof. intros H. induction 1; constructor; auto. eapply Forall_impl; [|eassumption]. auto. Qed.

Lemma nodup_sorted {A B} (g : A -> B) l : NoDup (map g l) -> StronglySorted (fun x y => g x <> g y) l.
Proof.
  induction l as [|x l IH]; intros N; cbn in N; inversion N; subst; constructor; auto.
  apply Forall_forall. intros y Hy E. apply H1. rewrite E. apply in_map. exact Hy.
Qed.

Lemma abs_empty t okp okl : wf okp okl t -> abs t <> level_empty -> t <> Tree [] [].
Proof. intros _ H ->. apply H. reflexivity. Qed.

Lemma wf_compact okp okl t : wf okp okl t -> full (abs t) -> compact t.
Proof.
  induction 1 as [lcs pcs HS Hok Hw IH Hpok Hpw IHp]. intros F.
  rewrite abs_unfold in F. apply full_iff in F. destruct F as (N & FK & FP). rewrite Forall_forall in FK, FP.
  assert (forall n, In n lcs -> compact_literal n) as Hc.
  { intros n Hn. destruct (Hok n Hn) as (_ & O). specialize (FK (lnode_entry n)).
    unfold compact_literal. destruct n as [lit hv po co]; cbn in *. destruct hv.
    - destruct FK as (H & _).
      + apply in_map_iff. exists (lit, (po, option_map abs co)). split; [reflexivity|].
        unfold entries. apply in_flat_map. exists (LNode lit true po co). split; [exact Hn|left; reflexivity].
      + destruct H as [H|H]; [left; exact H|right]. destruct co; [discriminate|]. exfalso. apply H. reflexivity.
    - destruct (O eq_refl) as (Hl & c & -> & Hp & L & ->). split; [exact Hl|]. split; [reflexivity|].
      destruct c as [[|a [|b more]] pc]; cbn in L, Hp; try lia. subst pc. eauto. }
  assert (forall n e, In n pcs -> parser_entry n = e -> efull (snd e)) as Hp.
  { intros n e Hn <-. apply FP. apply in_map. apply in_map. exact Hn. }
  constructor.
  - apply ordered_sorted. eapply sorted_impl; [|exact HS]. intros x y. apply starts_before_iff.
  - apply ordered_sorted. apply (nodup_sorted pn_parser).
    rewrite map_map in N. erewrite map_ext; [exact N|]. intros []. reflexivity.
  - exact Hc.
  - intros n Hn. destruct (Hp n _ Hn eq_refl) as (H & _). unfold compact_parser. destruct n as [q po co]; cbn in *.
    destruct H as [H|H]; [left; exact H|right]. destruct co; [discriminate|]. exfalso. apply H. reflexivity.
  - intros n c Hn Ec. destruct (Hok n Hn) as (_ & O).
    destruct (ln_has_value n) eqn:Ev.
    + assert (efull (lnode_entry n)) as (_ & Fe).
      { apply FK. destruct n as [lit hv po co]; cbn in Ev |- *. subst hv.
        apply in_map_iff. exists (lit, (po, option_map abs co)). split; [reflexivity|].
        apply in_flat_map. exists (LNode lit true po co). split; [exact Hn|left; reflexivity]. }
      unfold lnode_entry in Fe. rewrite Ec in Fe. destruct (Fe (abs c) eq_refl) as (F1 & F2).
      split; [intros ->; apply F1; reflexivity|]. apply (IH n c Hn Ec F2).
    + destruct (O eq_refl) as (_ & c' & Ec' & Epc & L & _). assert (c' = c) as -> by congruence.
      split; [intros ->; cbn in L; lia|]. apply (IH n c Hn Ec).
      destruct c as [lc pc]. cbn in Epc. subst pc. rewrite abs_unfold. apply full_iff.
      split; [constructor|]. split; [|constructor]. apply Forall_forall. intros e He.
      apply FK. apply in_map_iff in He. destruct He as ((k, e') & <- & He). cbn.
      apply in_map_iff. exists (ln_literal n ++ k, e'). split; [reflexivity|].
      apply in_flat_map. exists n. split; [exact Hn|].
      rewrite (node_entries_inner n _ Ev Ec). apply in_map_iff. exists (k, e'). split; [reflexivity|exact He].
  - intros n c Hn Ec. destruct (Hp n _ Hn eq_refl) as (_ & Fe). destruct n as [q po co]; cbn in *. subst co.
    destruct (Fe (abs c) eq_refl) as (F1 & F2).
    split; [intros ->; apply F1; reflexivity|]. apply (IHp _ c Hn eq_refl F2).
Qed.

Theorem loaded_compact sip ps t :
  Forall valid_pattern ps -> collision_free sip ps -> add_patterns sip tree_new ps = Ret t -> compact t.
Proof.
  intros V C H. apply (adds_wf sip ps t V C) in H. destruct H as (W & E).
  apply (wf_compact _ _ t W). rewrite E. apply s_adds_full.
Qed.

(** ** Contents determine the trie *)
Lemma compact_wf t : compact t -> wf (fun _ => True) (fun _ => True) t.
Proof.
  revert t. fix IH 2. intros t [lcs pcs HS HP Hl Hp Hlc Hpc]. constructor.
  - apply ordered_sorted in HS. eapply sorted_impl; [|exact HS]. intros x y. apply starts_before_iff.
  - intros n Hn. specialize (Hl n Hn). split; [exact I|]. intros Ev. unfold compact_literal in Hl. rewrite Ev in Hl.
    destruct Hl as (H1 & H2 & a & b & more & H3). split; [exact H1|]. exists (Tree (a :: b :: more) []).
    split; [exact H3|]. split; [reflexivity|]. split; [cbn; lia|exact H2].
  - intros n c Hn Ec. destruct (Hlc n c Hn Ec) as (_ & H). exact (IH c H).
  - intros n Hn. split; [exact I|]. intros E. destruct (Hp n Hn); [assumption|contradiction].
  - intros n c Hn Ec. destruct (Hpc n c Hn Ec) as (_ & H). exact (IH c H).
Qed.

(** The level a content stands for. *)
Fixpoint level_of (c : content) : level :=
  match c with
  | Content l p =>
      Level (map (fun e => match e with (k, po, co) => (k, (po, option_map level_of co)) end) l)
            (map (fun e => match e with (q, po, co) => (q, (po, option_map level_of co)) end) p)
  end.

Lemma abs_content okp okl t : wf okp okl t -> abs t = level_of (content_of t).
Proof.
  induction 1 as [lcs pcs HS Hok Hw IH Hpok Hpw IHp]. clear HS Hok Hw Hpok Hpw. cbn [abs content_of level_of]. f_equal.
  - induction lcs as [|[lit hv po co] lcs IHl]; [reflexivity|]. cbn [flat_map]. rewrite map_app.
    rewrite <- IHl by (intros n c Hn; apply IH; right; exact Hn). f_equal.
    specialize (IH (LNode lit hv po co)). cbn [ln_node] in IH.
    assert (forall c, co = Some c -> abs c = level_of (content_of c)) as H by (intros c; apply IH; left; reflexivity).
    destruct hv.
    + destruct co as [c|]; cbn; [|reflexivity]. rewrite (H c eq_refl). reflexivity.
    + destruct co as [c|]; [|reflexivity]. rewrite (H c eq_refl). destruct (content_of c) as [l p].
      cbn [level_of lits_of content_literals]. rewrite !map_map. apply map_ext. intros ((k, po'), co'). reflexivity.
  - rewrite map_map. apply map_ext_in. intros [q po co] Hn. cbn.
    destruct co as [c|]; [|reflexivity]. cbn. rewrite (IHp _ c Hn eq_refl). reflexivity.
Qed.

Theorem compact_determined t t' : compact t -> compact t' -> content_of t = content_of t' -> t = t'.
Proof.
  intros H H' E. apply compact_wf in H. apply compact_wf in H'.
  apply (abs_inj _ _ _ _ t H t' H'). rewrite (abs_content _ _ t H), (abs_content _ _ t' H'), E. reflexivity.
Qed.
