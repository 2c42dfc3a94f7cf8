(** * Collections of separate patterns *)
From Coq Require Import Sorted Permutation.
From Verif Require Import Base Base_facts Utils Utils_facts Parsers Pattern Spec Spec_source Spec_canon Spec_order Spec_hash Spec_separate
  Deser Spec_deser Document_claims
  TrieSpec_cases Trie_main Trie_claims Single_claims Source Source_claims Loading_claims Canon_claims Collide_claims Anyhash_claims.
From Verif Require Trie.

Lemma separate_cons p ps : separate (p :: ps) <->
  (exists l, starts_with p l) /\
  (forall q l m r, In q ps -> starts_with p l -> starts_with q m -> m <> l ++ r /\ l <> m ++ r) /\ separate ps.
Proof.
  unfold separate. rewrite !ordered_sorted. split.
  - intros (H1 & H2). inversion H2 as [|? ? S F]; subst. rewrite Forall_forall in F. split; [apply H1; left; reflexivity|].
    split; [|split; [intros q Hq; apply H1; right; exact Hq|exact S]].
    intros q l m r Hq. apply F. exact Hq.
  - intros (H1 & H2 & H3 & H4). split; [intros q [<-|Hq]; auto|]. constructor; [exact H4|].
    apply Forall_forall. intros q Hq l m r. apply H2. exact Hq.
Qed.

Lemma starts_same p l m : starts_with p l -> starts_with p m -> l = m.
Proof. intros (r & E) (r' & E'). congruence. Qed.

Lemma separate_apart ps : separate ps -> apart ps.
Proof.
  induction ps as [|p ps IH]; intros S; [split; [intros ? []|intros ? ? ? ? []]|].
  apply separate_cons in S. destruct S as (H1 & H2 & S). specialize (IH S). destruct IH as (I1 & I2).
  split; [intros q [<-|Hq]; auto|]. intros a b l m Ia Ib Sa Sb r E.
  destruct Ia as [<-|Ia], Ib as [<-|Ib].
  - pose proof (starts_same p l m Sa Sb) as <-. destruct E as [E|E]; rewrite <- (app_nil_r l) in E at 1; apply app_inv_head in E; auto.
  - destruct (H2 b l m r Ib Sa Sb) as (N1 & N2). destruct E as [E|E]; congruence.
  - destruct (H2 a m l r Ia Sb Sa) as (N1 & N2). destruct E as [E|E]; congruence.
  - apply (I2 a b l m Ia Ib Sa Sb r E).
Qed.

Lemma separate_first ps : separate ps -> first_parsers ps = [].
Proof.
  intros (H & _). induction ps as [|p ps IH]; [reflexivity|]. change (first_parsers (p :: ps)) with
    ((match pat_tokens p with Parser q0 :: _ => [q0] | _ => [] end) ++ first_parsers ps).
  rewrite IH by (intros q Hq; apply H; right; exact Hq).
  destruct (H p (or_introl eq_refl)) as (l & r & ->). reflexivity.
Qed.

Lemma separate_ideal sip ps : Forall valid_pattern ps -> separate ps ->
  Trie.add_patterns sip Trie.tree_new ps = Trie.add_patterns ideal_hash Trie.tree_new ps.
Proof.
  intros V S. apply trie_first_apart; [exact V| |apply ideal_injective].
  intros q q' Hq. rewrite (separate_first ps S) in Hq. destruct Hq.
Qed.

Lemma fits_prefix text p l : starts_with p l -> first_literal_fits text p = true <-> exists r, text = l ++ r.
Proof. intros (r & E). unfold first_literal_fits. rewrite E. apply prefixb_app. Qed.

(** At most one pattern has a first literal the text begins with. *)
Lemma separate_fits text ps : separate ps ->
  filter (first_literal_fits text) ps = [] \/ exists p, In p ps /\ filter (first_literal_fits text) ps = [p].
Proof.
  induction ps as [|p ps IH]; intros S; [left; reflexivity|]. apply separate_cons in S. destruct S as ((l & Hl) & H & S).
  cbn [filter]. destruct (first_literal_fits text p) eqn:F.
  - right. exists p. split; [left; reflexivity|]. f_equal. apply (fits_prefix text p l Hl) in F. destruct F as (r & E).
    destruct (filter (first_literal_fits text) ps) as [|q qs] eqn:Eq; [reflexivity|exfalso].
    assert (In q (filter (first_literal_fits text) ps)) as Hq by (rewrite Eq; left; reflexivity).
    apply filter_In in Hq. destruct Hq as (Hq & Fq). destruct S as (S & _). destruct (S q Hq) as (m & Hm).
    apply (fits_prefix text q m Hm) in Fq. destruct Fq as (r' & E'). rewrite E in E'.
    destruct (Trie_canon.prefix_either _ _ _ _ E') as [(w & Ew)|(w & Ew)]; destruct (H q l m w Hq Hl Hm); congruence.
  - destruct (IH S) as [E|(q & Hq & E)]; [left; exact E|right; exists q; split; [right; exact Hq|exact E]].
Qed.

Lemma trie_walk_fits p l text caps : starts_with p l -> trie_walk (pat_tokens p) text caps -> first_literal_fits text p = true.
Proof.
  intros Hl W. apply (fits_prefix text p l Hl). destruct Hl as (r & E). rewrite E in W.
  inversion W; subst; [exists []; rewrite app_nil_r; reflexivity|eauto].
Qed.

(** One pattern at most matches. *)
Lemma separate_unique ps text p p' caps caps' : separate ps -> In p ps -> In p' ps ->
  trie_walk (pat_tokens p) text caps -> trie_walk (pat_tokens p') text caps' -> p' = p /\ caps' = caps.
Proof.
  intros S Hp Hp' W W'. pose proof S as (S1 & _). destruct (S1 p Hp) as (l & Hl), (S1 p' Hp') as (l' & Hl').
  pose proof (trie_walk_fits p l text caps Hl W) as F. pose proof (trie_walk_fits p' l' text caps' Hl' W') as F'.
  assert (In p (filter (first_literal_fits text) ps)) as I by (apply filter_In; auto).
  assert (In p' (filter (first_literal_fits text) ps)) as I' by (apply filter_In; auto).
  destruct (separate_fits text ps S) as [E|(q & _ & E)]; rewrite E in I, I'; [destruct I|].
  destruct I as [<-|[]], I' as [<-|[]]. split; [reflexivity|]. symmetry. eapply trie_walk_unique; eassumption.
Qed.

Theorem separate_answers sip ps t text r :
  Forall valid_pattern ps -> separate ps -> Trie.add_patterns sip Trie.tree_new ps = Ret t ->
  utf8 text -> Trie.parse t text = Ret r ->
  match r with
  | Some r => exists p caps, classified ps text p caps /\ mr_pattern r = stripped p /\ reports caps (mr_values r)
  | None => forall p caps, In p ps -> ~ trie_walk (pat_tokens p) text caps
  end.
Proof.
  intros V S A U E. rewrite (separate_ideal sip ps V S) in A. pose proof (separate_apart ps S) as Ap.
  assert (collision_free ideal_hash ps) as C by apply ideal_collision_free, ideal_injective.
  destruct (separate_fits text ps S) as [F|(p & Hp & F)].
  - assert (forall p, In p ps -> first_literal_fits text p = false) as N.
    { intros p Hp. destruct (first_literal_fits text p) eqn:X; [|reflexivity].
      assert (In p (filter (first_literal_fits text) ps)) as I by (apply filter_In; auto). rewrite F in I. destruct I. }
    assert (r = None) as -> by (apply (trie_apart_none ideal_hash ps t text r); assumption).
    intros p caps Hp W. destruct S as (S & _). destruct (S p Hp) as (l & Hl).
    specialize (N p Hp). rewrite (trie_walk_fits p l text caps Hl W) in N. discriminate.
  - pose proof (trie_apart_fits ideal_hash ps t p text r V C Ap A U F E) as H. destruct r as [r|].
    + destruct H as (Ep & caps & W & R). exists p, caps. split; [|auto]. split; [exact Hp|]. split; [exact W|].
      intros p' caps' Hp' W'. apply (separate_unique ps text p p' caps caps' S Hp Hp' W W').
    + intros p' caps Hp' W. pose proof S as (S1 & _). destruct (S1 p' Hp') as (l & Hl).
      assert (In p' (filter (first_literal_fits text) ps)) as I
        by (apply filter_In; split; [exact Hp'|apply (trie_walk_fits p' l text caps Hl W)]).
      rewrite F in I. destruct I as [<-|[]]. apply (H caps W).
Qed.

(** ** Loading *)
Lemma separate_part a b : separate (a ++ b) -> separate a.
Proof.
  induction a as [|p a IH]; intros S; [split; [intros ? []|apply ordered_sorted; constructor]|].
  cbn [app] in S. apply separate_cons in S. destruct S as (H1 & H2 & S). apply separate_cons.
  split; [exact H1|]. split; [|apply IH; exact S]. intros q l m r Hq. apply H2. apply in_app_iff. left. exact Hq.
Qed.

Lemma separate_untested ps : separate ps -> separate (map untested ps).
Proof.
  induction ps as [|p ps IH]; intros S; [exact S|]. apply separate_cons in S. destruct S as (H1 & H2 & S).
  cbn [map]. apply separate_cons. split; [exact H1|]. split; [|apply IH; exact S].
  intros q l m r Hq. apply in_map_iff in Hq. destruct Hq as (q' & <- & Hq). intros Hl Hm. exact (H2 q' l m r Hq Hl Hm).
Qed.

Lemma reports_value caps r p k v : reports caps (mr_values r) -> pat_values (mr_pattern r) = pat_values p ->
  value_of r k v <-> named caps k v \/ ((forall w, ~ named caps k w) /\ static_value p k v).
Proof.
  intros (R & N) E. unfold value_of, static_value. rewrite E, (binds_in _ _ _ N).
  fold (maps_to (mr_values r) k v). rewrite R.
  assert (~ In k (map fst (mr_values r)) <-> forall w, ~ named caps k w) as ->; [|reflexivity]. split.
  - intros H w W. apply R in W. apply H. apply in_map_iff. exists (k, w). auto.
  - intros H I. apply in_map_iff in I. destruct I as ((k', w) & X & I). cbn [fst] in X. subst k'. apply (H w), R. exact I.
Qed.

Lemma same_uuid (ps : list pattern) p q : NoDup (map pat_uuid ps) -> In p ps -> In q ps -> pat_uuid p = pat_uuid q -> p = q.
Proof.
  induction ps as [|x ps IH]; intros N Hp Hq E; [destruct Hp|]. cbn [map] in N. inversion N as [|? ? Nx N']; subst.
  destruct Hp as [<-|Hp], Hq as [<-|Hq]; [reflexivity| | |apply IH; assumption]; exfalso; apply Nx.
  - rewrite E. apply in_map. exact Hq.
  - rewrite <- E. apply in_map. exact Hp.
Qed.

(** What a test message decides once its pattern is added. *)
Lemma separate_passes sip ps m p t :
  Forall valid_pattern ps -> separate ps -> NoDup (map pat_uuid ps) ->
  Trie.add_patterns sip Trie.tree_new (map untested ps) = Ret m -> In p ps -> utf8 (tm_message t) ->
  (exists r, Trie.parse m (tm_message t) = Ret r) ->
  passes (trie_ops sip) m p t <-> describes t p.
Proof.
  intros V S N A Hp U (r & E).
  pose proof (separate_answers sip _ m (tm_message t) r (untested_valid ps V) (separate_untested ps S) A U E) as H.
  unfold passes, describes. cbn [trie_ops mo_parse]. rewrite E. destruct r as [r|].
  - destruct H as (p0 & caps & (Hp0 & W & One) & Er & R). apply in_map_iff in Hp0. destruct Hp0 as (q & <- & Hq).
    split.
    + intros (r' & X & Eu & Sat & Val). injection X as <-. rewrite Er in Eu. cbn [stripped pat_uuid untested] in Eu.
      pose proof (same_uuid ps q p N Hq Hp Eu) as ->. exists caps. split; [exact W|]. rewrite Er in Sat. split; [exact Sat|].
      intros k v I. apply (reports_value caps r p k v R); [rewrite Er; reflexivity|apply Val; exact I].
    + intros (caps' & W' & Tg & Val).
      destruct (separate_unique ps (tm_message t) q p caps caps' S Hq Hp W W') as (-> & ->).
      exists r. split; [reflexivity|]. rewrite Er. split; [reflexivity|]. split; [rewrite Er; exact Tg|].
      intros k v I. apply (reports_value caps r q k v R); [rewrite Er; reflexivity|apply Val; exact I].
  - split.
    + intros (r & X & _). discriminate.
    + intros (caps & W & _). exfalso. apply (H (untested p) caps); [apply in_map; exact Hp|exact W].
Qed.

Lemma ok_app (ps : list pattern) : forall (a : list build_result) p b, map (fun p => Ok p) ps = a ++ Ok p :: b ->
  exists before after, ps = before ++ p :: after /\ a = map (fun p => Ok p) before.
Proof.
  induction ps as [|q ps IH]; intros [|x a] p b H; cbn [map app] in H; try discriminate.
  - injection H as <- _. exists [], ps. auto.
  - injection H as <- H. destruct (IH a p b H) as (before & after & -> & ->). exists (q :: before), after. auto.
Qed.

Lemma loaded_upto sip before p m1 m2 :
  loads (trie_ops sip) (mo_new (trie_ops sip)) (map (fun p => Ok p) before) m1 ->
  mo_add_pattern (trie_ops sip) m1 (untested p) = Ret m2 ->
  Trie.add_patterns sip Trie.tree_new (map untested (before ++ [p])) = Ret m2.
Proof.
  intros L A. apply loads_adds in L. destruct L as (_ & L). rewrite patterns_of_map in L.
  rewrite <- trie_adds, map_app. change Trie.tree_new with (mo_new (trie_ops sip)).
  rewrite adds_app, L. cbn [bind map adds]. rewrite A. reflexivity.
Qed.

Lemma upto_facts ps before (p : pattern) after : ps = before ++ p :: after ->
  Forall valid_pattern ps -> separate ps -> NoDup (map pat_uuid ps) ->
  Forall valid_pattern (before ++ [p]) /\ separate (before ++ [p]) /\ NoDup (map pat_uuid (before ++ [p])).
Proof.
  intros -> V S N. change (p :: after) with ([p] ++ after) in *. rewrite app_assoc in V, S, N.
  apply Forall_app in V. apply separate_part in S. rewrite map_app in N.
  split; [tauto|]. split; [exact S|]. clear - N.
  induction (map pat_uuid (before ++ [p])) as [|x l IH]; [constructor|]. cbn [app] in N. inversion N as [|? ? H N']; subst.
  constructor; [|apply IH; exact N']. intros I. apply H, in_app_iff. left. exact I.
Qed.

Theorem separate_loads sip ps :
  Forall valid_pattern ps -> utf8_tests ps -> separate ps -> NoDup (map pat_uuid ps) ->
  (exists x, from_source (trie_ops sip) (map (fun p => Ok p) ps) = Ret x) ->
  (exists m, from_source (trie_ops sip) (map (fun p => Ok p) ps) = Ret (Ok m)) <->
  (forall p t, In p ps -> In t (tests p) -> describes t p).
Proof.
  intros V U S N (x & E). split.
  - intros (m & L) p t Hp Ht. apply from_source_ok in L. apply in_split in Hp. destruct Hp as (before & after & Ep).
    pose proof (upto_facts ps before p after Ep V S N) as (V' & S' & N').
    rewrite Ep, map_app in L. cbn [map] in L. apply loads_split in L. destruct L as (m1 & m2 & L1 & A & T & _).
    pose proof (T t Ht) as P. pose proof (passes_defined _ _ _ _ P) as D.
    apply (separate_passes sip (before ++ [p]) m2 p t V' S' N' (loaded_upto sip before p m1 m2 L1 A)); [|apply (U p t)| |];
      try assumption; [apply in_app_iff; right; left; reflexivity|]. rewrite Ep. apply in_app_iff. right. left. reflexivity.
  - intros D. destruct x as [m|e]; [eauto|exfalso]. apply from_source_err in E.
    inversion E as [m0 before m' e0 after L0 E1 E2|m0 before m' p after m'' a t b e0 L A Et Hb F E1 E2]; subst.
    + assert (In (Err e) (map (fun p => Ok p) ps : list build_result)) as I.
      { match goal with H : _ = map _ ps |- _ => rewrite <- H end. apply in_app_iff. right. left. reflexivity. }
      apply in_map_iff in I. destruct I as (p & I & _). discriminate.
    + match goal with H : _ = map _ ps |- _ => symmetry in H; apply ok_app in H; destruct H as (bf & af & Ep & ->) end.
      pose proof (upto_facts ps bf p af Ep V S N) as (V' & S' & N').
      assert (In p ps) as Hp by (rewrite Ep; apply in_app_iff; right; left; reflexivity).
      assert (In t (tests p)) as Ht by (rewrite Et; apply in_app_iff; right; left; reflexivity).
      apply (passes_not_fails (trie_ops sip) m'' p t e0); [|exact F].
      apply (separate_passes sip (bf ++ [p]) m'' p t V' S' N' (loaded_upto sip bf p m' m'' L A));
        [apply in_app_iff; right; left; reflexivity|apply (U p t Hp Ht)|apply (fails_defined _ _ _ _ _ F)|apply (D p t Hp Ht)].
Qed.

(** What is loaded answers as [classified], with the test messages taken out. *)
Theorem separate_loaded sip ps m text r :
  Forall valid_pattern ps -> separate ps ->
  from_source (trie_ops sip) (map (fun p => Ok p) ps) = Ret (Ok m) ->
  utf8 text -> Trie.parse m text = Ret r ->
  match r with
  | Some r => exists p caps, classified ps text p caps /\ mr_pattern r = stripped (untested p) /\ reports caps (mr_values r)
  | None => forall p caps, In p ps -> ~ trie_walk (pat_tokens p) text caps
  end.
Proof.
  intros V S L U E. apply from_source_ok, loads_adds in L. destruct L as (_ & A). rewrite patterns_of_map, trie_adds in A.
  pose proof (separate_answers sip _ m text r (untested_valid ps V) (separate_untested ps S) A U E) as H. destruct r as [r|].
  - destruct H as (p0 & caps & (Hp0 & W & _) & Er & R). apply in_map_iff in Hp0. destruct Hp0 as (p & <- & Hp).
    exists p, caps. split; [|auto]. split; [exact Hp|]. split; [exact W|].
    intros p' caps' Hp' W'. apply (separate_unique ps text p p' caps caps' S Hp Hp' W W').
  - intros p caps Hp. apply (H (untested p) caps). apply in_map. exact Hp.
Qed.

(** ** Any order *)
Lemma separate_independent ps : separate ps -> forall p q, In p ps -> In q ps -> p = q \/ independent p q.
Proof.
  intros S. induction ps as [|x ps IH]; intros p q Hp Hq; [destruct Hp|]. apply separate_cons in S. destruct S as ((l & Hl) & H & S).
  assert (forall y, In y ps -> independent x y /\ independent y x) as K.
  { intros y Hy. destruct S as (S & _). destruct (S y Hy) as (m & Hm).
    assert (l <> m /\ m <> l /\ incomparable l m /\ incomparable m l) as (K1 & K2 & K3 & K4).
    { split; [|split; [|split]].
      - intros X. destruct (H y l m [] Hy Hl Hm) as (X1 & _). rewrite app_nil_r in X1. congruence.
      - intros X. destruct (H y l m [] Hy Hl Hm) as (X1 & _). rewrite app_nil_r in X1. congruence.
      - intros r [X|X]; destruct (H y l m r Hy Hl Hm); congruence.
      - intros r [X|X]; destruct (H y l m r Hy Hl Hm); congruence. }
    destruct Hl as (u & El), Hm as (w & Em). unfold independent. rewrite El, Em. auto. }
  destruct Hp as [<-|Hp], Hq as [<-|Hq]; [left; reflexivity|right; apply K; exact Hq|right; apply K; exact Hp|apply IH; assumption].
Qed.

Theorem separate_order sip ps qs t t' :
  Forall valid_pattern ps -> separate ps -> Permutation ps qs ->
  Trie.add_patterns sip Trie.tree_new ps = Ret t -> Trie.add_patterns sip Trie.tree_new qs = Ret t' -> t = t'.
Proof.
  intros V S P. apply (trie_order_any sip ps qs t t' V). right. split; [exact P|apply separate_independent; exact S].
Qed.

(** ** Documents *)
Lemma separate_perm ps qs : Permutation ps qs -> separate ps -> separate qs.
Proof.
  induction 1 as [|x ps qs P IH|x y ps|ps qs rs P1 IH1 P2 IH2]; intros S; auto.
  - apply separate_cons in S. destruct S as (H1 & H2 & S). apply separate_cons. split; [exact H1|]. split; [|auto].
    intros q l m r Hq. apply H2. apply (Permutation_in q (Permutation_sym P) Hq).
  - apply separate_cons in S. destruct S as (H1 & H2 & S). apply separate_cons in S. destruct S as (H3 & H4 & S).
    apply separate_cons. split; [exact H3|]. split.
    + intros q l m r [<-|Hq] Hl Hm; [|apply (H4 q l m r Hq Hl Hm)].
      destruct (H2 x m l r (or_introl eq_refl) Hm Hl). auto.
    + apply separate_cons. split; [exact H1|]. split; [|exact S].
      intros q l m r Hq. apply H2. right. exact Hq.
Qed.

Theorem separate_document parse_uuid sip v ps :
  ascii_document v -> file_value parse_uuid v ps -> separate ps -> NoDup (map pat_uuid ps) ->
  ((exists m, from_source (trie_ops sip) (map (fun p => Ok p) (rev ps)) = Ret (Ok m)) <->
   (forall p t, In p ps -> In t (tests p) -> describes t p)) /\
  forall m text, from_source (trie_ops sip) (map (fun p => Ok p) (rev ps)) = Ret (Ok m) -> ascii text = true ->
    (exists r p caps, Trie.parse m text = Ret (Some r) /\ classified ps text p caps /\
       mr_pattern r = stripped (untested p) /\ reports caps (mr_values r)) \/
    (Trie.parse m text = Ret None /\ forall p caps, In p ps -> ~ trie_walk (pat_tokens p) text caps).
Proof.
  intros A F S N. destruct (file_valid parse_uuid v ps (ascii_doc_utf8 v A) F) as (V & U).
  destruct (file_ascii parse_uuid v ps A F) as (As & _).
  destruct (ascii_document_loads parse_uuid sip v ps A F) as (D & _).
  assert (separate (rev ps)) as S' by exact (separate_perm _ _ (Permutation_rev ps) S).
  assert (Forall valid_pattern (rev ps)) as V' by (apply rev_incl; exact V).
  assert (Forall ascii_pattern (rev ps)) as As' by (apply rev_incl; exact As).
  split.
  - rewrite (separate_loads sip (rev ps) V'); try assumption.
    + split; intros H p t Hp; apply H; [rewrite <- in_rev|rewrite <- in_rev in Hp]; exact Hp.
    + intros p t Hp. apply U. apply in_rev. exact Hp.
    + rewrite map_rev. apply (Permutation_NoDup (Permutation_rev _) N).
  - intros m text L Ht. pose proof L as L'. apply from_source_ok, loads_adds in L'. destruct L' as (_ & Am).
    rewrite patterns_of_map, trie_adds in Am.
    destruct (trie_total sip (map untested (rev ps)) (untested_valid _ V') (untested_ascii _ As')) as (m' & Am' & P).
    cbn [trie_ops mo_new] in Am. rewrite Am in Am'. injection Am' as <-. destruct (P text Ht) as (r & E).
    pose proof (separate_loaded sip (rev ps) m text r V' S' L (ascii_utf8 text Ht) E) as H. rewrite E. destruct r as [r|].
    + left. destruct H as (p & caps & (Hp & W & One) & H). exists r, p, caps. split; [reflexivity|]. split; [|exact H].
      split; [apply in_rev; exact Hp|]. split; [exact W|]. intros p' caps' Hp'. apply One. apply in_rev in Hp'. exact Hp'.
    + right. split; [reflexivity|]. intros p caps Hp. apply H. apply in_rev in Hp. exact Hp.
Qed.
