(** * Relaxing the bounds of parsers *)
From Verif Require Import Base Base_facts Utils Parsers Pattern Source Spec Spec_table Spec_source Spec_canon Spec_separate Separate_claims Single_claims TrieSpec_cases Trie_main Table_claims Table_panics Deciders Tests Siphash Spec_relaxed Rename_claims Bytes_claims Ordered_claims.
From Verif Require Trie SuffixArray.

Lemma relaxed_captures s s' v w : relaxed_set s s' ->
  set_captures (sp_character_set s) (sp_min_length s) (sp_max_length s) v w ->
  set_captures (sp_character_set s') (sp_min_length s') (sp_max_length s') v w.
Proof.
  intros (_ & -> & A & B) (L & N0 & Mn & Mx). split; [exact L|]. split; [exact N0|]. split.
  - unfold lower_min, above_min in *. destruct (sp_min_length s') as [b|]; [|exact I]. destruct A as (a & E & Le). rewrite E in Mn. lia.
  - unfold higher_max, below_max in *. destruct (sp_max_length s') as [b|]; [|exact I]. destruct B as (a & E & Le). rewrite E in Mx. lia.
Qed.
Definition same_name (x y : parser * str) : Prop := name_of (fst y) = name_of (fst x) /\ snd y = snd x.
Lemma relaxed_parser q t' : relaxed_token (Parser q) t' -> exists q', t' = Parser q' /\ name_of q' = name_of q /\
  forall v w, captures q v w -> captures q' v w.
Proof.
  destruct t' as [q'|l'].
  - intros H. exists q'. split; [reflexivity|]. destruct q as [s|s|x], q' as [s'|s'|x']; cbn [relaxed_token] in H; try discriminate H.
    + split; [apply H|]. intros v w. apply relaxed_captures. exact H.
    + split; [apply H|]. intros v w. apply relaxed_captures. exact H.
    + injection H as ->. auto.
  - destruct q; intros H; discriminate H.
Qed.
Lemma relaxed_literal l t' : relaxed_token (Literal l) t' -> t' = Literal l.
Proof. destruct t' as [[]|]; exact (fun H => H). Qed.

Lemma relaxed_ne ts ts' : Forall2 relaxed_token ts ts' -> ts <> [] -> ts' <> [].
Proof. intros F0 N0; destruct F0; [congruence|discriminate]. Qed.
Lemma relaxed_walk ts text caps : trie_walk ts text caps -> forall ts', Forall2 relaxed_token ts ts' ->
  exists caps', trie_walk ts' text caps' /\ Forall2 same_name caps caps'.
Proof.
  induction 1 as [l|q v C|l ts text caps N0 Nl Nt W IH|q ts v text caps N0 C W IH]; intros ts' F; inversion F as [|? t' ? ts2 Ht F2]; subst.
  - inversion F2; subst. apply relaxed_literal in Ht. subst. exists []. split; constructor.
  - inversion F2; subst. apply relaxed_parser in Ht. destruct Ht as (q' & -> & En & Hc). exists [(q', v)]. split; [constructor; apply Hc; exact C|].
    constructor; [split; [exact En|reflexivity]|constructor].
  - apply relaxed_literal in Ht. subst. destruct (IH _ F2) as (caps' & W' & S). exists caps'. split; [|exact S].
    apply tw_literal; try assumption. exact (relaxed_ne _ _ F2 N0).
  - apply relaxed_parser in Ht. destruct Ht as (q' & -> & En & Hc). destruct (IH _ F2) as (caps' & W' & S). exists ((q', v) :: caps'). split.
    + apply tw_parser; [exact (relaxed_ne _ _ F2 N0)|apply Hc; exact C|exact W'].
    + constructor; [split; [exact En|reflexivity]|exact S].
Qed.
Lemma relaxed_table_walk ts text caps : table_walk ts text caps -> forall ts', Forall2 relaxed_token ts ts' ->
  exists caps', table_walk ts' text caps' /\ Forall2 same_name caps caps'.
Proof.
  induction 1 as [l text P|q v C|l ts w text caps N0 Nl Nt W IH|q ts v text caps N0 C W IH]; intros ts' F; inversion F as [|? t' ? ts2 Ht F2]; subst.
  - inversion F2; subst. apply relaxed_literal in Ht. subst. exists []. split; constructor. exact P.
  - inversion F2; subst. apply relaxed_parser in Ht. destruct Ht as (q' & -> & En & Hc). exists [(q', v)]. split; [constructor; apply Hc; exact C|].
    constructor; [split; [exact En|reflexivity]|constructor].
  - apply relaxed_literal in Ht. subst. destruct (IH _ F2) as (caps' & W' & S). exists caps'. split; [|exact S].
    apply bw_literal; try assumption. exact (relaxed_ne _ _ F2 N0).
  - apply relaxed_parser in Ht. destruct Ht as (q' & -> & En & Hc). destruct (IH _ F2) as (caps' & W' & S). exists ((q', v) :: caps'). split.
    + apply bw_parser; [exact (relaxed_ne _ _ F2 N0)|apply Hc; exact C|exact W'].
    + constructor; [split; [exact En|reflexivity]|exact S].
Qed.

Lemma same_named caps caps' : Forall2 same_name caps caps' -> forall k v, named caps' k v <-> named caps k v.
Proof.
  intros F. induction F as [|(q, w) (q', w') caps caps' (En & Ev) F IH]; intros k v; [reflexivity|]. cbn [fst snd] in *. subst w'.
  split; intros H; inversion H; subst.
  - apply named_here. congruence.
  - apply named_later; [congruence|apply IH; assumption].
  - apply named_here. congruence.
  - apply named_later; [congruence|apply IH; assumption].
Qed.
Lemma same_reports caps caps' m m' : Forall2 same_name caps caps' -> reports caps m -> reports caps' m' -> same_values m m'.
Proof.
  intros F (A & Na) (B & Nb). split; [exact Na|]. split; [exact Nb|]. intros k v. unfold maps_to in *. rewrite A, B. apply same_named. exact F.
Qed.

(** ** One pattern *)
Lemma trie_relaxed sip sip' p p' t t' text r o :
  relaxed p p' -> valid_pattern p -> valid_pattern p' -> collision_free sip [p] -> collision_free sip' [p'] ->
  Trie.add_patterns sip Trie.tree_new [p] = Ret t -> Trie.add_patterns sip' Trie.tree_new [p'] = Ret t' -> utf8 text ->
  Trie.parse t text = Ret (Some r) -> Trie.parse t' text = Ret o ->
  exists r', o = Some r' /\ mr_pattern r' = stripped p' /\ same_values (mr_values r) (mr_values r').
Proof.
  intros H V V' C C' A A' U E E'.
  pose proof (trie_one sip p t text (Some r) V C A U E) as (_ & caps & W & Rp).
  destruct (relaxed_walk _ _ _ W _ H) as (caps' & W' & S).
  pose proof (trie_one sip' p' t' text o V' C' A' U E') as Q. destruct o as [r'|]; [|destruct (Q _ W')].
  destruct Q as (Ep & caps2 & W2 & Rp'). exists r'. split; [reflexivity|]. split; [exact Ep|].
  rewrite (trie_walk_unique _ _ _ W2 _ W') in Rp'. exact (same_reports _ _ _ _ S Rp Rp').
Qed.
Lemma table_relaxed sip sip' p p' t t' text r o :
  relaxed p p' -> valid_pattern p -> valid_pattern p' -> collision_free sip [p] -> collision_free sip' [p'] ->
  SuffixArray.add_patterns sip SuffixArray.table_new [p] = Ret t -> SuffixArray.add_patterns sip' SuffixArray.table_new [p'] = Ret t' -> utf8 text ->
  SuffixArray.parse t text = Ret (Some r) -> SuffixArray.parse t' text = Ret o ->
  exists r', o = Some r' /\ mr_pattern r' = stripped p' /\ same_values (mr_values r) (mr_values r').
Proof.
  intros H V V' C C' A A' U E E'.
  pose proof (table_one sip p t text (Some r) V C A U E) as (_ & caps & W & Rp).
  destruct (relaxed_table_walk _ _ _ W _ H) as (caps' & W' & S).
  pose proof (table_one sip' p' t' text o V' C' A' U E') as Q. destruct o as [r'|]; [|destruct (Q _ W')].
  destruct Q as (Ep & caps2 & W2 & Rp'). exists r'. split; [reflexivity|]. split; [exact Ep|].
  rewrite (table_walk_unique _ _ _ W2 _ W') in Rp'. exact (same_reports _ _ _ _ S Rp Rp').
Qed.

(** ** Separate patterns *)
Lemma relaxed_first p p' l : relaxed p p' -> (starts_with p' l <-> starts_with p l).
Proof.
  unfold relaxed, starts_with. intros F. split; intros (rest & E); rewrite E in F.
  - inversion F as [|t ? ts ? Ht F2 E1 E2]; subst. destruct t as [q|l0].
    + apply relaxed_parser in Ht. destruct Ht as (q' & Z & _). discriminate Z.
    + apply relaxed_literal in Ht. injection Ht as ->. eauto.
  - inversion F as [|? t' ? ts' Ht F2]; subst. apply relaxed_literal in Ht. subst. eauto.
Qed.
Lemma relaxed_nth ps ps' i p' : Forall2 relaxed ps ps' -> nth_error ps' i = Some p' -> exists p, nth_error ps i = Some p /\ relaxed p p'.
Proof. intros F E. pose proof (forall2_nth _ _ _ i F) as Z. rewrite E in Z. inversion Z as [|p ? Rp E1]; subst. eauto. Qed.
Lemma relaxed_separate ps ps' : Forall2 relaxed ps ps' -> separate ps -> separate ps'.
Proof.
  intros F (A & B). split.
  - intros p' J. apply In_nth_error in J. destruct J as (i & J). destruct (relaxed_nth _ _ _ _ F J) as (p & J' & Rp).
    destruct (A p (nth_error_In _ _ J')) as (l & S). exists l. apply (relaxed_first p p'); assumption.
  - intros i j x y L Ei Ej l m r Sx Sy. destruct (relaxed_nth _ _ _ _ F Ei) as (x0 & Ei0 & Rx), (relaxed_nth _ _ _ _ F Ej) as (y0 & Ej0 & Ry).
    apply (relaxed_first _ _ _ Rx) in Sx. apply (relaxed_first _ _ _ Ry) in Sy. exact (B i j x0 y0 L Ei0 Ej0 l m r Sx Sy).
Qed.

Theorem separate_relaxed sip sip' ps ps' t t' text r o :
  Forall2 relaxed ps ps' -> Forall valid_pattern ps -> Forall valid_pattern ps' -> separate ps ->
  Trie.add_patterns sip Trie.tree_new ps = Ret t -> Trie.add_patterns sip' Trie.tree_new ps' = Ret t' -> utf8 text ->
  Trie.parse t text = Ret (Some r) -> Trie.parse t' text = Ret o ->
  exists i p p' r', nth_error ps i = Some p /\ nth_error ps' i = Some p' /\ mr_pattern r = stripped p /\
    o = Some r' /\ mr_pattern r' = stripped p' /\ same_values (mr_values r) (mr_values r').
Proof.
  intros F V V' S A A' U E E'. pose proof (relaxed_separate _ _ F S) as S'.
  pose proof (separate_answers sip ps t text (Some r) V S A U E) as (p & caps & (J & W & _) & Ep & Rp).
  apply In_nth_error in J. destruct J as (i & J). pose proof (forall2_nth _ _ _ i F) as Z. rewrite J in Z. inversion Z as [|? p' H E1 E2]; subst.
  destruct (relaxed_walk _ _ _ W _ H) as (caps' & W' & SN). symmetry in E2. pose proof (nth_error_In _ _ E2) as J'.
  pose proof (separate_answers sip' ps' t' text o V' S' A' U E') as Q. destruct o as [r'|]; [|destruct (Q _ _ J' W')].
  destruct Q as (p2 & caps2 & (_ & _ & One) & Ep' & Rp'). destruct (One _ _ J' W') as (-> & ->).
  exists i, p, p2, r'. split; [exact J|]. split; [exact E2|]. split; [exact Ep|]. split; [reflexivity|]. split; [exact Ep'|].
  exact (same_reports _ _ _ _ SN Rp Rp').
Qed.

(** ** Test messages *)
Lemma relaxed_describes t p p' : relaxed_only p p' -> describes t p -> describes t p'.
Proof.
  intros (H & _ & _ & Ev & Et & _) (caps & W & T & A). destruct (relaxed_walk _ _ _ W _ H) as (caps' & W' & S).
  exists caps'. split; [exact W'|]. split; [rewrite Et; exact T|]. intros k v J. destruct (A k v J) as [N0|(N0 & Sv)].
  - left. apply (same_named _ _ S). exact N0.
  - right. split; [intros w Z; apply (same_named _ _ S) in Z; exact (N0 w Z)|]. unfold static_value in *. rewrite Ev. exact Sv.
Qed.
Theorem relaxed_loads sip sip' ps ps' m x :
  Forall2 relaxed_only ps ps' -> Forall valid_pattern ps -> Forall valid_pattern ps' -> utf8_tests ps -> separate ps -> NoDup (map pat_uuid ps) ->
  from_source (trie_ops sip) (map (fun p => Ok p) ps) = Ret (Ok m) ->
  from_source (trie_ops sip') (map (fun p => Ok p) ps') = Ret x -> exists m', x = Ok m'.
Proof.
  intros F V V' UT S ND E E'.
  assert (Forall2 relaxed ps ps') as FR by (clear -F; induction F as [|? ? ? ? (H & _) F IH]; constructor; assumption).
  assert (map pat_uuid ps' = map pat_uuid ps) as EU by (clear -F; induction F as [|? ? ? ? (_ & _ & H & _) F IH]; [reflexivity|]; cbn; congruence).
  assert (forall p', In p' ps' -> exists p, In p ps /\ relaxed_only p p') as Back.
  { intros p' J. apply In_nth_error in J. destruct J as (i & J). pose proof (forall2_nth _ _ _ i F) as Z. rewrite J in Z. inversion Z as [|p ? H E1]; subst.
    exists p. split; [eapply nth_error_In; eauto|exact H]. }
  assert (utf8_tests ps') as UT'.
  { intros p' t J1 J2. destruct (Back _ J1) as (p & J & H). apply (UT p t J). destruct H as (_ & _ & _ & _ & _ & H). unfold tests in *. rewrite H in J2. exact J2. }
  assert (exists m', from_source (trie_ops sip') (map (fun p => Ok p) ps') = Ret (Ok m')) as (m' & Z).
  { apply (separate_loads sip' ps' V' UT' (relaxed_separate _ _ FR S)); [rewrite EU; exact ND|eauto|].
    intros p' t J1 J2. destruct (Back _ J1) as (p & J & H). apply (relaxed_describes t p p' H).
    apply (separate_loads sip ps V UT S ND); [eauto|eauto|exact J|]. destruct H as (_ & _ & _ & _ & _ & H). unfold tests in *. rewrite H in J2. exact J2. }
  exists m'. congruence.
Qed.
