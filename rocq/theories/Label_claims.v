(** * Uuids and names are labels: proofs for C158 and C159 *)
From Verif Require Import Base Base_facts Utils Parsers Pattern Source Spec Spec_source Source_claims Loading_claims Spec_label Label_facts.
From Verif Require Trie SuffixArray.

Lemma str_eqb_spec (a b : str) : reflect (a = b) (str_eqb a b).
Proof. destruct (str_eqb a b) eqn:E; constructor; [apply str_eqb_eq, E|apply str_eqb_neq, E]. Qed.

Section Loader.
  Context {M : Type} (ops : matcher_ops M) (f : uuid -> uuid) (h : option str -> option str) (mm : M -> M).
  Hypothesis mm_new : mm (mo_new ops) = mo_new ops.
  Hypothesis mm_add : forall m p, mo_add_pattern ops (mm m) (relabel f h p) = omap mm (mo_add_pattern ops m p).
  Hypothesis mm_parse : forall m text, mo_parse ops (mm m) text = omap (option_map (rmap (relabel f h))) (mo_parse ops m text).

  Lemma mm_answers m : answers_relabelled f h ops m (mm m).
  Proof. intros text. rewrite mm_parse. destruct (mo_parse ops m text) as [[r|]| |]; reflexivity. Qed.

  Lemma test_result_relabel t r :
    test_result t (rmap (relabel f h) r) = match test_result t r with Ok x => Ok x | Err e => Err (relabel_test_error f e) end.
  Proof.
    destruct r as [p vs]. unfold test_result, test_tags.
    assert (V : test_values t (rmap (relabel f h) (MatchResult p vs)) =
      match test_values t (MatchResult p vs) with Ok x => Ok x | Err e => Err (relabel_test_error f e) end).
    { unfold test_values. change (merge_values (rmap (relabel f h) (MatchResult p vs))) with (merge_values (MatchResult p vs)).
      generalize (merge_values (MatchResult p vs)) as m. intros m. induction (tm_values t) as [|[k v] l IH]; cbn; [reflexivity|].
      unfold test_value. destruct (bmap_get m k) as [w|]; [|reflexivity]. destruct (str_eqb v w); [exact IH|reflexivity]. }
    change (rmap (relabel f h) (MatchResult p vs)) with (MatchResult (relabel f h p) vs) in *. cbn [mr_pattern relabel pat_tags].
    change (Pattern _ _ _ _ _ _) with (relabel f h p).
    destruct (tm_tags t) as [es|] eqn:Et; [|exact V]. destruct (pat_tags p) as [gs|] eqn:Eg.
    - enough (X : test_expected_tags t es gs (MatchResult (relabel f h p) vs) =
        match test_expected_tags t es gs (MatchResult p vs) with Ok x => Ok x | Err e => Err (relabel_test_error f e) end).
      { rewrite X. destruct (test_expected_tags t es gs (MatchResult p vs)); [exact V|reflexivity]. }
      clear V Et. induction es as [|e es IH]; cbn; [reflexivity|]. destruct (existsb (str_eqb e) gs); [exact IH|]. reflexivity.
    - unfold report_unexpected_tags_error. cbn. rewrite Et, Eg. reflexivity.
  Qed.

  Definition relabel_checked (c : result unit build_error) : result unit build_error :=
    match c with Ok x => Ok x | Err e => Err (relabel_error f e) end.

  Lemma check_relabel m l u : uuids_apart f ->
    check_test_messages ops (mm m) l (f u) = omap relabel_checked (check_test_messages ops m l u).
  Proof.
    intros A. induction l as [|t l IH]; cbn; [reflexivity|]. rewrite mm_parse, bind_omap, omap_bind. apply bind_ext.
    intros [r|] _; cbn [option_map]; [|reflexivity]. unfold check_test_message. cbn [rmap mr_pattern relabel pat_uuid].
    destruct (str_eqb_spec (pat_uuid (mr_pattern r)) u) as [E|E].
    - unfold uuid_eqb. rewrite E, !str_eqb_refl. change (MatchResult (relabel f h (mr_pattern r)) (mr_values r)) with (rmap (relabel f h) r).
      rewrite test_result_relabel. destruct (test_result t r); [exact IH|reflexivity].
    - unfold uuid_eqb. destruct (str_eqb_spec (f (pat_uuid (mr_pattern r))) (f u)) as [E'|E']; [apply A in E'; contradiction|].
      destruct (str_eqb_spec (pat_uuid (mr_pattern r)) u); [contradiction|]. reflexivity.
  Qed.

  Lemma check_relabel_ok m l u :
    check_test_messages ops m l u = Ret (Ok tt) -> check_test_messages ops (mm m) l (f u) = Ret (Ok tt).
  Proof.
    induction l as [|t l IH]; cbn; [reflexivity|]. rewrite mm_parse. destruct (mo_parse ops m (tm_message t)) as [[r|]| |]; cbn; try discriminate.
    unfold check_test_message, uuid_eqb. cbn [rmap mr_pattern relabel pat_uuid].
    destruct (str_eqb_spec (pat_uuid (mr_pattern r)) u) as [->|E]; [|discriminate]. rewrite str_eqb_refl.
    change (MatchResult (relabel f h (mr_pattern r)) (mr_values r)) with (rmap (relabel f h) r).
    rewrite test_result_relabel. destruct (test_result t r); [exact IH|discriminate].
  Qed.

  Lemma untested_relabel p : untested (relabel f h p) = relabel f h (untested p).
  Proof. reflexivity. Qed.

  Lemma loop_relabel src : uuids_apart f -> forall m,
    loading_relabelled f h ops (from_source_loop ops m src) (from_source_loop ops (mm m) (map (relabel_item f h) src)).
  Proof.
    intros A. induction src as [|[p|e] src IH]; intros m; cbn [map relabel_item from_source_loop].
    - apply mm_answers.
    - unfold check_pattern. rewrite !extract_spec. cbn [bind]. rewrite untested_relabel, mm_add.
      destruct (mo_add_pattern ops m (untested p)) as [m1| |]; cbn [omap bind]; try exact I.
      change (tests (relabel f h p)) with (tests p). change (pat_uuid (relabel f h p)) with (f (pat_uuid p)).
      rewrite (check_relabel _ _ _ A). destruct (check_test_messages ops m1 (rev (tests p)) (pat_uuid p)) as [[[]|e]| |]; cbn; try exact I.
      + apply IH.
      + reflexivity.
    - cbn. reflexivity.
  Qed.

  Theorem loading_labels src : uuids_apart f ->
    loading_relabelled f h ops (from_source ops src) (from_source ops (map (relabel_item f h) src)).
  Proof. intros A. unfold from_source. rewrite <- mm_new at 2. apply loop_relabel, A. Qed.

  Lemma loop_merged src : forall m m', from_source_loop ops m src = Ret (Ok m') ->
    from_source_loop ops (mm m) (map (relabel_item f h) src) = Ret (Ok (mm m')).
  Proof.
    induction src as [|[p|e] src IH]; intros m m'; cbn [map relabel_item from_source_loop].
    - intros E. injection E as <-. reflexivity.
    - unfold check_pattern. rewrite !extract_spec. cbn [bind]. rewrite untested_relabel, mm_add.
      destruct (mo_add_pattern ops m (untested p)) as [m1| |]; cbn [omap bind]; try discriminate.
      change (tests (relabel f h p)) with (tests p). change (pat_uuid (relabel f h p)) with (f (pat_uuid p)).
      destruct (check_test_messages ops m1 (rev (tests p)) (pat_uuid p)) as [[[]|e]| |] eqn:E; cbn; try discriminate.
      rewrite (check_relabel_ok _ _ _ E). cbn. apply IH.
    - cbn. discriminate.
  Qed.

  Theorem loading_merged src m : from_source ops src = Ret (Ok m) ->
    exists m', from_source ops (map (relabel_item f h) src) = Ret (Ok m') /\ answers_relabelled f h ops m m'.
  Proof.
    intros E. exists (mm m). split; [|apply mm_answers]. unfold from_source. rewrite <- mm_new. apply loop_merged, E.
  Qed.

  Lemma ignoring_relabel src : uuids_apart f -> forall m,
    adding_relabelled f h ops (from_source_ignore_errors_loop ops m src)
      (from_source_ignore_errors_loop ops (mm m) (map (relabel_item f h) src)).
  Proof.
    intros A. induction src as [|[p|e] src IH]; intros m; cbn [map relabel_item from_source_ignore_errors_loop].
    - apply mm_answers.
    - unfold check_pattern. rewrite !extract_spec. cbn [bind]. rewrite untested_relabel, mm_add.
      destruct (mo_add_pattern ops m (untested p)) as [m1| |]; cbn [omap bind]; try exact I.
      change (tests (relabel f h p)) with (tests p). change (pat_uuid (relabel f h p)) with (f (pat_uuid p)).
      rewrite (check_relabel _ _ _ A). destruct (check_test_messages ops m1 (rev (tests p)) (pat_uuid p)) as [c| |]; cbn; try exact I.
      apply IH.
    - cbn. apply IH.
  Qed.

  Theorem ignoring_labels src : uuids_apart f ->
    adding_relabelled f h ops (from_source_ignore_errors ops src) (from_source_ignore_errors ops (map (relabel_item f h) src)).
  Proof. intros A. unfold from_source_ignore_errors. rewrite <- mm_new at 2. apply ignoring_relabel, A. Qed.

  Theorem adds_labels ps : adding_relabelled f h ops (adds ops (mo_new ops) ps) (adds ops (mo_new ops) (map (relabel f h) ps)).
  Proof.
    rewrite <- mm_new at 2. generalize (mo_new ops) as m. induction ps as [|p ps IH]; intros m; cbn.
    - apply mm_answers.
    - rewrite mm_add, bind_omap. destruct (mo_add_pattern ops m p); cbn; [apply IH|exact I|exact I].
  Qed.
End Loader.

Lemma relabel_tokens f h p : pat_tokens (relabel f h p) = pat_tokens p.
Proof. reflexivity. Qed.
Lemma relabel_set f h p toks : relabel f h (set_pattern_tokens p toks) = set_pattern_tokens (relabel f h p) toks.
Proof. reflexivity. Qed.

Theorem trie_labels f h sip src : uuids_apart f ->
  loading_relabelled f h (trie_ops sip) (from_source (trie_ops sip) src) (from_source (trie_ops sip) (map (relabel_item f h) src)) /\
  adding_relabelled f h (trie_ops sip) (from_source_ignore_errors (trie_ops sip) src)
    (from_source_ignore_errors (trie_ops sip) (map (relabel_item f h) src)).
Proof.
  intros A.
  pose proof (trie_add_map (relabel f h) (relabel_tokens f h) (relabel_set f h) sip) as Ha.
  pose proof (trie_parse_map (relabel f h)) as Hp. split.
  - apply (loading_labels (trie_ops sip) f h (tmap (relabel f h))); auto.
  - apply (ignoring_labels (trie_ops sip) f h (tmap (relabel f h))); auto.
Qed.
Theorem table_labels f h sip src : uuids_apart f ->
  loading_relabelled f h (table_ops sip) (from_source (table_ops sip) src) (from_source (table_ops sip) (map (relabel_item f h) src)) /\
  adding_relabelled f h (table_ops sip) (from_source_ignore_errors (table_ops sip) src)
    (from_source_ignore_errors (table_ops sip) (map (relabel_item f h) src)).
Proof.
  intros A.
  pose proof (table_add_map (relabel f h) (relabel_tokens f h) (relabel_set f h) sip) as Ha.
  pose proof (table_parse_map (relabel f h)) as Hp. split.
  - apply (loading_labels (table_ops sip) f h (smap (relabel f h))); auto.
  - apply (ignoring_labels (table_ops sip) f h (smap (relabel f h))); auto.
Qed.
Theorem trie_merged f h sip src m : from_source (trie_ops sip) src = Ret (Ok m) ->
  exists m', from_source (trie_ops sip) (map (relabel_item f h) src) = Ret (Ok m') /\ answers_relabelled f h (trie_ops sip) m m'.
Proof.
  apply (loading_merged (trie_ops sip) f h (tmap (relabel f h))); [reflexivity| |].
  - intros m' p. apply (trie_add_map (relabel f h) (relabel_tokens f h) (relabel_set f h)).
  - intros m' text. apply trie_parse_map.
Qed.
Theorem table_merged f h sip src m : from_source (table_ops sip) src = Ret (Ok m) ->
  exists m', from_source (table_ops sip) (map (relabel_item f h) src) = Ret (Ok m') /\ answers_relabelled f h (table_ops sip) m m'.
Proof.
  apply (loading_merged (table_ops sip) f h (smap (relabel f h))); [reflexivity| |].
  - intros m' p. apply (table_add_map (relabel f h) (relabel_tokens f h) (relabel_set f h)).
  - intros m' text. apply table_parse_map.
Qed.
Theorem matcher_labels f h sip ps :
  adding_relabelled f h (trie_ops sip) (Trie.add_patterns sip Trie.tree_new ps) (Trie.add_patterns sip Trie.tree_new (map (relabel f h) ps)) /\
  adding_relabelled f h (table_ops sip) (SuffixArray.add_patterns sip SuffixArray.table_new ps)
    (SuffixArray.add_patterns sip SuffixArray.table_new (map (relabel f h) ps)).
Proof.
  split.
  - rewrite <- !trie_adds. apply (adds_labels (trie_ops sip) f h (tmap (relabel f h))); [reflexivity| |].
    + intros m' p. apply (trie_add_map (relabel f h) (relabel_tokens f h) (relabel_set f h)).
    + intros m' text. apply trie_parse_map.
  - rewrite <- !table_adds. apply (adds_labels (table_ops sip) f h (smap (relabel f h))); [reflexivity| |].
    + intros m' p. apply (table_add_map (relabel f h) (relabel_tokens f h) (relabel_set f h)).
    + intros m' text. apply table_parse_map.
Qed.

(** ** C159 *)
Lemma own_pattern {M} (ops : matcher_ops M) before p after m : 
  from_source ops (before ++ Ok p :: after) = Ret (Ok m) ->
  NoDup (map pat_uuid (patterns_of (before ++ Ok p :: after))) ->
  (forall m' text r, from_source ops (before ++ [Ok p]) = Ret (Ok m') -> utf8 text -> mo_parse ops m' text = Ret (Some r) ->
     exists p', In (Ok p') (before ++ [Ok p]) /\ mr_pattern r = stripped (untested p')) ->
  exists m', from_source ops (before ++ [Ok p]) = Ret (Ok m') /\
    forall t, In t (tests p) -> utf8 (tm_message t) ->
      exists r, mo_parse ops m' (tm_message t) = Ret (Some r) /\ mr_pattern r = stripped (untested p) /\ satisfies t r.
Proof.
  intros E D S. apply from_source_ok in E. destruct (loads_split ops _ _ _ _ _ E) as (m1 & m2 & L1 & A & T & _).
  assert (L : from_source ops (before ++ [Ok p]) = Ret (Ok m2)).
  { unfold from_source. etransitivity; [exact (loads_continue ops _ _ _ [Ok p] L1)|]. apply loads_complete. econstructor; [exact A|exact T|constructor]. }
  exists m2. split; [exact L|]. intros t It Ut. destruct (T t It) as (r & P & Eu & Sa). exists r. split; [exact P|]. split; [|exact Sa].
  destruct (S m2 _ r L Ut P) as (p' & Ip & Ep). rewrite Ep in Eu. change (pat_uuid (stripped (untested p'))) with (pat_uuid p') in Eu.
  apply in_app_or in Ip. destruct Ip as [Ip|[Ip|[]]]; [exfalso|congruence].
  assert (J : In p' (patterns_of before)).
  { clear - Ip. induction before as [|[x|e] before IH]; [destruct Ip| |].
    - destruct Ip as [Ip|Ip]; [injection Ip as ->; left; reflexivity|right; auto].
    - destruct Ip as [Ip|Ip]; [discriminate|]. exact (IH Ip). }
  rewrite patterns_of_app, map_app in D. cbn [patterns_of map] in D.
  apply NoDup_remove_2 in D. apply D, in_or_app. left. rewrite <- Eu. apply in_map, J.
Qed.

Lemma front_valid before p after : Forall valid_pattern (patterns_of (before ++ Ok p :: after)) ->
  Forall valid_pattern (patterns_of (before ++ [Ok p])).
Proof.
  rewrite !patterns_of_app. cbn [patterns_of]. rewrite !Forall_app. intros (H & H'). split; [exact H|].
  inversion H'; subst. constructor; [assumption|constructor].
Qed.
Lemma front_free sip before p after : collision_free sip (patterns_of (before ++ Ok p :: after)) ->
  collision_free sip (patterns_of (before ++ [Ok p])).
Proof.
  apply Trie_main.collision_free_incl. intros x. rewrite !patterns_of_app. cbn [patterns_of]. rewrite !in_app_iff. cbn. tauto.
Qed.

Theorem trie_own_pattern sip before p after m :
  Forall valid_pattern (patterns_of (before ++ Ok p :: after)) -> collision_free sip (patterns_of (before ++ Ok p :: after)) ->
  NoDup (map pat_uuid (patterns_of (before ++ Ok p :: after))) ->
  from_source (trie_ops sip) (before ++ Ok p :: after) = Ret (Ok m) ->
  exists m', from_source (trie_ops sip) (before ++ [Ok p]) = Ret (Ok m') /\
    forall t, In t (tests p) -> utf8 (tm_message t) ->
      exists r, Trie.parse m' (tm_message t) = Ret (Some r) /\ mr_pattern r = stripped (untested p) /\ satisfies t r.
Proof.
  intros V C D E. apply (own_pattern (trie_ops sip) _ _ _ _ E D). intros m' text r E' U P.
  destruct (trie_loaded_pattern sip _ m' text r (front_valid _ _ _ V) (front_free _ _ _ _ C) (or_introl E') U P) as (p' & _ & H & H' & _). eauto.
Qed.
Theorem table_own_pattern sip before p after m :
  Forall valid_pattern (patterns_of (before ++ Ok p :: after)) -> collision_free sip (patterns_of (before ++ Ok p :: after)) ->
  NoDup (map pat_uuid (patterns_of (before ++ Ok p :: after))) ->
  from_source (table_ops sip) (before ++ Ok p :: after) = Ret (Ok m) ->
  exists m', from_source (table_ops sip) (before ++ [Ok p]) = Ret (Ok m') /\
    forall t, In t (tests p) -> utf8 (tm_message t) ->
      exists r, SuffixArray.parse m' (tm_message t) = Ret (Some r) /\ mr_pattern r = stripped (untested p) /\ satisfies t r.
Proof.
  intros V C D E. apply (own_pattern (table_ops sip) _ _ _ _ E D). intros m' text r E' U P.
  destruct (table_loaded_pattern sip _ m' text r (front_valid _ _ _ V) (front_free _ _ _ _ C) (or_introl E') U P) as (p' & _ & H & H' & _). eauto.
Qed.
