(** * What the matchers hold and report *)
From Verif Require Import Base Base_facts Utils Parsers Pattern Spec Spec_grammar Spec_source Spec_table
  TrieSpec TrieSpec_facts TrieSpec_props TableSpec Table_facts Table_content Trie_refine Trie_main Table_refine Table_claims
  Spec_trie Source Source_claims Loading_claims Document_claims Spec_panics Spec_content TrieSpec_content.
From Verif Require Trie SuffixArray.

Theorem trie_content sip ps t path x :
  Forall valid_pattern ps -> Forall apart_literals ps -> collision_free sip ps ->
  Trie.add_patterns sip Trie.tree_new ps = Ret t ->
  (held t path x <->
   exists before p, survives ps before p /\ path = flat (pat_tokens p) /\ x = stripped p).
Proof.
  intros V A C Ha. apply (adds_wf sip _ t V C) in Ha. destruct Ha as (W & E).
  rewrite (held_stored _ _ t W), E. apply stored_adds. exact A.
Qed.

Theorem trie_reported sip ps t text r :
  Forall valid_pattern ps -> Forall apart_literals ps -> collision_free sip ps ->
  Trie.add_patterns sip Trie.tree_new ps = Ret t ->
  utf8 text -> Trie.parse t text = Ret (Some r) ->
  exists before p caps, survives ps before p /\ mr_pattern r = stripped p /\
    walk (pat_tokens p) text caps /\ reports caps (mr_values r).
Proof.
  intros V A C Ha Hu Hp. apply (trie_refines sip ps t text _ V C Ha Hu) in Hp. symmetry in Hp.
  apply s_parse_stored in Hp. destruct Hp as (path & caps & Hs & Hw & Hv).
  apply stored_adds in Hs; [|exact A]. destruct Hs as (before & p & H1 & -> & H3).
  exists before, p, caps. split; [exact H1|]. split; [exact H3|]. split; [apply fwalk_walk; exact Hw|].
  apply good_reports. exact Hv.
Qed.

Theorem table_reported sip ps t text r :
  Forall valid_pattern ps -> collision_free sip ps -> SuffixArray.add_patterns sip SuffixArray.table_new ps = Ret t ->
  utf8 text -> SuffixArray.parse t text = Ret (Some r) ->
  exists before p after caps, ps = before ++ p :: after /\
    (forall q, In q after -> ~ displaces (pat_tokens q) (pat_tokens p)) /\
    mr_pattern r = stripped p /\ table_walk (pat_tokens p) text caps /\ reports caps (mr_values r).
Proof.
  intros V C E Hu H. destruct (table_adds_ret sip ps t V E) as (W & R).
  apply (table_refines sip ps t text _ V C E Hu) in H. symmetry in H.
  pose proof (tabs_lwf (okp_of ps) t (okp_of_utf8 ps) W) as Lw. rewrite (R C) in Lw.
  destruct (t_parse_sound _ Lw text r Hu H) as (toks & caps & H1 & H2 & H3).
  apply tstored_adds in H1. destruct H1 as (_ & a & p & b & -> & <- & Ex & Hd).
  exists a, p, b, caps. split; [reflexivity|]. split; [exact Hd|]. split; [exact Ex|]. split; [exact H2|apply good_reports; exact H3].
Qed.

(** The simple part of [drops]. *)
Lemma displaces_drops before q p : displaces (pat_tokens q) (pat_tokens p) -> drops before q p.
Proof.
  intros (tok & r & r' & E & E' & H). destruct r as [|t r].
  - left. rewrite E, E'. split; [discriminate|]. f_equal. symmetry. apply H. reflexivity.
  - right. exists tok, (t :: r). split; [exact E|]. split; [discriminate|]. left. exists r'. split; [exact E'|].
    intros ->. destruct H as (_ & H). discriminate (H eq_refl).
Qed.

(** ** Pattern files, which are loaded back to front *)
Lemma rev_middle {A B : Type} (f : A -> B) (ps : list A) before (p' : B) after :
  map f (rev ps) = before ++ p' :: after ->
  exists front p back, ps = front ++ p :: back /\ p' = f p /\ map f (rev front) = after.
Proof.
  intros E. apply map_eq_app in E. destruct E as (l1 & l2 & E & E1 & E2).
  destruct l2 as [|p l2]; [discriminate|]. simpl in E2. injection E2 as E2 E3.
  exists (rev l2), p, (rev l1). rewrite rev_involutive. split; [|auto].
  rewrite <- (rev_involutive ps), E, rev_app_distr. simpl. rewrite <- app_assoc. reflexivity.
Qed.

Lemma untested_tokens p : pat_tokens (untested p) = pat_tokens p.
Proof. reflexivity. Qed.

Section Files.
  Variables (ps : list pattern) (sip : str -> N).
  Hypothesis V : Forall valid_pattern ps.
  Hypothesis C : collision_free sip ps.

  Lemma file_adds {M} (ops : matcher_ops M) m :
    from_source ops (map (fun p => Ok p) (rev ps)) = Ret (Ok m) \/
      from_source_ignore_errors ops (map (fun p => Ok p) (rev ps)) = Ret m ->
    adds ops (mo_new ops) (map untested (rev ps)) = Ret m.
  Proof.
    intros H. rewrite <- (patterns_of_map (rev ps)). destruct H as [H|H].
    - apply from_source_ok in H. apply loads_adds in H. tauto.
    - apply ignore_errors_adds in H. exact H.
  Qed.

  Lemma file_valid_rev : Forall valid_pattern (map untested (rev ps)).
  Proof. apply untested_valid. apply rev_incl. exact V. Qed.

  Lemma file_collision_free : collision_free sip (map untested (rev ps)).
  Proof. apply untested_collision_free. apply (collision_free_incl sip ps); [|exact C]. intros p H. apply in_rev. exact H. Qed.

  Theorem trie_file_reported m text r :
    Forall apart_literals ps ->
    from_source (trie_ops sip) (map (fun p => Ok p) (rev ps)) = Ret (Ok m) \/
      from_source_ignore_errors (trie_ops sip) (map (fun p => Ok p) (rev ps)) = Ret m ->
    utf8 text -> mo_parse (trie_ops sip) m text = Ret (Some r) ->
    exists before p after caps, ps = before ++ p :: after /\
      (forall q, In q before -> ~ displaces (pat_tokens q) (pat_tokens p)) /\
      mr_pattern r = stripped (untested p) /\ walk (pat_tokens p) text caps /\ reports caps (mr_values r).
  Proof.
    intros A H U E. apply file_adds in H. rewrite trie_adds in H.
    destruct (trie_reported sip _ m text r file_valid_rev) with (3 := H) (4 := U) (5 := E)
      as (before & p' & caps & (after & Es & _ & Hd) & Ep & W & R).
    - apply Forall_map, Forall_rev. exact A.
    - exact file_collision_free.
    - apply rev_middle in Es. destruct Es as (front & p & back & -> & -> & <-).
      exists front, p, back, caps. split; [reflexivity|]. split; [|auto].
      intros q Hq X. apply (Hd (untested q)); [apply in_map, in_rev; rewrite rev_involutive; exact Hq|].
      apply displaces_drops. exact X.
  Qed.

  Theorem table_file_reported m text r :
    from_source (table_ops sip) (map (fun p => Ok p) (rev ps)) = Ret (Ok m) \/
      from_source_ignore_errors (table_ops sip) (map (fun p => Ok p) (rev ps)) = Ret m ->
    utf8 text -> mo_parse (table_ops sip) m text = Ret (Some r) ->
    exists before p after caps, ps = before ++ p :: after /\
      (forall q, In q before -> ~ displaces (pat_tokens q) (pat_tokens p)) /\
      mr_pattern r = stripped (untested p) /\ table_walk (pat_tokens p) text caps /\ reports caps (mr_values r).
  Proof.
    intros H U E. apply file_adds in H. rewrite table_adds in H.
    destruct (table_reported sip _ m text r file_valid_rev file_collision_free H U E)
      as (before & p' & after & caps & Es & Hd & Ep & W & R).
    apply rev_middle in Es. destruct Es as (front & p & back & -> & -> & <-).
    exists front, p, back, caps. split; [reflexivity|]. split; [|auto].
    intros q Hq X. apply (Hd (untested q)); [apply in_map, in_rev; rewrite rev_involutive; exact Hq|]. exact X.
  Qed.
End Files.
