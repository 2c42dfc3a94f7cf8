(** * Properties C158 and C159: uuids and names of patterns *)
From Verif Require Import Base Base_facts Parsers Pattern Siphash Source Spec Spec_source Spec_label Label_claims Deciders Tests.
From Verif Require Trie SuffixArray.

(** ** C158: other uuids, as long as different ones stay different, and other names
    change nothing but the uuids and names that are reported *)
Theorem C158_trie :
  forall f h sip src, uuids_apart f ->
    loading_relabelled f h (trie_ops sip) (from_source (trie_ops sip) src) (from_source (trie_ops sip) (map (relabel_item f h) src)) /\
    adding_relabelled f h (trie_ops sip) (from_source_ignore_errors (trie_ops sip) src)
      (from_source_ignore_errors (trie_ops sip) (map (relabel_item f h) src)).
Proof. exact trie_labels. Qed.
Print Assumptions C158_trie.

Theorem C158_table :
  forall f h sip src, uuids_apart f ->
    loading_relabelled f h (table_ops sip) (from_source (table_ops sip) src) (from_source (table_ops sip) (map (relabel_item f h) src)) /\
    adding_relabelled f h (table_ops sip) (from_source_ignore_errors (table_ops sip) src)
      (from_source_ignore_errors (table_ops sip) (map (relabel_item f h) src)).
Proof. exact table_labels. Qed.
Print Assumptions C158_table.

(** Without test messages different uuids may become the same. *)
Theorem C158_added :
  forall f h sip ps,
    adding_relabelled f h (trie_ops sip) (Trie.add_patterns sip Trie.tree_new ps) (Trie.add_patterns sip Trie.tree_new (map (relabel f h) ps)) /\
    adding_relabelled f h (table_ops sip) (SuffixArray.add_patterns sip SuffixArray.table_new ps)
      (SuffixArray.add_patterns sip SuffixArray.table_new (map (relabel f h) ps)).
Proof. exact matcher_labels. Qed.
Print Assumptions C158_added.

(** With them, a source that could be loaded still can. *)
Theorem C158_merged_trie :
  forall f h sip src m, from_source (trie_ops sip) src = Ret (Ok m) ->
    exists m', from_source (trie_ops sip) (map (relabel_item f h) src) = Ret (Ok m') /\ answers_relabelled f h (trie_ops sip) m m'.
Proof. exact trie_merged. Qed.
Print Assumptions C158_merged_trie.

Theorem C158_merged_table :
  forall f h sip src m, from_source (table_ops sip) src = Ret (Ok m) ->
    exists m', from_source (table_ops sip) (map (relabel_item f h) src) = Ret (Ok m') /\ answers_relabelled f h (table_ops sip) m m'.
Proof. exact table_merged. Qed.
Print Assumptions C158_merged_table.

Definition labelled (name u s : str) (messages : list str) : pattern :=
  {| pat_name := Some name; pat_uuid := u; pat_tokens := pat_tokens (tpat 1 s); pat_values := None; pat_tags := None;
     pat_test_messages := Some (map (fun m => TestMessage m [] None) messages) |}.

(** Two patterns whose second one has a test message that the first one takes. *)
Definition taken : list build_result :=
  [Ok (labelled ($"number") (uid 1) ($"%{INT:n}") []); Ok (labelled ($"text") (uid 2) ($"%{GREEDY:g}") [$"12"])].
Definition numbered (u : uuid) : uuid := u ++ [x00].
Definition unnamed (_ : option str) : option str := None.
Example C158_example :
  uuids_apart numbered /\
  from_source (trie_ops siphash) taken = Ret (Err (TestMessageError (MatchedToOtherPattern (uid 2) (uid 1) ($"12")))) /\
  from_source (trie_ops siphash) (map (relabel_item numbered unnamed) taken) =
    Ret (Err (TestMessageError (MatchedToOtherPattern (numbered (uid 2)) (numbered (uid 1)) ($"12")))) /\
  (** all with the same uuid *)
  (exists m, from_source (trie_ops siphash) (map (relabel_item (fun _ => uid 7) unnamed) taken) = Ret (Ok m) /\
     mo_parse (trie_ops siphash) m ($"12") =
       Ret (Some (MatchResult (relabel (fun _ => uid 7) unnamed (stripped (labelled ($"number") (uid 1) ($"%{INT:n}") []))) [($"n", $"12")]))) /\
  exists m, from_source (table_ops siphash) (rev taken) = Ret (Ok m).
Proof.
  split; [intros u u' E; apply app_inv_tail in E; exact E|]. split; [vm_compute; reflexivity|]. split; [vm_compute; reflexivity|].
  split; [eexists; split; vm_compute; reflexivity|]. eexists. vm_compute. reflexivity.
Qed.

(** ** C159 is false: a test message that passes need not be one that its pattern matches *)
Theorem C159_refuted :
  exists before p t m m' r r',
    Forall valid_pattern (patterns_of (before ++ [Ok p])) /\ Forall ascii_pattern (patterns_of (before ++ [Ok p])) /\
    collision_free siphash (patterns_of (before ++ [Ok p])) /\ In t (tests p) /\ ascii (tm_message t) = true /\
    from_source (trie_ops siphash) (before ++ [Ok p]) = Ret (Ok m) /\
    Trie.parse m (tm_message t) = Ret (Some r) /\ mr_pattern r <> stripped (untested p) /\
    from_source (table_ops siphash) (before ++ [Ok p]) = Ret (Ok m') /\
    SuffixArray.parse m' (tm_message t) = Ret (Some r') /\ mr_pattern r' <> stripped (untested p).
Proof.
  exists [Ok (labelled ($"number") (uid 1) ($"%{INT:n}") [])], (labelled ($"text") (uid 1) ($"%{GREEDY:g}") [$"12"]), (TestMessage ($"12") [] None).
  do 4 eexists.
  split; [apply valid_patterns_sound; vm_compute; reflexivity|]. split; [apply ascii_patterns_sound; vm_compute; reflexivity|].
  split; [apply collision_freeb_sound; vm_compute; reflexivity|]. split; [left; reflexivity|]. split; [reflexivity|].
  split; [vm_compute; reflexivity|]. split; [vm_compute; reflexivity|]. split; [discriminate|].
  split; [vm_compute; reflexivity|]. split; [vm_compute; reflexivity|]. discriminate.
Qed.
Print Assumptions C159_refuted.

(** It is one when no uuid is used twice. *)
Theorem C159_unique_trie :
  forall sip before p after m,
    Forall valid_pattern (patterns_of (before ++ Ok p :: after)) -> collision_free sip (patterns_of (before ++ Ok p :: after)) ->
    NoDup (map pat_uuid (patterns_of (before ++ Ok p :: after))) ->
    from_source (trie_ops sip) (before ++ Ok p :: after) = Ret (Ok m) ->
    exists m', from_source (trie_ops sip) (before ++ [Ok p]) = Ret (Ok m') /\
      forall t, In t (tests p) -> utf8 (tm_message t) ->
        exists r, Trie.parse m' (tm_message t) = Ret (Some r) /\ mr_pattern r = stripped (untested p) /\ satisfies t r.
Proof. exact trie_own_pattern. Qed.
Print Assumptions C159_unique_trie.

Theorem C159_unique_table :
  forall sip before p after m,
    Forall valid_pattern (patterns_of (before ++ Ok p :: after)) -> collision_free sip (patterns_of (before ++ Ok p :: after)) ->
    NoDup (map pat_uuid (patterns_of (before ++ Ok p :: after))) ->
    from_source (table_ops sip) (before ++ Ok p :: after) = Ret (Ok m) ->
    exists m', from_source (table_ops sip) (before ++ [Ok p]) = Ret (Ok m') /\
      forall t, In t (tests p) -> utf8 (tm_message t) ->
        exists r, SuffixArray.parse m' (tm_message t) = Ret (Some r) /\ mr_pattern r = stripped (untested p) /\ satisfies t r.
Proof. exact table_own_pattern. Qed.
Print Assumptions C159_unique_table.

Example C159_example :
  Forall valid_pattern (patterns_of (rev taken)) /\ collision_free siphash (patterns_of (rev taken)) /\
  NoDup (map pat_uuid (patterns_of (rev taken))) /\
  (exists m, from_source (trie_ops siphash) (rev taken) = Ret (Ok m)) /\ exists m, from_source (table_ops siphash) (rev taken) = Ret (Ok m).
Proof.
  split; [apply valid_patterns_sound; vm_compute; reflexivity|]. split; [apply collision_freeb_sound; vm_compute; reflexivity|].
  split; [|split; eexists; vm_compute; reflexivity].
  constructor; [intros [E|[]]; vm_compute in E; discriminate E|]. constructor; [intros []|constructor].
Qed.
