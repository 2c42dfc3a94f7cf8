(** * Property C140: how loading ends *)
From Verif Require Import Base Base_facts Utils Parsers Pattern Spec Spec_source Spec_ending Source
  TrieSpec TableSpec Spec_panics Spec_table_panics Loading_claims Ending_claims Siphash Deciders Tests.
From Verif Require Trie SuffixArray.

(** ** C140: loading panics exactly when, before the first error, a pattern
    cannot be added or a test message cannot be matched *)
Theorem C140_checked_panics :
  forall M (ops : matcher_ops M) src, from_source ops src = Panic <-> checked_breaks ops src.
Proof. exact @checked_panics. Qed.
Print Assumptions C140_checked_panics.

Theorem C140_ignoring_panics :
  forall M (ops : matcher_ops M) src,
    matcher_ends ops -> (from_source_ignore_errors ops src = Panic <-> ignoring_breaks ops src).
Proof. exact @ignoring_panics. Qed.
Print Assumptions C140_ignoring_panics.

(** Both matchers end on everything, so loading does: what does not panic gives a
    matcher or an error. *)
Theorem C140_trie_ends : forall sip, matcher_ends (trie_ops sip).
Proof. exact trie_ends. Qed.
Print Assumptions C140_trie_ends.
Theorem C140_table_ends : forall sip, matcher_ends (table_ops sip).
Proof. exact table_ends. Qed.
Print Assumptions C140_table_ends.
Theorem C140_loading_ends :
  forall M (ops : matcher_ops M) src, matcher_ends ops ->
    from_source ops src <> OutOfFuel /\ from_source_ignore_errors ops src <> OutOfFuel.
Proof. exact @loading_ends. Qed.
Print Assumptions C140_loading_ends.

(** In terms of the patterns. *)
Theorem C140_trie_checked :
  forall sip src,
    Forall valid_pattern (patterns_of src) -> collision_free sip (patterns_of src) -> utf8_tests (patterns_of src) ->
    (from_source (trie_ops sip) src = Panic <->
     exists before p after m, src = before ++ Ok p :: after /\ loads (trie_ops sip) Trie.tree_new before m /\
       breaks_trie sip (patterns_of before) m p).
Proof. exact trie_checked_panics. Qed.
Print Assumptions C140_trie_checked.
Theorem C140_trie_ignoring :
  forall sip src,
    Forall valid_pattern (patterns_of src) -> collision_free sip (patterns_of src) -> utf8_tests (patterns_of src) ->
    (from_source_ignore_errors (trie_ops sip) src = Panic <->
     exists before p after m, src = before ++ Ok p :: after /\
       Trie.add_patterns sip Trie.tree_new (map untested (patterns_of before)) = Ret m /\
       breaks_trie sip (patterns_of before) m p).
Proof. exact trie_ignoring_panics. Qed.
Print Assumptions C140_trie_ignoring.
Theorem C140_table_checked :
  forall sip src,
    Forall valid_pattern (patterns_of src) -> collision_free sip (patterns_of src) -> utf8_tests (patterns_of src) ->
    (from_source (table_ops sip) src = Panic <->
     exists before p after m, src = before ++ Ok p :: after /\ loads (table_ops sip) SuffixArray.table_new before m /\
       breaks_table sip (patterns_of before) m p).
Proof. exact table_checked_panics. Qed.
Print Assumptions C140_table_checked.
Theorem C140_table_ignoring :
  forall sip src,
    Forall valid_pattern (patterns_of src) -> collision_free sip (patterns_of src) -> utf8_tests (patterns_of src) ->
    (from_source_ignore_errors (table_ops sip) src = Panic <->
     exists before p after m, src = before ++ Ok p :: after /\
       SuffixArray.add_patterns sip SuffixArray.table_new (map untested (patterns_of before)) = Ret m /\
       breaks_table sip (patterns_of before) m p).
Proof. exact table_ignoring_panics. Qed.
Print Assumptions C140_table_ignoring.

(** The two ways of loading agree as far as they can. *)
Theorem C140_ok_ignoring :
  forall M (ops : matcher_ops M) src m, from_source ops src = Ret (Ok m) -> from_source_ignore_errors ops src = Ret m.
Proof. exact @ok_ignoring. Qed.
Print Assumptions C140_ok_ignoring.
Theorem C140_ignoring_checked :
  forall M (ops : matcher_ops M) src m, from_source_ignore_errors ops src = Ret m ->
    from_source ops src = Ret (Ok m) \/ exists e, from_source ops src = Ret (Err e).
Proof. exact @ignoring_checked. Qed.
Print Assumptions C140_ignoring_checked.

(** "aé" cannot be added to a trie after "a"; an error before it hides that from
    checked loading only. *)
Definition ending_demo : list build_result := [Ok (tpat 1 ($"a")); Ok (tpat 2 ($"aé%{INT:n}"))].
Example C140_example :
  Forall valid_pattern (patterns_of ending_demo) /\ collision_free siphash (patterns_of ending_demo) /\
  utf8_tests (patterns_of ending_demo) /\
  (exists before p after m, ending_demo = before ++ Ok p :: after /\ loads (trie_ops siphash) Trie.tree_new before m /\
     breaks_trie siphash (patterns_of before) m p) /\
  ~ (exists before p after m, ending_demo = before ++ Ok p :: after /\ loads (table_ops siphash) SuffixArray.table_new before m /\
     breaks_table siphash (patterns_of before) m p) /\
  from_source (trie_ops siphash) (Err (Io ($"gone")) :: ending_demo) = Ret (Err (Io ($"gone"))) /\
  from_source_ignore_errors (trie_ops siphash) (Err (Io ($"gone")) :: ending_demo) = Panic.
Proof.
  assert (Forall valid_pattern (patterns_of ending_demo)) as V by (apply valid_patterns_sound; vm_compute; reflexivity).
  assert (collision_free siphash (patterns_of ending_demo)) as C by (apply collision_freeb_sound; vm_compute; reflexivity).
  assert (utf8_tests (patterns_of ending_demo)) as U by (intros p t [<-|[<-|[]]] []).
  split; [exact V|]. split; [exact C|]. split; [exact U|].
  split; [apply C140_trie_checked; [exact V|exact C|exact U|vm_compute; reflexivity]|].
  split; [intros H; apply C140_table_checked in H; [vm_compute in H; discriminate|exact V|exact C|exact U]|].
  vm_compute. split; reflexivity.
Qed.

(** Test messages are tried from the back: the failing "b" hides the panic on "é". *)
Example C140_order :
  from_source (trie_ops siphash) [Ok (tested (tpat 1 ($"a")) [$"b"; $"é"])] = Panic /\
  from_source (trie_ops siphash) [Ok (tested (tpat 1 ($"a")) [$"é"; $"b"])]
  = Ret (Err (TestMessageError (TestMessageDoesntMatch (uid 1) ($"b")))).
Proof. vm_compute. split; reflexivity. Qed.
