(** * Property C138: matches and test messages that later patterns leave alone *)
From Verif Require Import Base Base_facts Utils Parsers Pattern Spec Spec_table Spec_stay Spec_source Source
  Loading_claims Stay_claims Siphash Deciders Tests.
From Verif Require Trie SuffixArray.

(** ** C138: patterns that another one outdoes for a message can be left out of
    the suffix table *)
Theorem C138_table_outdone :
  forall sip ps ps' t t' text r r',
    Forall valid_pattern ps -> collision_free sip ps -> without (outdone text ps) ps ps' ->
    SuffixArray.add_patterns sip SuffixArray.table_new ps = Ret t ->
    SuffixArray.add_patterns sip SuffixArray.table_new ps' = Ret t' ->
    utf8 text -> SuffixArray.parse t text = Ret r -> SuffixArray.parse t' text = Ret r' -> r = r'.
Proof. exact table_far. Qed.
Print Assumptions C138_table_outdone.

(** Matches survive later patterns that are outdone or begin with a new parser. *)
Theorem C138_table_keeps :
  forall sip ps qs t t' text r r',
    Forall valid_pattern (ps ++ qs) -> collision_free sip (ps ++ qs) ->
    (forall q, In q qs -> outdone text ps q \/ new_parser_first ps q) ->
    SuffixArray.add_patterns sip SuffixArray.table_new ps = Ret t ->
    SuffixArray.add_patterns sip SuffixArray.table_new (ps ++ qs) = Ret t' ->
    utf8 text -> SuffixArray.parse t text = Ret (Some r) -> SuffixArray.parse t' text = Ret r' -> r' = Some r.
Proof. exact table_keeps. Qed.
Print Assumptions C138_table_keeps.

Theorem C138_trie_keeps :
  forall sip ps qs t t' text r r',
    Forall valid_pattern (ps ++ qs) -> collision_free sip (ps ++ qs) ->
    (forall q, In q qs -> may_concern text q = false \/ new_parser_first ps q) ->
    Trie.add_patterns sip Trie.tree_new ps = Ret t -> Trie.add_patterns sip Trie.tree_new (ps ++ qs) = Ret t' ->
    utf8 text -> Trie.parse t text = Ret (Some r) -> Trie.parse t' text = Ret r' -> r' = Some r.
Proof. exact trie_keeps. Qed.
Print Assumptions C138_trie_keeps.

(** So test messages that passed when their pattern was loaded still pass. *)
Theorem C138_table_tests_stay :
  forall sip before p after m t,
    let ps := patterns_of (before ++ Ok p :: after) in
    Forall valid_pattern ps -> (forall q, parser_in ps q -> parser_ascii_set q) -> collision_free sip ps ->
    utf8_tests ps ->
    from_source (table_ops sip) (before ++ Ok p :: after) = Ret (Ok m) ->
    In t (tests p) ->
    (forall q, In (Ok q) after ->
       outdone (tm_message t) (patterns_of before ++ [p]) q \/ new_parser_first (patterns_of before ++ [p]) q) ->
    passes (table_ops sip) m p t.
Proof. exact table_tests_stay. Qed.
Print Assumptions C138_table_tests_stay.

Theorem C138_trie_tests_stay :
  forall sip before p after m t,
    let ps := patterns_of (before ++ Ok p :: after) in
    Forall valid_pattern ps -> Forall ascii_pattern ps -> collision_free sip ps -> ascii_tests ps ->
    from_source (trie_ops sip) (before ++ Ok p :: after) = Ret (Ok m) ->
    In t (tests p) ->
    (forall q, In (Ok q) after ->
       may_concern (tm_message t) q = false \/ new_parser_first (patterns_of before ++ [p]) q) ->
    passes (trie_ops sip) m p t.
Proof. exact trie_tests_stay_more. Qed.
Print Assumptions C138_trie_tests_stay.

(** Whatever the characters: they still pass, unless the matcher now panics on them. *)
Theorem C138_table_tests_stay_or_panic :
  forall sip before p after m t,
    let ps := patterns_of (before ++ Ok p :: after) in
    Forall valid_pattern ps -> collision_free sip ps -> utf8_tests ps ->
    from_source (table_ops sip) (before ++ Ok p :: after) = Ret (Ok m) ->
    In t (tests p) ->
    (forall q, In (Ok q) after ->
       outdone (tm_message t) (patterns_of before ++ [p]) q \/ new_parser_first (patterns_of before ++ [p]) q) ->
    passes (table_ops sip) m p t \/ mo_parse (table_ops sip) m (tm_message t) = Panic.
Proof. exact table_tests_or_panic. Qed.
Print Assumptions C138_table_tests_stay_or_panic.

Theorem C138_trie_tests_stay_or_panic :
  forall sip before p after m t,
    let ps := patterns_of (before ++ Ok p :: after) in
    Forall valid_pattern ps -> collision_free sip ps -> utf8_tests ps ->
    from_source (trie_ops sip) (before ++ Ok p :: after) = Ret (Ok m) ->
    In t (tests p) ->
    (forall q, In (Ok q) after ->
       may_concern (tm_message t) q = false \/ new_parser_first (patterns_of before ++ [p]) q) ->
    passes (trie_ops sip) m p t \/ mo_parse (trie_ops sip) m (tm_message t) = Panic.
Proof. exact trie_tests_or_panic. Qed.
Print Assumptions C138_trie_tests_stay_or_panic.

(** Both happen: after the literal "x" the trie cuts "è" where it compares the two. *)
Example C138_example_panic :
  exists m m',
    from_source (trie_ops siphash) (map (fun p => Ok p) [tested (tpat 1 ($"naïve %{INT:n}")) [$"naïve 7"]; tpat 2 ($"x")]) = Ret (Ok m) /\
    option_map (fun r => pat_uuid (mr_pattern r)) (match mo_parse (trie_ops siphash) m ($"naïve 7") with Ret x => x | _ => None end) = Some (uid 1) /\
    from_source (trie_ops siphash) (map (fun p => Ok p) [tested (tpat 1 ($"%{GREEDY:x}")) [$"è"]; tpat 2 ($"x")]) = Ret (Ok m') /\
    may_concern ($"è") (tpat 2 ($"x")) = false /\
    mo_parse (trie_ops siphash) m' ($"è") = Panic.
Proof. eexists. eexists. vm_compute. repeat split; reflexivity. Qed.

(** "user " shares five characters with "user 42", "use " three; the parser that
    begins the last pattern is new. *)
Definition stay_first : pattern := tested (tpat 1 ($"user %{INT:id}")) [$"user 42"].
Definition stay_later : list pattern := [tpat 2 ($"use %{GREEDY:x}"); tpat 3 ($"%{INT:n} users")].

Example C138_example :
  exists m m',
    from_source (table_ops siphash) (map (fun p => Ok p) (stay_first :: stay_later)) = Ret (Ok m) /\
    from_source (trie_ops siphash) (map (fun p => Ok p) [stay_first; tpat 2 ($"disk"); tpat 3 ($"%{INT:n} users")]) = Ret (Ok m') /\
    forall t, In t (tests stay_first) -> passes (table_ops siphash) m stay_first t /\ passes (trie_ops siphash) m' stay_first t.
Proof.
  eexists. eexists. split; [vm_compute; reflexivity|]. split; [vm_compute; reflexivity|].
  intros t Ht. split.
  - eapply (C138_table_tests_stay siphash [] stay_first (map (fun p => Ok p) stay_later)).
    + apply valid_patterns_sound. vm_compute. reflexivity.
    + intros q (p & Hp & Hq).
      assert (Forall ascii_pattern (stay_first :: stay_later)) as A by (apply ascii_patterns_sound; vm_compute; reflexivity).
      rewrite Forall_forall in A. specialize (A p Hp). unfold ascii_pattern in A. rewrite Forall_forall in A. exact (A _ Hq).
    + apply collision_freeb_sound. vm_compute. reflexivity.
    + intros p t' [<-|[<-|[<-|[]]]] Ht'; cbn in Ht'; try contradiction. destruct Ht' as [<-|[]]. apply utf8b_sound. vm_compute. reflexivity.
    + vm_compute. reflexivity.
    + exact Ht.
    + destruct Ht as [<-|[]]. intros q [E|[E|[]]]; injection E as <-.
      * left. exists stay_first. split; [left; reflexivity|].
        apply (farther_counted _ _ _ ($"user ") ($"use ")); try (vm_compute; reflexivity).
        -- eexists. vm_compute. reflexivity.
        -- eexists. vm_compute. reflexivity.
        -- vm_compute. repeat constructor.
      * right. eexists. eexists. split; [vm_compute; reflexivity|]. intros p rest [<-|[]]. vm_compute. discriminate.
  - eapply (C138_trie_tests_stay siphash [] stay_first [Ok (tpat 2 ($"disk")); Ok (tpat 3 ($"%{INT:n} users"))]).
    + apply valid_patterns_sound. vm_compute. reflexivity.
    + apply ascii_patterns_sound. vm_compute. reflexivity.
    + apply collision_freeb_sound. vm_compute. reflexivity.
    + intros p t' [<-|[<-|[<-|[]]]] Ht'; cbn in Ht'; try contradiction. destruct Ht' as [<-|[]]. reflexivity.
    + vm_compute. reflexivity.
    + exact Ht.
    + destruct Ht as [<-|[]]. intros q [E|[E|[]]]; injection E as <-.
      * left. vm_compute. reflexivity.
      * right. eexists. eexists. split; [vm_compute; reflexivity|]. intros p rest [<-|[]]. vm_compute. discriminate.
Qed.

(** A later literal sharing just as much can take the message over: both begin with "user ". *)
Example C138_not_outdone :
  table_run [tpat 1 ($"user %{INT:id}")] ($"user 42") = Ret (Some (uid 1, [($"id", $"42")])) /\
  table_run [tpat 1 ($"user %{INT:id}"); tpat 2 ($"user %{INT:id}!")] ($"user 42") = Ret (Some (uid 2, [($"id", $"42")])).
Proof. vm_compute. split; reflexivity. Qed.
