(** * Properties C125 to C127: panics of the suffix table, calls of the parsers,
      sizes of the matchers *)
From Verif Require Import Base Base_facts Utils Parsers Parsers_facts Pattern Spec Spec_trie
  Spec_table_panics Spec_effort TrieSpec TableSpec Effort Table_panics Effort_facts Deciders
  Siphash Tests.
From Verif Require Trie SuffixArray TrieCalls TableCalls.

(** ** C125: exactly when a parser panics, and exactly when the suffix table does *)
Theorem C125_parser_panics :
  forall q text, utf8 text -> parser_utf8 q ->
    (parser_parse q text = Panic <-> exists w, captures q text w /\ ~ utf8 w).
Proof. exact parser_panics. Qed.
Print Assumptions C125_parser_panics.

Theorem C125_table_panics :
  forall sip ps, Forall valid_pattern ps -> collision_free sip ps ->
    exists t, SuffixArray.add_patterns sip SuffixArray.table_new ps = Ret t /\
      forall text, utf8 text ->
        (SuffixArray.parse t text = Panic <-> table_panics (t_adds ps) text) /\
        (~ table_panics (t_adds ps) text ->
         SuffixArray.parse t text = Ret (t_parse (t_adds ps) text)).
Proof. exact table_matching_panics. Qed.
Print Assumptions C125_table_panics.

(** The set "é" on "è": the first byte is in the set, the second is not. *)
Definition accent_demo : list pattern := [tpat 1 ($"a%{SET(""é""):c}"); tpat 2 ($"b%{INT:n}")].
Example C125_example :
  Forall valid_pattern accent_demo /\ collision_free siphash accent_demo /\
  map (table_run accent_demo) [$"aé"; $"aè"; $"ax"; $"b1"; $"bè"] =
    [Ret (Some (uid 1, [($"c", $"é")])); Panic; Ret None; Ret (Some (uid 2, [($"n", $"1")])); Ret None] /\
  table_panics (t_adds accent_demo) ($"aè").
Proof.
  split; [apply valid_patterns_sound; vm_compute; reflexivity|].
  split; [apply collision_freeb_sound; vm_compute; reflexivity|].
  split; [vm_compute; reflexivity|].
  match goal with |- table_panics ?L _ =>
    let v := eval vm_compute in L in change L with v end.
  eapply tp_literal; [vm_compute; reflexivity|vm_compute; discriminate|].
  apply (tp_parser []); [reflexivity|]. apply parser_panics.
  - apply utf8b_sound. vm_compute. reflexivity.
  - exact I.
  - vm_compute. reflexivity.
Qed.

(** ** C126: no parser is called more often than it occurs in the patterns.

    [TrieCalls.parse] and [TableCalls.parse] are the same functions with the calls
    recorded (Effort.v). *)
Theorem C126_trie_calls :
  forall sip ps t text,
    Trie.add_patterns sip Trie.tree_new ps = Ret t ->
    let cs := fst (TrieCalls.parse t text) in
    snd (TrieCalls.parse t text) = Trie.parse t text /\
    length cs <= parser_tokens ps /\
    (forall q, parser_calls q cs <= parser_uses q ps) /\
    (forall q s, In (q, s) cs -> exists w, text = w ++ s).
Proof. exact trie_calls. Qed.
Print Assumptions C126_trie_calls.

Theorem C126_table_calls :
  forall sip ps t text,
    SuffixArray.add_patterns sip SuffixArray.table_new ps = Ret t ->
    let cs := fst (TableCalls.parse t text) in
    snd (TableCalls.parse t text) = SuffixArray.parse t text /\
    length cs <= parser_tokens ps /\
    (forall q, parser_calls q cs <= parser_uses q ps) /\
    (forall q s, In (q, s) cs -> exists w, text = w ++ s).
Proof. exact table_calls. Qed.
Print Assumptions C126_table_calls.

(** Every parser of the patterns is called, the number twice. *)
Definition calls_demo : list pattern :=
  [tpat 1 ($"%{INT:n}%{SET(""a""):x}%{INT:n}"); tpat 2 ($"%{GREEDY:r}")].
Example C126_example :
  match trie calls_demo, table calls_demo with
  | Ret t, Ret t' =>
      map snd (fst (TrieCalls.parse t ($"1a2b"))) = [$"1a2b"; $"a2b"; $"2b"; $"1a2b"] /\
      map snd (fst (TableCalls.parse t' ($"1a2b"))) = [$"1a2b"; $"a2b"; $"2b"; $"1a2b"] /\
      map snd (fst (TrieCalls.parse t ($"b"))) = [$"b"; $"b"] /\
      map (fun c => parser_calls (fst c) (fst (TrieCalls.parse t ($"1a2b"))))
          (fst (TrieCalls.parse t ($"1a2b"))) = [2; 1; 2; 1]
  | _, _ => False
  end /\
  parser_tokens calls_demo = 4.
Proof. vm_compute. repeat split; reflexivity. Qed.

(** ** C127: the matchers have at most one node for each token; in the trie a
    pattern beginning with a literal may need one more *)
Theorem C127_trie_size :
  forall sip ps t, Trie.add_patterns sip Trie.tree_new ps = Ret t ->
    trie_parsers t <= parser_tokens ps /\ trie_literals t <= literal_tokens ps + literal_starts ps.
Proof. exact trie_size. Qed.
Print Assumptions C127_trie_size.

Theorem C127_table_size :
  forall sip ps t, SuffixArray.add_patterns sip SuffixArray.table_new ps = Ret t ->
    table_parsers t <= parser_tokens ps /\ table_literals t <= literal_tokens ps.
Proof. exact table_size. Qed.
Print Assumptions C127_table_size.

(** Five nodes for three literals: each of the later two splits one. *)
Definition size_demo : list pattern := [tpat 1 ($"abc"); tpat 2 ($"abd"); tpat 3 ($"ae%{INT:n}")].
Example C127_example :
  match trie size_demo, table size_demo with
  | Ret t, Ret t' => trie_literals t = 5 /\ trie_parsers t = 1 /\ table_literals t' = 3 /\ table_parsers t' = 1
  | _, _ => False
  end /\
  literal_tokens size_demo = 3 /\ literal_starts size_demo = 3 /\ parser_tokens size_demo = 1.
Proof. vm_compute. repeat split; reflexivity. Qed.
