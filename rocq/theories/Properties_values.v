(** * Property C170: reported values *)
From Verif Require Import Base Base_facts Utils Parsers Pattern Grammar Source Spec Spec_source Deser Spec_deser Spec_length Spec_values Values_claims Values_document Siphash Deciders Tests.
From Verif Require Trie SuffixArray.

(** ** C170: what reported values look like *)
Theorem C170_trie :
  forall sip ps t text r,
    Forall (fun p => exists s, utf8 s /\ compile s = Ret (Ok (pat_tokens p))) ps -> collision_free sip ps ->
    Trie.add_patterns sip Trie.tree_new ps = Ret t -> utf8 text -> Trie.parse t text = Ret (Some r) ->
    exists p, In p ps /\ mr_pattern r = stripped p /\ values_right p text (mr_values r).
Proof. exact trie_values. Qed.
Print Assumptions C170_trie.

Theorem C170_table :
  forall sip ps t text r,
    Forall (fun p => exists s, utf8 s /\ compile s = Ret (Ok (pat_tokens p))) ps -> collision_free sip ps ->
    SuffixArray.add_patterns sip SuffixArray.table_new ps = Ret t -> utf8 text -> SuffixArray.parse t text = Ret (Some r) ->
    exists p, In p ps /\ mr_pattern r = stripped p /\ values_right p text (mr_values r).
Proof. exact table_values. Qed.
Print Assumptions C170_table.

(** From the pattern file to the values: they look as the texts of the file say. *)
Theorem C170_trie_document :
  forall parse_uuid v, utf8_document v -> forall sip ps m text r,
    file_value parse_uuid v ps -> collision_free sip ps ->
    from_source (trie_ops sip) (map (fun p => Ok p) (rev ps)) = Ret (Ok m) \/
      from_source_ignore_errors (trie_ops sip) (map (fun p => Ok p) (rev ps)) = Ret m ->
    utf8 text -> mo_parse (trie_ops sip) m text = Ret (Some r) ->
    exists doc docs fields p s,
      v = VMap doc /\ binds doc ($"patterns") (VSeq docs) /\ In (VMap fields) docs /\ pattern_value parse_uuid (VMap fields) p /\
      binds fields ($"pattern") (VStr s) /\ compile s = Ret (Ok (pat_tokens p)) /\
      mr_pattern r = stripped (untested p) /\ values_right p text (mr_values r) /\
      (tokens_take (pat_tokens p) <= size text)%N /\ forall n, tokens_hold (pat_tokens p) = Some n -> (size text <= n)%N.
Proof. exact document_values. Qed.
Print Assumptions C170_trie_document.

Theorem C170_table_document :
  forall parse_uuid v, utf8_document v -> forall sip ps m text r,
    file_value parse_uuid v ps -> collision_free sip ps ->
    from_source (table_ops sip) (map (fun p => Ok p) (rev ps)) = Ret (Ok m) \/
      from_source_ignore_errors (table_ops sip) (map (fun p => Ok p) (rev ps)) = Ret m ->
    utf8 text -> mo_parse (table_ops sip) m text = Ret (Some r) ->
    exists doc docs fields p s,
      v = VMap doc /\ binds doc ($"patterns") (VSeq docs) /\ In (VMap fields) docs /\ pattern_value parse_uuid (VMap fields) p /\
      binds fields ($"pattern") (VStr s) /\ compile s = Ret (Ok (pat_tokens p)) /\
      mr_pattern r = stripped (untested p) /\ values_right p text (mr_values r) /\
      (parsers_take (pat_tokens p) <= size text)%N /\ forall n, tokens_hold (pat_tokens p) = Some n -> (size text <= n)%N.
Proof. exact document_values_table. Qed.
Print Assumptions C170_table_document.

Example C170_example :
  let ps := [tpat 1 ($"a %{GREEDY:u}: %{INT(max_len=3):n}%{SET(""xy"",min_len=2):v}"); tpat 2 ($"b%{INT:n}")] in
  Forall (fun p => exists s, utf8 s /\ compile s = Ret (Ok (pat_tokens p))) ps /\ collision_free siphash ps /\
  trie_run ps ($"a b:c : 12xyx") = Ret (Some (uid 1, [($"n", $"12"); ($"u", $"b:c "); ($"v", $"xyx")])) /\
  table_run ps ($"a b:c : 12xyx") = Ret (Some (uid 1, [($"n", $"12"); ($"u", $"b:c "); ($"v", $"xyx")])).
Proof.
  intros ps. split.
  { apply Forall_cons; [exists ($"a %{GREEDY:u}: %{INT(max_len=3):n}%{SET(""xy"",min_len=2):v}")|apply Forall_cons; [exists ($"b%{INT:n}")|apply Forall_nil]];
      (split; [apply ascii_utf8; vm_compute; reflexivity|vm_compute; reflexivity]). }
  split; [apply collision_freeb_sound; vm_compute; reflexivity|]. split; vm_compute; reflexivity.
Qed.
