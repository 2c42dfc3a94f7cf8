(** * Property C169: lengths of messages *)
From Verif Require Import Base Base_facts Utils Parsers Pattern Grammar Spec Spec_length Length_claims Siphash Deciders Tests.
From Verif Require Trie SuffixArray.

(** ** C169: how long matched messages are *)
Theorem C169_trie :
  forall sip ps t text r,
    Forall valid_pattern ps -> collision_free sip ps -> Trie.add_patterns sip Trie.tree_new ps = Ret t -> utf8 text ->
    Trie.parse t text = Ret (Some r) ->
    exists p, In p ps /\ mr_pattern r = stripped p /\ (tokens_take (pat_tokens p) <= size text)%N /\
      forall n, tokens_hold (pat_tokens p) = Some n -> (size text <= n)%N.
Proof. exact trie_length. Qed.
Print Assumptions C169_trie.

Theorem C169_table :
  forall sip ps t text r,
    Forall valid_pattern ps -> collision_free sip ps -> SuffixArray.add_patterns sip SuffixArray.table_new ps = Ret t -> utf8 text ->
    SuffixArray.parse t text = Ret (Some r) ->
    exists p, In p ps /\ mr_pattern r = stripped p /\ (parsers_take (pat_tokens p) <= size text)%N /\
      forall n, tokens_hold (pat_tokens p) = Some n -> (size text <= n)%N.
Proof. exact table_length. Qed.
Print Assumptions C169_table.

(** Messages that are too short or too long for every pattern are not matched. *)
Theorem C169_trie_outside :
  forall sip ps t text o,
    Forall valid_pattern ps -> collision_free sip ps -> Trie.add_patterns sip Trie.tree_new ps = Ret t -> utf8 text ->
    (forall p, In p ps -> (size text < tokens_take (pat_tokens p))%N \/ exists n, tokens_hold (pat_tokens p) = Some n /\ (n < size text)%N) ->
    Trie.parse t text = Ret o -> o = None.
Proof. exact trie_too_long. Qed.
Print Assumptions C169_trie_outside.

Theorem C169_table_outside :
  forall sip ps t text o,
    Forall valid_pattern ps -> collision_free sip ps -> SuffixArray.add_patterns sip SuffixArray.table_new ps = Ret t -> utf8 text ->
    (forall p, In p ps -> (size text < parsers_take (pat_tokens p))%N \/ exists n, tokens_hold (pat_tokens p) = Some n /\ (n < size text)%N) ->
    SuffixArray.parse t text = Ret o -> o = None.
Proof. exact table_too_long. Qed.
Print Assumptions C169_table_outside.

(** Both bounds are reached; the suffix table does without the literals. *)
Example C169_example :
  let p := tpat 1 ($"ab%{INT(min_len=2,max_len=3):n}:%{SET(""xy"",max_len=4):v}") in
  Forall valid_pattern [p] /\ collision_free siphash [p] /\
  tokens_take (pat_tokens p) = 6%N /\ parsers_take (pat_tokens p) = 3%N /\ tokens_hold (pat_tokens p) = Some 10%N /\
  map (trie_run [p]) [$"ab12:x"; $"ab123:xyxy"; $"ab1:x"; $"ab123:xyxyx"] =
    [Ret (Some (uid 1, [($"n", $"12"); ($"v", $"x")])); Ret (Some (uid 1, [($"n", $"123"); ($"v", $"xyxy")])); Ret None; Ret None] /\
  table_run [p] ($"12x") = Ret (Some (uid 1, [($"n", $"12"); ($"v", $"x")])).
Proof.
  intros p. split; [apply valid_patterns_sound; vm_compute; reflexivity|]. split; [apply collision_freeb_sound; vm_compute; reflexivity|].
  repeat split; vm_compute; reflexivity.
Qed.
