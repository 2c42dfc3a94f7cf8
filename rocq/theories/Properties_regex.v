(** * Property C144: patterns and regular expressions *)
From Verif Require Import Base Base_facts Utils Parsers Pattern Spec Spec_canon Spec_source Spec_separate Spec_regex Source
  Deser Spec_deser Deser_claims Grammar Grammar_claims Regex_claims Regex_readme Siphash Deciders Tests.
From Verif Require Trie SuffixArray.

(** ** C144 *)

(** A reported pattern matches as a regular expression, and the values are groups
    of it. *)
Theorem C144_every_match :
  forall sip ps t text r,
    Forall valid_pattern ps -> collision_free sip ps -> Trie.add_patterns sip Trie.tree_new ps = Ret t ->
    utf8 text -> Trie.parse t text = Ret (Some r) ->
    exists p caps, In p ps /\ mr_pattern r = stripped p /\ matches (regex_of (pat_tokens p)) text /\
      divided (pat_tokens p) text caps /\ reports caps (mr_values r).
Proof. exact trie_matches_regex. Qed.
Print Assumptions C144_every_match.

(** The converse holds for a definite pattern alone ... *)
Theorem C144_definite :
  forall sip p t text r,
    valid_pattern p -> definite (pat_tokens p) -> collision_free sip [p] ->
    Trie.add_patterns sip Trie.tree_new [p] = Ret t -> utf8 text -> Trie.parse t text = Ret r ->
    match r with
    | Some r => mr_pattern r = stripped p /\ matches (trie_regex (pat_tokens p)) text
    | None => ~ matches (trie_regex (pat_tokens p)) text
    end.
Proof. exact trie_is_regex. Qed.
Print Assumptions C144_definite.

(** ... and for separate ones (C142) together. *)
Theorem C144_separate :
  forall sip ps t text r,
    Forall valid_pattern ps -> separate ps -> Forall (fun p => definite (pat_tokens p)) ps ->
    Trie.add_patterns sip Trie.tree_new ps = Ret t -> utf8 text -> Trie.parse t text = Ret r ->
    match r with
    | Some r => exists p, In p ps /\ mr_pattern r = stripped p /\ matches (trie_regex (pat_tokens p)) text
    | None => forall p, In p ps -> ~ matches (trie_regex (pat_tokens p)) text
    end.
Proof. exact separate_regexes. Qed.
Print Assumptions C144_separate.

(** If GREEDY is only used for the rest, there is only one way to choose the groups. *)
Theorem C144_groups :
  forall sip p t text r caps,
    valid_pattern p -> definite (pat_tokens p) -> greedy_last (pat_tokens p) -> collision_free sip [p] ->
    Trie.add_patterns sip Trie.tree_new [p] = Ret t -> utf8 text -> Trie.parse t text = Ret (Some r) ->
    divided (pat_tokens p) text caps -> reports caps (mr_values r).
Proof. exact trie_groups. Qed.
Print Assumptions C144_groups.

(** The suffix table reports a pattern only if it matches when its literals may be
    cut short ... *)
Theorem C144_table_at_most :
  forall sip ps t text r,
    Forall valid_pattern ps -> collision_free sip ps -> SuffixArray.add_patterns sip SuffixArray.table_new ps = Ret t ->
    utf8 text -> SuffixArray.parse t text = Ret (Some r) ->
    exists p, In p ps /\ mr_pattern r = stripped p /\ matches (loose_regex (pat_tokens p)) text.
Proof. exact table_at_most. Qed.
Print Assumptions C144_table_at_most.

(** ... and among separate patterns a definite one whenever it matches. *)
Theorem C144_table_at_least :
  forall sip ps t text p,
    Forall valid_pattern ps -> (forall q, parser_in ps q -> parser_ascii_set q) -> separate ps ->
    SuffixArray.add_patterns sip SuffixArray.table_new ps = Ret t -> utf8 text ->
    In p ps -> definite (pat_tokens p) -> matches (trie_regex (pat_tokens p)) text ->
    exists r, SuffixArray.parse t text = Ret (Some r) /\ mr_pattern r = stripped p.
Proof. exact table_at_least. Qed.
Print Assumptions C144_table_at_least.

(** Without [definite] it is not so, for a pattern from the README: the address is
    what precedes the first ": ", and "x" is not a number. *)
Theorem C144_any_pattern_refuted :
  exists p t text,
    valid_pattern p /\ collision_free siphash [p] /\ Trie.add_patterns siphash Trie.tree_new [p] = Ret t /\
    ascii text = true /\ matches (trie_regex (pat_tokens p)) text /\ Trie.parse t text = Ret None.
Proof. exact regex_incomplete. Qed.
Print Assumptions C144_any_pattern_refuted.

(** The pattern of the README's example with a test message, and its first one. *)
Example C144_example :
  definite (pat_tokens loggen) /\ valid_pattern loggen /\ collision_free siphash [loggen] /\
  definite (pat_tokens joe) /\ greedy_last (pat_tokens joe) /\ valid_pattern joe /\ collision_free siphash [joe] /\
  separate [loggen; joe] /\
  trie_run [loggen; joe] loggen_message =
    Ret (Some (uid 1, [($".loggen.padding", $"PADDPADDPADDPADD"); ($".loggen.runid", $"1437655178");
                       ($".loggen.seq", $"0000000001"); ($".loggen.stamp", $"2015-07-23T14:39:38");
                       ($".loggen.thread", $"0000")])) /\
  trie_run [loggen; joe] ($"Jun 25 14:09:58 server sshd[26665]: Accepted publickey for joe") =
    Ret (Some (uid 2, [($"day", $"25"); ($"hour", $"14"); ($"min", $"09"); ($"pid", $"26665"); ($"sec", $"58")])) /\
  trie_run [loggen; joe] ($"seq: 1, thread: 2, runid: 3, stamp: 4") = Ret None /\
  table_run [loggen; joe] ($"seq: 1, thread: 2, runid: 3, 4 5") =
    Ret (Some (uid 1, [($".loggen.padding", $"5"); ($".loggen.runid", $"3"); ($".loggen.seq", $"1");
                       ($".loggen.stamp", $"4"); ($".loggen.thread", $"2")])).
Proof.
  split; [exact loggen_definite|]. split; [exact loggen_valid|].
  split; [apply collision_freeb_sound; vm_compute; reflexivity|].
  split; [exact joe_definite|]. split; [exact joe_greedy|]. split; [exact joe_valid|].
  split; [apply collision_freeb_sound; vm_compute; reflexivity|].
  split; [exact readme_separate|]. repeat split; vm_compute; reflexivity.
Qed.

(** The example's file is loaded: its test message passes. *)
Example C144_loggen_file :
  load_error loggen_doc = Ret None /\
  match load loggen_doc with
  | Ret (Ok m) => exists r, Trie.parse m loggen_message = Ret (Some r) /\
      summary (Some r) <> None /\ pat_tags (mr_pattern r) = Some [$"foo"; $"bar"]
  | _ => False
  end.
Proof.
  split; [vm_compute; reflexivity|]. vm_compute. eexists. split; [reflexivity|]. split; [discriminate|reflexivity].
Qed.
