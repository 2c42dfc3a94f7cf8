(** * Properties C135 and C136: patterns that can match, matches that lose nothing *)
From Verif Require Import Base Base_facts Utils Parsers Pattern Spec Spec_trie Spec_table Spec_live Live_claims
  Grammar Siphash Deciders Tests.
From Verif Require Trie SuffixArray.

(** ** C135: a pattern of its own matches some ASCII message exactly if every
    two neighbours fit *)
Theorem C135_trie :
  forall sip s p,
    ascii s = true -> compile s = Ret (Ok (pat_tokens p)) -> collision_free sip [p] ->
    exists t, Trie.add_patterns sip Trie.tree_new [p] = Ret t /\
      ((exists text r, ascii text = true /\ Trie.parse t text = Ret (Some r)) <->
       can_match (fun b => ascii_byte b = true) (pat_tokens p)).
Proof. exact trie_live. Qed.
Print Assumptions C135_trie.

Theorem C135_table :
  forall sip s p,
    ascii s = true -> compile s = Ret (Ok (pat_tokens p)) -> collision_free sip [p] ->
    exists t, SuffixArray.add_patterns sip SuffixArray.table_new [p] = Ret t /\
      ((exists text r, ascii text = true /\ SuffixArray.parse t text = Ret (Some r)) <->
       can_match_loosely (fun b => ascii_byte b = true) (pat_tokens p)).
Proof. exact table_live. Qed.
Print Assumptions C135_table.

(** Together with other patterns, too, only such a pattern is reported. *)
Theorem C135_trie_reports :
  forall sip ps t text r,
    Forall (fun p => exists s, utf8 s /\ compile s = Ret (Ok (pat_tokens p))) ps -> collision_free sip ps ->
    Trie.add_patterns sip Trie.tree_new ps = Ret t -> utf8 text -> Trie.parse t text = Ret (Some r) ->
    exists p, In p ps /\ mr_pattern r = stripped p /\ can_match (fun b => In b text) (pat_tokens p).
Proof. exact trie_reports_live. Qed.
Print Assumptions C135_trie_reports.

Theorem C135_table_reports :
  forall sip ps t text r,
    Forall (fun p => exists s, utf8 s /\ compile s = Ret (Ok (pat_tokens p))) ps -> collision_free sip ps ->
    SuffixArray.add_patterns sip SuffixArray.table_new ps = Ret t -> utf8 text ->
    SuffixArray.parse t text = Ret (Some r) ->
    exists p, In p ps /\ mr_pattern r = stripped p /\ can_match_loosely (fun b => In b text) (pat_tokens p).
Proof. exact table_reports_live. Qed.
Print Assumptions C135_table_reports.

(** So a parser cannot be followed by one for the same characters, ... *)
Theorem C135_same_characters :
  forall A a s s' b,
    (forall x, In x (sp_character_set s') -> In x (sp_character_set s)) ->
    forall t t', t = PSet s \/ t = PInt s -> t' = PSet s' \/ t' = PInt s' ->
      ~ can_match A (a ++ Parser t :: Parser t' :: b) /\ ~ can_match_loosely A (a ++ Parser t :: Parser t' :: b).
Proof. exact twice_dead. Qed.
Print Assumptions C135_same_characters.

(** ... nor GREEDY by a parser, unless that takes the rest as well. *)
Theorem C135_greedy_then_parser :
  forall A a g q b,
    gp_end_string g = None -> ~ takes_the_rest (Parser q) ->
    ~ can_match A (a ++ Parser (PGreedy g) :: Parser q :: b) /\
    ~ can_match_loosely A (a ++ Parser (PGreedy g) :: Parser q :: b).
Proof. exact greedy_then_parser_dead. Qed.
Print Assumptions C135_greedy_then_parser.

(** A pattern that can match, and the messages two others do not match; without
    the literal at its end the suffix table takes the second one. *)
Example C135_example :
  can_match (fun b => ascii_byte b = true) (comp ($"%{INT:a}-%{INT:b}")) /\
  ~ can_match (fun b => ascii_byte b = true) (comp ($"%{INT:a}%{INT:b}")) /\
  ~ can_match (fun b => ascii_byte b = true) (comp ($"%{INT:a}0")) /\
  can_match_loosely (fun b => ascii_byte b = true) (comp ($"%{INT:a}0")) /\
  trie_run [tpat 1 ($"%{INT:a}-%{INT:b}")] ($"1-2") = Ret (Some (uid 1, [($"a", $"1"); ($"b", $"2")])) /\
  trie_run [tpat 1 ($"%{INT:a}%{INT:b}")] ($"12") = Ret None /\
  trie_run [tpat 1 ($"%{INT:a}0")] ($"10") = Ret None /\
  table_run [tpat 1 ($"%{INT:a}0")] ($"10") = Ret (Some (uid 1, [($"a", $"10")])).
Proof.
  split; [apply (live_by ($"%{INT:a}-%{INT:b}") ($"1-2") (uid 1, [($"a", $"1"); ($"b", $"2")]));
          [vm_compute; reflexivity|vm_compute; reflexivity|apply collision_freeb_sound; vm_compute; reflexivity|
           vm_compute; reflexivity|vm_compute; reflexivity]|].
  split; [set (ts := comp ($"%{INT:a}%{INT:b}")); vm_compute in ts; subst ts;
          refine (proj1 (twice_dead _ [] _ _ [] _ _ _ (or_intror eq_refl) (or_intror eq_refl))); auto|].
  split; [set (ts := comp ($"%{INT:a}0")); vm_compute in ts; subst ts;
          refine (dead_by _ _ [] _ _ [] _ _ _ eq_refl (or_intror eq_refl) eq_refl _); left; reflexivity|].
  split; [apply (loose_by ($"%{INT:a}0") ($"10") (uid 1, [($"a", $"10")]));
          [vm_compute; reflexivity|vm_compute; reflexivity|apply collision_freeb_sound; vm_compute; reflexivity|
           vm_compute; reflexivity|vm_compute; reflexivity]|].
  repeat split; vm_compute; reflexivity.
Qed.

(** ** C136: pattern and values tell the message if all parsers have names *)
Theorem C136_trie_lossless :
  forall sip ps t text text' r r',
    Forall valid_pattern ps -> collision_free sip ps -> Trie.add_patterns sip Trie.tree_new ps = Ret t ->
    (forall p q, In p ps -> In q ps -> stripped p = stripped q -> p = q) ->
    (forall p, In p ps -> mr_pattern r = stripped p -> all_named_apart p) ->
    utf8 text -> Trie.parse t text = Ret (Some r) -> utf8 text' -> Trie.parse t text' = Ret (Some r') ->
    mr_pattern r = mr_pattern r' -> (forall k v, maps_to (mr_values r) k v <-> maps_to (mr_values r') k v) ->
    text = text'.
Proof. exact trie_keeps_all. Qed.
Print Assumptions C136_trie_lossless.

(** It does not hold in a suffix table, ... *)
Theorem C136_table_refuted :
  exists p t text text' r,
    valid_pattern p /\ all_named_apart p /\ collision_free siphash [p] /\
    SuffixArray.add_patterns siphash SuffixArray.table_new [p] = Ret t /\ ascii text = true /\ ascii text' = true /\
    SuffixArray.parse t text = Ret (Some r) /\ SuffixArray.parse t text' = Ret (Some r) /\ text <> text'.
Proof. exact table_loses. Qed.
Print Assumptions C136_table_refuted.

(** ... nor without names. *)
Theorem C136_unnamed_refuted :
  exists p t text text' r,
    valid_pattern p /\ collision_free siphash [p] /\
    Trie.add_patterns siphash Trie.tree_new [p] = Ret t /\ ascii text = true /\ ascii text' = true /\
    Trie.parse t text = Ret (Some r) /\ Trie.parse t text' = Ret (Some r) /\ text <> text'.
Proof. exact trie_loses_unnamed. Qed.
Print Assumptions C136_unnamed_refuted.

(** The README's example for GREEDY (README.md:136-148). *)
Definition readme_greedy : pattern := tpat 1 ($"from %{GREEDY:ipaddr}: %{INT:dunno}").
Example C136_example :
  valid_pattern readme_greedy /\ all_named_apart readme_greedy /\ collision_free siphash [readme_greedy] /\
  trie_run [readme_greedy] ($"from 1.2.3.4: 123") =
    Ret (Some (uid 1, [($"dunno", $"123"); ($"ipaddr", $"1.2.3.4")])).
Proof.
  split; [apply valid_patternb_sound; vm_compute; reflexivity|].
  split; [exists [$"ipaddr"; $"dunno"]; split; [vm_compute; reflexivity|]|].
  - constructor; [intros [E|[]]; vm_compute in E; discriminate|]. constructor; [intros []|constructor].
  - split; [apply collision_freeb_sound; vm_compute; reflexivity|]. vm_compute. reflexivity.
Qed.
