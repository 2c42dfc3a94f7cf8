(** * Property C137: hash collisions *)
From Verif Require Import Base Base_facts Utils Parsers Pattern Spec Spec_trie Spec_table Spec_hash Collide_claims
  Grammar Siphash Deciders Tests.
From Verif Require Trie SuffixArray.

(** ** C137: whatever the hash function, the matchers are those that a hash
    function without collisions gives for the patterns in which a parser at the
    beginning is replaced by the first one with the same hash; panics included *)
Theorem C137_trie :
  forall sip ideal ps, injective_hash ideal ->
    Trie.add_patterns sip Trie.tree_new ps = Trie.add_patterns ideal Trie.tree_new (map (confused sip ps) ps).
Proof. exact trie_confused. Qed.
Print Assumptions C137_trie.

Theorem C137_table :
  forall sip ideal ps, injective_hash ideal ->
    SuffixArray.add_patterns sip SuffixArray.table_new ps =
    SuffixArray.add_patterns ideal SuffixArray.table_new (map (confused sip ps) ps).
Proof. exact table_confused. Qed.
Print Assumptions C137_table.

(** What is reported then. *)
Theorem C137_trie_reports :
  forall sip ps t text r,
    Forall valid_pattern ps -> Trie.add_patterns sip Trie.tree_new ps = Ret t ->
    utf8 text -> Trie.parse t text = Ret (Some r) ->
    exists p caps, In p ps /\ mr_pattern r = stripped p /\
      walk (confused_tokens sip ps (pat_tokens p)) text caps /\ reports caps (mr_values r).
Proof. exact trie_confused_reports. Qed.
Print Assumptions C137_trie_reports.

Theorem C137_table_reports :
  forall sip ps t text r,
    Forall valid_pattern ps -> SuffixArray.add_patterns sip SuffixArray.table_new ps = Ret t ->
    utf8 text -> SuffixArray.parse t text = Ret (Some r) ->
    exists p caps, In p ps /\ mr_pattern r = stripped p /\
      table_walk (confused_tokens sip ps (pat_tokens p)) text caps /\ reports caps (mr_values r).
Proof. exact table_confused_reports. Qed.
Print Assumptions C137_table_reports.

(** So collisions of parsers further on in patterns do not matter. *)
Theorem C137_trie_first_parsers :
  forall sip ideal ps, Forall valid_pattern ps -> first_apart sip ps -> injective_hash ideal ->
    Trie.add_patterns sip Trie.tree_new ps = Trie.add_patterns ideal Trie.tree_new ps.
Proof. exact trie_first_apart. Qed.
Print Assumptions C137_trie_first_parsers.

Theorem C137_table_first_parsers :
  forall sip ideal ps, Forall valid_pattern ps -> first_apart sip ps -> injective_hash ideal ->
    SuffixArray.add_patterns sip SuffixArray.table_new ps = SuffixArray.add_patterns ideal SuffixArray.table_new ps.
Proof. exact table_first_apart. Qed.
Print Assumptions C137_table_first_parsers.

(** Such hash functions exist. *)
Theorem C137_ideal_exists : exists ideal, injective_hash ideal.
Proof. exact (ex_intro _ ideal_hash ideal_injective). Qed.
Print Assumptions C137_ideal_exists.

(** With a hash function that is always 0, the second pattern is read with the
    parser of the first one; as second tokens the same parsers are kept apart. *)
Definition zero_hash : list byte -> N := fun _ => 0%N.
Definition zero_run (ps : list pattern) (text : str) : outcome (option (uuid * bmap)) :=
  let* t := Trie.add_patterns zero_hash Trie.tree_new ps in let* r := Trie.parse t text in Ret (summary r).
Example C137_example :
  let a := tpat 1 ($"%{INT:a}x") in let b := tpat 2 ($"%{GREEDY:b}") in
  let c := tpat 3 ($"c%{INT:a}x") in let d := tpat 4 ($"d%{GREEDY:b}") in
  Forall valid_pattern [a; b; c; d] /\ first_apart zero_hash [c; d] /\ ~ first_apart zero_hash [a; b] /\
  map (zero_run [a; b]) [$"1x"; $"12"; $"zz"] =
    [Ret (Some (uid 1, [($"a", $"1")])); Ret None; Ret None] /\
  map (zero_run [b; a]) [$"1x"; $"12"; $"zz"] = [Ret None; Ret None; Ret None] /\
  map (zero_run [c; d]) [$"c1x"; $"dzz"] =
    [Ret (Some (uid 3, [($"a", $"1")])); Ret (Some (uid 4, [($"b", $"zz")]))].
Proof.
  split; [apply valid_patterns_sound; vm_compute; reflexivity|].
  split; [intros q q' []|]. split.
  - intros H. assert (hash_stream (PInt {| sp_name := Some ($"a"); sp_character_set := $"0123456789";
        sp_min_length := None; sp_max_length := None |}) =
      hash_stream (PGreedy {| gp_name := Some ($"b"); gp_end_string := None |})) as E.
    { apply H; [left; vm_compute; reflexivity|right; left; vm_compute; reflexivity|reflexivity]. }
    vm_compute in E. discriminate.
  - repeat split; vm_compute; reflexivity.
Qed.
