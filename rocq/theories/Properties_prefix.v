(** * Properties C151 and C152: plain text in front of a pattern *)
From Verif Require Import Base Base_facts Parsers Pattern Siphash Spec Spec_table Grammar Deser Errors Pdb2adb Spec_pdb Pdbread
  Spec_pdbread Spec_prefix Prefix_claims Deciders Tests Properties_pdbread.
From Verif Require Trie SuffixArray.

(** ** C151 *)
Theorem C151_compiled :
  forall pre s ts, plain_front pre -> utf8 s -> compile s = Ret (Ok ts) ->
    compile (pre ++ s) = Ret (Ok (with_text pre ts)).
Proof. exact compile_behind. Qed.
Print Assumptions C151_compiled.
Theorem C151_trie :
  forall sip pre s p p',
    plain_front pre -> utf8 s -> compile s = Ret (Ok (pat_tokens p)) -> compile (pre ++ s) = Ret (Ok (pat_tokens p')) ->
    collision_free sip [p] ->
    forall t t' x o',
      Trie.add_patterns sip Trie.tree_new [p] = Ret t -> Trie.add_patterns sip Trie.tree_new [p'] = Ret t' ->
      utf8 x -> Trie.parse t' x = Ret o' ->
      (forall m o, x = pre ++ m -> m <> [] -> Trie.parse t m = Ret o -> same_answer o o') /\
      ((~ exists m, x = pre ++ m /\ m <> []) -> o' = None).
Proof. exact trie_behind. Qed.
Print Assumptions C151_trie.
Theorem C151_table :
  forall sip pre s p p',
    plain_front pre -> utf8 s -> compile s = Ret (Ok (pat_tokens p)) -> compile (pre ++ s) = Ret (Ok (pat_tokens p')) ->
    collision_free sip [p] ->
    forall t t' m o o',
      SuffixArray.add_patterns sip SuffixArray.table_new [p] = Ret t ->
      SuffixArray.add_patterns sip SuffixArray.table_new [p'] = Ret t' ->
      utf8 m -> m <> [] -> SuffixArray.parse t m = Ret o -> SuffixArray.parse t' (pre ++ m) = Ret o' -> same_answer o o'.
Proof. exact table_behind. Qed.
Print Assumptions C151_table.

Definition bare : pattern := tpat 1 ($"%{INT:n} b").
Definition behind : pattern := tpat 2 ($"a: %{INT:n} b").
Example C151_example :
  plain_front ($"a: ") /\ utf8 ($"%{INT:n} b") /\
  compile ($"%{INT:n} b") = Ret (Ok (pat_tokens bare)) /\ compile ($"a: " ++ $"%{INT:n} b") = Ret (Ok (pat_tokens behind)) /\
  collision_free siphash [bare] /\
  trie_run [bare] ($"1 b") = Ret (Some (uid 1, [($"n", $"1")])) /\
  trie_run [behind] ($"a: 1 b") = Ret (Some (uid 2, [($"n", $"1")])) /\
  trie_run [behind] ($"1 b") = Ret None /\
  table_run [bare] ($"1 b") = Ret (Some (uid 1, [($"n", $"1")])) /\
  table_run [behind] ($"a: 1 b") = Ret (Some (uid 2, [($"n", $"1")])).
Proof.
  split; [repeat split; [apply utf8b_sound; vm_compute; reflexivity|discriminate|intros I; vm_compute in I; intuition discriminate..]|].
  split; [apply utf8b_sound; vm_compute; reflexivity|].
  split; [vm_compute; reflexivity|]. split; [vm_compute; reflexivity|].
  split; [apply collision_freeb_sound; vm_compute; reflexivity|].
  repeat split; vm_compute; reflexivity.
Qed.
(** A pattern that begins with a literal: the two literals become one. *)
Example C151_example_literal :
  exists ts, compile ($"b\%\{%{INT:n}") = Ret (Ok (Literal ($"b%{") :: ts)) /\
    compile ($"a: b\%\{%{INT:n}") = Ret (Ok (Literal ($"a: b%{") :: ts)).
Proof. eexists. split; vm_compute; reflexivity. Qed.
(** With a percent sign or a backslash in front the pattern is another one. *)
Example C151_example_others :
  compile ($"{INT}") = Ret (Ok [Literal ($"{INT}")]) /\ (exists q, compile ($"%{INT}") = Ret (Ok [Parser q])) /\
  compile ($"%\{a") = Ret (Ok [Literal ($"%\{a")]) /\ compile ($"\%\{a") = Ret (Ok [Literal ($"%{a")]).
Proof. split; [vm_compute; reflexivity|]. split; [eexists; vm_compute; reflexivity|]. split; vm_compute; reflexivity. Qed.

(** ** C152 *)
Theorem C152_programs :
  forall examples fresh parse_uuid db doc doc' pats pats',
    standard db ->
    script examples false fresh (pdb_xml db) = Ret doc -> de_pattern_file parse_uuid doc = Ret (Ok pats) ->
    script examples true fresh (pdb_xml db) = Ret doc' -> de_pattern_file parse_uuid doc' = Ret (Ok pats') ->
    length pats' = length pats /\
    forall i res p p', nth_error (results p2p (sources_in examples db)) i = Some res ->
      nth_error pats i = Some p -> nth_error pats' i = Some p' ->
      plain_front (src_program (snd (fst res)) ++ $": ") -> utf8 (snd res) ->
      fronted (src_program (snd (fst res)) ++ $": ")
        (map (fun e => match ex_program e with Some program => program | None => [] end)
           (rl_examples (src_rule (snd (fst res))))) p p'.
Proof. exact programs_in_front. Qed.
Print Assumptions C152_programs.

Example C152_example :
  standard example_db /\
  exists doc doc' p q r p' q' r',
    script true false example_uuids (pdb_xml example_db) = Ret doc /\ de_pattern_file Some doc = Ret (Ok [p; q; r]) /\
    script true true example_uuids (pdb_xml example_db) = Ret doc' /\ de_pattern_file Some doc' = Ret (Ok [p'; q'; r']) /\
    compile ($"port %{INT:p}") = Ret (Ok (pat_tokens p)) /\ compile ($"sshd: port %{INT:p}") = Ret (Ok (pat_tokens p')) /\
    option_map (map tm_message) (pat_test_messages p) = Some [$"port 22"] /\
    option_map (map tm_message) (pat_test_messages p') = Some [$"sshd: port 22"] /\
    map (fun res => (src_program (snd (fst res)), snd res)) (results p2p (sources_in true example_db)) =
      [($"sshd", $"port %{INT:p}"); ($"sshd", $"user %{GREEDY:u}"); ($"su", $"bye")].
Proof.
  split; [exact (proj1 C134_example)|].
  do 8 eexists. split; [vm_compute; reflexivity|]. split; [vm_compute; reflexivity|].
  split; [vm_compute; reflexivity|]. split; [vm_compute; reflexivity|]. repeat split; vm_compute; reflexivity.
Qed.
