(** * Properties C130 and C131: what the trie holds, what a pattern file can report *)
From Verif Require Import Base Base_facts Utils Parsers Pattern Spec Spec_grammar Spec_trie Spec_table Spec_source
  TrieSpec Spec_panics Spec_content Content_claims Content_readme Source Siphash Deciders Tests.
From Verif Require Trie SuffixArray.

(** ** C130: the trie holds exactly the patterns that nothing dropped *)
Theorem C130_trie_content :
  forall sip ps t path x,
    Forall valid_pattern ps -> Forall apart_literals ps -> collision_free sip ps ->
    Trie.add_patterns sip Trie.tree_new ps = Ret t ->
    (held t path x <->
     exists before p, survives ps before p /\ path = flat (pat_tokens p) /\ x = stripped p).
Proof. exact trie_content. Qed.
Print Assumptions C130_trie_content.

(** Only such a pattern is ever reported. *)
Theorem C130_trie_reported :
  forall sip ps t text r,
    Forall valid_pattern ps -> Forall apart_literals ps -> collision_free sip ps ->
    Trie.add_patterns sip Trie.tree_new ps = Ret t ->
    utf8 text -> Trie.parse t text = Ret (Some r) ->
    exists before p caps, survives ps before p /\ mr_pattern r = stripped p /\
      walk (pat_tokens p) text caps /\ reports caps (mr_values r).
Proof. exact trie_reported. Qed.
Print Assumptions C130_trie_reported.

Theorem C130_table_reported :
  forall sip ps t text r,
    Forall valid_pattern ps -> collision_free sip ps -> SuffixArray.add_patterns sip SuffixArray.table_new ps = Ret t ->
    utf8 text -> SuffixArray.parse t text = Ret (Some r) ->
    exists before p after caps, ps = before ++ p :: after /\
      (forall q, In q after -> ~ displaces (pat_tokens q) (pat_tokens p)) /\
      mr_pattern r = stripped p /\ table_walk (pat_tokens p) text caps /\ reports caps (mr_values r).
Proof. exact table_reported. Qed.
Print Assumptions C130_table_reported.

(** [ab] is put behind [a]; the third pattern drops both of them, whatever
    follows. *)
Definition content_demo : list pattern :=
  [tpat 1 ($"a%{INT:n}"); tpat 2 ($"ab"); tpat 3 ($"b"); tpat 4 ($"a%{INT:n}x"); tpat 5 ($"ac%{INT}")].
Example C130_example :
  Forall valid_pattern content_demo /\ Forall apart_literals content_demo /\ collision_free siphash content_demo /\
  goes_behind [tpat 1 ($"a%{INT:n}")] ($"ab") ($"a") /\
  drops [tpat 1 ($"a%{INT:n}")] (tpat 4 ($"a%{INT:n}x")) (tpat 2 ($"ab")) /\
  match trie content_demo with Ret t => length (collect t) | _ => 0 end = 3 /\
  map (trie_run content_demo) [$"a1"; $"ab"; $"b"; $"a1x"; $"ac1"] =
    [Ret None; Ret None; Ret (Some (uid 3, [])); Ret (Some (uid 4, [($"n", $"1")])); Ret (Some (uid 5, []))].
Proof.
  assert (goes_behind [tpat 1 ($"a%{INT:n}")] ($"ab") ($"a")) as G.
  { eexists _, ($"b"). split; [|split; [reflexivity|discriminate]].
    unfold s_adds. cbn [fold_left]. vm_compute (s_add _ _).
    eapply reaches_below; [left; reflexivity|reflexivity|apply reaches_here]. }
  split; [apply valid_patterns_sound; vm_compute; reflexivity|].
  split; [repeat constructor|].
  split; [apply collision_freeb_sound; vm_compute; reflexivity|].
  split; [exact G|]. split.
  { right. eexists _, _. split; [vm_compute; reflexivity|]. split; [discriminate|]. right.
    eexists _, _, _. split; [vm_compute; reflexivity|]. split; [reflexivity|]. exact G. }
  split; vm_compute; reflexivity.
Qed.

(** ** C131: of the patterns of a file that displace each other only the first one
    is reported *)
Theorem C131_trie_file :
  forall ps sip,
    Forall valid_pattern ps -> collision_free sip ps ->
    forall m text r, Forall apart_literals ps ->
    from_source (trie_ops sip) (map (fun p => Ok p) (rev ps)) = Ret (Ok m) \/
      from_source_ignore_errors (trie_ops sip) (map (fun p => Ok p) (rev ps)) = Ret m ->
    utf8 text -> mo_parse (trie_ops sip) m text = Ret (Some r) ->
    exists before p after caps, ps = before ++ p :: after /\
      (forall q, In q before -> ~ displaces (pat_tokens q) (pat_tokens p)) /\
      mr_pattern r = stripped (untested p) /\ walk (pat_tokens p) text caps /\ reports caps (mr_values r).
Proof. exact trie_file_reported. Qed.
Print Assumptions C131_trie_file.

Theorem C131_table_file :
  forall ps sip,
    Forall valid_pattern ps -> collision_free sip ps ->
    forall m text r,
    from_source (table_ops sip) (map (fun p => Ok p) (rev ps)) = Ret (Ok m) \/
      from_source_ignore_errors (table_ops sip) (map (fun p => Ok p) (rev ps)) = Ret m ->
    utf8 text -> mo_parse (table_ops sip) m text = Ret (Some r) ->
    exists before p after caps, ps = before ++ p :: after /\
      (forall q, In q before -> ~ displaces (pat_tokens q) (pat_tokens p)) /\
      mr_pattern r = stripped (untested p) /\ table_walk (pat_tokens p) text caps /\ reports caps (mr_values r).
Proof. exact table_file_reported. Qed.
Print Assumptions C131_table_file.

(** So the second pattern of the README's example file never matches. *)
Theorem C131_every_pattern_refuted :
  exists ps p text caps,
    Forall valid_pattern ps /\ Forall apart_literals ps /\ collision_free siphash ps /\ In p ps /\
    utf8 text /\ walk (pat_tokens p) text caps /\
    exists m, from_source (trie_ops siphash) (map (fun p => Ok p) (rev ps)) = Ret (Ok m) /\
      mo_parse (trie_ops siphash) m text = Ret None /\
      forall text r, utf8 text -> mo_parse (trie_ops siphash) m text = Ret (Some r) ->
        mr_pattern r <> stripped (untested p).
Proof. exact readme_never. Qed.
Print Assumptions C131_every_pattern_refuted.

Example C131_readme :
  let m := from_source (trie_ops siphash) (map (fun p => Ok p) (rev readme_file)) in
  (let* m := m in
   match m with
   | Ok m => let* a := Trie.parse m readme_first in let* b := Trie.parse m readme_second in
             Ret (summary a, summary b)
   | Err _ => Panic
   end) =
  Ret (Some (uid 1, [($"day", $"25"); ($"dunno", $"11"); ($"hour", $"14"); ($"ipaddr", $"1.2.3.4"); ($"min", $"09");
                     ($"pid", $"26665"); ($"sec", $"58")]), None).
Proof. vm_compute. reflexivity. Qed.
