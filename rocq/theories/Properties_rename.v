(** * Property C154: the names of the values do not influence the matching *)
From Verif Require Import Base Base_facts Parsers Pattern Siphash Spec Spec_rename Rename_claims Deciders Tests.
From Verif Require Trie SuffixArray.

(** ** C154: two lists of patterns that differ in the names of the values, with
    different names staying different, and in whatever else is not text to match *)
Theorem C154_trie :
  forall g sip sip' ps ps', one_to_one g -> Forall2 (renamed g) ps ps' ->
    Forall valid_pattern ps -> Forall valid_pattern ps' -> collision_free sip ps -> collision_free sip' ps' ->
    match Trie.add_patterns sip Trie.tree_new ps, Trie.add_patterns sip' Trie.tree_new ps' with
    | Ret t, Ret t' => forall text, utf8 text -> answers_renamed g ps ps' (Trie.parse t text) (Trie.parse t' text)
    | Panic, Panic => True
    | _, _ => False
    end.
Proof. exact trie_renamed. Qed.
Print Assumptions C154_trie.

Theorem C154_table :
  forall g sip sip' ps ps', one_to_one g -> Forall2 (renamed g) ps ps' ->
    Forall valid_pattern ps -> Forall valid_pattern ps' -> collision_free sip ps -> collision_free sip' ps' ->
    exists t t', SuffixArray.add_patterns sip SuffixArray.table_new ps = Ret t /\
      SuffixArray.add_patterns sip' SuffixArray.table_new ps' = Ret t' /\
      forall text, utf8 text -> answers_renamed g ps ps' (SuffixArray.parse t text) (SuffixArray.parse t' text).
Proof. exact table_renamed. Qed.
Print Assumptions C154_table.

(** Different names have to stay different: with one name for two values, the
    matchers take two parsers for the same one, and another pattern goes. *)
Definition two_names : list pattern := [tpat 1 ($"%{INT:a} x"); tpat 2 ($"%{INT:b} y")].
Definition one_name : list pattern := [tpat 1 ($"%{INT:n} x"); tpat 2 ($"%{INT:n} y")].
Theorem C154_merged :
  exists g ps ps', Forall2 (renamed g) ps ps' /\
    Forall valid_pattern ps /\ Forall valid_pattern ps' /\ collision_free siphash ps /\ collision_free siphash ps' /\
    trie_run ps ($"1 x") <> Ret None /\ trie_run ps' ($"1 x") = Ret None /\
    table_run ps ($"1 x") <> Ret None /\ table_run ps' ($"1 x") = Ret None.
Proof.
  exists (fun _ => $"n"), two_names, one_name.
  split; [repeat constructor|].
  split; [apply valid_patterns_sound; vm_compute; reflexivity|]. split; [apply valid_patterns_sound; vm_compute; reflexivity|].
  split; [apply collision_freeb_sound; vm_compute; reflexivity|]. split; [apply collision_freeb_sound; vm_compute; reflexivity|].
  split; [vm_compute; discriminate|]. split; [vm_compute; reflexivity|]. split; [vm_compute; discriminate|]. vm_compute; reflexivity.
Qed.
Print Assumptions C154_merged.

(** Patterns with an "x" in front of each name, and with other uuids. *)
Definition named_demo : list pattern :=
  [tpat 1 ($"cat %{INT:n} of %{GREEDY:who}"); tpat 2 ($"cat %{SET(""ab""):n}"); tpat 3 ($"%{GREEDY:who} is %{INT}"); tpat 4 ($"%{INT:n}")].
Definition renamed_demo : list pattern :=
  [tpat 9 ($"cat %{INT:xn} of %{GREEDY:xwho}"); tpat 8 ($"cat %{SET(""ab""):xn}"); tpat 7 ($"%{GREEDY:xwho} is %{INT}"); tpat 6 ($"%{INT:xn}")].
Example C154_example :
  one_to_one (app ($"x")) /\ Forall2 (renamed (app ($"x"))) named_demo renamed_demo /\
  Forall valid_pattern named_demo /\ Forall valid_pattern renamed_demo /\
  collision_free siphash named_demo /\ collision_free siphash renamed_demo /\
  map (trie_run named_demo) [$"cat ba"; $"ann is 4"; $"12"; $"dog"] =
    [Ret (Some (uid 2, [($"n", $"ba")])); Ret (Some (uid 3, [($"who", $"ann")])); Ret (Some (uid 4, [($"n", $"12")])); Ret None] /\
  map (trie_run renamed_demo) [$"cat ba"; $"ann is 4"; $"12"; $"dog"] =
    [Ret (Some (uid 8, [($"xn", $"ba")])); Ret (Some (uid 7, [($"xwho", $"ann")])); Ret (Some (uid 6, [($"xn", $"12")])); Ret None] /\
  table_run named_demo ($"cat ba") = Ret (Some (uid 2, [($"n", $"ba")])) /\
  table_run renamed_demo ($"cat ba") = Ret (Some (uid 8, [($"xn", $"ba")])).
Proof.
  split; [intros x y E; injection E as E; exact E|]. split; [repeat constructor|].
  split; [apply valid_patterns_sound; vm_compute; reflexivity|]. split; [apply valid_patterns_sound; vm_compute; reflexivity|].
  split; [apply collision_freeb_sound; vm_compute; reflexivity|]. split; [apply collision_freeb_sound; vm_compute; reflexivity|].
  split; [vm_compute; reflexivity|]. split; [vm_compute; reflexivity|]. split; vm_compute; reflexivity.
Qed.
