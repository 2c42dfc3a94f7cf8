(** * Property C164: relaxing the bounds of parsers *)
From Verif Require Import Base Base_facts Utils Parsers Pattern Source Spec Spec_source Spec_canon Spec_separate Spec_relaxed Relaxed_claims
  Siphash Deciders Tests.
From Verif Require Trie SuffixArray.

(** ** C164: with lower minimal and higher maximal lengths a pattern on its own
    matches what it matched, with the same values *)
Theorem C164_trie :
  forall sip sip' p p' t t' text r o,
    relaxed p p' -> valid_pattern p -> valid_pattern p' -> collision_free sip [p] -> collision_free sip' [p'] ->
    Trie.add_patterns sip Trie.tree_new [p] = Ret t -> Trie.add_patterns sip' Trie.tree_new [p'] = Ret t' -> utf8 text ->
    Trie.parse t text = Ret (Some r) -> Trie.parse t' text = Ret o ->
    exists r', o = Some r' /\ mr_pattern r' = stripped p' /\ same_values (mr_values r) (mr_values r').
Proof. exact trie_relaxed. Qed.
Print Assumptions C164_trie.

Theorem C164_table :
  forall sip sip' p p' t t' text r o,
    relaxed p p' -> valid_pattern p -> valid_pattern p' -> collision_free sip [p] -> collision_free sip' [p'] ->
    SuffixArray.add_patterns sip SuffixArray.table_new [p] = Ret t -> SuffixArray.add_patterns sip' SuffixArray.table_new [p'] = Ret t' -> utf8 text ->
    SuffixArray.parse t text = Ret (Some r) -> SuffixArray.parse t' text = Ret o ->
    exists r', o = Some r' /\ mr_pattern r' = stripped p' /\ same_values (mr_values r) (mr_values r').
Proof. exact table_relaxed. Qed.
Print Assumptions C164_table.

(** So do patterns with separate first literals together ... *)
Theorem C164_separate :
  forall sip sip' ps ps' t t' text r o,
    Forall2 relaxed ps ps' -> Forall valid_pattern ps -> Forall valid_pattern ps' -> separate ps ->
    Trie.add_patterns sip Trie.tree_new ps = Ret t -> Trie.add_patterns sip' Trie.tree_new ps' = Ret t' -> utf8 text ->
    Trie.parse t text = Ret (Some r) -> Trie.parse t' text = Ret o ->
    exists i p p' r', nth_error ps i = Some p /\ nth_error ps' i = Some p' /\ mr_pattern r = stripped p /\
      o = Some r' /\ mr_pattern r' = stripped p' /\ same_values (mr_values r) (mr_values r').
Proof. exact separate_relaxed. Qed.
Print Assumptions C164_separate.

(** ... and their test messages still pass. *)
Theorem C164_loads :
  forall sip sip' ps ps' m x,
    Forall2 relaxed_only ps ps' -> Forall valid_pattern ps -> Forall valid_pattern ps' -> utf8_tests ps -> separate ps ->
    NoDup (map pat_uuid ps) ->
    from_source (trie_ops sip) (map (fun p => Ok p) ps) = Ret (Ok m) ->
    from_source (trie_ops sip') (map (fun p => Ok p) ps') = Ret x -> exists m', x = Ok m'.
Proof. exact relaxed_loads. Qed.
Print Assumptions C164_loads.

Ltac relax := unfold relaxed; match goal with |- Forall2 _ ?a ?b =>
    let a' := eval vm_compute in a in let b' := eval vm_compute in b in change a with a'; change b with b' end;
  repeat (apply Forall2_cons; [cbn [relaxed_token]; try reflexivity;
    try (split; [reflexivity|split; [reflexivity|split; cbn; try exact I; eexists; (split; [reflexivity|vm_compute; discriminate])]])|]); try apply Forall2_nil.

(** Together with others that may begin alike it is not so: the parsers become the
    same one and the later pattern replaces the other. *)
Definition strict_demo : list pattern := [tpat 1 ($"%{INT:x} b"); tpat 2 ($"%{INT(min_len=3):x} a")].
Definition loose_demo : list pattern := [tpat 1 ($"%{INT:x} b"); tpat 2 ($"%{INT:x} a")].
Theorem C164_together_refuted :
  exists ps ps' text, Forall2 relaxed ps ps' /\ Forall valid_pattern ps /\ Forall valid_pattern ps' /\
    collision_free siphash ps /\ collision_free siphash ps' /\ utf8 text /\
    trie_run ps text <> Ret None /\ trie_run ps' text = Ret None /\
    table_run ps text <> Ret None /\ table_run ps' text = Ret None.
Proof.
  exists strict_demo, loose_demo, ($"1 b").
  split; [unfold strict_demo, loose_demo; apply Forall2_cons; [relax|apply Forall2_cons; [relax|apply Forall2_nil]]|].
  split; [apply valid_patterns_sound; vm_compute; reflexivity|]. split; [apply valid_patterns_sound; vm_compute; reflexivity|].
  split; [apply collision_freeb_sound; vm_compute; reflexivity|]. split; [apply collision_freeb_sound; vm_compute; reflexivity|].
  split; [apply utf8b_sound; vm_compute; reflexivity|]. vm_compute. repeat split; try discriminate; reflexivity.
Qed.
Print Assumptions C164_together_refuted.

(** Nor may characters be added to a SET: it takes what the next token needs. *)
Theorem C164_characters_refuted :
  exists text,
    trie_run [tpat 1 ($"%{SET(""a""):x}%{SET(""b"")}")] text <> Ret None /\ trie_run [tpat 1 ($"%{SET(""ab""):x}%{SET(""b"")}")] text = Ret None /\
    table_run [tpat 1 ($"%{SET(""a""):x}%{SET(""b"")}")] text <> Ret None /\ table_run [tpat 1 ($"%{SET(""ab""):x}%{SET(""b"")}")] text = Ret None.
Proof. exists ($"ab"). vm_compute. repeat split; try discriminate; reflexivity. Qed.
Print Assumptions C164_characters_refuted.

Example C164_example :
  let p := tpat 1 ($"id %{SET(""ab"",min_len=2,max_len=3):x} %{INT(max_len=2):y}") in
  let p' := tpat 1 ($"id %{SET(""ab"",min_len=1):x} %{INT(max_len=4):y}") in
  relaxed p p' /\ valid_pattern p /\ valid_pattern p' /\ separate [p] /\
  map (trie_run [p]) [$"id ab 12"; $"id a 12"; $"id abab 12"; $"id ab 123"] =
    [Ret (Some (uid 1, [($"x", $"ab"); ($"y", $"12")])); Ret None; Ret None; Ret None] /\
  map (trie_run [p']) [$"id ab 12"; $"id a 12"; $"id abab 12"; $"id ab 123"] =
    [Ret (Some (uid 1, [($"x", $"ab"); ($"y", $"12")])); Ret (Some (uid 1, [($"x", $"a"); ($"y", $"12")]));
     Ret (Some (uid 1, [($"x", $"abab"); ($"y", $"12")])); Ret (Some (uid 1, [($"x", $"ab"); ($"y", $"123")]))].
Proof.
  intros p p'. split; [subst p p'; relax|].
  split; [apply valid_patternb_sound; vm_compute; reflexivity|]. split; [apply valid_patternb_sound; vm_compute; reflexivity|].
  split.
  { split; [intros q [<-|[]]; eexists; eexists; vm_compute; reflexivity|].
    intros i j x y L Ei Ej. destruct i as [|i]; [|destruct i; discriminate Ei]. destruct j as [|j]; [lia|]. destruct j; discriminate Ej. }
  split; vm_compute; reflexivity.
Qed.
