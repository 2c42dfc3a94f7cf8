(** * Property C165: filling in a pattern *)
From Verif Require Import Base Base_facts Utils Parsers Pattern Source Spec Spec_table Spec_source Spec_canon Spec_separate Separate_claims Spec_fill Fill_claims
  Siphash Deciders Tests.
From Verif Require Trie SuffixArray.

(** ** C165: values put into a pattern come back *)
Theorem C165_trie :
  forall sip p t vs text o,
    valid_pattern p -> collision_free sip [p] -> Trie.add_patterns sip Trie.tree_new [p] = Ret t ->
    spaced (pat_tokens p) -> pat_tokens p <> [] -> filled (pat_tokens p) vs text -> admissible_values vs -> utf8 text ->
    Trie.parse t text = Ret o -> exists r, o = Some r /\ mr_pattern r = stripped p /\ reports vs (mr_values r).
Proof. exact trie_filled. Qed.
Print Assumptions C165_trie.

Theorem C165_separate :
  forall sip ps t p vs text o,
    Forall valid_pattern ps -> separate ps -> Trie.add_patterns sip Trie.tree_new ps = Ret t ->
    In p ps -> spaced (pat_tokens p) -> filled (pat_tokens p) vs text -> admissible_values vs -> utf8 text ->
    Trie.parse t text = Ret o -> exists r, o = Some r /\ mr_pattern r = stripped p /\ reports vs (mr_values r).
Proof. exact separate_filled. Qed.
Print Assumptions C165_separate.

Theorem C165_table :
  forall sip ps t p vs text,
    Forall valid_pattern ps -> (forall q, parser_in ps q -> parser_ascii_set q) -> separate ps ->
    SuffixArray.add_patterns sip SuffixArray.table_new ps = Ret t ->
    In p ps -> spaced (pat_tokens p) -> filled (pat_tokens p) vs text -> admissible_values vs -> utf8 text ->
    exists r, SuffixArray.parse t text = Ret (Some r) /\ mr_pattern r = stripped p /\ reports vs (mr_values r).
Proof. exact separate_table_filled. Qed.
Print Assumptions C165_table.

(** The trie reports nothing but filled in patterns, spaced or not. *)
Theorem C165_only :
  forall sip p t text r,
    valid_pattern p -> collision_free sip [p] -> Trie.add_patterns sip Trie.tree_new [p] = Ret t -> utf8 text ->
    Trie.parse t text = Ret (Some r) -> exists vs, filled (pat_tokens p) vs text /\ admissible_values vs /\ reports vs (mr_values r).
Proof. exact trie_only_filled. Qed.
Print Assumptions C165_only.

Theorem C165_separate_only :
  forall sip ps t text r,
    Forall valid_pattern ps -> separate ps -> Trie.add_patterns sip Trie.tree_new ps = Ret t -> utf8 text -> Trie.parse t text = Ret (Some r) ->
    exists p vs, In p ps /\ mr_pattern r = stripped p /\ filled (pat_tokens p) vs text /\ admissible_values vs /\ reports vs (mr_values r).
Proof. exact separate_only_filled. Qed.
Print Assumptions C165_separate_only.

(** Without the spacing values are lost: SET takes what was meant for its neighbour. *)
Theorem C165_spacing_refuted :
  exists p vs text, valid_pattern p /\ pat_tokens p <> [] /\ filled (pat_tokens p) vs text /\ admissible_values vs /\ utf8 text /\
    trie_run [p] text = Ret None /\ table_run [p] text = Ret None.
Proof.
  set (p := tpat 1 ($"%{SET(""ab""):x}%{SET(""b""):y}")).
  assert (exists q1 q2, pat_tokens p = [Parser q1; Parser q2]) as (q1 & q2 & E) by (eexists; eexists; vm_compute; reflexivity).
  exists p, [(q1, $"a"); (q2, $"b")], ($"ab").
  split; [apply valid_patternb_sound; vm_compute; reflexivity|]. split; [rewrite E; discriminate|].
  split; [rewrite E; apply (filled_parser q1 ($"a") [Parser q2] [(q2, $"b")] ($"b")); apply (filled_parser q2 ($"b") [] [] []); constructor|].
  split.
  { vm_compute in E. injection E as <- <-. repeat constructor; cbn; try discriminate; auto. }
  split; [apply utf8b_sound; vm_compute; reflexivity|]. split; vm_compute; reflexivity.
Qed.
Print Assumptions C165_spacing_refuted.

(** A spaced pattern, filled in twice *)
Definition fill_demo : list pattern := [tpat 1 ($"user %{INT:id} at %{GREEDY:host}: %{SET(""xyz"",min_len=2):mode}"); tpat 2 ($"root %{GREEDY:all}")].
Definition demo_values (vs : list str) : list (parser * str) :=
  combine (flat_map (fun t => match t with Parser q => [q] | Literal _ => [] end) (pat_tokens (hd (tpat 3 []) fill_demo))) vs.
Lemma fill_demo_spaced : spaced (pat_tokens (hd (tpat 3 []) fill_demo)).
Proof.
  match goal with |- spaced ?x => let y := eval vm_compute in x in change x with y end.
  cbn [spaced parts_from sp_character_set gp_end_string]. repeat split; try (eexists; reflexivity); cbn; intuition discriminate.
Qed.
Ltac fill := match goal with |- filled ?a ?b ?c =>
    let a' := eval vm_compute in a in let b' := eval vm_compute in b in let c' := eval vm_compute in c in change (filled a' b' c') end;
  repeat match goal with
  | |- filled [] [] [] => constructor
  | |- filled (Literal ?l :: ?ts) ?vs ?text =>
      let r := eval vm_compute in (skipn (length l) text) in
      apply (filled_literal l ts vs r); [first [left; reflexivity|right; split; discriminate]|]
  | |- filled (Parser ?q :: ?ts) ((_, ?v) :: ?vs) ?text =>
      let r := eval vm_compute in (skipn (length v) text) in apply (filled_parser q v ts vs r)
  end.
Ltac show_values := match goal with |- admissible_values ?x => let y := eval vm_compute in x in change (admissible_values y) end;
  apply Forall_cons; [|apply Forall_cons; [|apply Forall_cons; [|apply Forall_nil]]];
  cbn [fst snd admissible gp_end_string];
  [split; [discriminate|split; [repeat constructor; cbn; auto 20|split; cbn; auto]]; discriminate
  |let a := fresh in let b := fresh in let E := fresh in intros a b E; cbn in E;
   repeat (destruct a as [|? a]; cbn in E; [try discriminate E; injection E as E; auto; discriminate|try discriminate E; injection E as _ E])
  |split; [discriminate|split; [repeat constructor; cbn; auto 20|split; cbn; auto]]; discriminate].
Example C165_example :
  let p := hd (tpat 3 []) fill_demo in
  Forall valid_pattern fill_demo /\ separate fill_demo /\ spaced (pat_tokens p) /\
  filled (pat_tokens p) (demo_values [$"7"; $"a b"; $"xyx"]) ($"user 7 at a b: xyx") /\
  filled (pat_tokens p) (demo_values [$"12"; $":c"; $"zz"]) ($"user 12 at :c: zz") /\
  admissible_values (demo_values [$"7"; $"a b"; $"xyx"]) /\ admissible_values (demo_values [$"12"; $":c"; $"zz"]) /\
  map (trie_run fill_demo) [$"user 7 at a b: xyx"; $"user 12 at :c: zz"; $"user 12 at c: z"] =
    [Ret (Some (uid 1, [($"host", $"a b"); ($"id", $"7"); ($"mode", $"xyx")]));
     Ret (Some (uid 1, [($"host", $":c"); ($"id", $"12"); ($"mode", $"zz")])); Ret None] /\
  map (table_run fill_demo) [$"user 7 at a b: xyx"; $"user 12 at :c: zz"] =
    [Ret (Some (uid 1, [($"host", $"a b"); ($"id", $"7"); ($"mode", $"xyx")]));
     Ret (Some (uid 1, [($"host", $":c"); ($"id", $"12"); ($"mode", $"zz")]))].
Proof.
  intros p. split; [apply valid_patterns_sound; vm_compute; reflexivity|].
  split.
  { split; [intros q [<-|[<-|[]]]; eexists; eexists; vm_compute; reflexivity|].
    intros i j x y L Ei Ej l m r (a & Ea) (b & Eb). destruct i as [|[|i]]; [|exfalso|destruct i; discriminate Ei].
    - destruct j as [|[|j]]; [lia| |destruct j; discriminate Ej]. injection Ei as <-. injection Ej as <-. vm_compute in Ea, Eb.
      injection Ea as <- _. injection Eb as <- _. split; discriminate.
    - destruct j as [|[|j]]; [lia|lia|destruct j; discriminate Ej]. }
  split; [exact fill_demo_spaced|]. split; [subst p; fill|]. split; [subst p; fill|].
  split; [show_values|]. split; [show_values|].
  split; vm_compute; reflexivity.
Qed.
