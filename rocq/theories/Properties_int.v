(** * Property C157: INT is SET with the digits *)
From Verif Require Import Base Base_facts Parsers Pattern Siphash Spec Grammar Spec_grammar Spec_rename Rename_claims Spec_int Int_claims Deciders Tests.
From Verif Require Trie SuffixArray.

(** ** C157: writing SET with the digits instead of INT changes the kind of the
    parsers and nothing else *)
Theorem C157_text :
  forall s s' is ts, utf8 s -> utf8 s' -> pattern_text s is -> pattern_text s' (map int_item is) ->
    compile s = Ret (Ok ts) -> compile s' = Ret (Ok (map (replace_token int_as_set) ts)).
Proof. exact int_text. Qed.
Print Assumptions C157_text.

(** The matchers answer the same, *)
Theorem C157_trie :
  forall sip sip' ps ps', Forall2 (replaced int_as_set) ps ps' -> no_twins ps ->
    Forall valid_pattern ps -> Forall valid_pattern ps' -> collision_free sip ps -> collision_free sip' ps' ->
    match Trie.add_patterns sip Trie.tree_new ps, Trie.add_patterns sip' Trie.tree_new ps' with
    | Ret t, Ret t' => forall text, utf8 text -> answers_renamed (fun k => k) ps ps' (Trie.parse t text) (Trie.parse t' text)
    | Panic, Panic => True
    | _, _ => False
    end.
Proof. exact trie_ints. Qed.
Print Assumptions C157_trie.
Theorem C157_table :
  forall sip sip' ps ps', Forall2 (replaced int_as_set) ps ps' -> no_twins ps ->
    Forall valid_pattern ps -> Forall valid_pattern ps' -> collision_free sip ps -> collision_free sip' ps' ->
    exists t t', SuffixArray.add_patterns sip SuffixArray.table_new ps = Ret t /\
      SuffixArray.add_patterns sip' SuffixArray.table_new ps' = Ret t' /\
      forall text, utf8 text -> answers_renamed (fun k => k) ps ps' (SuffixArray.parse t text) (SuffixArray.parse t' text).
Proof. exact table_ints. Qed.
Print Assumptions C157_table.

(** unless both are used, which the matchers keep apart. *)
Definition twins : list pattern := [tpat 1 ($"%{INT:n} x"); tpat 2 ($"%{SET(""0123456789""):n} y")].
Definition sets_only : list pattern := [tpat 1 ($"%{SET(""0123456789""):n} x"); tpat 2 ($"%{SET(""0123456789""):n} y")].
Theorem C157_twins :
  exists ps ps', Forall2 (replaced int_as_set) ps ps' /\
    Forall valid_pattern ps /\ Forall valid_pattern ps' /\ collision_free siphash ps /\ collision_free siphash ps' /\
    trie_run ps ($"1 x") <> Ret None /\ trie_run ps' ($"1 x") = Ret None /\
    table_run ps ($"1 x") <> Ret None /\ table_run ps' ($"1 x") = Ret None.
Proof.
  exists twins, sets_only.
  split; [repeat constructor|].
  split; [apply valid_patterns_sound; vm_compute; reflexivity|]. split; [apply valid_patterns_sound; vm_compute; reflexivity|].
  split; [apply collision_freeb_sound; vm_compute; reflexivity|]. split; [apply collision_freeb_sound; vm_compute; reflexivity|].
  split; [vm_compute; discriminate|]. split; [vm_compute; reflexivity|]. split; [vm_compute; discriminate|]. vm_compute; reflexivity.
Qed.
Print Assumptions C157_twins.

Definition ints_demo : list pattern := [tpat 1 ($"a%{INT(min_len=2):n}"); tpat 2 ($"%{SET(""ab""):n}%{INT}")].
Definition sets_demo : list pattern := [tpat 1 ($"a%{SET(""0123456789"",min_len=2):n}"); tpat 2 ($"%{SET(""ab""):n}%{SET(""9876543210"")}")].
Example C157_example :
  Forall2 (replaced int_as_set) ints_demo sets_demo /\ no_twins ints_demo /\
  Forall valid_pattern ints_demo /\ Forall valid_pattern sets_demo /\
  collision_free siphash ints_demo /\ collision_free siphash sets_demo /\
  map (trie_run ints_demo) [$"a12"; $"a1"; $"b7"; $"c"] = map (trie_run sets_demo) [$"a12"; $"a1"; $"b7"; $"c"] /\
  trie_run ints_demo ($"a12") = Ret (Some (uid 1, [($"n", $"12")])).
Proof.
  split; [repeat constructor|]. split.
  { intros s p p' I I' J J'. destruct I as [<-|[<-|[]]]; vm_compute in J; destruct I' as [<-|[<-|[]]]; vm_compute in J'; intuition congruence. }
  split; [apply valid_patterns_sound; vm_compute; reflexivity|]. split; [apply valid_patterns_sound; vm_compute; reflexivity|].
  split; [apply collision_freeb_sound; vm_compute; reflexivity|]. split; [apply collision_freeb_sound; vm_compute; reflexivity|].
  split; vm_compute; reflexivity.
Qed.
Example C157_example_text :
  pattern_text ($"%{INT}") [IInt [] None] /\ pattern_text ($"%{SET(""0123456789"")}") (map int_item [IInt [] None]).
Proof.
  split; (split; [|split; [discriminate|exact I]]).
  - apply (items_cons ($"%{INT}") _ []); [|constructor]. apply (text_int [] [] []); constructor.
  - apply (items_cons ($"%{SET(""0123456789"")}") _ []); [|constructor].
    apply (text_set ($"0123456789") [] [] []); [discriminate|cbn; intuition discriminate|constructor|constructor].
Qed.
