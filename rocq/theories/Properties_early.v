(** * Property C172: values that are known early *)
From Verif Require Import Base Base_facts Utils Parsers Parsers_facts Pattern Grammar Source Spec Spec_early Early_claims Siphash Deciders Tests.
From Verif Require Trie SuffixArray.

(** ** C172: values do not depend on what follows *)
Theorem C172_trie :
  forall sip ps t p a vs b r,
    Forall valid_pattern ps -> collision_free sip ps -> NoDup (map pat_uuid ps) -> Trie.add_patterns sip Trie.tree_new ps = Ret t ->
    In p ps -> begun (pat_tokens p) a vs -> utf8 (a ++ b) -> Trie.parse t (a ++ b) = Ret (Some r) -> mr_pattern r = stripped p ->
    (exists later, reports (vs ++ later) (mr_values r)) /\ forall key v, named vs key v -> maps_to (mr_values r) key v.
Proof. exact trie_early. Qed.
Print Assumptions C172_trie.

Theorem C172_table :
  forall sip ps t p a vs b r,
    Forall valid_pattern ps -> collision_free sip ps -> NoDup (map pat_uuid ps) -> SuffixArray.add_patterns sip SuffixArray.table_new ps = Ret t ->
    In p ps -> begun (pat_tokens p) a vs -> utf8 (a ++ b) -> SuffixArray.parse t (a ++ b) = Ret (Some r) -> mr_pattern r = stripped p ->
    (exists later, reports (vs ++ later) (mr_values r)) /\ forall key v, named vs key v -> maps_to (mr_values r) key v.
Proof. exact table_early. Qed.
Print Assumptions C172_table.

(** A value that is not at the end of the message is known one character behind it,
    that of a GREEDY behind the end string. *)
Theorem C172_when :
  forall sip ps t text r,
    Forall (fun p => exists s, utf8 s /\ compile s = Ret (Ok (pat_tokens p))) ps -> collision_free sip ps ->
    Trie.add_patterns sip Trie.tree_new ps = Ret t -> utf8 text -> Trie.parse t text = Ret (Some r) ->
    exists p caps, In p ps /\ mr_pattern r = stripped p /\ reports caps (mr_values r) /\
      forall c1 q v c2, caps = c1 ++ (q, v) :: c2 ->
        exists x y, text = x ++ v ++ y /\ (y = [] \/ begun (pat_tokens p) (x ++ v ++ firstn (needed q) y) (c1 ++ [(q, v)])).
Proof. exact trie_early_when. Qed.
Print Assumptions C172_when.

(** At the end of what has been read a value is open: the next character may belong to it. *)
Theorem C172_end_refuted :
  exists p a b v w, valid_pattern p /\ trie_run [p] a = Ret (Some (pat_uuid p, [($"n", v)])) /\
    trie_run [p] (a ++ b) = Ret (Some (pat_uuid p, [($"n", w)])) /\ v <> w.
Proof.
  exists (tpat 1 ($"a%{INT:n}")), ($"a1"), ($"2"), ($"1"), ($"12").
  split; [apply (Forall_inv (P := valid_pattern) (l := [])); apply valid_patterns_sound; vm_compute; reflexivity|].
  split; [vm_compute; reflexivity|]. split; [vm_compute; reflexivity|discriminate].
Qed.
Print Assumptions C172_end_refuted.

Lemma shown_settled q v c : utf8 (v ++ c) -> parser_utf8 q -> parser_parse q (v ++ c) = Ret (Some v) ->
  match q with PSet _ | PInt _ => c <> [] | PGreedy x => exists e d, gp_end_string x = Some e /\ c = e ++ d end -> settled q v c.
Proof. intros U P E H. split; [|exact H]. exact (proj1 (proj1 (parser_parse_some q (v ++ c) v U P) E)). Qed.
Example C172_example :
  let p := tpat 1 ($"user %{INT:id} at %{GREEDY:host}: %{GREEDY:all}") in
  let ps := [p; tpat 2 ($"user x")] in
  Forall valid_pattern ps /\ collision_free siphash ps /\ NoDup (map pat_uuid ps) /\
  (exists q1 q2, begun (pat_tokens p) ($"user 7 at h:i: ") [(q1, $"7"); (q2, $"h:i")] /\ name_of q1 = Some ($"id") /\ name_of q2 = Some ($"host")) /\
  map (trie_run ps) [$"user 7 at h:i: a"; $"user 7 at h:i: : b"; $"user 7 at h"] =
    [Ret (Some (uid 1, [($"all", $"a"); ($"host", $"h:i"); ($"id", $"7")]));
     Ret (Some (uid 1, [($"all", $": b"); ($"host", $"h:i"); ($"id", $"7")])); Ret None].
Proof.
  intros p ps. split; [apply valid_patterns_sound; vm_compute; reflexivity|].
  split; [apply collision_freeb_sound; vm_compute; reflexivity|].
  split; [vm_compute; repeat constructor; cbn; intuition discriminate|].
  split; [|vm_compute; reflexivity].
  assert (exists q1 q2 q3, pat_tokens p = [Literal ($"user "); Parser q1; Literal ($" at "); Parser q2; Literal ($": "); Parser q3]) as (q1 & q2 & q3 & E)
    by (eexists; eexists; eexists; vm_compute; reflexivity).
  exists q1, q2. rewrite E. vm_compute in E. injection E as <- <- <-. split; [|split; reflexivity].
  apply (begun_literal ($"user ") _ ($"7 at h:i: ")). apply (begun_parser _ ($"7") _ ($" at h:i: ")).
  - apply shown_settled; [apply ascii_utf8; vm_compute; reflexivity|exact Logic.I|vm_compute; reflexivity|discriminate].
  - apply (begun_literal ($" at ") _ ($"h:i: ")). apply (begun_parser _ ($"h:i") _ ($": ")); [|constructor].
    apply shown_settled; [apply ascii_utf8; vm_compute; reflexivity|apply ascii_utf8; vm_compute; reflexivity|vm_compute; reflexivity|].
    exists ($": "), []. split; reflexivity.
Qed.
