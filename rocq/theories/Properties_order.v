(** * Properties C128 and C129: the order of patterns, adding patterns again *)
From Coq Require Import Permutation.
From Verif Require Import Base Base_facts Utils Parsers Pattern Spec Spec_order Order_claims Anyhash_claims Deciders
  Siphash Tests.
From Verif Require Trie SuffixArray.

(** ** C128: exchanging independent neighbours changes neither matcher *)
Theorem C128_trie_order :
  forall sip ps qs t t',
    Forall valid_pattern ps ->
    reordered independent ps qs \/
      (Permutation ps qs /\ forall p q, In p ps -> In q ps -> p = q \/ independent p q) ->
    Trie.add_patterns sip Trie.tree_new ps = Ret t -> Trie.add_patterns sip Trie.tree_new qs = Ret t' ->
    t = t'.
Proof. exact trie_order_any. Qed.
Print Assumptions C128_trie_order.

(** The table is even the same. *)
Theorem C128_table_order :
  forall sip ps qs,
    Forall valid_pattern ps ->
    reordered table_independent ps qs \/
      (Permutation ps qs /\ forall p q, In p ps -> In q ps -> p = q \/ table_independent p q) ->
    exists t, SuffixArray.add_patterns sip SuffixArray.table_new ps = Ret t /\
              SuffixArray.add_patterns sip SuffixArray.table_new qs = Ret t.
Proof. exact table_order_any. Qed.
Print Assumptions C128_table_order.

(** All pairs of these are independent. *)
Definition free_demo : list pattern :=
  [tpat 1 ($"ab%{INT:n}"); tpat 2 ($"ac"); tpat 3 ($"%{INT:n} x"); tpat 4 ($"ab"); tpat 5 ($"%{INT:n}")].

Example C128_example :
  Forall valid_pattern free_demo /\
  (forall p q, In p free_demo -> In q free_demo -> p = q \/ independent p q) /\
  match trie free_demo, trie (rev free_demo) with Ret _, Ret _ => True | _, _ => False end /\
  map (trie_run (rev free_demo)) [$"ab7"; $"ab"; $"ac"; $"7 x"; $"7"] =
    [Ret (Some (uid 1, [($"n", $"7")])); Ret (Some (uid 4, [])); Ret (Some (uid 2, []));
     Ret (Some (uid 3, [($"n", $"7")])); Ret None].
Proof.
  split; [apply valid_patterns_sound; vm_compute; reflexivity|].
  split; [|split; [vm_compute; exact I|vm_compute; reflexivity]].
  intros p q [<-|[<-|[<-|[<-|[<-|[]]]]]] [<-|[<-|[<-|[<-|[<-|[]]]]]];
    first [left; reflexivity|right; vm_compute];
    first [ exact I
          | left; split; [discriminate|intros r [H|H]; discriminate]
          | right; split; [reflexivity|]
          | split; [reflexivity|] ];
    first [left; split; [reflexivity|discriminate]|right; split; [discriminate|reflexivity]].
Qed.

(** Neither literals that extend each other nor different parsers are. *)
Example C128_order_matters :
  let a := tpat 1 ($"a%{INT:n}") in let ab := tpat 2 ($"ab") in
  let x := tpat 3 ($"%{INT:n}") in let y := tpat 4 ($"%{SET(""0123456789""):s}") in
  trie_run [a; ab] ($"ab") = Ret (Some (uid 2, [])) /\ trie_run [ab; a] ($"a1") = Ret None /\
  trie_run [a; ab] ($"a1") = Ret (Some (uid 1, [($"n", $"1")])) /\
  trie_run [x; y] ($"1") = Ret (Some (uid 3, [($"n", $"1")])) /\
  trie_run [y; x] ($"1") = Ret (Some (uid 4, [($"s", $"1")])).
Proof. vm_compute. repeat split; reflexivity. Qed.

(** ** C129: adding the same patterns again changes neither matcher *)
Theorem C129_trie_again :
  forall sip ps t t',
    Forall valid_pattern ps ->
    Trie.add_patterns sip Trie.tree_new ps = Ret t -> Trie.add_patterns sip t ps = Ret t' ->
    t' = t.
Proof. exact trie_again_any. Qed.
Print Assumptions C129_trie_again.

Theorem C129_table_again :
  forall sip ps t,
    Forall valid_pattern ps ->
    SuffixArray.add_patterns sip SuffixArray.table_new ps = Ret t ->
    SuffixArray.add_patterns sip t ps = Ret t.
Proof. exact table_again_any. Qed.
Print Assumptions C129_table_again.

(** Adding only the first again would erase the second, which is below it. *)
Definition again_demo : list pattern := [tpat 1 ($"a%{INT:n}"); tpat 2 ($"ab"); tpat 3 ($"b")].
Example C129_example :
  Forall valid_pattern again_demo /\
  match trie again_demo, trie (again_demo ++ again_demo) with Ret _, Ret _ => True | _, _ => False end /\
  map (trie_run (again_demo ++ again_demo)) [$"a1"; $"ab"; $"b"] =
    [Ret (Some (uid 1, [($"n", $"1")])); Ret (Some (uid 2, [])); Ret (Some (uid 3, []))] /\
  trie_run (again_demo ++ [tpat 1 ($"a%{INT:n}")]) ($"ab") = Ret None.
Proof.
  split; [apply valid_patterns_sound; vm_compute; reflexivity|].
  split; [vm_compute; exact I|]. split; vm_compute; reflexivity.
Qed.

(** In the trie the second time may panic (C120). *)
Example C129_panic :
  let ps := [tpat 1 ($"aé"); tpat 2 ($"a")] in
  match trie ps with Ret _ => True | _ => False end /\ trie (ps ++ ps) = Panic.
Proof. vm_compute. split; [exact I|reflexivity]. Qed.
