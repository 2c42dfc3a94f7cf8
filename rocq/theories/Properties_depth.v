(** * Property C167: depth of the recursion *)
From Verif Require Import Base Base_facts Utils Parsers Pattern Grammar Spec Spec_depth Depth_claims Descent_claims Siphash Deciders Tests.
From Verif Require Trie SuffixArray.

(** ** C167: how deep calls nest depends on the longest pattern, and neither on the
    message nor on the number of patterns *)
Theorem C167_trie :
  forall sip ps t n, Trie.add_patterns sip Trie.tree_new ps = Ret t ->
    (forall p, In p ps -> parsers_before_end p <= n) ->
    forall k text, n < k -> Trie.parse_fuel k t text = Trie.parse t text /\ Trie.parse_fuel k t text <> OutOfFuel.
Proof. exact trie_depth_enough. Qed.
Print Assumptions C167_trie.

Theorem C167_table :
  forall sip ps t n, SuffixArray.add_patterns sip SuffixArray.table_new ps = Ret t ->
    (forall p, In p ps -> tokens_of p <= n) ->
    forall k value, n <= k -> 1 <= k ->
      SuffixArray.parse_fuel k t value = SuffixArray.parse t value /\ SuffixArray.parse_fuel k t value <> OutOfFuel.
Proof. exact table_depth_enough. Qed.
Print Assumptions C167_table.

(** Within one call, looking up the text goes down at most once for each byte of the
    longest literal. *)
Theorem C167_lookup :
  forall sip ps t longest,
    Forall (fun p => exists s, utf8 s /\ compile s = Ret (Ok (pat_tokens p))) ps ->
    Trie.add_patterns sip Trie.tree_new ps = Ret t ->
    (forall p l, In p ps -> In (Literal l) (pat_tokens p) -> length l <= longest) ->
    forall u text k, within u t -> goes_down u text k -> k <= longest.
Proof. exact trie_descent. Qed.
Print Assumptions C167_lookup.

(** Literals that extend one another are one below the other. *)
Example C167_lookup_example :
  let ps := [tpat 1 ($"abc"); tpat 2 ($"ab"); tpat 3 ($"a"); tpat 4 ($"abcd%{INT:n}")] in
  Forall (fun p => exists s, utf8 s /\ compile s = Ret (Ok (pat_tokens p))) ps /\
  (forall p l, In p ps -> In (Literal l) (pat_tokens p) -> length l <= 4) /\
  match trie ps with Ret t => exists k, 3 <= k /\ goes_down t ($"abcd1") k | _ => False end.
Proof.
  split.
  { apply Forall_cons; [exists ($"abc")|apply Forall_cons; [exists ($"ab")|apply Forall_cons; [exists ($"a")|apply Forall_cons; [exists ($"abcd%{INT:n}")|apply Forall_nil]]]];
      (split; [apply ascii_utf8; vm_compute; reflexivity|vm_compute; reflexivity]). }
  split.
  { intros p l J K. repeat (destruct J as [<-|J]; [vm_compute in K; repeat (destruct K as [K|K]; [try discriminate K; injection K as <-; cbn; lia|]); destruct K|]). destruct J. }
  vm_compute. exists 3. split; [lia|].
  repeat (eapply down_more; [vm_compute; reflexivity|reflexivity|reflexivity|]). apply down_stop.
Qed.

(** The bounds are reached: two parsers stand before something, and five tokens
    make the longest pattern. *)
Example C167_example :
  let ps := [tpat 2 ($"z %{INT:x}"); tpat 1 ($"a %{INT:x} b %{INT:y} c"); tpat 3 ($"b %{INT:x} c %{INT:y}"); tpat 4 ($"plain")] in
  let text := $"a 1 b 2 c" in
  (forall p, In p ps -> parsers_before_end p <= 2 /\ tokens_of p <= 5) /\
  match trie ps with
  | Ret t => Trie.parse_fuel 2 t text = OutOfFuel /\ Trie.parse_fuel 3 t text = Trie.parse t text /\
             Trie.parse t text <> OutOfFuel
  | _ => False
  end /\
  match table [tpat 1 ($"a %{INT:x} b %{INT:y} c")] with
  | Ret t => SuffixArray.parse_fuel 4 t text = OutOfFuel /\
             match SuffixArray.parse_fuel 5 t text with Ret (Some r) => True | _ => False end
  | _ => False
  end.
Proof.
  split.
  { intros p J. destruct J as [<-|[<-|[<-|[<-|[]]]]]; vm_compute; lia. }
  split; [vm_compute; split; [reflexivity|split; [reflexivity|discriminate]]|vm_compute; split; [reflexivity|exact Logic.I]].
Qed.
