(** * Property C168: one pattern behind another *)
From Verif Require Import Base Base_facts Utils Parsers Pattern Grammar Spec Spec_join Join_claims Siphash Deciders Tests.
From Verif Require Trie SuffixArray.

(** ** C168: what a pattern followed by another matches *)
Theorem C168_join :
  forall sip s s' p p' q t t' u,
    utf8 s -> utf8 s' -> compile s = Ret (Ok (pat_tokens p)) -> compile s' = Ret (Ok (pat_tokens p')) ->
    compile (s ++ s') = Ret (Ok (pat_tokens q)) -> prefix_of ($"%{") s' -> closed p -> collision_free sip [q] ->
    Trie.add_patterns sip Trie.tree_new [p] = Ret t -> Trie.add_patterns sip Trie.tree_new [p'] = Ret t' ->
    Trie.add_patterns sip Trie.tree_new [q] = Ret u ->
    forall m m' r r' o,
      utf8 m -> utf8 m' -> stops_at p m' ->
      Trie.parse t m = Ret (Some r) -> Trie.parse t' m' = Ret (Some r') -> Trie.parse u (m ++ m') = Ret o ->
      exists j, o = Some j /\ mr_pattern j = stripped q /\ both_values r r' j.
Proof. exact trie_join. Qed.
Print Assumptions C168_join.

Theorem C168_split :
  forall sip s s' p p' q t t' u,
    utf8 s -> utf8 s' -> compile s = Ret (Ok (pat_tokens p)) -> compile s' = Ret (Ok (pat_tokens p')) ->
    compile (s ++ s') = Ret (Ok (pat_tokens q)) -> prefix_of ($"%{") s' -> closed p -> collision_free sip [q] ->
    Trie.add_patterns sip Trie.tree_new [p] = Ret t -> Trie.add_patterns sip Trie.tree_new [p'] = Ret t' ->
    Trie.add_patterns sip Trie.tree_new [q] = Ret u ->
    forall x j,
      (forall z, In (Parser z) (pat_tokens p) -> parser_ascii_set z) -> utf8 x -> Trie.parse u x = Ret (Some j) ->
      exists m m', x = m ++ m' /\ utf8 m /\ utf8 m' /\
        forall o o', Trie.parse t m = Ret o -> Trie.parse t' m' = Ret o' ->
          exists r r', o = Some r /\ o' = Some r' /\ both_values r r' j.
Proof. exact trie_walk_in_two. Qed.
Print Assumptions C168_split.

Theorem C168_table_split :
  forall sip s s' p p' q b b' a,
    utf8 s -> utf8 s' -> compile s = Ret (Ok (pat_tokens p)) -> compile s' = Ret (Ok (pat_tokens p')) ->
    compile (s ++ s') = Ret (Ok (pat_tokens q)) -> prefix_of ($"%{") s' -> closed p -> collision_free sip [q] ->
    SuffixArray.add_patterns sip SuffixArray.table_new [p] = Ret b ->
    SuffixArray.add_patterns sip SuffixArray.table_new [p'] = Ret b' ->
    SuffixArray.add_patterns sip SuffixArray.table_new [q] = Ret a ->
    forall x j,
      (forall z, In (Parser z) (pat_tokens p) -> parser_ascii_set z) -> utf8 x -> SuffixArray.parse a x = Ret (Some j) ->
      exists m m', x = m ++ m' /\ utf8 m /\ utf8 m' /\
        forall o o', SuffixArray.parse b m = Ret o -> SuffixArray.parse b' m' = Ret o' ->
          exists r r', o = Some r /\ o' = Some r' /\ both_values r r' j.
Proof.
  exact (fun sip s s' p p' q b b' a Us Us' Cs Cs' Cq P K F Ab Ab' Aa x j A U E =>
    table_in_two sip s s' p p' q Us Us' Cs Cs' Cq P K F x j b b' a Ab Ab' Aa A U E).
Qed.
Print Assumptions C168_table_split.

(** The name "n" is in both patterns: its first value is kept. *)
Definition join_s : str := $"a %{GREEDY:u}: %{INT:n}".
Definition join_s' : str := $"%{SET("" x""):v}%{INT:n}".
Example C168_example :
  utf8 join_s /\ utf8 join_s' /\ prefix_of ($"%{") join_s' /\
  compile join_s = Ret (Ok (pat_tokens (tpat 1 join_s))) /\ compile join_s' = Ret (Ok (pat_tokens (tpat 2 join_s'))) /\
  compile (join_s ++ join_s') = Ret (Ok (pat_tokens (tpat 3 (join_s ++ join_s')))) /\
  closed (tpat 1 join_s) /\ collision_free siphash [tpat 3 (join_s ++ join_s')] /\ stops_at (tpat 1 join_s) ($" x8") /\
  (forall z, In (Parser z) (pat_tokens (tpat 1 join_s)) -> parser_ascii_set z) /\
  trie_run [tpat 1 join_s] ($"a b: 7") = Ret (Some (uid 1, [($"n", $"7"); ($"u", $"b")])) /\
  trie_run [tpat 2 join_s'] ($" x8") = Ret (Some (uid 2, [($"n", $"8"); ($"v", $" x")])) /\
  trie_run [tpat 3 (join_s ++ join_s')] ($"a b: 7 x8") = Ret (Some (uid 3, [($"n", $"7"); ($"u", $"b"); ($"v", $" x")])).
Proof.
  split; [apply utf8b_sound; vm_compute; reflexivity|]. split; [apply utf8b_sound; vm_compute; reflexivity|].
  split; [eexists; reflexivity|]. split; [vm_compute; reflexivity|]. split; [vm_compute; reflexivity|]. split; [vm_compute; reflexivity|].
  split. { intros g J. vm_compute in J. repeat (destruct J as [J|J]; [try discriminate J; injection J as <-; discriminate|]). destruct J. }
  split; [apply collision_freeb_sound; vm_compute; reflexivity|].
  split. { eexists. eexists. split; [vm_compute; reflexivity|]. intros s [J|J]; vm_compute in J;
    repeat (destruct J as [J|J]; [try discriminate J; injection J as <-; cbn; intuition discriminate|]); destruct J. }
  split. { intros z J. vm_compute in J. repeat (destruct J as [J|J]; [try discriminate J; injection J as <-; cbn|]); [exact Logic.I| |destruct J].
    intros b J. repeat (destruct J as [<-|J]; [reflexivity|]). destruct J. }
  split; [vm_compute; reflexivity|]. split; vm_compute; reflexivity.
Qed.

(** Both conditions on the first pattern are needed: a GREEDY without end takes all,
    and so does an INT in front of a digit. *)
Example C168_needed :
  trie_run [tpat 1 ($"a%{GREEDY:u}")] ($"ab") = Ret (Some (uid 1, [($"u", $"b")])) /\
  trie_run [tpat 2 ($"%{INT:n}")] ($"1") = Ret (Some (uid 2, [($"n", $"1")])) /\
  trie_run [tpat 3 ($"a%{GREEDY:u}%{INT:n}")] ($"ab1") = Ret None /\
  trie_run [tpat 3 ($"%{INT:n}%{INT:n}")] ($"11") = Ret None.
Proof. repeat split; vm_compute; reflexivity. Qed.

(** The suffix table: the joined message is cut at the same place, and a message may stop
    inside the last literal, so two matching messages need not join. *)
Example C168_table_example :
  table_run [tpat 3 (join_s ++ join_s')] ($"a b: 7 x8") = Ret (Some (uid 3, [($"n", $"7"); ($"u", $"b"); ($"v", $" x")])) /\
  table_run [tpat 1 join_s] ($"a b: 7") = Ret (Some (uid 1, [($"n", $"7"); ($"u", $"b")])) /\
  table_run [tpat 2 join_s'] ($" x8") = Ret (Some (uid 2, [($"n", $"8"); ($"v", $" x")])) /\
  table_run [tpat 1 ($"%{INT:n}ab")] ($"1a") = Ret (Some (uid 1, [($"n", $"1")])) /\
  table_run [tpat 2 ($"%{SET(""b""):v}")] ($"b") = Ret (Some (uid 2, [($"v", $"b")])) /\
  table_run [tpat 3 ($"%{INT:n}ab%{SET(""b""):v}")] ($"1ab") = Ret None.
Proof. repeat split; vm_compute; reflexivity. Qed.
