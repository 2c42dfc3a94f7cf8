(** * Property C171: mixing the values of two messages *)
From Verif Require Import Base Base_facts Utils Parsers Pattern Grammar Source Spec Spec_table Spec_source Spec_canon Spec_separate Spec_fill Spec_mix
  Mix_claims Siphash Deciders Tests.
From Verif Require Trie SuffixArray.

(** ** C171: the values of matched messages are independent of each other *)
Theorem C171_trie :
  forall sip p s t t1 t2 r1 r2,
    utf8 s -> compile s = Ret (Ok (pat_tokens p)) -> (forall q, parser_in [p] q -> parser_ascii_set q) -> collision_free sip [p] ->
    Trie.add_patterns sip Trie.tree_new [p] = Ret t -> utf8 t1 -> utf8 t2 ->
    Trie.parse t t1 = Ret (Some r1) -> Trie.parse t t2 = Ret (Some r2) ->
    exists vs1 vs2, filled (pat_tokens p) vs1 t1 /\ reports vs1 (mr_values r1) /\ filled (pat_tokens p) vs2 t2 /\ reports vs2 (mr_values r2) /\
      forall vs, mixed vs1 vs2 vs -> exists text, filled (pat_tokens p) vs text /\ utf8 text /\
        forall o, Trie.parse t text = Ret o -> exists r, o = Some r /\ mr_pattern r = stripped p /\ reports vs (mr_values r).
Proof. exact trie_mix. Qed.
Print Assumptions C171_trie.

Theorem C171_separate :
  forall sip ps t t1 t2 r1 r2,
    Forall (fun p => exists s, utf8 s /\ compile s = Ret (Ok (pat_tokens p))) ps -> (forall q, parser_in ps q -> parser_ascii_set q) ->
    separate ps -> NoDup (map pat_uuid ps) ->
    Trie.add_patterns sip Trie.tree_new ps = Ret t -> utf8 t1 -> utf8 t2 ->
    Trie.parse t t1 = Ret (Some r1) -> Trie.parse t t2 = Ret (Some r2) -> mr_pattern r1 = mr_pattern r2 ->
    exists p vs1 vs2, In p ps /\ mr_pattern r1 = stripped p /\
      filled (pat_tokens p) vs1 t1 /\ reports vs1 (mr_values r1) /\ filled (pat_tokens p) vs2 t2 /\ reports vs2 (mr_values r2) /\
      forall vs, mixed vs1 vs2 vs -> exists text, filled (pat_tokens p) vs text /\ utf8 text /\
        (forall o, Trie.parse t text = Ret o -> exists r, o = Some r /\ mr_pattern r = stripped p /\ reports vs (mr_values r)) /\
        forall sip' t', SuffixArray.add_patterns sip' SuffixArray.table_new ps = Ret t' ->
          exists r, SuffixArray.parse t' text = Ret (Some r) /\ mr_pattern r = stripped p /\ reports vs (mr_values r).
Proof. exact separate_mix. Qed.
Print Assumptions C171_separate.

(** Among patterns that are not separate the mixture can be another pattern's. *)
Theorem C171_others_refuted :
  exists ps p t1 t2 text vs1 vs2 vs,
    In p ps /\ Forall valid_pattern ps /\ collision_free siphash ps /\
    filled (pat_tokens p) vs1 t1 /\ filled (pat_tokens p) vs2 t2 /\ mixed vs1 vs2 vs /\ filled (pat_tokens p) vs text /\
    trie_run ps t1 = Ret (Some (pat_uuid p, [($"a", $"1"); ($"b", $"3")])) /\
    trie_run ps t2 = Ret (Some (pat_uuid p, [($"a", $"5"); ($"b", $"2")])) /\
    trie_run ps text = Ret (Some (uid 2, [])) /\ pat_uuid p <> uid 2.
Proof.
  set (p := tpat 1 ($"u %{INT:a} %{INT:b}")).
  assert (exists q1 q2, pat_tokens p = [Literal ($"u "); Parser q1; Literal ($" "); Parser q2]) as (q1 & q2 & E)
    by (eexists; eexists; vm_compute; reflexivity).
  assert (forall x y, x <> [] -> filled (pat_tokens p) [(q1, x); (q2, y)] ($"u " ++ x ++ $" " ++ y) \/ y = []) as H.
  { intros x y Nx. destruct y as [|b y]; [right; reflexivity|left]. rewrite E. apply filled_literal.
    - right. split; [discriminate|]. intros Z. apply app_eq_nil in Z. tauto.
    - apply filled_parser. apply filled_literal; [right; split; discriminate|]. rewrite <- (app_nil_r (b :: y)) at 2. apply filled_parser. constructor. }
  exists [p; tpat 2 ($"u 1 2")], p, ($"u 1 3"), ($"u 5 2"), ($"u 1 2"), [(q1, $"1"); (q2, $"3")], [(q1, $"5"); (q2, $"2")], [(q1, $"1"); (q2, $"2")].
  split; [left; reflexivity|]. split; [apply valid_patterns_sound; vm_compute; reflexivity|].
  split; [apply collision_freeb_sound; vm_compute; reflexivity|].
  split; [destruct (H ($"1") ($"3")) as [G|G]; [discriminate|exact G|discriminate G]|].
  split; [destruct (H ($"5") ($"2")) as [G|G]; [discriminate|exact G|discriminate G]|].
  split; [constructor; [left; reflexivity|constructor; [right; reflexivity|constructor]]|].
  split; [destruct (H ($"1") ($"2")) as [G|G]; [discriminate|exact G|discriminate G]|].
  split; [vm_compute; reflexivity|]. split; [vm_compute; reflexivity|]. split; [vm_compute; reflexivity|]. vm_compute. discriminate.
Qed.
Print Assumptions C171_others_refuted.

(** Two messages and two mixtures of their values *)
Example C171_example :
  let p := tpat 1 ($"user %{INT:a}%{SET(""xy""):b} %{GREEDY:c}: %{GREEDY:d}") in
  let ps := [p; tpat 2 ($"root %{GREEDY:all}")] in
  Forall (fun p => exists s, utf8 s /\ compile s = Ret (Ok (pat_tokens p))) ps /\ (forall q, parser_in ps q -> parser_ascii_set q) /\
  separate ps /\ NoDup (map pat_uuid ps) /\ collision_free siphash [p] /\
  map (trie_run ps) [$"user 7x b: c"; $"user 12yy : d: e"; $"user 7yy b: d: e"; $"user 12x : c"] =
    [Ret (Some (uid 1, [($"a", $"7"); ($"b", $"x"); ($"c", $"b"); ($"d", $"c")]));
     Ret (Some (uid 1, [($"a", $"12"); ($"b", $"yy"); ($"c", []); ($"d", $"d: e")]));
     Ret (Some (uid 1, [($"a", $"7"); ($"b", $"yy"); ($"c", $"b"); ($"d", $"d: e")]));
     Ret (Some (uid 1, [($"a", $"12"); ($"b", $"x"); ($"c", []); ($"d", $"c")]))].
Proof.
  intros p ps. split.
  { apply Forall_cons; [exists ($"user %{INT:a}%{SET(""xy""):b} %{GREEDY:c}: %{GREEDY:d}")|apply Forall_cons; [exists ($"root %{GREEDY:all}")|apply Forall_nil]];
      (split; [apply ascii_utf8; vm_compute; reflexivity|vm_compute; reflexivity]). }
  split.
  { intros q (x & Jx & Jq). assert (Forall ascii_pattern ps) as Asc by (apply ascii_patterns_sound; vm_compute; reflexivity).
    rewrite Forall_forall in Asc. specialize (Asc x Jx). unfold ascii_pattern in Asc. rewrite Forall_forall in Asc. exact (Asc _ Jq). }
  split.
  { split; [intros q [<-|[<-|[]]]; eexists; eexists; vm_compute; reflexivity|].
    intros i j x y L Ei Ej l m r (a & Ea) (b & Eb). destruct i as [|[|i]]; [|exfalso|destruct i; discriminate Ei].
    - destruct j as [|[|j]]; [lia| |destruct j; discriminate Ej]. injection Ei as <-. injection Ej as <-. vm_compute in Ea, Eb.
      injection Ea as <- _. injection Eb as <- _. split; discriminate.
    - destruct j as [|[|j]]; [lia|lia|destruct j; discriminate Ej]. }
  split; [vm_compute; repeat constructor; cbn; intuition discriminate|].
  split; [apply collision_freeb_sound; vm_compute; reflexivity|]. vm_compute. reflexivity.
Qed.
