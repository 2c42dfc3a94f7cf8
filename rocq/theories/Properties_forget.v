(** * Property C139: patterns that later ones replaced *)
From Verif Require Import Base Base_facts Utils Parsers Pattern Spec Spec_table Spec_forget
  Forget_claims Anyhash_claims Siphash Deciders Tests.
From Verif Require Trie SuffixArray.

(** ** C139: a pattern whose place a later one took matches nothing any more; it
    should not change any answer either.  In both matchers it does, through the
    place its first parser has among the parsers tried, and in the trie also
    through the node its first literal made. *)
Theorem C139_table_refuted :
  exists a p b q c text,
    Forall valid_pattern (a ++ p :: b ++ q :: c) /\ displaces (pat_tokens q) (pat_tokens p) /\
    table_run (a ++ p :: b ++ q :: c) text = Ret (Some (uid 3, [($"a", $"5")])) /\
    table_run (a ++ b ++ q :: c) text = Ret (Some (uid 2, [($"b", $"5y")])).
Proof.
  exists [], (tpat 1 ($"%{INT:a}x")), [tpat 2 ($"%{GREEDY:b}")], (tpat 3 ($"%{INT:a}y")), [], ($"5y").
  split; [apply valid_patterns_sound; vm_compute; reflexivity|].
  split; [|vm_compute; split; reflexivity].
  eexists. eexists. eexists. split; [vm_compute; reflexivity|]. split; [vm_compute; reflexivity|].
  split; discriminate.
Qed.
Print Assumptions C139_table_refuted.

Theorem C139_trie_refuted :
  (exists a p b q c text,
    Forall valid_pattern (a ++ p :: b ++ q :: c) /\ displaces (pat_tokens q) (pat_tokens p) /\
    trie_run (a ++ p :: b ++ q :: c) text = Ret (Some (uid 3, [($"a", $"5")])) /\
    trie_run (a ++ b ++ q :: c) text = Ret (Some (uid 2, [($"b", $"5y")]))) /\
  (exists a p b q c text,
    Forall valid_pattern (a ++ p :: b ++ q :: c) /\ displaces (pat_tokens q) (pat_tokens p) /\
    trie_run (a ++ p :: b ++ q :: c) text = Ret None /\
    trie_run (a ++ b ++ q :: c) text = Ret (Some (uid 2, []))).
Proof.
  split.
  - exists [], (tpat 1 ($"%{INT:a}x")), [tpat 2 ($"%{GREEDY:b}")], (tpat 3 ($"%{INT:a}y")), [], ($"5y").
    split; [apply valid_patterns_sound; vm_compute; reflexivity|].
    split; [|vm_compute; split; reflexivity].
    eexists. eexists. eexists. split; [vm_compute; reflexivity|]. split; [vm_compute; reflexivity|].
    split; discriminate.
  - exists [], (tpat 1 ($"a%{INT:x} b")), [tpat 2 ($"ab")], (tpat 3 ($"a%{INT:x} c")), [], ($"ab").
    split; [apply valid_patterns_sound; vm_compute; reflexivity|].
    split; [|vm_compute; split; reflexivity].
    eexists. eexists. eexists. split; [vm_compute; reflexivity|]. split; [vm_compute; reflexivity|].
    split; discriminate.
Qed.
Print Assumptions C139_trie_refuted.

(** Where it left no trace in the patterns between, the matchers are the same as
    if it had never been added. *)
Theorem C139_table :
  forall sip a p b q c,
    let ps := a ++ p :: b ++ q :: c in
    Forall valid_pattern ps -> forgotten_in_table a p b q ->
    exists t, SuffixArray.add_patterns sip SuffixArray.table_new ps = Ret t /\
              SuffixArray.add_patterns sip SuffixArray.table_new (a ++ b ++ q :: c) = Ret t.
Proof. exact table_forgets_any. Qed.
Print Assumptions C139_table.

Theorem C139_trie :
  forall sip a p b q c t t',
    let ps := a ++ p :: b ++ q :: c in
    Forall valid_pattern ps -> forgotten_in_trie a p b q ->
    Trie.add_patterns sip Trie.tree_new ps = Ret t -> Trie.add_patterns sip Trie.tree_new (a ++ b ++ q :: c) = Ret t' ->
    t = t'.
Proof. exact trie_forgets_any. Qed.
Print Assumptions C139_trie.

(** The literal "user " is unlike "disk ", and parsers are no literals. *)
Definition forget_between : list pattern := [tpat 2 ($"disk %{INT:n}"); tpat 3 ($"%{INT:n} users"); tpat 4 ($"user ")].
Example C139_example :
  forgotten_in_trie [] (tpat 1 ($"user %{INT:id}")) forget_between (tpat 5 ($"user %{GREEDY:id}")) /\
  forgotten_in_table [] (tpat 1 ($"user %{INT:id}")) forget_between (tpat 5 ($"user %{GREEDY:id}")) /\
  trie_run (tpat 1 ($"user %{INT:id}") :: forget_between ++ [tpat 5 ($"user %{GREEDY:id}")]) ($"user 42")
  = Ret (Some (uid 5, [($"id", $"42")])) /\
  trie_run (forget_between ++ [tpat 5 ($"user %{GREEDY:id}")]) ($"user 42") = Ret (Some (uid 5, [($"id", $"42")])).
Proof.
  assert (displaces (pat_tokens (tpat 5 ($"user %{GREEDY:id}"))) (pat_tokens (tpat 1 ($"user %{INT:id}")))) as D.
  { eexists. eexists. eexists. split; [vm_compute; reflexivity|]. split; [vm_compute; reflexivity|]. split; discriminate. }
  assert (forall z, In z forget_between -> forall l, no_trace_in_trie l (tpat 1 ($"user %{INT:id}")) z) as N.
  { intros z [<-|[<-|[<-|[]]]] l; vm_compute; try tauto. right. intros x [E|E]; discriminate E. }
  split; [|split; [|vm_compute; split; reflexivity]].
  - split; [exact D|]. intros b z b' E. apply N. rewrite E. apply in_app_iff. right. left. reflexivity.
  - split; [exact D|]. intros b z b' E.
    assert (In z forget_between) as [<-|[<-|[<-|[]]]] by (rewrite E; apply in_app_iff; right; left; reflexivity);
      vm_compute; auto.
Qed.

(** A parser that an earlier pattern begins with keeps its place. *)
Example C139_known :
  forgotten_in_table [tpat 0 ($"%{INT:a} ")] (tpat 1 ($"%{INT:a}x")) [tpat 2 ($"%{GREEDY:b}")] (tpat 3 ($"%{INT:a}y")).
Proof.
  split.
  - eexists. eexists. eexists. split; [vm_compute; reflexivity|]. split; [vm_compute; reflexivity|]. split; discriminate.
  - intros b z b' E. assert (In z [tpat 2 ($"%{GREEDY:b}")]) as [<-|[]] by (rewrite E; apply in_app_iff; right; left; reflexivity).
    unfold no_trace_in_table. right. left. exists (tpat 0 ($"%{INT:a} ")). eexists.
    split; [left; reflexivity|vm_compute; reflexivity].
Qed.
