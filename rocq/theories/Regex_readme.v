(** * The README's patterns as regular expressions *)
From Verif Require Import Base Base_facts Utils Parsers Pattern Spec Spec_canon Spec_separate Spec_regex Spec_deser Deser
  Grammar Grammar_claims Canon_claims Separate_claims Regex_claims Siphash Deciders Tests.
From Verif Require Trie.

(** README.md:66-84. *)
Definition loggen_pattern : str :=
  $"seq: %{INT:.loggen.seq}, thread: %{INT:.loggen.thread}, runid: %{INT:.loggen.runid}, stamp: %{GREEDY:.loggen.stamp} %{GREEDY:.loggen.padding}".
Definition loggen_message : str :=
  $"seq: 0000000001, thread: 0000, runid: 1437655178, stamp: 2015-07-23T14:39:38 PADDPADDPADDPADD".
Definition loggen : pattern := tpat 1 loggen_pattern.
Definition loggen_doc : value := VMap [($"patterns", VSeq [
  VMap [($"uuid", VStr ($"6d2cba0c-e241-464a-89c3-8035cac8f73e")); ($"name", VStr ($"LOGGEN"));
        ($"pattern", VStr loggen_pattern); ($"values", VMap [($"foo", VStr ($"bar"))]); ($"tags", vstrs [$"foo"; $"bar"]);
        ($"test_messages", VSeq [VMap [($"message", VStr loggen_message);
          ($"values", VMap [($".loggen.seq", VStr ($"0000000001")); ($".loggen.thread", VStr ($"0000"));
                            ($".loggen.runid", VStr ($"1437655178")); ($".loggen.stamp", VStr ($"2015-07-23T14:39:38"));
                            ($".loggen.padding", VStr ($"PADDPADDPADDPADD"))])]])]])].
(** README.md:17. *)
Definition joe : pattern :=
  tpat 2 ($"Jun %{INT:day} %{INT:hour}:%{INT:min}:%{INT:sec} server sshd[%{INT:pid}]: Accepted publickey for joe").

Ltac step_literal := apply def_literal_next; [discriminate|].
Ltac step_int := eapply def_set_next; [right; reflexivity|cbn [clear_after]; eexists _, _; split; [reflexivity|vm_compute; intuition discriminate]|].

Lemma loggen_definite : definite (pat_tokens loggen).
Proof.
  let ts := eval vm_compute in (pat_tokens loggen) in replace (pat_tokens loggen) with ts by (vm_compute; reflexivity).
  do 3 (step_literal; step_int). step_literal. apply def_wild. eapply wild_next; [reflexivity|discriminate|].
  apply wild_last. reflexivity.
Qed.
Lemma joe_definite : definite (pat_tokens joe).
Proof.
  let ts := eval vm_compute in (pat_tokens joe) in replace (pat_tokens joe) with ts by (vm_compute; reflexivity).
  do 5 (step_literal; step_int). apply def_literal.
Qed.
Lemma joe_greedy : greedy_last (pat_tokens joe).
Proof.
  intros a g b E. exfalso. assert (In (Parser (PGreedy g)) (pat_tokens joe)) as I by (rewrite E; apply in_elt).
  let ts := eval vm_compute in (pat_tokens joe) in replace (pat_tokens joe) with ts in I by (vm_compute; reflexivity).
  repeat (destruct I as [I|I]; [discriminate I|]). exact I.
Qed.
Lemma readme_separate : separate [loggen; joe].
Proof.
  split.
  - intros p [<-|[<-|[]]]; eexists; eexists; vm_compute; reflexivity.
  - apply ordered_sorted. constructor; [constructor; constructor|]. constructor; [|constructor].
    intros l m r (u & E) (w & E'). vm_compute in E, E'. injection E as <- _. injection E' as <- _. split; discriminate.
Qed.

Lemma comp_valid n s : ascii s = true -> compile s = Ret (Ok (comp s)) -> valid_pattern (tpat n s).
Proof. intros A C. exact (compile_valid s _ (ascii_utf8 s A) C). Qed.
Lemma loggen_valid : valid_pattern loggen.
Proof. apply comp_valid; vm_compute; reflexivity. Qed.
Lemma joe_valid : valid_pattern joe.
Proof. apply comp_valid; vm_compute; reflexivity. Qed.

(** README.md:140. *)
Definition from_readme : pattern := tpat 1 ($"from %{GREEDY:ipaddr}: %{INT:dunno}").
Lemma regex_incomplete : exists p t text,
  valid_pattern p /\ collision_free siphash [p] /\ Trie.add_patterns siphash Trie.tree_new [p] = Ret t /\
  ascii text = true /\ matches (trie_regex (pat_tokens p)) text /\ Trie.parse t text = Ret None.
Proof.
  destruct (Trie.add_patterns siphash Trie.tree_new [from_readme]) as [t| |] eqn:E; [|vm_compute in E; discriminate|vm_compute in E; discriminate].
  exists from_readme, t, ($"from a: x: 5").
  split; [apply valid_patternb_sound; vm_compute; reflexivity|]. split; [apply collision_freeb_sound; vm_compute; reflexivity|].
  split; [exact E|]. split; [reflexivity|]. split; [|vm_compute in E; injection E as <-; vm_compute; reflexivity].
  let ts := eval vm_compute in (pat_tokens from_readme) in replace (pat_tokens from_readme) with ts by (vm_compute; reflexivity).
  unfold trie_regex. cbn [regex_after gp_end_string].
  change ($"from a: x: 5") with ($"from " ++ $"a: x" ++ $": " ++ $"5" ++ []).
  apply m_then; [apply matches_text; reflexivity|]. apply m_then; [apply matches_any|].
  apply m_then; [apply matches_text; reflexivity|]. apply m_then; [|constructor].
  cbn [parser_regex]. apply matches_set. cbn [sp_character_set sp_min_length sp_max_length].
  split; [constructor; [vm_compute; intuition|constructor]|]. split; [discriminate|]. split; exact I.
Qed.
