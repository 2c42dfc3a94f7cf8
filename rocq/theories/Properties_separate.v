(** * Properties C142 and C143: collections of separate patterns *)
From Coq Require Import Permutation.
From Verif Require Import Base Base_facts Utils Parsers Pattern Spec Spec_canon Spec_source Spec_separate Source Deser Spec_deser Deser_claims
  Document_claims Loading_claims Canon_claims Separate_claims Separate_tests Siphash Deciders Tests.
From Verif Require Trie SuffixArray.

(** ** C142: when every pattern begins with a literal and none of these is the
    beginning of another, the trie answers with the one pattern that matches on
    its own; whatever the hash function *)
Theorem C142_answers :
  forall sip ps t text r,
    Forall valid_pattern ps -> separate ps -> Trie.add_patterns sip Trie.tree_new ps = Ret t ->
    utf8 text -> Trie.parse t text = Ret r ->
    match r with
    | Some r => exists p caps, classified ps text p caps /\ mr_pattern r = stripped p /\ reports caps (mr_values r)
    | None => forall p caps, In p ps -> ~ trie_walk (pat_tokens p) text caps
    end.
Proof. exact separate_answers. Qed.
Print Assumptions C142_answers.

(** The order of the patterns does not matter. *)
Theorem C142_order :
  forall sip ps qs t t',
    Forall valid_pattern ps -> separate ps -> Permutation ps qs ->
    Trie.add_patterns sip Trie.tree_new ps = Ret t -> Trie.add_patterns sip Trie.tree_new qs = Ret t' -> t = t'.
Proof. exact separate_order. Qed.
Print Assumptions C142_order.

(** Loading that does not panic succeeds exactly when every test message describes
    its pattern. *)
Theorem C142_loads :
  forall sip ps,
    Forall valid_pattern ps -> utf8_tests ps -> separate ps -> NoDup (map pat_uuid ps) ->
    (exists x, from_source (trie_ops sip) (map (fun p => Ok p) ps) = Ret x) ->
    (exists m, from_source (trie_ops sip) (map (fun p => Ok p) ps) = Ret (Ok m)) <->
    (forall p t, In p ps -> In t (tests p) -> describes t p).
Proof. exact separate_loads. Qed.
Print Assumptions C142_loads.

(** Both together, for the patterns of an ASCII document: nothing panics. *)
Theorem C142_document :
  forall parse_uuid sip v ps,
    ascii_document v -> file_value parse_uuid v ps -> separate ps -> NoDup (map pat_uuid ps) ->
    ((exists m, from_source (trie_ops sip) (map (fun p => Ok p) (rev ps)) = Ret (Ok m)) <->
     (forall p t, In p ps -> In t (tests p) -> describes t p)) /\
    forall m text, from_source (trie_ops sip) (map (fun p => Ok p) (rev ps)) = Ret (Ok m) -> ascii text = true ->
      (exists r p caps, Trie.parse m text = Ret (Some r) /\ classified ps text p caps /\
         mr_pattern r = stripped (untested p) /\ reports caps (mr_values r)) \/
      (Trie.parse m text = Ret None /\ forall p caps, In p ps -> ~ trie_walk (pat_tokens p) text caps).
Proof. exact separate_document. Qed.
Print Assumptions C142_document.

(** A document with two such patterns and their test messages. *)
Definition login_doc (n : str) : value := VMap [($"patterns", VSeq [
  VMap [($"uuid", VStr u_pubkey); ($"pattern", VStr ($"login %{INT:n} from %{GREEDY:host}")); ($"tags", vstrs [$"in"]);
        ($"test_messages", VSeq [VMap [($"message", VStr ($"login 7 from a.b")); ($"tags", vstrs [$"in"]);
                                       ($"values", VMap [($"n", VStr n); ($"host", VStr ($"a.b"))])]])];
  VMap [($"uuid", VStr u_disc); ($"pattern", VStr ($"logout %{INT:n}")); ($"values", VMap [($"kind", VStr ($"out"))]);
        ($"test_messages", VSeq [VMap [($"message", VStr ($"logout 8")); ($"values", VMap [($"kind", VStr ($"out")); ($"n", VStr ($"8"))])]])]])].

Definition login_patterns (n : str) : list pattern :=
  match de_pattern_file parse_uuid_ex (login_doc n) with Ret (Ok ps) => ps | _ => [] end.

Lemma login_separate : separate (login_patterns ($"7")).
Proof.
  let ps := eval vm_compute in (login_patterns ($"7")) in
    replace (login_patterns ($"7")) with ps by (vm_compute; reflexivity).
  split.
  - intros p [<-|[<-|[]]]; eexists; eexists; reflexivity.
  - apply ordered_sorted. constructor; [constructor; constructor|]. constructor; [|constructor].
    intros l m r (u & E) (w & E'). cbn [pat_tokens] in E, E'. injection E as <- _. injection E' as <- _. split; discriminate.
Qed.

(** It is loaded; with a wrong expected value it is not. *)
Example C142_example :
  ascii_document (login_doc ($"7")) /\ file_value parse_uuid_ex (login_doc ($"7")) (login_patterns ($"7")) /\
  separate (login_patterns ($"7")) /\ NoDup (map pat_uuid (login_patterns ($"7"))) /\
  load_error (login_doc ($"7")) = Ret None /\
  load_error (login_doc ($"8")) = Ret (Some (TestMessageError (ValueNotMatch u_pubkey ($"n") ($"8") ($"7")))) /\
  match load (login_doc ($"7")) with
  | Ret (Ok m) => map (fun s => let* r := Trie.parse m s in Ret (summary r)) [$"login 5 from x"; $"logout 6"; $"logoff"] =
      [Ret (Some (u_pubkey, [($"host", $"x"); ($"n", $"5")])); Ret (Some (u_disc, [($"n", $"6")])); Ret None]
  | _ => False
  end.
Proof.
  split; [apply ascii_documentb_sound; vm_compute; reflexivity|].
  split; [apply de_file_ok; vm_compute; reflexivity|].
  split; [exact login_separate|].
  split; [vm_compute; repeat constructor; simpl; intuition discriminate|].
  split; [vm_compute; reflexivity|]. split; vm_compute; reflexivity.
Qed.

(** Literals extending each other are not separate: "a 5" matches the first pattern
    on its own, but the trie holding both does not find it. *)
Example C142_not_separate :
  let a := tpat 1 ($"a%{GREEDY:g}") in let b := tpat 2 ($"a %{INT:n}x") in
  ~ separate [a; b] /\ trie_run [a] ($"a 5") = Ret (Some (uid 1, [($"g", $" 5")])) /\ trie_run [a; b] ($"a 5") = Ret None.
Proof.
  split; [|vm_compute; split; reflexivity]. intros S. apply separate_cons in S. destruct S as (_ & H & _).
  destruct (H (tpat 2 ($"a %{INT:n}x")) ($"a") ($"a ") ($" ") (or_introl eq_refl)) as (N & _);
    [eexists; vm_compute; reflexivity|eexists; vm_compute; reflexivity|apply N; reflexivity].
Qed.

(** ** C143: the test messages of separate patterns stay valid, in both matchers *)
Theorem C143_trie :
  forall sip ps m,
    Forall valid_pattern ps -> utf8_tests ps -> separate ps -> NoDup (map pat_uuid ps) ->
    from_source (trie_ops sip) (map (fun p => Ok p) ps) = Ret (Ok m) ->
    forall p t, In p ps -> In t (tests p) ->
      passes (trie_ops sip) m p t \/ mo_parse (trie_ops sip) m (tm_message t) = Panic.
Proof. exact separate_tests_stay. Qed.
Print Assumptions C143_trie.

(** The table answers with the pattern that matches on its own, if there is one;
    the character sets must be ASCII, literals and texts need not be. *)
Theorem C143_table_answers :
  forall sip ps t text p caps,
    Forall valid_pattern ps -> (forall q, parser_in ps q -> parser_ascii_set q) -> separate ps ->
    SuffixArray.add_patterns sip SuffixArray.table_new ps = Ret t ->
    utf8 text -> In p ps -> trie_walk (pat_tokens p) text caps ->
    exists r, SuffixArray.parse t text = Ret (Some r) /\ mr_pattern r = stripped p /\ reports caps (mr_values r).
Proof. exact separate_table. Qed.
Print Assumptions C143_table_answers.

(** So it is loaded when every test message describes its pattern. *)
Theorem C143_table_loads :
  forall sip ps,
    Forall valid_pattern ps -> (forall q, parser_in ps q -> parser_ascii_set q) -> utf8_tests ps -> separate ps ->
    (forall p t, In p ps -> In t (tests p) -> describes t p) ->
    exists m, from_source (table_ops sip) (map (fun p => Ok p) ps) = Ret (Ok m) /\
      forall p t, In p ps -> In t (tests p) -> passes (table_ops sip) m p t.
Proof. exact separate_table_loads. Qed.
Print Assumptions C143_table_loads.

(** The converse fails: the table reads "ap" as "app" (C28). *)
Theorem C143_table_converse_refuted :
  exists ps m,
    Forall valid_pattern ps /\ (forall q, parser_in ps q -> parser_ascii_set q) /\ utf8_tests ps /\ separate ps /\
    NoDup (map pat_uuid ps) /\ from_source (table_ops siphash) (map (fun p => Ok p) ps) = Ret (Ok m) /\
    exists p t, In p ps /\ In t (tests p) /\ ~ describes t p.
Proof. exact separate_table_misled. Qed.
Print Assumptions C143_table_converse_refuted.

(** Literals and messages here are not ASCII, and the literals part at an ASCII
    character. *)
Definition thirsty : list pattern :=
  [tested (tpat 1 ($"tea für %{INT:n}")) [$"tea für 2"]; tested (tpat 2 ($"kávé %{GREEDY:k}")) [$"kávé és tej"]].
Example C143_example :
  Forall valid_pattern thirsty /\ (forall q, parser_in thirsty q -> parser_ascii_set q) /\ utf8_tests thirsty /\
  separate thirsty /\ NoDup (map pat_uuid thirsty) /\
  (exists m, from_source (trie_ops siphash) (map (fun p => Ok p) thirsty) = Ret (Ok m)) /\
  (exists m, from_source (table_ops siphash) (map (fun p => Ok p) thirsty) = Ret (Ok m)) /\
  (forall p t, In p thirsty -> In t (tests p) -> describes t p) /\
  map (table_run thirsty) [$"tea für 12"; $"kávé x"] = [Ret (Some (uid 1, [($"n", $"12")])); Ret (Some (uid 2, [($"k", $"x")]))].
Proof.
  assert (Forall valid_pattern thirsty) as V by (apply valid_patterns_sound; vm_compute; reflexivity).
  assert (utf8_tests thirsty) as U.
  { intros p t [<-|[<-|[]]] [<-|[]]; apply utf8b_sound; vm_compute; reflexivity. }
  assert (separate thirsty) as S.
  { split.
    - intros p [<-|[<-|[]]]; eexists; eexists; vm_compute; reflexivity.
    - apply ordered_sorted. constructor; [constructor; constructor|]. constructor; [|constructor].
      intros l m r (u & E) (w & E'). vm_compute in E, E'. injection E as <- _. injection E' as <- _. split; discriminate. }
  assert (NoDup (map pat_uuid thirsty)) as N by (vm_compute; repeat constructor; simpl; intuition discriminate).
  assert (exists m, from_source (trie_ops siphash) (map (fun p => Ok p) thirsty) = Ret (Ok m)) as (m & L)
    by (eexists; vm_compute; reflexivity).
  split; [exact V|]. split.
  { intros q (p & [<-|[<-|[]]] & H); vm_compute in H; destruct H as [H|[H|[]]]; try discriminate H; injection H as <-; [|exact I].
    intros b Hb. apply (proj1 (forallb_forall ascii_byte _)) with (2 := Hb). vm_compute. reflexivity. }
  split; [exact U|]. split; [exact S|]. split; [exact N|]. split; [eauto|]. split; [eexists; vm_compute; reflexivity|].
  split; [|vm_compute; reflexivity].
  apply (C142_loads siphash thirsty V U S N (ex_intro _ _ L)). eauto.
Qed.
