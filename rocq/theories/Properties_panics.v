(** * Properties C120 to C124: exactly when the trie panics *)
From Verif Require Import Base Base_facts Utils Parsers Pattern Spec Spec_trie Spec_panics Trie
  TrieSpec Trie_panics Panics_claims Deciders Siphash Tests.

(** ** C120: adding.

    [add_panics L p]: [p] begins with a literal, and following the literals
    already there leads to a comparison at a character that is not ASCII, or to
    parting from a literal at one (Spec_panics.v). *)
Theorem C120_adding_panics :
  forall sip ps, Forall valid_pattern ps -> collision_free sip ps ->
    (add_patterns sip tree_new ps = Panic <->
     exists A p B, ps = A ++ p :: B /\ add_panics (s_adds A) p) /\
    (add_patterns sip tree_new ps <> Panic -> exists t, add_patterns sip tree_new ps = Ret t).
Proof. exact adding_panics. Qed.
Print Assumptions C120_adding_panics.

(** The order matters: "aé" after "a" panics, "a" after "aé" does not. *)
Definition order_demo : list pattern := [tpat 1 ($"a"); tpat 2 ($"aé%{INT:n}")].
Example C120_example :
  Forall valid_pattern order_demo /\ collision_free siphash order_demo /\
  (exists A p B, order_demo = A ++ p :: B /\ add_panics (s_adds A) p) /\
  trie order_demo = Panic /\
  match trie (rev order_demo) with Ret _ => True | _ => False end.
Proof.
  split; [apply valid_patterns_sound; vm_compute; reflexivity|].
  split; [apply collision_freeb_sound; vm_compute; reflexivity|].
  split; [|split; [vm_compute; reflexivity|vm_compute; exact I]].
  exists [tpat 1 ($"a")], (tpat 2 ($"aé%{INT:n}")), []. split; [reflexivity|].
  exists ($"aé"). eexists. split; [vm_compute; reflexivity|].
  eapply lp_torn; [vm_compute; apply reaches_here| |].
  - intros k po c [H|[]]. inversion H.
  - exists ($"a"), ($"a"), ($"é"), []. split; [vm_compute; auto|]. split; [vm_compute; reflexivity|].
    split; [discriminate|]. split; [reflexivity|]. split; [reflexivity|]. left. vm_compute. reflexivity.
Qed.

(** ** C121: matching.  [parse_panics] is the same for matching, where in addition
    a parser may panic (C03). *)
Theorem C121_matching_panics :
  forall sip ps t text,
    Forall valid_pattern ps -> collision_free sip ps -> add_patterns sip tree_new ps = Ret t ->
    utf8 text ->
    (parse t text = Panic <-> parse_panics (s_adds ps) text) /\
    (~ parse_panics (s_adds ps) text -> parse t text = Ret (s_parse (s_adds ps) text)).
Proof. exact matching_panics. Qed.
Print Assumptions C121_matching_panics.

Definition panic_demo : list pattern :=
  [tpat 1 ($"ab"); tpat 2 ($"acé"); tpat 3 ($"%{INT:n}é%{INT:m}")].
Example C121_example :
  Forall valid_pattern panic_demo /\ collision_free siphash panic_demo /\
  match trie panic_demo with Ret _ => True | _ => False end /\
  map (trie_run panic_demo) [$"acé"; $"acx"; $"xé"; $"aé"; $"é"; $"1é2"; $"1"; $"1x"] =
    [Ret (Some (uid 2, [])); Ret None; Ret None; Panic; Panic; Panic; Ret None; Panic] /\
  parse_panics (s_adds panic_demo) ($"aé") /\ parse_panics (s_adds panic_demo) ($"1x").
Proof.
  split; [apply valid_patterns_sound; vm_compute; reflexivity|].
  split; [apply collision_freeb_sound; vm_compute; reflexivity|].
  split; [vm_compute; exact I|]. split; [vm_compute; reflexivity|]. split.
  - eapply pp_literal; [vm_compute; apply reaches_here|].
    exists ($"a"), ($"é"), ($"ab"), ($"b"). split.
    { right. exists ($"ab"), ($"acé"). split; [vm_compute; auto|]. split; [vm_compute; auto|].
      split; [discriminate|vm_compute; reflexivity]. }
    split; [reflexivity|]. split; [discriminate|]. split; [vm_compute; auto|]. split; [reflexivity|].
    split; [discriminate|]. left. vm_compute. reflexivity.
  - eapply (pp_below _ _ _ []); [vm_compute; apply reaches_here| | |vm_compute; reflexivity|].
    + split; [|split].
      * intros k po c [H|[H|[]]]; inversion H.
      * intros [H|[H|[]]]; discriminate.
      * vm_compute. reflexivity.
    + reflexivity.
    + eapply pp_literal; [vm_compute; apply reaches_here|].
      exists [], ($"x"), ($"é"), ($"é"). split; [left; reflexivity|]. split; [reflexivity|].
      split; [discriminate|]. split; [vm_compute; auto|]. split; [reflexivity|].
      split; [discriminate|]. right. vm_compute. reflexivity.
Qed.

(** ** C122: dictionaries, in terms of the literals alone *)
Theorem C122_literals_adding :
  forall sip ps,
    Forall valid_pattern ps -> (forall p, In p ps -> exists l, pat_tokens p = [Literal l]) ->
    (add_patterns sip tree_new ps = Panic <->
     exists A p B l, ps = A ++ p :: B /\ pat_tokens p = [Literal l] /\
       (stuck (single_literals A) l \/ torn (single_literals A) l)).
Proof. exact literals_adding. Qed.
Print Assumptions C122_literals_adding.

Theorem C122_literals_matching :
  forall sip ps t text,
    Forall valid_pattern ps -> (forall p, In p ps -> exists l, pat_tokens p = [Literal l]) ->
    add_patterns sip tree_new ps = Ret t -> utf8 text ->
    (parse t text = Panic <-> stuck (single_literals ps) text).
Proof. exact literals_matching. Qed.
Print Assumptions C122_literals_matching.

Definition words : list pattern := [tpat 1 ($"grün"); tpat 2 ($"gras"); tpat 3 ($"haus")].
Example C122_example :
  Forall valid_pattern words /\ (forall p, In p words -> exists l, pat_tokens p = [Literal l]) /\
  trie words = Panic /\ torn (single_literals [tpat 1 ($"grün")]) ($"gras") /\
  map (trie_run [tpat 2 ($"gras"); tpat 3 ($"haus")]) [$"gras"; $"grün"; $"über"] =
    [Ret (Some (uid 2, [])); Ret None; Panic].
Proof.
  split; [apply valid_patterns_sound; vm_compute; reflexivity|].
  split; [intros p [<-|[<-|[<-|[]]]]; eexists; vm_compute; reflexivity|].
  split; [vm_compute; reflexivity|]. split; [|vm_compute; reflexivity].
  exists ($"grün"), ($"gr"), ($"as"), ($"ün"). split; [vm_compute; auto|].
  split; [vm_compute; reflexivity|]. split; [discriminate|]. split; [reflexivity|].
  split; [reflexivity|]. right. split; [discriminate|vm_compute; reflexivity].
Qed.

(** ** C123: patterns beginning with literals *)
Theorem C123_text_beyond_ascii :
  forall sip ps t p l rest text,
    Forall valid_pattern ps -> collision_free sip ps -> add_patterns sip tree_new ps = Ret t ->
    In p ps -> pat_tokens p = Literal l :: rest -> l <> [] -> utf8 text -> text <> [] ->
    wide l = true \/ wide text = true ->
    parse t text = Panic.
Proof. exact text_beyond_ascii. Qed.
Print Assumptions C123_text_beyond_ascii.

Theorem C123_two_first_literals :
  forall sip ps t A p B p' C l rest l' rest',
    Forall valid_pattern ps -> collision_free sip ps -> add_patterns sip tree_new ps = Ret t ->
    ps = A ++ p :: B ++ p' :: C ->
    pat_tokens p = Literal l :: rest -> pat_tokens p' = Literal l' :: rest' -> l <> [] -> l' <> [] ->
    wide l = false /\ wide l' = false.
Proof. exact two_first_literals. Qed.
Print Assumptions C123_two_first_literals.

Example C123_example :
  Forall valid_pattern [tpat 1 ($"é%{INT:n}")] /\ collision_free siphash [tpat 1 ($"é%{INT:n}")] /\
  map (trie_run [tpat 1 ($"é%{INT:n}")]) [$"é1"; $"x"; $""] = [Panic; Panic; Ret None] /\
  trie [tpat 1 ($"é%{INT:n}"); tpat 1 ($"é%{INT:n}")] = Panic /\
  match trie [tpat 1 ($"e"); tpat 2 ($"f")] with Ret _ => True | _ => False end.
Proof.
  split; [apply valid_patterns_sound; vm_compute; reflexivity|].
  split; [apply collision_freeb_sound; vm_compute; reflexivity|].
  split; [vm_compute; reflexivity|]. split; [vm_compute; reflexivity|vm_compute; exact I].
Qed.

(** ** C124: patterns without literals *)
Theorem C124_parsers_never_panic :
  forall sip ps,
    Forall valid_pattern ps -> collision_free sip ps ->
    (forall p tok, In p ps -> In tok (pat_tokens p) -> exists q, tok = Parser q /\ parser_ascii_set q) ->
    exists t, add_patterns sip tree_new ps = Ret t /\
      forall text, utf8 text -> parse t text = Ret (s_parse (s_adds ps) text).
Proof. exact parsers_never_panic. Qed.
Print Assumptions C124_parsers_never_panic.

Definition bare_demo : list pattern := [tpat 1 ($"%{INT:n}%{GREEDY:rest}"); tpat 2 ($"%{GREEDY:all}")].
Example C124_example :
  Forall valid_pattern bare_demo /\ collision_free siphash bare_demo /\
  (forall p tok, In p bare_demo -> In tok (pat_tokens p) -> exists q, tok = Parser q /\ parser_ascii_set q) /\
  map (trie_run bare_demo) [$"1é"; $"é1"] =
    [Ret (Some (uid 1, [($"n", $"1"); ($"rest", $"é")])); Ret (Some (uid 2, [($"all", $"é1")]))].
Proof.
  split; [apply valid_patterns_sound; vm_compute; reflexivity|].
  split; [apply collision_freeb_sound; vm_compute; reflexivity|].
  split; [|vm_compute; reflexivity].
  intros p tok [<-|[<-|[]]] H.
  - assert (comp ($"%{INT:n}%{GREEDY:rest}") =
            [Parser (PInt (int_with_name ($"n"))); Parser (PGreedy (greedy_with_name ($"rest")))]) as E
      by (vm_compute; reflexivity).
    unfold tpat, pat in H. cbn [pat_tokens pattern_new] in H. rewrite E in H.
    destruct H as [<-|[<-|[]]]; eexists; (split; [reflexivity|]); simpl; [|exact I].
    intros b. apply Parsers_facts.digits_ascii.
  - assert (comp ($"%{GREEDY:all}") = [Parser (PGreedy (greedy_with_name ($"all")))]) as E
      by (vm_compute; reflexivity).
    unfold tpat, pat in H. cbn [pat_tokens pattern_new] in H. rewrite E in H.
    destruct H as [<-|[]]. eexists. split; [reflexivity|]. exact I.
Qed.
