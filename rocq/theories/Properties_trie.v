(** * Properties C12 to C26 and C50 to C57: src/matcher/trie/ *)
From Verif Require Import Base Base_facts Utils Parsers Pattern Spec Spec_trie Trie TrieSpec
  Trie_total Trie_main Trie_claims Single_claims Deciders Siphash Tests.

(** Patterns used in the examples. *)
Definition demo : list pattern :=
  [tpat 1 ($"user %{INT:id} logged in"); tpat 2 ($"user"); tpat 3 ($"disk %{SET(""sda""):dev} full");
   tpat 4 ($"%{INT:code}")].

Example demo_ok :
  Forall valid_pattern demo /\ Forall ascii_pattern demo /\ collision_free siphash demo /\
  map (trie_run demo) [$"user 42 logged in"; $"user"; $"disk sda full"; $"7"; $"user x"] =
    [Ret (Some (uid 1, [($"id", $"42")])); Ret (Some (uid 2, []));
     Ret (Some (uid 3, [($"dev", $"sda")])); Ret (Some (uid 4, [($"code", $"7")])); Ret None].
Proof.
  split; [apply valid_patterns_sound; vm_compute; reflexivity|].
  split; [apply ascii_patterns_sound; vm_compute; reflexivity|].
  split; [apply collision_freeb_sound; vm_compute; reflexivity|]. vm_compute. reflexivity.
Qed.

(** ** C12 (for every hash function) *)
Theorem C12_ascii_total :
  forall sip ps, Forall valid_pattern ps -> Forall ascii_pattern ps ->
    exists t, add_patterns sip tree_new ps = Ret t /\
      forall text, ascii text = true -> exists r, parse t text = Ret r.
Proof. exact trie_total. Qed.
Print Assumptions C12_ascii_total.

(** ** C13 is false, both for parsing and for adding *)
Theorem C13_parse_refuted :
  exists p t text, valid_pattern p /\ utf8 text /\
    add_pattern siphash tree_new p = Ret t /\ parse t text = Panic.
Proof. exact trie_parse_panics. Qed.
Print Assumptions C13_parse_refuted.

Theorem C13_add_refuted :
  exists p q t, valid_pattern p /\ valid_pattern q /\
    add_pattern siphash tree_new p = Ret t /\ add_pattern siphash t q = Panic.
Proof. exact trie_add_panics. Qed.
Print Assumptions C13_add_refuted.

(** ** C14, C15, C23: soundness.

    [walk]: the message is made of the pattern's literals and of strings its
    parsers capture at their positions; [reports]: the values are the named
    captures; [stripped p] is [p] with all its attributes but the tokens. *)
Theorem C14_C15_C23_sound :
  forall sip ps t text r,
    Forall valid_pattern ps -> collision_free sip ps -> add_patterns sip tree_new ps = Ret t ->
    utf8 text -> parse t text = Ret (Some r) ->
    exists p caps, In p ps /\ mr_pattern r = stripped p /\ walk (pat_tokens p) text caps /\
      reports caps (mr_values r).
Proof. exact trie_sound. Qed.
Print Assumptions C14_C15_C23_sound.

(** The same parser name twice: the leftmost capture is reported. *)
Example C15_example :
  trie_run [tpat 1 ($"%{INT:x} %{INT:x} %{INT}")] ($"1 2 3") = Ret (Some (uid 1, [($"x", $"1")])).
Proof. vm_compute. reflexivity. Qed.

(** ** C16 (UTF-8 literals, empty ones included, whenever there is no panic) *)
Theorem C16_dictionary :
  forall sip ps t text r,
    Forall valid_pattern ps -> (forall p, In p ps -> exists l, pat_tokens p = [Literal l]) ->
    add_patterns sip tree_new ps = Ret t ->
    utf8 text -> parse t text = Ret r ->
    match r with
    | Some r => exists a p b, ps = a ++ p :: b /\ pat_tokens p = [Literal text] /\
                  (forall p', In p' b -> pat_tokens p' <> [Literal text]) /\
                  r = {| mr_pattern := stripped p; mr_values := [] |}
    | None => forall p, In p ps -> pat_tokens p <> [Literal text]
    end.
Proof. exact trie_literals. Qed.
Print Assumptions C16_dictionary.

Example C16_example :
  map (trie_run [tpat 1 ($"apple"); tpat 2 ($"appletree"); tpat 3 ($"ape"); tpat 4 ($"apple")])
    [$"apple"; $"ape"; $"appletree"; $"app"; $""] =
  [Ret (Some (uid 4, [])); Ret (Some (uid 3, [])); Ret (Some (uid 2, [])); Ret None; Ret None].
Proof. vm_compute. reflexivity. Qed.

(** ** C17 *)
Theorem C17_single_pattern :
  forall sip p t text r,
    valid_pattern p -> collision_free sip [p] -> add_patterns sip tree_new [p] = Ret t ->
    utf8 text -> parse t text = Ret r ->
    match r with
    | Some r => mr_pattern r = stripped p /\
                exists caps, trie_walk (pat_tokens p) text caps /\ reports caps (mr_values r)
    | None => forall caps, ~ trie_walk (pat_tokens p) text caps
    end.
Proof. exact trie_one. Qed.
Print Assumptions C17_single_pattern.

Example C17_example :
  map (trie_run [tpat 1 ($"a%{INT:x}b%{GREEDY:y}")]) [$"a1bc"; $"a1b"; $"a1"; $"ab"] =
  [Ret (Some (uid 1, [($"x", $"1"); ($"y", $"c")])); Ret None; Ret None; Ret None].
Proof. vm_compute. reflexivity. Qed.

(** A set that is not ASCII matches what it takes whole and panics where it cuts a
    character. *)
Example C17_example_utf8 :
  map (trie_run [tpat 1 ($"a%{SET(""é""):x}b%{GREEDY:y}")]) [$"aébc"; $"abc"; $"aèbc"] =
  [Ret (Some (uid 1, [($"x", $"é"); ($"y", $"c")])); Ret None; Panic].
Proof. vm_compute. reflexivity. Qed.

(** ** C18 is false *)
Theorem C18_refuted :
  exists ps p t t' text r,
    Forall valid_pattern (ps ++ [p]) /\ Forall ascii_pattern (ps ++ [p]) /\
    collision_free siphash (ps ++ [p]) /\ ascii text = true /\
    add_patterns siphash tree_new ps = Ret t /\ add_pattern siphash t p = Ret t' /\
    parse t text = Ret (Some r) /\ parse t' text = Ret None.
Proof. exact trie_loses_match. Qed.
Print Assumptions C18_refuted.

(** ** C50: it holds for patterns starting with a parser not yet at the front
    of another pattern; the answer does not even change. *)
Theorem C50_new_parser_keeps_matches :
  forall sip ps p q rest t t' text r r',
    Forall valid_pattern (ps ++ [p]) -> collision_free sip (ps ++ [p]) ->
    pat_tokens p = Parser q :: rest ->
    (forall p' rest', In p' ps -> pat_tokens p' <> Parser q :: rest') ->
    add_patterns sip tree_new ps = Ret t -> add_pattern sip t p = Ret t' ->
    utf8 text -> parse t text = Ret (Some r) -> parse t' text = Ret r' -> r' = Some r.
Proof. exact trie_new_parser. Qed.
Print Assumptions C50_new_parser_keeps_matches.

Example C50_example :
  map (trie_run (demo ++ [tpat 9 ($"%{GREEDY:all}")])) [$"user 42 logged in"; $"7"; $"xyz"] =
  [Ret (Some (uid 1, [($"id", $"42")])); Ret (Some (uid 4, [($"code", $"7")]));
   Ret (Some (uid 9, [($"all", $"xyz")]))].
Proof. vm_compute. reflexivity. Qed.

(** ** C51: locality.  Only patterns starting with a parser or with a literal
    whose first byte is that of the message matter for the answer. *)
Theorem C51_locality :
  forall sip ps t t' text r r',
    Forall valid_pattern ps -> collision_free sip ps ->
    add_patterns sip tree_new ps = Ret t ->
    add_patterns sip tree_new (filter (may_concern text) ps) = Ret t' ->
    utf8 text -> parse t text = Ret r -> parse t' text = Ret r' -> r = r'.
Proof. exact trie_concern. Qed.
Print Assumptions C51_locality.

Example C51_example :
  map pat_uuid (filter (may_concern ($"disk sda full")) demo) = [uid 3; uid 4].
Proof. vm_compute. reflexivity. Qed.

(** ** C52: a pattern of at least two tokens erases an earlier one of at least
    two tokens with the same first token. *)
Theorem C52_same_first_token_erased :
  forall sip ps p q tok rest rest' t t' text r r',
    pat_tokens p = tok :: rest -> pat_tokens q = tok :: rest' -> rest <> [] -> rest' <> [] ->
    Forall valid_pattern (ps ++ [p; q]) -> collision_free sip (ps ++ [p; q]) ->
    add_patterns sip tree_new (ps ++ [p; q]) = Ret t ->
    add_patterns sip tree_new (ps ++ [q]) = Ret t' ->
    utf8 text -> parse t text = Ret r -> parse t' text = Ret r' -> r = r'.
Proof. exact trie_override. Qed.
Print Assumptions C52_same_first_token_erased.

Example C52_example :
  map (trie_run [tpat 1 ($"id %{INT:x} up"); tpat 2 ($"id %{INT:x} down")]) [$"id 1 up"; $"id 1 down"] =
  [Ret None; Ret (Some (uid 2, [($"x", $"1")]))].
Proof. vm_compute. reflexivity. Qed.

(** ** C19 is false: the first token of the dropped pattern need not be that of
    the added one. *)
Theorem C19_refuted :
  exists ps p0 p t t' path,
    Forall valid_pattern (ps ++ [p]) /\ Forall ascii_pattern (ps ++ [p]) /\
    Forall nonempty_literals (ps ++ [p]) /\ collision_free siphash (ps ++ [p]) /\
    In p0 ps /\ hd_error (pat_tokens p0) <> hd_error (pat_tokens p) /\
    path = flat (pat_tokens p0) /\
    add_patterns siphash tree_new ps = Ret t /\ add_pattern siphash t p = Ret t' /\
    held t path (stripped p0) /\ ~ held t' path (stripped p0).
Proof. exact trie_drops_other. Qed.
Print Assumptions C19_refuted.

(** ** C53: what adding a pattern keeps.  Something stored is still stored
    afterwards unless it has the same path as the new pattern, or the new
    pattern has several tokens and its first token is a proper beginning of the
    stored path ([flat]: the path as bytes and parsers). *)
Theorem C53_retention :
  forall sip ps p t t' path q,
    Forall valid_pattern (ps ++ [p]) -> Forall nonempty_literals ps ->
    collision_free sip (ps ++ [p]) ->
    add_patterns sip tree_new ps = Ret t -> add_pattern sip t p = Ret t' ->
    held t path q ->
    held t' path q \/
    (pat_tokens p <> [] /\ path = flat (pat_tokens p)) \/
    (exists tok rest more, pat_tokens p = tok :: rest /\ rest <> [] /\ more <> [] /\
       path = flat [tok] ++ more).
Proof. exact trie_keeps. Qed.
Print Assumptions C53_retention.

Theorem C53_new_is_held :
  forall sip ps p t,
    Forall valid_pattern (ps ++ [p]) -> collision_free sip (ps ++ [p]) ->
    add_patterns sip tree_new (ps ++ [p]) = Ret t -> pat_tokens p <> [] ->
    held t (flat (pat_tokens p)) (stripped p).
Proof. exact trie_holds_new. Qed.
Print Assumptions C53_new_is_held.

Theorem C53_only_added_are_held :
  forall sip ps t path q,
    Forall valid_pattern ps -> collision_free sip ps ->
    add_patterns sip tree_new ps = Ret t -> held t path q ->
    exists p, In p ps /\ q = stripped p /\ path = flat (pat_tokens p).
Proof. exact trie_holds_only. Qed.
Print Assumptions C53_only_added_are_held.

(** All four patterns of [demo] are held. *)
Example C53_example :
  match trie demo with Ret t => length (collect t) | _ => 0 end = 4 /\
  Forall nonempty_literals demo.
Proof.
  split; [vm_compute; reflexivity|].
  repeat (apply Forall_cons; [intros l Hl; vm_compute in Hl; intuition congruence|]). apply Forall_nil.
Qed.

(** ** C20 is false when first literals repeat *)
Theorem C20_refuted :
  exists ps p t t' text r,
    Forall valid_pattern (ps ++ [p]) /\ Forall ascii_pattern (ps ++ [p]) /\
    collision_free siphash (ps ++ [p]) /\ apart (ps ++ [p]) /\ ascii text = true /\
    first_literal_fits text p = true /\
    add_patterns siphash tree_new (ps ++ [p]) = Ret t /\ parse t text = Ret (Some r) /\
    add_patterns siphash tree_new [p] = Ret t' /\ parse t' text = Ret None.
Proof. exact trie_not_last. Qed.
Print Assumptions C20_refuted.

(** ** C54: incomparable first literals.  The answer is that of a trie holding
    just the patterns whose first literal the message starts with; if this is
    one pattern, it is described by [trie_walk]; if it is none, there is no
    match. *)
Theorem C54_apart :
  forall sip ps t t' text r r',
    Forall valid_pattern ps -> collision_free sip ps -> apart ps ->
    add_patterns sip tree_new ps = Ret t ->
    add_patterns sip tree_new (filter (first_literal_fits text) ps) = Ret t' ->
    utf8 text -> parse t text = Ret r -> parse t' text = Ret r' -> r = r'.
Proof. exact trie_apart. Qed.
Print Assumptions C54_apart.

Theorem C54_apart_one :
  forall sip ps t p text r,
    Forall valid_pattern ps -> collision_free sip ps -> apart ps ->
    add_patterns sip tree_new ps = Ret t -> utf8 text ->
    filter (first_literal_fits text) ps = [p] ->
    parse t text = Ret r ->
    match r with
    | Some r => mr_pattern r = stripped p /\
                exists caps, trie_walk (pat_tokens p) text caps /\ reports caps (mr_values r)
    | None => forall caps, ~ trie_walk (pat_tokens p) text caps
    end.
Proof. exact trie_apart_fits. Qed.
Print Assumptions C54_apart_one.

Theorem C54_apart_none :
  forall sip ps t text r,
    Forall valid_pattern ps -> collision_free sip ps -> apart ps ->
    add_patterns sip tree_new ps = Ret t -> utf8 text ->
    (forall p, In p ps -> first_literal_fits text p = false) ->
    parse t text = Ret r -> r = None.
Proof. exact trie_apart_none. Qed.
Print Assumptions C54_apart_none.

Example C54_example :
  let ps := [tpat 1 ($"ab%{INT:x}"); tpat 2 ($"ac%{INT:x}"); tpat 3 ($"b%{INT:x}")] in
  (exists l1 l2 l3, Forall2 starts_with ps [l1; l2; l3] /\
     incomparable l1 l2 /\ incomparable l1 l3 /\ incomparable l2 l3) /\
  filter (first_literal_fits ($"ac7")) ps = [tpat 2 ($"ac%{INT:x}")] /\
  trie_run ps ($"ac7") = Ret (Some (uid 2, [($"x", $"7")])).
Proof.
  split; [|split; vm_compute; reflexivity].
  exists ($"ab"), ($"ac"), ($"b"). split.
  - repeat (apply Forall2_cons; [eexists; vm_compute; reflexivity|]). apply Forall2_nil.
  - repeat split; intros r [E|E]; discriminate E.
Qed.

(** ** C21 (the suffix table: C21_table_ignored in Properties_table.v) *)
Theorem C21_empty_pattern_ignored :
  forall sip t p, pat_tokens p = [] -> add_pattern sip t p = Ret t.
Proof. exact add_empty. Qed.
Print Assumptions C21_empty_pattern_ignored.

Example C21_example : pat_tokens (tpat 1 ($"")) = [].
Proof. vm_compute. reflexivity. Qed.

(** ** C22: same answers, same content *)
Theorem C22_replaced :
  forall sip ps p q t t' text r r',
    Forall valid_pattern (ps ++ [p; q]) -> collision_free sip (ps ++ [p; q]) ->
    pat_tokens p = pat_tokens q ->
    add_patterns sip tree_new (ps ++ [p; q]) = Ret t ->
    add_patterns sip tree_new (ps ++ [q]) = Ret t' ->
    utf8 text -> parse t text = Ret r -> parse t' text = Ret r' -> r = r'.
Proof. exact trie_replace. Qed.
Print Assumptions C22_replaced.

Theorem C22_replaced_content :
  forall sip ps p q t t',
    Forall valid_pattern (ps ++ [p; q]) -> collision_free sip (ps ++ [p; q]) ->
    pat_tokens p = pat_tokens q ->
    add_patterns sip tree_new (ps ++ [p; q]) = Ret t ->
    add_patterns sip tree_new (ps ++ [q]) = Ret t' ->
    forall path x, held t path x <-> held t' path x.
Proof. exact trie_replace_held. Qed.
Print Assumptions C22_replaced_content.

Example C22_example :
  trie_run (demo ++ [tpat 8 ($"user %{INT:id} logged in")]) ($"user 42 logged in") =
  Ret (Some (uid 8, [($"id", $"42")])).
Proof. vm_compute. reflexivity. Qed.

(** ** C24 *)
Theorem C24_parser_order :
  forall sip ps t text r,
    Forall valid_pattern ps -> (forall p, In p ps -> exists q, pat_tokens p = [Parser q]) ->
    collision_free sip ps -> add_patterns sip tree_new ps = Ret t ->
    utf8 text -> parse t text = Ret r ->
    match r with
    | Some r => exists q p, wins ps text q p /\ mr_pattern r = stripped p /\
                  reports [(q, text)] (mr_values r)
    | None => forall p q, In p ps -> pat_tokens p = [Parser q] -> ~ captures q text text
    end.
Proof. exact trie_parsers. Qed.
Print Assumptions C24_parser_order.

Example C24_example :
  map (trie_run [tpat 1 ($"%{INT:x}"); tpat 2 ($"%{SET(""12ab""):y}"); tpat 3 ($"%{GREEDY:z}")])
    [$"12"; $"1a"; $"1c"] =
  [Ret (Some (uid 1, [($"x", $"12")])); Ret (Some (uid 2, [($"y", $"1a")]));
   Ret (Some (uid 3, [($"z", $"1c")]))].
Proof. vm_compute. reflexivity. Qed.

(** ** C25: the height of the tree bounds the recursion (the suffix table:
    C25_table_terminates in Properties_table.v) *)
Theorem C25_trie_terminates : forall t text, parse t text <> OutOfFuel.
Proof. exact parse_terminates. Qed.
Print Assumptions C25_trie_terminates.

(** ** C26 is false *)
Theorem C26_refuted :
  exists p q rest t t' text r,
    Forall valid_pattern [p; q] /\ Forall ascii_pattern [p; q] /\ collision_free siphash [p; q] /\
    pat_tokens q = pat_tokens p ++ rest /\ ascii text = true /\
    add_patterns siphash tree_new [p] = Ret t /\ parse t text = Ret (Some r) /\
    add_patterns siphash tree_new [p; q] = Ret t' /\ parse t' text = Ret None.
Proof. exact trie_shadows. Qed.
Print Assumptions C26_refuted.

(** ** C55: a pattern consisting of one parser is dead as soon as another
    pattern goes on after that parser, whichever was added first; a pattern
    consisting of one literal is not. *)
Theorem C55_shadowed :
  forall sip ps ps' p q x rest t t' text r r',
    pat_tokens p = [Parser x] -> pat_tokens q = Parser x :: rest -> rest <> [] ->
    ps' = ps ++ [p; q] \/ ps' = ps ++ [q; p] ->
    Forall valid_pattern ps' -> collision_free sip ps' ->
    add_patterns sip tree_new ps' = Ret t ->
    add_patterns sip tree_new (ps ++ [q]) = Ret t' ->
    utf8 text -> parse t text = Ret r -> parse t' text = Ret r' -> r = r'.
Proof. exact trie_shadow. Qed.
Print Assumptions C55_shadowed.

Theorem C55_literal_not_shadowed :
  forall sip p q l rest t r,
    l <> [] -> pat_tokens p = [Literal l] -> pat_tokens q = Literal l :: rest -> rest <> [] ->
    Forall valid_pattern [p; q] -> collision_free sip [p; q] ->
    add_patterns sip tree_new [p; q] = Ret t -> parse t l = Ret r ->
    r = Some (match_result_new (stripped p)).
Proof. exact trie_longer_literal. Qed.
Print Assumptions C55_literal_not_shadowed.

Example C55_example :
  map (trie_run [tpat 1 ($"%{INT:x}"); tpat 2 ($"%{INT:x} km"); tpat 3 ($"far"); tpat 4 ($"far%{INT:x}")])
    [$"5"; $"5 km"; $"far"; $"far5"] =
  [Ret None; Ret (Some (uid 2, [($"x", $"5")])); Ret (Some (uid 3, []));
   Ret (Some (uid 4, [($"x", $"5")]))].
Proof. vm_compute. reflexivity. Qed.

(** ** C56: the trie does exactly what the abstract matcher of TrieSpec.v does *)
Theorem C56_refines :
  forall sip ps t text r,
    Forall valid_pattern ps -> collision_free sip ps -> add_patterns sip tree_new ps = Ret t ->
    utf8 text -> parse t text = Ret r -> r = s_parse (s_adds ps) text.
Proof. exact trie_refines. Qed.
Print Assumptions C56_refines.

Theorem C56_exact :
  forall sip ps,
    Forall valid_pattern ps -> Forall ascii_pattern ps -> collision_free sip ps ->
    exists t, add_patterns sip tree_new ps = Ret t /\
      forall text, ascii text = true -> parse t text = Ret (s_parse (s_adds ps) text).
Proof. exact trie_exact. Qed.
Print Assumptions C56_exact.

(** The hypothesis on the hash function is needed. *)
Theorem C56_collision_unsound :
  exists (sip : list byte -> N) ps t text r,
    Forall valid_pattern ps /\ Forall ascii_pattern ps /\ ascii text = true /\
    add_patterns sip tree_new ps = Ret t /\ parse t text = Ret (Some r) /\
    forall p caps, In p ps -> ~ walk (pat_tokens p) text caps.
Proof. exact trie_collision_unsound. Qed.
Print Assumptions C56_collision_unsound.

(** ** C57 (completeness) is false even for one pattern *)
Theorem C57_refuted :
  exists p t text caps,
    valid_pattern p /\ ascii_pattern p /\ nonempty_literals p /\ ascii text = true /\
    walk (pat_tokens p) text caps /\
    add_patterns siphash tree_new [p] = Ret t /\ parse t text = Ret None.
Proof. exact trie_incomplete. Qed.
Print Assumptions C57_refuted.
