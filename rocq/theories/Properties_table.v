(** * Properties C27 to C31 and C58 to C66, C95: src/matcher/suffix_array/ *)
From Verif Require Import Base Base_facts Utils Parsers Pattern Spec Spec_table SuffixArray
  TableSpec Table_refine Table_claims Single_claims Deciders Siphash Tests.
From Verif Require Trie.

(** Patterns used in the examples. *)
Definition tdemo : list pattern :=
  [tpat 1 ($"user %{INT:id} logged in"); tpat 2 ($"user"); tpat 3 ($"disk %{SET(""sda""):dev} full");
   tpat 4 ($"%{INT:code}")].

Example tdemo_ok :
  Forall valid_pattern tdemo /\ Forall ascii_pattern tdemo /\ collision_free siphash tdemo /\
  map (table_run tdemo) [$"user 42 logged in"; $"user"; $"disk sda full"; $"7"; $"dis"; $"us"] =
    [Ret (Some (uid 1, [($"id", $"42")])); Ret (Some (uid 2, []));
     Ret (Some (uid 3, [($"dev", $"sda")])); Ret None; Ret None; Ret (Some (uid 2, []))].
Proof.
  split; [apply valid_patterns_sound; vm_compute; reflexivity|].
  split; [apply ascii_patterns_sound; vm_compute; reflexivity|].
  split; [apply collision_freeb_sound; vm_compute; reflexivity|]. vm_compute. reflexivity.
Qed.

(** ** C21, C25 for the suffix table *)
Theorem C21_table_ignored : forall sip t p, pat_tokens p = [] -> add_pattern sip t p = Ret t.
Proof. exact table_add_empty. Qed.
Print Assumptions C21_table_ignored.

Theorem C25_table_terminates : forall t text, parse t text <> OutOfFuel.
Proof. exact parse_terminates. Qed.
Print Assumptions C25_table_terminates.

(** ** C27 (for the table and every table below it) *)
Theorem C27_longest_common_prefix :
  forall sip ps t x v,
    Forall valid_pattern ps -> add_patterns sip table_new ps = Ret t -> part_of x t -> utf8 v ->
    exists o, longest_common_prefix x v = Ret o /\
      match o with
      | Some e => In e (literal_entries x) /\ exists w, longest_common_chars (le_literal e) v w /\
          forall e' w', In e' (literal_entries x) -> longest_common_chars (le_literal e') v w' ->
            length w' <= length w
      | None => literal_entries x = []
      end.
Proof. exact table_lcp. Qed.
Print Assumptions C27_longest_common_prefix.

Example C27_example :
  (let* t := add_patterns siphash table_new [tpat 1 ($"abc"); tpat 2 ($"abx"); tpat 3 ($"b")] in
   let* o := longest_common_prefix t ($"abd") in
   Ret (option_map (@le_literal _) o)) = Ret (Some ($"abc")).
Proof. vm_compute. reflexivity. Qed.

(** ** C28 is false: "app" is reported for the message "ap" *)
Theorem C28_refuted :
  exists p t text r,
    valid_pattern p /\ ascii_pattern p /\ ascii text = true /\
    add_patterns siphash table_new [p] = Ret t /\ parse t text = Ret (Some r) /\
    forall caps, ~ walk (pat_tokens p) text caps.
Proof. exact table_unsound. Qed.
Print Assumptions C28_refuted.

(** ** C59: what a match means *)
Theorem C59_table_sound :
  forall sip ps t text r,
    Forall valid_pattern ps -> collision_free sip ps -> add_patterns sip table_new ps = Ret t ->
    utf8 text -> parse t text = Ret (Some r) ->
    exists p caps, In p ps /\ mr_pattern r = stripped p /\ table_walk (pat_tokens p) text caps /\
      reports caps (mr_values r).
Proof. exact table_sound. Qed.
Print Assumptions C59_table_sound.

Example C59_example :
  map (table_run [tpat 1 ($"app%{INT:x}!")]) [$"app42!"; $"ap42!"; $"42!"; $"42"; $"app42!?"] =
  [Ret (Some (uid 1, [($"x", $"42")])); Ret (Some (uid 1, [($"x", $"42")]));
   Ret (Some (uid 1, [($"x", $"42")])); Ret (Some (uid 1, [($"x", $"42")])); Ret None].
Proof. vm_compute. reflexivity. Qed.

(** ** C29 (for every hash function) *)
Theorem C29_table_total :
  forall sip ps,
    Forall valid_pattern ps -> (forall q, parser_in ps q -> parser_ascii_set q) ->
    exists t, add_patterns sip table_new ps = Ret t /\
      forall text, utf8 text -> exists r, parse t text = Ret r.
Proof. exact table_total. Qed.
Print Assumptions C29_table_total.

(** Two literals ("é" and "è") that the trie cuts in the middle of a character. *)
Example C29_example :
  table_run [tpat 1 [xc3; xa9]; tpat 2 [xc3; xa8]] [xc3; xa8] = Ret (Some (uid 2, [])) /\
  trie_run [tpat 1 [xc3; xa9]; tpat 2 [xc3; xa8]] [xc3; xa8] = Panic.
Proof. vm_compute. split; reflexivity. Qed.

(** ** C30 is false: a literal other than the last token must not end the text *)
Theorem C30_refuted :
  exists p t text caps,
    valid_pattern p /\ ascii_pattern p /\ nonempty_literals p /\ ascii text = true /\
    walk (pat_tokens p) text caps /\
    add_patterns siphash table_new [p] = Ret t /\ parse t text = Ret None.
Proof. exact table_incomplete. Qed.
Print Assumptions C30_refuted.

(** ** C60: the exact language of a single pattern *)
Theorem C60_table_single_pattern :
  forall sip p t text r,
    valid_pattern p -> collision_free sip [p] -> add_patterns sip table_new [p] = Ret t ->
    utf8 text -> parse t text = Ret r ->
    match r with
    | Some r => mr_pattern r = stripped p /\
                exists caps, table_walk (pat_tokens p) text caps /\ reports caps (mr_values r)
    | None => forall caps, ~ table_walk (pat_tokens p) text caps
    end.
Proof. exact table_one. Qed.
Print Assumptions C60_table_single_pattern.

(** There is at most one way to read a text. *)
Theorem C60_table_walk_unique :
  forall toks text caps caps', table_walk toks text caps -> table_walk toks text caps' -> caps = caps'.
Proof. exact (fun toks text caps caps' H H' => table_walk_unique toks text caps H caps' H'). Qed.
Print Assumptions C60_table_walk_unique.

Example C60_example :
  map (table_run [tpat 1 ($"a%{INT:x}b%{GREEDY:y}")]) [$"a1bc"; $"1bc"; $"a1c"; $"a1b"; $"a1"; $"ab"] =
  [Ret (Some (uid 1, [($"x", $"1"); ($"y", $"c")])); Ret (Some (uid 1, [($"x", $"1"); ($"y", $"c")]));
   Ret (Some (uid 1, [($"x", $"1"); ($"y", $"c")])); Ret None; Ret None; Ret None].
Proof. vm_compute. reflexivity. Qed.

Example C60_example_utf8 :
  map (table_run [tpat 1 ($"a%{SET(""é""):x}b%{GREEDY:y}")]) [$"aébc"; $"abc"; $"aèbc"] =
  [Ret (Some (uid 1, [($"x", $"é"); ($"y", $"c")])); Ret None; Panic].
Proof. vm_compute. reflexivity. Qed.

(** ** C31 is false, in both directions *)
Theorem C31_refuted :
  exists p t t' text r,
    valid_pattern p /\ ascii_pattern p /\ ascii text = true /\
    Trie.add_patterns siphash Trie.tree_new [p] = Ret t /\ Trie.parse t text = Ret None /\
    add_patterns siphash table_new [p] = Ret t' /\ parse t' text = Ret (Some r).
Proof. exact table_disagrees. Qed.
Print Assumptions C31_refuted.

Theorem C31_converse_refuted :
  exists ps t t' text r,
    Forall valid_pattern ps /\ Forall ascii_pattern ps /\ collision_free siphash ps /\ ascii text = true /\
    Trie.add_patterns siphash Trie.tree_new ps = Ret t /\ Trie.parse t text = Ret (Some r) /\
    add_patterns siphash table_new ps = Ret t' /\ parse t' text = Ret None.
Proof. exact table_misses. Qed.
Print Assumptions C31_converse_refuted.

(** ** C61: what the trie matches the table matches too, for a single pattern
    and for patterns whose first literals are no prefixes of each other *)
Theorem C61_table_follows_trie :
  forall sip ps t t' text r r',
    Forall valid_pattern ps -> collision_free sip ps -> apart ps ->
    Trie.add_patterns sip Trie.tree_new ps = Ret t -> add_patterns sip table_new ps = Ret t' ->
    utf8 text -> Trie.parse t text = Ret (Some r) -> parse t' text = Ret r' -> r' = Some r.
Proof. exact table_follows_trie. Qed.
Print Assumptions C61_table_follows_trie.

Theorem C61_table_follows_trie_one :
  forall sip p t t' text r r',
    valid_pattern p -> collision_free sip [p] ->
    Trie.add_patterns sip Trie.tree_new [p] = Ret t -> add_patterns sip table_new [p] = Ret t' ->
    utf8 text -> Trie.parse t text = Ret (Some r) -> parse t' text = Ret r' -> r' = Some r.
Proof. exact table_follows_trie_one. Qed.
Print Assumptions C61_table_follows_trie_one.

Example C61_example :
  let ps := [tpat 1 ($"user %{INT:id} in"); tpat 2 ($"usb %{GREEDY:m}"); tpat 3 ($"disk")] in
  trie_run ps ($"user 7 in") = Ret (Some (uid 1, [($"id", $"7")])) /\
  table_run ps ($"user 7 in") = Ret (Some (uid 1, [($"id", $"7")])) /\
  trie_run ps ($"user 7") = Ret None.
Proof. vm_compute. repeat split; reflexivity. Qed.

(** ** C62: no difference without literals *)
Theorem C62_table_is_trie_for_parsers :
  forall sip ps t t' text r r',
    Forall valid_pattern ps -> collision_free sip ps ->
    (forall p tok, In p ps -> In tok (pat_tokens p) -> exists q, tok = Parser q) ->
    Trie.add_patterns sip Trie.tree_new ps = Ret t -> add_patterns sip table_new ps = Ret t' ->
    utf8 text -> Trie.parse t text = Ret r -> parse t' text = Ret r' -> r = r'.
Proof. exact table_is_trie_parsers. Qed.
Print Assumptions C62_table_is_trie_for_parsers.

Example C62_example :
  let ps := [tpat 1 ($"%{INT:n}%{SET(""abc""):s}"); tpat 2 ($"%{SET(""abc""):s}"); tpat 3 ($"%{GREEDY:x}")] in
  (forall p tok, In p ps -> In tok (pat_tokens p) -> exists q, tok = Parser q) /\
  map (table_run ps) [$"12cab"; $"cab"; $"?"] =
    [Ret (Some (uid 1, [($"n", $"12"); ($"s", $"cab")])); Ret (Some (uid 2, [($"s", $"cab")]));
     Ret (Some (uid 3, [($"x", $"?")]))] /\
  map (trie_run ps) [$"12cab"; $"cab"; $"?"] = map (table_run ps) [$"12cab"; $"cab"; $"?"].
Proof.
  split; [|vm_compute; split; reflexivity].
  intros p tok Hp Ht. vm_compute in Hp. destruct Hp as [<-|[<-|[<-|[]]]]; vm_compute in Ht;
    repeat (destruct Ht as [<-|Ht]; [eexists; reflexivity|]); destruct Ht.
Qed.

(** ** C63: literals only.  A message matches if it is the beginning of a
    literal; the pattern reported is the last one with the least such literal. *)
Theorem C63_table_dictionary :
  forall sip ps t text r,
    Forall valid_pattern ps -> (forall p, In p ps -> exists l, pat_tokens p = [Literal l]) ->
    add_patterns sip table_new ps = Ret t ->
    utf8 text -> parse t text = Ret r ->
    match r with
    | Some r => exists a p b l, ps = a ++ p :: b /\ pat_tokens p = [Literal l] /\ prefix_of text l /\
                  (forall p', In p' b -> pat_tokens p' <> [Literal l]) /\
                  (forall p' l', In p' ps -> pat_tokens p' = [Literal l'] -> prefix_of text l' ->
                     str_cmp l l' <> Gt) /\
                  r = {| mr_pattern := stripped p; mr_values := [] |}
    | None => forall p l, In p ps -> pat_tokens p = [Literal l] -> ~ prefix_of text l
    end.
Proof. exact table_literals. Qed.
Print Assumptions C63_table_dictionary.

Example C63_example :
  map (table_run [tpat 1 ($"apple"); tpat 2 ($"appletree"); tpat 3 ($"ape"); tpat 4 ($"apple")])
    [$"apple"; $"ap"; $"app"; $""; $"applet"; $"apples"] =
  [Ret (Some (uid 4, [])); Ret (Some (uid 3, [])); Ret (Some (uid 4, [])); Ret (Some (uid 3, []));
   Ret (Some (uid 2, [])); Ret None].
Proof. vm_compute. reflexivity. Qed.

(** ** C64: parsers at the beginning are not tried when there are literals *)
Theorem C64_table_literals_first :
  forall sip ps t t' text r r',
    Forall valid_pattern ps -> collision_free sip ps ->
    (exists p, In p ps /\ literal_first p = true) ->
    add_patterns sip table_new ps = Ret t ->
    add_patterns sip table_new (filter literal_first ps) = Ret t' ->
    utf8 text -> parse t text = Ret r -> parse t' text = Ret r' -> r = r'.
Proof. exact table_literals_first. Qed.
Print Assumptions C64_table_literals_first.

Example C64_example :
  filter literal_first tdemo <> [] /\ table_run tdemo ($"7") = Ret None /\
  table_run [tpat 4 ($"%{INT:code}")] ($"7") = Ret (Some (uid 4, [($"code", $"7")])).
Proof. vm_compute. split; [discriminate|split; reflexivity]. Qed.

(** ** C65: only the patterns starting with one closest literal matter *)
Theorem C65_table_local :
  forall sip ps t text r,
    Forall valid_pattern ps -> collision_free sip ps ->
    (exists p, In p ps /\ literal_first p = true) ->
    add_patterns sip table_new ps = Ret t -> utf8 text -> parse t text = Ret r ->
    exists l, (exists p, In p ps /\ starts_with p l) /\ shares_most ps text l /\
      forall t' r', add_patterns sip table_new (filter (starts_withb l) ps) = Ret t' ->
        parse t' text = Ret r' -> r = r'.
Proof. exact table_local. Qed.
Print Assumptions C65_table_local.

(** "app " shares most with the message, "app" is not looked at any more. *)
Example C65_example :
  let ps := [tpat 1 ($"app %{INT:x}"); tpat 2 ($"app%{GREEDY:y}")] in
  table_run ps ($"app one") = Ret None /\
  table_run (filter (starts_withb ($"app ")) ps) ($"app one") = Ret None /\
  table_run (filter (starts_withb ($"app")) ps) ($"app one") = Ret (Some (uid 2, [($"y", $" one")])).
Proof. vm_compute. repeat split; reflexivity. Qed.

(** ** C58: the content of a table *)
Theorem C58_table_content :
  forall sip ps t path q,
    Forall valid_pattern ps -> collision_free sip ps -> add_patterns sip table_new ps = Ret t ->
    theld t path q <->
    path <> [] /\ exists a p b, ps = a ++ p :: b /\ pat_tokens p = path /\ q = stripped p /\
      forall p', In p' b -> ~ displaces (pat_tokens p') path.
Proof. exact table_content. Qed.
Print Assumptions C58_table_content.

Theorem C58_table_add :
  forall sip ps p t t' path q,
    Forall valid_pattern (ps ++ [p]) -> collision_free sip (ps ++ [p]) ->
    add_patterns sip table_new ps = Ret t -> add_pattern sip t p = Ret t' ->
    theld t' path q <->
    (pat_tokens p <> [] /\ path = pat_tokens p /\ q = stripped p) \/
    (theld t path q /\ ~ displaces (pat_tokens p) path).
Proof. exact table_keeps. Qed.
Print Assumptions C58_table_add.

(** "user %{INT:id} logged in" is dropped by "user %{INT:id} logged out". *)
Example C58_example :
  let ps := [tpat 1 ($"user %{INT:id} logged in"); tpat 2 ($"user %{INT:id} logged out")] in
  map (table_run ps) [$"user 1 logged in"; $"user 1 logged out"] =
    [Ret None; Ret (Some (uid 2, [($"id", $"1")]))] /\
  displaces (pat_tokens (tpat 2 ($"user %{INT:id} logged out"))) (pat_tokens (tpat 1 ($"user %{INT:id} logged in"))).
Proof.
  split; [vm_compute; reflexivity|]. eexists _, _, _. split; [vm_compute; reflexivity|].
  split; [vm_compute; reflexivity|]. split; discriminate.
Qed.

(** ** C66: adding the same tokens again *)
Theorem C66_table_replaced :
  forall sip ps p q t t',
    Forall valid_pattern (ps ++ [p; q]) -> collision_free sip (ps ++ [p; q]) ->
    pat_tokens p = pat_tokens q ->
    add_patterns sip table_new (ps ++ [p; q]) = Ret t ->
    add_patterns sip table_new (ps ++ [q]) = Ret t' -> t = t'.
Proof. exact table_replace. Qed.
Print Assumptions C66_table_replaced.

Example C66_example :
  table_run [tpat 1 ($"a%{INT}"); tpat 2 ($"a%{INT}")] ($"a7") = Ret (Some (uid 2, [])).
Proof. vm_compute. reflexivity. Qed.

(** ** C95: the suffix table does exactly what the abstract matcher of TableSpec.v does *)
Theorem C95_refines :
  forall sip ps t text r,
    Forall valid_pattern ps -> collision_free sip ps -> add_patterns sip table_new ps = Ret t ->
    utf8 text -> parse t text = Ret r -> r = t_parse (t_adds ps) text.
Proof. exact table_refines. Qed.
Print Assumptions C95_refines.
Theorem C95_exact :
  forall sip ps,
    Forall valid_pattern ps -> (forall q, parser_in ps q -> parser_ascii_set q) -> collision_free sip ps ->
    exists t, add_patterns sip table_new ps = Ret t /\
      forall text, utf8 text -> parse t text = Ret (t_parse (t_adds ps) text).
Proof. exact table_exact. Qed.
Print Assumptions C95_exact.

Example C95_example :
  map (fun x => option_map (fun r => (pat_uuid (mr_pattern r), mr_values r)) (t_parse (t_adds tdemo) x))
    [$"user 42 logged in"; $"us"; $"7"] = [Some (uid 1, [($"id", $"42")]); Some (uid 2, []); None].
Proof. vm_compute. reflexivity. Qed.
