(** * Property C166: continued messages *)
From Verif Require Import Base Base_facts Utils Parsers Pattern Grammar Source Spec Spec_table Spec_source Spec_canon Spec_separate Spec_continued Continued_claims Continued_table_claims
  Siphash Deciders Tests.
From Verif Require Trie SuffixArray.

(** ** C166: a message that ends with something no pattern mentions, like a newline,
    is reported for patterns that end with GREEDY only *)
Theorem C166_trie_ending :
  forall sip ps t text b r,
    Forall (fun p => exists s, utf8 s /\ compile s = Ret (Ok (pat_tokens p))) ps -> collision_free sip ps ->
    Trie.add_patterns sip Trie.tree_new ps = Ret t -> foreign b ps -> utf8 (text ++ [b]) ->
    Trie.parse t (text ++ [b]) = Ret (Some r) -> exists p g, In p ps /\ mr_pattern r = stripped p /\ ends_with p (Parser (PGreedy g)).
Proof. exact trie_foreign. Qed.
Print Assumptions C166_trie_ending.

Theorem C166_table_ending :
  forall sip ps t text b r,
    Forall (fun p => exists s, utf8 s /\ compile s = Ret (Ok (pat_tokens p))) ps -> collision_free sip ps ->
    SuffixArray.add_patterns sip SuffixArray.table_new ps = Ret t -> foreign b ps -> utf8 (text ++ [b]) ->
    SuffixArray.parse t (text ++ [b]) = Ret (Some r) -> exists p g, In p ps /\ mr_pattern r = stripped p /\ ends_with p (Parser (PGreedy g)).
Proof. exact table_foreign. Qed.
Print Assumptions C166_table_ending.

(** A pattern that ends with a literal matches no continuation of a message it
    matches, ... *)
Theorem C166_whole :
  forall sip s p t l text w caps o,
    utf8 s -> compile s = Ret (Ok (pat_tokens p)) -> collision_free sip [p] -> Trie.add_patterns sip Trie.tree_new [p] = Ret t ->
    utf8 (text ++ w) -> w <> [] -> ends_with p (Literal l) -> trie_walk (pat_tokens p) text caps -> Trie.parse t (text ++ w) = Ret o -> o = None.
Proof. exact trie_whole. Qed.
Print Assumptions C166_whole.

Theorem C166_separate_whole :
  forall sip ps t p l text w caps o,
    Forall (fun p => exists s, utf8 s /\ compile s = Ret (Ok (pat_tokens p))) ps -> separate ps -> Trie.add_patterns sip Trie.tree_new ps = Ret t ->
    utf8 (text ++ w) -> w <> [] -> In p ps -> ends_with p (Literal l) -> trie_walk (pat_tokens p) text caps ->
    Trie.parse t (text ++ w) = Ret o -> o = None.
Proof. exact separate_whole. Qed.
Print Assumptions C166_separate_whole.

(** ... and whenever a message and its continuation are both matched, the
    continuation goes to the last value. *)
Theorem C166_last_value :
  forall sip s p t text w r r',
    utf8 s -> compile s = Ret (Ok (pat_tokens p)) -> collision_free sip [p] -> Trie.add_patterns sip Trie.tree_new [p] = Ret t ->
    utf8 text -> utf8 (text ++ w) -> w <> [] -> Trie.parse t text = Ret (Some r) -> Trie.parse t (text ++ w) = Ret (Some r') ->
    exists q c v, ends_with p (Parser q) /\ trie_walk (pat_tokens p) text (c ++ [(q, v)]) /\ reports (c ++ [(q, v)]) (mr_values r) /\
      (v <> [] -> reports (c ++ [(q, v ++ w)]) (mr_values r')).
Proof. exact trie_continued. Qed.
Print Assumptions C166_last_value.

Theorem C166_separate_last_value :
  forall sip ps t text w r r',
    Forall (fun p => exists s, utf8 s /\ compile s = Ret (Ok (pat_tokens p))) ps -> separate ps -> Trie.add_patterns sip Trie.tree_new ps = Ret t ->
    utf8 text -> utf8 (text ++ w) -> w <> [] -> Trie.parse t text = Ret (Some r) -> Trie.parse t (text ++ w) = Ret (Some r') ->
    exists p q c v, In p ps /\ mr_pattern r = stripped p /\ mr_pattern r' = stripped p /\
      ends_with p (Parser q) /\ trie_walk (pat_tokens p) text (c ++ [(q, v)]) /\ reports (c ++ [(q, v)]) (mr_values r) /\
      (v <> [] -> reports (c ++ [(q, v ++ w)]) (mr_values r')).
Proof. exact separate_continued. Qed.
Print Assumptions C166_separate_last_value.

(** A pattern that ends with GREEDY matches every continuation. *)
Theorem C166_open :
  forall sip p t text w c g v o,
    valid_pattern p -> collision_free sip [p] -> Trie.add_patterns sip Trie.tree_new [p] = Ret t -> utf8 (text ++ w) ->
    ends_with p (Parser (PGreedy g)) -> gp_end_string g = None -> trie_walk (pat_tokens p) text (c ++ [(PGreedy g, v)]) -> v <> [] ->
    Trie.parse t (text ++ w) = Ret o -> exists r, o = Some r /\ mr_pattern r = stripped p /\ reports (c ++ [(PGreedy g, v ++ w)]) (mr_values r).
Proof. exact trie_open. Qed.
Print Assumptions C166_open.

Theorem C166_separate_open :
  forall sip ps t p text w c g v o,
    Forall valid_pattern ps -> separate ps -> Trie.add_patterns sip Trie.tree_new ps = Ret t -> utf8 (text ++ w) ->
    In p ps -> ends_with p (Parser (PGreedy g)) -> gp_end_string g = None -> trie_walk (pat_tokens p) text (c ++ [(PGreedy g, v)]) -> v <> [] ->
    Trie.parse t (text ++ w) = Ret o -> exists r, o = Some r /\ mr_pattern r = stripped p /\ reports (c ++ [(PGreedy g, v ++ w)]) (mr_values r).
Proof. exact separate_open. Qed.
Print Assumptions C166_separate_open.

(** The same of the suffix table, for patterns that end with a parser. *)
Theorem C166_table_last_value :
  forall sip p t q text w r r',
    valid_pattern p -> (forall z, In (Parser z) (pat_tokens p) -> parser_ascii_set z) -> collision_free sip [p] ->
    SuffixArray.add_patterns sip SuffixArray.table_new [p] = Ret t -> ends_with p (Parser q) ->
    utf8 text -> utf8 (text ++ w) -> SuffixArray.parse t text = Ret (Some r) -> SuffixArray.parse t (text ++ w) = Ret (Some r') ->
    exists c v, table_walk (pat_tokens p) text (c ++ [(q, v)]) /\ reports (c ++ [(q, v)]) (mr_values r) /\
      (v <> [] -> reports (c ++ [(q, v ++ w)]) (mr_values r')).
Proof. exact table_continued. Qed.
Print Assumptions C166_table_last_value.

Theorem C166_table_open :
  forall sip p t text w c g v o,
    valid_pattern p -> (forall z, In (Parser z) (pat_tokens p) -> parser_ascii_set z) -> collision_free sip [p] ->
    SuffixArray.add_patterns sip SuffixArray.table_new [p] = Ret t -> utf8 text -> utf8 (text ++ w) ->
    ends_with p (Parser (PGreedy g)) -> gp_end_string g = None -> table_walk (pat_tokens p) text (c ++ [(PGreedy g, v)]) -> v <> [] ->
    SuffixArray.parse t (text ++ w) = Ret o -> exists r, o = Some r /\ mr_pattern r = stripped p /\ reports (c ++ [(PGreedy g, v ++ w)]) (mr_values r).
Proof. exact table_open. Qed.
Print Assumptions C166_table_open.

Theorem C166_table_separate_open :
  forall sip ps t p text w c g v,
    Forall valid_pattern ps -> (forall q, parser_in ps q -> parser_ascii_set q) -> separate ps ->
    SuffixArray.add_patterns sip SuffixArray.table_new ps = Ret t -> utf8 (text ++ w) ->
    In p ps -> ends_with p (Parser (PGreedy g)) -> gp_end_string g = None -> trie_walk (pat_tokens p) text (c ++ [(PGreedy g, v)]) -> v <> [] ->
    exists r, SuffixArray.parse t (text ++ w) = Ret (Some r) /\ mr_pattern r = stripped p /\ reports (c ++ [(PGreedy g, v ++ w)]) (mr_values r).
Proof. exact separate_table_open. Qed.
Print Assumptions C166_table_separate_open.

(** In the table a message and its continuation can both be matched by a literal. *)
Theorem C166_table_whole_refuted :
  exists p l text w, ends_with p (Literal l) /\ valid_pattern p /\ collision_free siphash [p] /\ utf8 (text ++ w) /\ w <> [] /\
    table_run [p] text = Ret (Some (uid 1, [])) /\ table_run [p] (text ++ w) = Ret (Some (uid 1, [])).
Proof.
  exists (tpat 1 ($"abc")), ($"abc"), ($"a"), ($"bc"). split; [exists []; vm_compute; reflexivity|].
  split; [apply valid_patternb_sound; vm_compute; reflexivity|]. split; [apply collision_freeb_sound; vm_compute; reflexivity|].
  split; [apply utf8b_sound; vm_compute; reflexivity|]. split; [discriminate|]. split; vm_compute; reflexivity.
Qed.
Print Assumptions C166_table_whole_refuted.

(** If the last value is empty the continuation can go elsewhere. *)
Theorem C166_empty_value_refuted :
  exists p g text w caps, ends_with p (Parser (PGreedy g)) /\ gp_end_string g = None /\ valid_pattern p /\ collision_free siphash [p] /\ utf8 (text ++ w) /\
    trie_walk (pat_tokens p) text (caps ++ [(PGreedy g, [])]) /\
    trie_run [p] text = Ret (Some (uid 1, [($"n", $"12"); ($"rest", $"")])) /\ trie_run [p] (text ++ w) = Ret (Some (uid 1, [($"n", $"123"); ($"rest", $"x")])).
Proof.
  set (p := tpat 1 ($"%{INT:n}%{GREEDY:rest}")).
  assert (exists q g, pat_tokens p = [Parser q; Parser (PGreedy g)] /\ captures q ($"12") ($"12") /\ gp_end_string g = None) as (q & g & E & C & Eg).
  { eexists. eexists. split; [vm_compute; reflexivity|]. split; [|reflexivity]. cbn. split; [|split; [discriminate|split; exact I]].
    split; [exists []; reflexivity|]. split; [repeat (apply Forall_cons; [cbn; auto 12|]); apply Forall_nil|]. intros w' (r & Er) _.
    apply (f_equal (@length byte)) in Er. rewrite app_length in Er. simpl in Er. simpl. lia. }
  exists p, g, ($"12"), ($"3x"), [(q, $"12")]. split; [exists [Parser q]; exact E|]. split; [exact Eg|].
  split; [apply valid_patternb_sound; vm_compute; reflexivity|]. split; [apply collision_freeb_sound; vm_compute; reflexivity|].
  split; [apply utf8b_sound; vm_compute; reflexivity|].
  split; [rewrite E; apply (tw_parser q [Parser (PGreedy g)] ($"12") [] [(PGreedy g, [])]); [discriminate|exact C|constructor; cbn; unfold greedy_captures; rewrite Eg; reflexivity]|].
  split; vm_compute; reflexivity.
Qed.
Print Assumptions C166_empty_value_refuted.

Example C166_example :
  let ps := [tpat 1 ($"up %{INT:n}"); tpat 2 ($"say %{GREEDY:what}"); tpat 3 ($"go %{GREEDY:x} end")] in
  foreign x0a ps /\ separate ps /\ Forall valid_pattern ps /\
  map (trie_run ps) [$"up 12"; $"up 12" ++ [x0a]; $"say it"; $"say it" ++ [x0a]; $"go a end"; $"go a end" ++ [x0a]; $"go a end end"] =
    [Ret (Some (uid 1, [($"n", $"12")])); Ret None; Ret (Some (uid 2, [($"what", $"it")])); Ret (Some (uid 2, [($"what", $"it" ++ [x0a])]));
     Ret (Some (uid 3, [($"x", $"a")])); Ret None; Ret None] /\
  map (table_run ps) [$"up 12" ++ [x0a]; $"say it" ++ [x0a]; $"go a end" ++ [x0a]] =
    [Ret None; Ret (Some (uid 2, [($"what", $"it" ++ [x0a])])); Ret None].
Proof.
  intros ps. split.
  { intros p t J. subst ps. destruct J as [<-|[<-|[<-|[]]]]; vm_compute; intros J; repeat (destruct J as [<-|J]; [cbn; intuition discriminate|]); destruct J. }
  split.
  { split; [intros q [<-|[<-|[<-|[]]]]; eexists; eexists; vm_compute; reflexivity|].
    intros i j x y L Ei Ej l m r (a & Ea) (b & Eb).
    destruct i as [|[|[|i]]], j as [|[|[|j]]]; try lia; try (destruct i; discriminate Ei); try (destruct j; discriminate Ej);
      injection Ei as <-; injection Ej as <-; vm_compute in Ea, Eb; injection Ea as <- _; injection Eb as <- _; split; discriminate. }
  split; [apply valid_patterns_sound; vm_compute; reflexivity|]. split; vm_compute; reflexivity.
Qed.

(** Both messages stop short of the literal "cde", and the value goes on. *)
Example C166_table_example :
  let p := tpat 1 ($"a%{INT:n}cde%{GREEDY:x}") in
  valid_pattern p /\ (forall z, In (Parser z) (pat_tokens p) -> parser_ascii_set z) /\ collision_free siphash [p] /\
  (exists g, ends_with p (Parser (PGreedy g)) /\ gp_end_string g = None) /\
  table_run [p] ($"a7cdx") = Ret (Some (uid 1, [($"n", $"7"); ($"x", $"x")])) /\
  table_run [p] ($"a7cdx" ++ $"yz") = Ret (Some (uid 1, [($"n", $"7"); ($"x", $"xyz")])).
Proof.
  intros p. split; [apply valid_patternb_sound; vm_compute; reflexivity|].
  split. { intros z J. vm_compute in J. repeat (destruct J as [J|J]; [try discriminate J; injection J as <-; cbn|]); [| |destruct J]; try exact I.
    intros b J. repeat (destruct J as [<-|J]; [reflexivity|]). destruct J. }
  split; [apply collision_freeb_sound; vm_compute; reflexivity|].
  split. { eexists. split; [exists (firstn 3 (pat_tokens p)); vm_compute; reflexivity|reflexivity]. }
  split; vm_compute; reflexivity.
Qed.
