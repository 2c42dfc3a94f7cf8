(** * Properties C40 to C46, C48 and C74 to C80: src/matcher/pattern_source/,
      pattern_loader.rs, pattern/testmessage/, pattern/file/iter.rs *)
From Verif Require Import Base Base_facts Parsers Pattern Spec Spec_source Source Source_claims Loading_claims Siphash Deciders Tests.
From Verif Require Trie SuffixArray.

(** ** C40 *)
Theorem C40_test_passes :
  forall m r, test_result m r = Ok tt <-> satisfies m r.
Proof. exact test_result_ok. Qed.
Print Assumptions C40_test_passes.

Definition example_result : match_result :=
  {| mr_pattern := pattern_new None (uid 1) [] None (Some [($"k", $"static"); ($"x", $"0")]) (Some [$"t"; $"u"]);
     mr_values := [($"x", $"7")] |}.
Example C40_example :
  satisfies {| tm_message := $"m"; tm_values := [($"k", $"static"); ($"x", $"7")]; tm_tags := Some [$"u"] |} example_result /\
  ~ satisfies {| tm_message := $"m"; tm_values := [($"x", $"0")]; tm_tags := None |} example_result.
Proof. rewrite <- !C40_test_passes. vm_compute. split; [reflexivity|discriminate]. Qed.

(** ** C41 *)
Theorem C41_checked_loading :
  forall M (ops : matcher_ops M) src m,
    from_source ops src = Ret (Ok m) <-> loads ops (mo_new ops) src m.
Proof. exact @from_source_ok. Qed.
Print Assumptions C41_checked_loading.

Example C41_example :
  exists m, loads (trie_ops siphash) Trie.tree_new (map (fun p => Ok p) losing) m.
Proof. eexists. apply (C41_checked_loading _ (trie_ops siphash)). vm_compute. reflexivity. Qed.

(** ** C42 is false: a later pattern may hide an earlier one *)
Theorem C42_refuted :
  exists src m p t, Forall valid_pattern (patterns_of src) /\ Forall ascii_pattern (patterns_of src) /\
    collision_free siphash (patterns_of src) /\ ascii_tests (patterns_of src) /\
    from_source (trie_ops siphash) src = Ret (Ok m) /\ In (Ok p) src /\ In t (tests p) /\
    mo_parse (trie_ops siphash) m (tm_message t) = Ret None.
Proof. exact trie_load_loses. Qed.
Print Assumptions C42_refuted.
Theorem C42_refuted_table :
  exists src m p t, Forall valid_pattern (patterns_of src) /\ Forall ascii_pattern (patterns_of src) /\
    collision_free siphash (patterns_of src) /\ ascii_tests (patterns_of src) /\
    from_source (table_ops siphash) src = Ret (Ok m) /\ In (Ok p) src /\ In t (tests p) /\
    mo_parse (table_ops siphash) m (tm_message t) = Ret None.
Proof. exact table_load_loses. Qed.
Print Assumptions C42_refuted_table.

(** ** C43 *)
Theorem C43_ignoring_errors :
  forall M (ops : matcher_ops M) src m,
    from_source_ignore_errors ops src = Ret m ->
    adds ops (mo_new ops) (map untested (patterns_of src)) = Ret m.
Proof. exact @ignore_errors_adds. Qed.
Print Assumptions C43_ignoring_errors.
(** The only other obstacle is a test message on which matching panics. *)
Theorem C43_ignoring_errors_total :
  forall M (ops : matcher_ops M) src m,
    adds ops (mo_new ops) (map untested (patterns_of src)) = Ret m ->
    (forall before p after m1, patterns_of src = before ++ p :: after ->
       adds ops (mo_new ops) (map untested (before ++ [p])) = Ret m1 ->
       forall t, In t (tests p) -> exists r, mo_parse ops m1 (tm_message t) = Ret r) ->
    from_source_ignore_errors ops src = Ret m.
Proof. exact @ignore_errors_total. Qed.
Print Assumptions C43_ignoring_errors_total.

(** An unreadable item and a failing test message do not matter. *)
Example C43_example :
  let src := [Err (Io ($"gone")); Ok (tested (tpat 1 ($"a%{INT:x}")) [$"b"]); Ok (tpat 2 ($"c"))] in
  exists m, from_source_ignore_errors (trie_ops siphash) src = Ret m /\
    trie [tested (tpat 1 ($"a%{INT:x}")) []; tpat 2 ($"c")] = Ret m /\
    from_source (trie_ops siphash) src = Ret (Err (Io ($"gone"))).
Proof. eexists. split; [|split]; vm_compute; reflexivity. Qed.

(** ** C44 *)
Theorem C44_back_to_front :
  forall ps, into_iter ps = Ret (map (fun p => Ok p) (rev ps)).
Proof. exact into_iter_spec. Qed.
Print Assumptions C44_back_to_front.
Example C44_example : into_iter [tpat 1 ($"a"); tpat 2 ($"b")] = Ret [Ok (tpat 2 ($"b")); Ok (tpat 1 ($"a"))].
Proof. vm_compute. reflexivity. Qed.

(** ** C45 *)
Theorem C45_test_messages_taken :
  forall p, extract_test_messages p = Ret (untested p, rev (tests p)).
Proof. exact extract_spec. Qed.
Print Assumptions C45_test_messages_taken.
Theorem C45_nothing_else_changes :
  forall p, tests (untested p) = [] /\ pat_name (untested p) = pat_name p /\ pat_uuid (untested p) = pat_uuid p /\
    pat_tokens (untested p) = pat_tokens p /\ pat_values (untested p) = pat_values p /\ pat_tags (untested p) = pat_tags p.
Proof. exact untested_spec. Qed.
Print Assumptions C45_nothing_else_changes.
Theorem C45_stored :
  forall sip src m text r,
    Forall valid_pattern (patterns_of src) -> collision_free sip (patterns_of src) ->
    from_source (trie_ops sip) src = Ret (Ok m) \/ from_source_ignore_errors (trie_ops sip) src = Ret m ->
    utf8 text -> mo_parse (trie_ops sip) m text = Ret (Some r) ->
    exists p caps, In (Ok p) src /\ mr_pattern r = stripped (untested p) /\ walk (pat_tokens p) text caps /\
      reports caps (mr_values r).
Proof. exact trie_loaded_pattern. Qed.
Print Assumptions C45_stored.

Theorem C45_stored_table :
  forall sip src m text r,
    Forall valid_pattern (patterns_of src) -> collision_free sip (patterns_of src) ->
    from_source (table_ops sip) src = Ret (Ok m) \/ from_source_ignore_errors (table_ops sip) src = Ret m ->
    utf8 text -> mo_parse (table_ops sip) m text = Ret (Some r) ->
    exists p caps, In (Ok p) src /\ mr_pattern r = stripped (untested p) /\
      Spec_table.table_walk (pat_tokens p) text caps /\ reports caps (mr_values r).
Proof. exact table_loaded_pattern. Qed.
Print Assumptions C45_stored_table.

Example C45_example :
  exists m r, from_source (trie_ops siphash) [Ok (tested (tpat 1 ($"a%{INT:x}")) [$"a1"; $"a2"])] = Ret (Ok m) /\
    mo_parse (trie_ops siphash) m ($"a7") = Ret (Some r) /\ pat_test_messages (mr_pattern r) = Some [] /\
    mr_values r = [($"x", $"7")].
Proof. do 2 eexists. vm_compute. repeat split; reflexivity. Qed.

(** ** C46 *)
Theorem C46_json :
  forall open_file dj dy path, has_extension path ($"json") ->
    load_file open_file dj dy path = reading open_file dj DeserJson path.
Proof. exact load_json. Qed.
Print Assumptions C46_json.
Theorem C46_yaml :
  forall open_file dj dy path e, has_extension path e ->
    e = $"yaml" \/ e = $"yml" \/ e = $"YAML" \/ e = $"YML" ->
    load_file open_file dj dy path = reading open_file dy DeserYaml path.
Proof. exact load_yaml. Qed.
Print Assumptions C46_yaml.
Theorem C46_other :
  forall open_file dj dy path,
    (forall e, has_extension path e -> ~ In e [$"json"; $"yaml"; $"yml"; $"YAML"; $"YML"]) ->
    load_file open_file dj dy path = Ret (Err UnsupportedFileExtension).
Proof. exact load_other. Qed.
Print Assumptions C46_other.
Theorem C46_one_extension :
  forall path e e', has_extension path e -> has_extension path e' -> e = e'.
Proof. exact has_extension_unique. Qed.
Print Assumptions C46_one_extension.

Example C46_examples :
  has_extension ($"/etc/a.b/patterns.tar.json") ($"json") /\ has_extension ($"x.yml//./") ($"yml") /\
  (forall e, ~ has_extension ($"dir/.json") e) /\ (forall e, ~ has_extension ($"a.json/..") e) /\
  has_extension ($"a.JSON") ($"JSON") /\ has_extension ($"a.") ($"").
Proof.
  assert (forall p e, extension p = Some e -> has_extension p e) as H by (intros; apply extension_spec; assumption).
  assert (forall p, extension p = None -> forall e, ~ has_extension p e) as N.
  { intros p E e K. apply extension_spec in K. congruence. }
  repeat split; first [apply H|apply N]; vm_compute; reflexivity.
Qed.

(** ** C48 *)
Theorem C48_builder :
  forall ts, builder_build (fold_left builder_call ts builder_new) = ts.
Proof. exact builder_spec. Qed.
Print Assumptions C48_builder.
Example C48_example :
  builder_build (builder_literal (builder_parser (builder_literal builder_new ($"a")) (PInt (int_with_name ($"x")))) ($"b")) =
    [Literal ($"a"); Parser (PInt (int_with_name ($"x"))); Literal ($"b")].
Proof. reflexivity. Qed.

(** ** C74 *)
Theorem C74_test_error :
  forall m r e, test_result m r = Err e <-> mismatch m r e.
Proof. exact test_result_err. Qed.
Print Assumptions C74_test_error.
(** Wrong tags come before wrong values; the first wrong key is named. *)
Example C74_example :
  mismatch {| tm_message := $"m"; tm_values := [($"x", $"0")]; tm_tags := Some [$"v"] |} example_result
    (UnexpectedTags (uid 1) (Some [$"v"]) (Some [$"t"; $"u"])) /\
  mismatch {| tm_message := $"m"; tm_values := [($"k", $"static"); ($"l", $""); ($"x", $"0")]; tm_tags := None |} example_result
    (KeyNotFound (uid 1) ($"l")) /\
  mismatch {| tm_message := $"m"; tm_values := [($"x", $"0")]; tm_tags := None |} example_result
    (ValueNotMatch (uid 1) ($"x") ($"0") ($"7")).
Proof. rewrite <- !C74_test_error. vm_compute. repeat split; reflexivity. Qed.

(** ** C75 *)
Theorem C75_loading_error :
  forall M (ops : matcher_ops M) src e,
    from_source ops src = Ret (Err e) <-> stops ops (mo_new ops) src e.
Proof. exact @from_source_err. Qed.
Print Assumptions C75_loading_error.
Example C75_example :
  stops (trie_ops siphash) Trie.tree_new
    [Ok (tpat 1 ($"x")); Ok (tested (tpat 2 ($"a%{INT:x}")) [$"b"; $"x"; $"a1"]); Err (Io ($"late"))]
    (TestMessageError (MatchedToOtherPattern (uid 2) (uid 1) ($"x"))).
Proof. apply (C75_loading_error _ (trie_ops siphash)). vm_compute. reflexivity. Qed.

(** ** C76 *)
Theorem C76_last_pattern :
  forall M (ops : matcher_ops M) src p m, from_source ops (src ++ [Ok p]) = Ret (Ok m) ->
    forall t, In t (tests p) -> passes ops m p t.
Proof. exact @last_tests_pass. Qed.
Print Assumptions C76_last_pattern.
Theorem C76_unconcerned :
  forall sip before p after m t,
    let ps := patterns_of (before ++ Ok p :: after) in
    Forall valid_pattern ps -> Forall ascii_pattern ps -> collision_free sip ps -> ascii_tests ps ->
    from_source (trie_ops sip) (before ++ Ok p :: after) = Ret (Ok m) ->
    In t (tests p) -> (forall q, In (Ok q) after -> may_concern (tm_message t) q = false) ->
    passes (trie_ops sip) m p t.
Proof. exact trie_tests_stay. Qed.
Print Assumptions C76_unconcerned.

Example C76_example :
  let p := tested (tpat 1 ($"a%{INT:x} b")) [$"a1 b"] in
  let q := tested (tpat 2 ($"b%{INT:x} c")) [$"b1 c"] in
  exists m, from_source (trie_ops siphash) [Ok p; Ok q] = Ret (Ok m) /\
    passes (trie_ops siphash) m q {| tm_message := $"b1 c"; tm_values := []; tm_tags := None |} /\
    passes (trie_ops siphash) m p {| tm_message := $"a1 b"; tm_values := []; tm_tags := None |}.
Proof.
  intros p q. eexists. split; [vm_compute; reflexivity|]. split.
  - eapply (C76_last_pattern _ (trie_ops siphash) [Ok p] q); [vm_compute; reflexivity|left; reflexivity].
  - eapply (C76_unconcerned siphash [] p [Ok q]).
    + apply valid_patterns_sound. vm_compute. reflexivity.
    + apply ascii_patterns_sound. vm_compute. reflexivity.
    + apply collision_freeb_sound. vm_compute. reflexivity.
    + intros p' t [<-|[<-|[]]] [<-|[]]; reflexivity.
    + vm_compute. reflexivity.
    + left. reflexivity.
    + intros q' [E|[]]. injection E as <-. vm_compute. reflexivity.
Qed.

(** ** C77 *)
Theorem C77_file_loaded :
  forall open_file dj dy M (ops : matcher_ops M) path m,
    from_file ops open_file dj dy path = Ret (Ok m) <->
    exists ps, file_has open_file dj dy path ps /\ loads ops (mo_new ops) (map (fun p => Ok p) (rev ps)) m.
Proof. exact @from_file_ok. Qed.
Print Assumptions C77_file_loaded.
Theorem C77_file_loaded_ignoring :
  forall open_file dj dy M (ops : matcher_ops M) path m,
    from_file_ignore_errors ops open_file dj dy path = Ret (Ok m) ->
    exists ps, file_has open_file dj dy path ps /\ adds ops (mo_new ops) (map untested (rev ps)) = Ret m.
Proof. exact @from_file_ignoring. Qed.
Print Assumptions C77_file_loaded_ignoring.
(** All patterns of the file are added, whether or not their test messages match. *)
Theorem C77_file_loaded_ignoring_total :
  forall open_file dj dy M (ops : matcher_ops M) path ps m,
    file_has open_file dj dy path ps -> adds ops (mo_new ops) (map untested (rev ps)) = Ret m ->
    (forall before p after m1, rev ps = before ++ p :: after ->
       adds ops (mo_new ops) (map untested (before ++ [p])) = Ret m1 ->
       forall t, In t (tests p) -> exists r, mo_parse ops m1 (tm_message t) = Ret r) ->
    from_file_ignore_errors ops open_file dj dy path = Ret (Ok m).
Proof. exact @from_file_ignoring_total. Qed.
Print Assumptions C77_file_loaded_ignoring_total.

Definition example_disk (path : str) : result (str * option str) str :=
  if str_eqb path ($"p.json") then Ok ($"doc", None) else Err ($"no such file").
Definition example_reader (s : str) : outcome (result (list pattern) str) :=
  if str_eqb s ($"doc") then Ret (Ok [tpat 1 ($"b"); tested (tpat 2 ($"a%{INT:x}")) [$"a1"]]) else Ret (Err ($"bad")).
Example C77_example_ignoring :
  exists m, from_file_ignore_errors (trie_ops siphash)
      (fun _ => Ok ($"doc", None))
      (fun _ => Ret (Ok [tested (tpat 2 ($"a%{INT:x}")) [$"zz"]; tpat 1 ($"b")])) example_reader ($"p.json") = Ret (Ok m) /\
    trie [tpat 1 ($"b"); tested (tpat 2 ($"a%{INT:x}")) []] = Ret m.
Proof. eexists. split; vm_compute; reflexivity. Qed.
Example C77_example :
  exists m, from_file (trie_ops siphash) example_disk example_reader example_reader ($"p.json") = Ret (Ok m) /\
    trie [tested (tpat 2 ($"a%{INT:x}")) []; tpat 1 ($"b")] = Ret m.
Proof. eexists. split; vm_compute; reflexivity. Qed.

(** ** C78 *)
Theorem C78_file_errors :
  forall open_file dj dy M (ops : matcher_ops M) path e,
    from_file ops open_file dj dy path = Ret (Err e) <->
    (exists x y, e = Io x /\ In y [$"json"; $"yaml"; $"yml"; $"YAML"; $"YML"] /\ has_extension path y /\
       open_file path = Err x) \/
    (exists b r x, e = DeserJson x /\ has_extension path ($"json") /\ open_file path = Ok (b, r) /\ dj b = Ret (Err x)) \/
    (exists b r x y, e = DeserYaml x /\ In y [$"yaml"; $"yml"; $"YAML"; $"YML"] /\ has_extension path y /\
       open_file path = Ok (b, r) /\ dy b = Ret (Err x)) \/
    (e = UnsupportedFileExtension /\
     forall x, has_extension path x -> ~ In x [$"json"; $"yaml"; $"yml"; $"YAML"; $"YML"]) \/
    (exists ps x, file_has open_file dj dy path ps /\ e = TestMessageError x /\
       stops ops (mo_new ops) (map (fun p => Ok p) (rev ps)) e).
Proof. exact @from_file_errors. Qed.
Print Assumptions C78_file_errors.
Theorem C78_file_errors_ignoring :
  forall open_file dj dy M (ops : matcher_ops M) path e,
    from_file_ignore_errors ops open_file dj dy path = Ret (Err e) <->
    (exists x y, e = Io x /\ In y [$"json"; $"yaml"; $"yml"; $"YAML"; $"YML"] /\ has_extension path y /\
       open_file path = Err x) \/
    (exists b r x, e = DeserJson x /\ has_extension path ($"json") /\ open_file path = Ok (b, r) /\ dj b = Ret (Err x)) \/
    (exists b r x y, e = DeserYaml x /\ In y [$"yaml"; $"yml"; $"YAML"; $"YML"] /\ has_extension path y /\
       open_file path = Ok (b, r) /\ dy b = Ret (Err x)) \/
    (e = UnsupportedFileExtension /\
     forall x, has_extension path x -> ~ In x [$"json"; $"yaml"; $"yml"; $"YAML"; $"YML"]).
Proof. exact @from_file_ignoring_errors. Qed.
Print Assumptions C78_file_errors_ignoring.
Theorem C78_no_name_error :
  forall open_file dj dy M (ops : matcher_ops M) path,
    from_file ops open_file dj dy path <> Ret (Err NotUtf8FileName) /\
    from_file_ignore_errors ops open_file dj dy path <> Ret (Err NotUtf8FileName).
Proof. exact @no_name_error. Qed.
Print Assumptions C78_no_name_error.

Example C78_examples :
  map (fun p => from_file (trie_ops siphash) example_disk example_reader example_reader p)
    [$"q.yml"; $"p.toml"; $"p"] =
  [Ret (Err (Io ($"no such file"))); Ret (Err UnsupportedFileExtension); Ret (Err UnsupportedFileExtension)].
Proof. vm_compute. reflexivity. Qed.

(** ** C79 is false: the error of reading is dropped *)
Theorem C79_refuted :
  exists open_file dj dy path b e m,
    open_file path = Ok (b, Some e) /\
    from_file (trie_ops siphash) open_file dj dy path = Ret (Ok m) /\
    (** although the whole file is something else *)
    exists whole m', dy whole <> dy b /\
      from_file (trie_ops siphash) (fun _ => Ok (whole, None)) dj dy path = Ret (Ok m') /\ m <> m'.
Proof. exact read_error_dropped. Qed.
Print Assumptions C79_refuted.
(** What holds: loading depends only on what was read. *)
Theorem C79_partial_read :
  forall open_file dj dy M (ops : matcher_ops M) path b e m,
    open_file path = Ok (b, e) -> from_file ops open_file dj dy path = Ret (Ok m) ->
    from_file ops (fun _ => Ok (b, None)) dj dy path = Ret (Ok m).
Proof. exact @from_file_partial_read. Qed.
Print Assumptions C79_partial_read.

(** ** C80 *)
Theorem C80_trie_loading_total :
  forall sip src,
    Forall valid_pattern (patterns_of src) -> Forall ascii_pattern (patterns_of src) -> ascii_tests (patterns_of src) ->
    (exists x, from_source (trie_ops sip) src = Ret x) /\
    (exists m, from_source_ignore_errors (trie_ops sip) src = Ret m /\
       Trie.add_patterns sip Trie.tree_new (map untested (patterns_of src)) = Ret m).
Proof. exact trie_loading_total. Qed.
Print Assumptions C80_trie_loading_total.
Theorem C80_table_loading_total :
  forall sip src,
    Forall valid_pattern (patterns_of src) -> (forall q, parser_in (patterns_of src) q -> parser_ascii_set q) ->
    utf8_tests (patterns_of src) ->
    (exists x, from_source (table_ops sip) src = Ret x) /\
    (exists m, from_source_ignore_errors (table_ops sip) src = Ret m /\
       SuffixArray.add_patterns sip SuffixArray.table_new (map untested (patterns_of src)) = Ret m).
Proof. exact table_loading_total. Qed.
Print Assumptions C80_table_loading_total.

Example C80_example :
  Forall valid_pattern losing /\ Forall ascii_pattern losing /\ ascii_tests losing.
Proof.
  split; [apply valid_patterns_sound; vm_compute; reflexivity|].
  split; [apply ascii_patterns_sound; vm_compute; reflexivity|].
  intros p t [<-|[<-|[]]] [<-|[]]; reflexivity.
Qed.
