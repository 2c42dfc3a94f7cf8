(** * Model of src/matcher/pattern_source/, pattern/file/iter.rs and
      pattern_loader.rs *)
From Verif Require Import Base Utils Parsers Pattern.
From Verif Require Trie SuffixArray.

(** src/matcher/pattern_source/error.rs:9-17.  The payload of foreign errors is
    reduced to a text. *)
Inductive build_error :=
| TestMessageError (e : tm_error)
| Io (e : str)
| DeserJson (e : str)
| DeserYaml (e : str)
| UnsupportedFileExtension
| NotUtf8FileName.

(** src/matcher/pattern/source.rs:4 *)
Definition build_result := result pattern build_error.

(** ** [Matcher] and [MatcherFactory]

    src/matcher/mod.rs and src/matcher/factory.rs: an implementation of the
    [Matcher] trait is its three operations. *)
Record matcher_ops (M : Type) := MatcherOps {
  mo_new : M;
  mo_parse : M -> str -> outcome (option match_result);
  mo_add_pattern : M -> pattern -> outcome M
}.
Arguments mo_new {M}.
Arguments mo_parse {M}.
Arguments mo_add_pattern {M}.

(** src/matcher/trie/factory.rs:6-12, trie/matcher.rs:7-13 *)
Definition trie_ops (sip : list byte -> N) : matcher_ops Trie.tree :=
  {| mo_new := Trie.tree_new; mo_parse := Trie.parse;
     mo_add_pattern := Trie.add_pattern sip |}.

(** src/matcher/suffix_array/mod.rs, impls.rs:248-266 *)
Definition table_ops (sip : list byte -> N) : matcher_ops SuffixArray.table :=
  {| mo_new := SuffixArray.table_new; mo_parse := SuffixArray.parse;
     mo_add_pattern := SuffixArray.add_pattern sip |}.

(** pattern_source/mod.rs:41-48 *)
Fixpoint extract_test_messages_loop (fuel : nat) (p : pattern) (messages : list test_message)
  : outcome (pattern * list test_message) :=
  match pop_test_message p with
  | None => Ret (p, messages)
  | Some (m, p') =>
      match fuel with
      | O => OutOfFuel
      | S fuel' => extract_test_messages_loop fuel' p' (messages ++ [m])
      end
  end.
Definition extract_test_messages (p : pattern) : outcome (pattern * list test_message) :=
  extract_test_messages_loop
    (match pat_test_messages p with Some l => length l | None => 0 end) p [].

(** pattern_source/mod.rs:63-74 *)
Definition check_test_message (message : test_message) (r : match_result)
           (expected_uuid : uuid) : result unit tm_error :=
  if uuid_eqb (pat_uuid (mr_pattern r)) expected_uuid then test_result message r
  else Err (MatchedToOtherPattern expected_uuid (pat_uuid (mr_pattern r))
                                  (tm_message message)).

Section FromSource.
  Context {M : Type} (ops : matcher_ops M).

  (** pattern_source/mod.rs:50-61 *)
  Fixpoint check_test_messages (matcher : M) (messages : list test_message) (u : uuid)
    : outcome (result unit build_error) :=
    match messages with
    | [] => Ret (Ok tt)
    | msg :: messages' =>
        let* r := mo_parse ops matcher (tm_message msg) in
        match r with
        | None => Ret (Err (TestMessageError (TestMessageDoesntMatch u (tm_message msg))))
        | Some result =>
            match check_test_message msg result u with
            | Err e => Ret (Err (TestMessageError e))
            | Ok _ => check_test_messages matcher messages' u
            end
        end
    end.

  (** pattern_source/mod.rs:32-39: the new state of the matcher and the result. *)
  Definition check_pattern (matcher : M) (r : build_result)
    : outcome (M * result unit build_error) :=
    match r with
    | Err e => Ret (matcher, Err e)
    | Ok p =>
        let u := pat_uuid p in
        let* x := extract_test_messages p in
        let (p, test_messages) := x in
        let* matcher := mo_add_pattern ops matcher p in
        let* c := check_test_messages matcher test_messages u in
        Ret (matcher, c)
    end.

  (** pattern_source/mod.rs:13-19.  The iterator is the list of its items. *)
  Fixpoint from_source_loop (matcher : M) (from : list build_result)
    : outcome (result M build_error) :=
    match from with
    | [] => Ret (Ok matcher)
    | r :: from' =>
        let* x := check_pattern matcher r in
        match x with
        | (_, Err e) => Ret (Err e)
        | (matcher, Ok _) => from_source_loop matcher from'
        end
    end.
  Definition from_source (from : list build_result) : outcome (result M build_error) :=
    from_source_loop (mo_new ops) from.

  (** pattern_source/mod.rs:21-30 (logging omitted) *)
  Fixpoint from_source_ignore_errors_loop (matcher : M) (from : list build_result)
    : outcome M :=
    match from with
    | [] => Ret matcher
    | r :: from' =>
        let* x := check_pattern matcher r in
        from_source_ignore_errors_loop (fst x) from'
    end.
  Definition from_source_ignore_errors (from : list build_result) : outcome M :=
    from_source_ignore_errors_loop (mo_new ops) from.

  (** ** pattern/file/iter.rs *)

  (** iter.rs:23-28: [next] pops the last pattern; the list of all items. *)
  Fixpoint into_iter_loop (fuel : nat) (patterns : list pattern) : outcome (list build_result) :=
    match vec_pop patterns with
    | None => Ret []
    | Some (p, patterns') =>
        match fuel with
        | O => OutOfFuel
        | S fuel' => let* rest := into_iter_loop fuel' patterns' in Ret (Ok p :: rest)
        end
    end.
  Definition into_iter (patterns : list pattern) : outcome (list build_result) :=
    into_iter_loop (length patterns) patterns.

  (** ** pattern_loader.rs *)

  (** std [Path::file_name] on Unix: the last component, ignoring trailing
      slashes and [.] components; none for [..]. *)
  Fixpoint split_on (sep : byte) (s cur : str) : list str :=
    match s with
    | [] => [rev cur]
    | b :: s' => if byte_eqb b sep then rev cur :: split_on sep s' []
                 else split_on sep s' (b :: cur)
    end.
  Fixpoint last_component (rev_parts : list str) : option str :=
    match rev_parts with
    | [] => None
    | c :: rest =>
        if is_empty c || str_eqb c ($".") then last_component rest
        else if str_eqb c ($"..") then None else Some c
    end.
  Definition file_name (path : str) : option str :=
    last_component (rev (split_on x2f path [])).

  (** std [Path::extension]: what follows the last dot of the file name, unless
      that dot is its first byte or there is none. *)
  Fixpoint after_last_dot (rev_name acc : str) : option (str * str) :=
    match rev_name with
    | [] => None
    | b :: rest => if byte_eqb b x2e then Some (rev rest, acc) else after_last_dot rest (b :: acc)
    end.
  Definition extension (path : str) : option str :=
    match file_name path with
    | None => None
    | Some name =>
        match after_last_dot (rev name) [] with
        | None => None
        | Some (before, after) => if is_empty before then None else Some after
        end
    end.

  (** The outside world: [open_file path] is the error of [File::open], or what
      [read_to_string] leaves in the buffer together with its own error, if any;
      [serde_json::from_str] and [serde_yaml::from_str] for PatternFile may panic
      when compiling a pattern does. *)
  Variable open_file : str -> result (str * option str) str.
  Variable json_from_str : str -> outcome (result (list pattern) str).
  Variable yaml_from_str : str -> outcome (result (list pattern) str).

  (** pattern_loader.rs:16-22; the error of reading is discarded. *)
  Definition read (path : str) : result str build_error :=
    match open_file path with
    | Ok (buffer, _) => Ok buffer
    | Err e => Err (Io e)
    end.

  Definition is_json (ext : str) : bool := str_eqb ext ($"json").
  Definition is_yaml (ext : str) : bool :=
    str_eqb ext ($"yaml") || str_eqb ext ($"yml") || str_eqb ext ($"YAML")
    || str_eqb ext ($"YML").

  (** pattern_loader.rs:38-59.  [extension.to_str()] always succeeds because the
      path is a [&str]. *)
  Definition load_file (path : str) : outcome (result (list pattern) build_error) :=
    match extension path with
    | Some ext =>
        if is_json ext then
          match read path with
          | Err e => Ret (Err e)
          | Ok content =>
              let* r := json_from_str content in
              Ret (match r with Ok f => Ok f | Err e => Err (DeserJson e) end)
          end
        else if is_yaml ext then
          match read path with
          | Err e => Ret (Err e)
          | Ok content =>
              let* r := yaml_from_str content in
              Ret (match r with Ok f => Ok f | Err e => Err (DeserYaml e) end)
          end
        else Ret (Err UnsupportedFileExtension)
    | None => Ret (Err UnsupportedFileExtension)
    end.

  (** pattern_loader.rs:31-36 *)
  Definition from_file (path : str) : outcome (result M build_error) :=
    let* r := load_file path in
    match r with
    | Err e => Ret (Err e)
    | Ok file => let* items := into_iter file in from_source items
    end.

  (** pattern_loader.rs:24-29 *)
  Definition from_file_ignore_errors (path : str) : outcome (result M build_error) :=
    let* r := load_file path in
    match r with
    | Err e => Ret (Err e)
    | Ok file =>
        let* items := into_iter file in
        let* m := from_source_ignore_errors items in
        Ret (Ok m)
    end.
End FromSource.
