(** * Model of src/matcher/{compiled_pattern,result}.rs and
      src/matcher/pattern/{pattern.rs,testmessage/} (without deserialisation). *)
From Verif Require Import Base Utils Parsers.

(** src/matcher/compiled_pattern.rs:6-9 *)
Inductive token :=
| Parser (p : parser)
| Literal (l : str).

(** src/matcher/compiled_pattern.rs:3 *)
Definition compiled_pattern := list token.

(** [CompiledPatternBuilder], compiled_pattern.rs:24-54: [new]/[default],
    [literal], [parser], [build].  A builder is the vector it holds. *)
Definition builder_new : compiled_pattern := [].
Definition builder_literal (b : compiled_pattern) (l : str) : compiled_pattern :=
  b ++ [Literal l].
Definition builder_parser (b : compiled_pattern) (p : parser) : compiled_pattern :=
  b ++ [Parser p].
Definition builder_build (b : compiled_pattern) : compiled_pattern := b.

(** A [Uuid] is its 16 bytes. *)
Definition uuid := list byte.
Definition uuid_eqb (a b : uuid) : bool := str_eqb a b.

(** src/matcher/pattern/testmessage/message.rs:8-12 *)
Record test_message := TestMessage {
  tm_message : str;
  tm_values : bmap;
  tm_tags : option (list str)
}.

(** src/matcher/pattern/pattern.rs:11-18 *)
Record pattern := Pattern {
  pat_name : option str;
  pat_uuid : uuid;
  pat_tokens : compiled_pattern;
  pat_values : option bmap;
  pat_tags : option (list str);
  pat_test_messages : option (list test_message)
}.

(** pattern.rs:25-40 *)
Definition pattern_new (name : option str) (u : uuid) (toks : compiled_pattern)
           (tms : option (list test_message)) (values : option bmap)
           (tags : option (list str)) : pattern :=
  {| pat_name := name; pat_uuid := u; pat_tokens := toks; pat_values := values;
     pat_tags := tags; pat_test_messages := tms |}.

(** pattern.rs:21-23 *)
Definition pattern_with_uuid (u : uuid) : pattern := pattern_new None u [] None None None.

(** pattern.rs:70-72 *)
Definition set_pattern_tokens (p : pattern) (toks : compiled_pattern) : pattern :=
  {| pat_name := pat_name p; pat_uuid := pat_uuid p; pat_tokens := toks;
     pat_values := pat_values p; pat_tags := pat_tags p;
     pat_test_messages := pat_test_messages p |}.

Definition set_test_messages (p : pattern) (tms : option (list test_message)) : pattern :=
  {| pat_name := pat_name p; pat_uuid := pat_uuid p; pat_tokens := pat_tokens p;
     pat_values := pat_values p; pat_tags := pat_tags p; pat_test_messages := tms |}.

(** pattern.rs:74-80 *)
Definition pop_first_token (p : pattern) : option (token * pattern) :=
  match pat_tokens p with
  | [] => None
  | t :: rest => Some (t, set_pattern_tokens p rest)
  end.

(** [Vec::pop]: removes the last element. *)
Definition vec_pop {A : Type} (l : list A) : option (A * list A) :=
  match rev l with
  | [] => None
  | x :: r => Some (x, rev r)
  end.

(** pattern.rs:82-84 *)
Definition pop_test_message (p : pattern) : option (test_message * pattern) :=
  match pat_test_messages p with
  | None => None
  | Some l =>
      match vec_pop l with
      | None => None
      | Some (m, l') => Some (m, set_test_messages p (Some l'))
      end
  end.

(** ** src/matcher/result.rs *)

(** result.rs:7-10 *)
Record match_result := MatchResult {
  mr_pattern : pattern;
  mr_values : bmap
}.

(** result.rs:13-18 *)
Definition match_result_new (p : pattern) : match_result :=
  {| mr_pattern := p; mr_values := [] |}.

(** src/parsers/mod.rs:31-34: parser and captured value. *)
Definition parse_result := (parser * str)%type.

(** result.rs:20-24 *)
Definition match_result_insert (r : match_result) (kv : parse_result) : match_result :=
  match parser_name (fst kv) with
  | Some name => {| mr_pattern := mr_pattern r;
                    mr_values := bmap_insert name (snd kv) (mr_values r) |}
  | None => r
  end.

(** ** src/matcher/pattern/testmessage/ *)

(** testmessage/error.rs:9-34.  The uuid is kept as such instead of its
    hyphenated text. *)
Inductive tm_error :=
| ValueNotMatch (pattern_uuid : uuid) (key expected_value got_value : str)
| KeyNotFound (pattern_uuid : uuid) (key : str)
| TestMessageDoesntMatch (pattern_uuid : uuid) (message : str)
| MatchedToOtherPattern (expected_uuid got_uuid : uuid) (message : str)
| UnexpectedTags (pattern_uuid : uuid) (expected got : option (list str)).

(** Rust [Result<(), E>] *)
Inductive result (A E : Type) := Ok (a : A) | Err (e : E).
Arguments Ok {A E} a.
Arguments Err {A E} e.

(** message.rs:69-82.  Iterating a BTreeMap visits the sorted entries. *)
Definition merge_values (r : match_result) : bmap :=
  let m0 := match pat_values (mr_pattern r) with
            | Some values => fold_left (fun m kv => bmap_insert (fst kv) (snd kv) m) values []
            | None => []
            end in
  fold_left (fun m kv => bmap_insert (fst kv) (snd kv) m) (mr_values r) m0.

(** message.rs:52-67 *)
Definition test_value (key value : str) (values : bmap) (r : match_result)
  : result unit tm_error :=
  match bmap_get values key with
  | Some got_value =>
      if str_eqb value got_value then Ok tt
      else Err (ValueNotMatch (pat_uuid (mr_pattern r)) key value got_value)
  | None => Err (KeyNotFound (pat_uuid (mr_pattern r)) key)
  end.

(** message.rs:43-50 *)
Fixpoint test_values_loop (expected : bmap) (merged : bmap) (r : match_result)
  : result unit tm_error :=
  match expected with
  | [] => Ok tt
  | (key, value) :: rest =>
      match test_value key value merged r with
      | Err e => Err e
      | Ok _ => test_values_loop rest merged r
      end
  end.
Definition test_values (m : test_message) (r : match_result) : result unit tm_error :=
  test_values_loop (tm_values m) (merge_values r) r.

(** message.rs:110-114 *)
Definition report_unexpected_tags_error (m : test_message) (r : match_result) : tm_error :=
  UnexpectedTags (pat_uuid (mr_pattern r)) (tm_tags m) (pat_tags (mr_pattern r)).

(** message.rs:97-108 *)
Fixpoint test_expected_tags (m : test_message) (expected got : list str) (r : match_result)
  : result unit tm_error :=
  match expected with
  | [] => Ok tt
  | i :: rest =>
      if existsb (str_eqb i) got then test_expected_tags m rest got r
      else Err (report_unexpected_tags_error m r)
  end.

(** message.rs:84-95 *)
Definition test_tags (m : test_message) (r : match_result) : result unit tm_error :=
  match tm_tags m with
  | Some expected =>
      match pat_tags (mr_pattern r) with
      | Some got => test_expected_tags m expected got r
      | None => Err (report_unexpected_tags_error m r)
      end
  | None => Ok tt
  end.

(** message.rs:38-41 *)
Definition test_result (m : test_message) (r : match_result) : result unit tm_error :=
  match test_tags m r with
  | Err e => Err e
  | Ok _ => test_values m r
  end.
