(** * Specification of pattern documents *)
From Coq Require Import Sorted.
From Verif Require Import Base Utils Parsers Pattern Spec Grammar Spec_source Deser.

(** ** Values of the types used *)
Definition string_value (v : value) (s : str) : Prop := v = VStr s.
Definition seq_value {A} (ty : value -> A -> Prop) (v : value) (l : list A) : Prop :=
  (v = VNull /\ l = []) \/ exists vs, v = VSeq vs /\ Forall2 ty vs l.
(** A map from strings to strings; a key may be repeated, the last value counts. *)
Definition ascending_keys (m : list (str * str)) : Prop :=
  StronglySorted (fun x y => str_cmp (fst x) (fst y) = Lt) m.
Definition map_value (v : value) (m : list (str * str)) : Prop :=
  (v = VNull /\ m = []) \/
  exists l, v = VMap l /\ (forall k x, In (k, x) l -> exists s, x = VStr s) /\
    ascending_keys m /\ forall k s, In (k, s) m <-> binds l k (VStr s).

(** ** Fields: of repeated ones the last counts *)
Definition field {A} (l : list (str * value)) (key : str) (ty : value -> A -> Prop) (o : option A) : Prop :=
  (o = None /\ ~ In key (map fst l)) \/ (exists v a, o = Some a /\ binds l key v /\ ty v a).
(** Every field is one of the given keys with a value of its type. *)
Definition fields_ok (types : list (str * (value -> Prop))) (l : list (str * value)) : Prop :=
  forall k v, In (k, v) l -> exists ty, In (k, ty) types /\ ty v.

(** ** Test messages *)
Definition message_fields : list (str * (value -> Prop)) :=
  [($"message", fun v => exists s, string_value v s);
   ($"values", fun v => exists m, map_value v m);
   ($"tags", fun v => exists t, seq_value string_value v t)].
Definition message_value (v : value) (t : test_message) : Prop :=
  exists l, v = VMap l /\ fields_ok message_fields l /\
    field l ($"message") string_value (Some (tm_message t)) /\
    (field l ($"values") map_value (Some (tm_values t)) \/
     (field l ($"values") map_value None /\ tm_values t = [])) /\
    field l ($"tags") (seq_value string_value) (tm_tags t).

(** *** Errors

    Fields are visited in document order and the first bad one is reported. *)
Definition not_a_map (v : value) : Prop := forall l, v <> VMap l.
Definition not_a_list (v : value) : Prop := v <> VNull /\ forall l, v <> VSeq l.
(** The first bad element. *)
Definition seq_error {A} (ty : value -> A -> Prop) (err : value -> de_error -> Prop) (v : value) (e : de_error) : Prop :=
  (not_a_list v /\ e = InvalidType) \/
  exists a x b, v = VSeq (a ++ x :: b) /\ (forall y, In y a -> exists r, ty y r) /\ err x e.

Inductive message_field_error (k : str) (v : value) : de_error -> Prop :=
| mfe_unknown : ~ In k (map fst message_fields) -> message_field_error k v (UnexpectedField k)
| mfe_type ty : In (k, ty) message_fields -> ~ ty v -> message_field_error k v InvalidType.
Inductive message_error (v : value) : de_error -> Prop :=
| me_map : not_a_map v -> message_error v InvalidType
| me_field a k x b e : v = VMap (a ++ (k, x) :: b) -> fields_ok message_fields a -> message_field_error k x e -> message_error v e
| me_missing l : v = VMap l -> fields_ok message_fields l -> ~ In ($"message") (map fst l) ->
    message_error v (MissingField ($"message")).

(** ** Patterns *)
Section Pattern.
  (** The uuid crate's text parser. *)
  Variable parse_uuid : str -> option uuid.
  Definition uuid_value (v : value) (u : uuid) : Prop := exists s, v = VStr s /\ parse_uuid s = Some u.

  Definition pattern_fields : list (str * (value -> Prop)) :=
    [($"name", fun v => exists s, string_value v s);
     ($"uuid", fun v => exists u, uuid_value v u);
     ($"pattern", fun v => exists s, string_value v s);
     ($"values", fun v => exists m, map_value v m);
     ($"tags", fun v => exists t, seq_value string_value v t);
     ($"test_messages", fun v => exists t, seq_value message_value v t)].

  Definition pattern_value (v : value) (p : pattern) : Prop :=
    exists l s, v = VMap l /\ fields_ok pattern_fields l /\
      field l ($"name") string_value (pat_name p) /\
      field l ($"uuid") uuid_value (Some (pat_uuid p)) /\
      field l ($"pattern") string_value (Some s) /\ compile s = Ret (Ok (pat_tokens p)) /\
      field l ($"values") map_value (pat_values p) /\
      field l ($"tags") (seq_value string_value) (pat_tags p) /\
      field l ($"test_messages") (seq_value message_value) (pat_test_messages p).

  (** A document that makes the compiler panic. *)
  Definition pattern_panics (v : value) : Prop :=
    exists l s, v = VMap l /\ fields_ok pattern_fields l /\
      field l ($"pattern") string_value (Some s) /\ compile s = Panic.

  (** Errors.  A missing uuid is reported as a missing pattern. *)
  Inductive pattern_field_error (k : str) (v : value) : de_error -> Prop :=
  | pfe_unknown : ~ In k (map fst pattern_fields) -> pattern_field_error k v (UnexpectedField k)
  | pfe_type ty : In k [$"name"; $"pattern"; $"values"; $"tags"] -> In (k, ty) pattern_fields -> ~ ty v ->
      pattern_field_error k v InvalidType
  | pfe_uuid_type : k = $"uuid" -> (forall s, v <> VStr s) -> pattern_field_error k v InvalidType
  | pfe_uuid s : k = $"uuid" -> v = VStr s -> parse_uuid s = None -> pattern_field_error k v InvalidUuid
  | pfe_message e : k = $"test_messages" -> seq_error message_value message_error v e -> pattern_field_error k v e.
  Inductive pattern_error (v : value) : de_error -> Prop :=
  | pe_map : not_a_map v -> pattern_error v InvalidType
  | pe_field a k x b e : v = VMap (a ++ (k, x) :: b) -> fields_ok pattern_fields a -> pattern_field_error k x e -> pattern_error v e
  | pe_missing l : v = VMap l -> fields_ok pattern_fields l -> ~ In ($"pattern") (map fst l) ->
      pattern_error v (MissingField ($"pattern"))
  | pe_invalid l s e : v = VMap l -> fields_ok pattern_fields l -> field l ($"pattern") string_value (Some s) ->
      compile s = Ret (Err e) -> pattern_error v InvalidPattern
  | pe_missing_uuid l s ts : v = VMap l -> fields_ok pattern_fields l -> field l ($"pattern") string_value (Some s) ->
      compile s = Ret (Ok ts) -> ~ In ($"uuid") (map fst l) -> pattern_error v (MissingField ($"pattern")).

  (** ** Files *)
  Definition file_value (v : value) (ps : list pattern) : Prop :=
    exists l, v = VMap l /\
      fields_ok [($"patterns", fun v => exists ps, seq_value pattern_value v ps)] l /\
      field l ($"patterns") (seq_value pattern_value) (Some ps).
  Inductive file_error (v : value) : de_error -> Prop :=
  | fe_map : not_a_map v -> file_error v InvalidType
  | fe_unknown a k x b : v = VMap (a ++ (k, x) :: b) ->
      fields_ok [($"patterns", fun v => exists ps, seq_value pattern_value v ps)] a -> k <> $"patterns" ->
      file_error v (UnexpectedField k)
  | fe_pattern a x b e : v = VMap (a ++ ($"patterns", x) :: b) ->
      fields_ok [($"patterns", fun v => exists ps, seq_value pattern_value v ps)] a ->
      seq_error pattern_value pattern_error x e -> file_error v e
  | fe_missing : v = VMap [] -> file_error v (MissingField ($"patterns")).
  (** Everything before the pattern that panics is in order. *)
  Definition file_panics (v : value) : Prop :=
    exists a c x d b, v = VMap (a ++ ($"patterns", VSeq (c ++ x :: d)) :: b) /\
      fields_ok [($"patterns", fun v => exists ps, seq_value pattern_value v ps)] a /\
      (forall y, In y c -> exists p, pattern_value y p) /\ pattern_panics x.
End Pattern.

(** ** Texts of a document *)
Inductive contains : value -> str -> Prop :=
| contains_str s : contains (VStr s) s
| contains_seq l v s : In v l -> contains v s -> contains (VSeq l) s
| contains_key l k v : In (k, v) l -> contains (VMap l) k
| contains_value l k v s : In (k, v) l -> contains v s -> contains (VMap l) s.
Definition utf8_document (v : value) : Prop := forall s, contains v s -> utf8 s.
Definition ascii_document (v : value) : Prop := forall s, contains v s -> ascii s = true.
