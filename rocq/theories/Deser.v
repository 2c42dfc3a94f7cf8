(** * Model of the Deserialize implementations: src/matcher/pattern/deser.rs,
      pattern/file/deser.rs, pattern/testmessage/deser.rs

    The text layer (serde_json, serde_yaml) is not modelled: a document is a
    tree of values, objects being the list of their fields in document order.
    The conversions of leaf types are serde's. *)
From Verif Require Import Base Utils Parsers Pattern Grammar.

Inductive value :=
| VNull
| VStr (s : str)
| VSeq (l : list value)
| VMap (l : list (str * value))
| VOther.   (** numbers and booleans: no field accepts them *)

Inductive de_error :=
| UnexpectedField (f : str)
| InvalidType
| MissingField (f : str)
| InvalidPattern
| InvalidUuid.

(** Result monad *)
Definition rbind {A B E : Type} (r : result A E) (k : A -> result B E) : result B E :=
  match r with Ok a => k a | Err e => Err e end.

(** serde: String *)
Definition de_string (v : value) : result str de_error :=
  match v with VStr s => Ok s | _ => Err InvalidType end.

Fixpoint map_result {A B E : Type} (f : A -> result B E) (l : list A) : result (list B) E :=
  match l with
  | [] => Ok []
  | x :: l' => rbind (f x) (fun y => rbind (map_result f l') (fun r => Ok (y :: r)))
  end.

(** serde: Vec<T> (a null is the empty vector in serde 0.7) *)
Definition de_vec {A : Type} (f : value -> result A de_error) (v : value)
  : result (list A) de_error :=
  match v with
  | VSeq l => map_result f l
  | VNull => Ok []
  | _ => Err InvalidType
  end.

(** serde: BTreeMap<String, String>, entries inserted in document order *)
Fixpoint de_map_entries (l : list (str * value)) (m : bmap) : result bmap de_error :=
  match l with
  | [] => Ok m
  | (k, v) :: l' => rbind (de_string v) (fun s => de_map_entries l' (bmap_insert k s m))
  end.
Definition de_map (v : value) : result bmap de_error :=
  match v with
  | VMap l => de_map_entries l []
  | VNull => Ok []
  | _ => Err InvalidType
  end.

(** ** TestMessage: testmessage/deser.rs *)

(** testmessage/deser.rs:12-16, 30-35 *)
Inductive tm_field := TM_MESSAGE | TM_VALUES | TM_TAGS.
Definition tm_field_of (s : str) : result tm_field de_error :=
  if str_eqb s ($"message") then Ok TM_MESSAGE
  else if str_eqb s ($"values") then Ok TM_VALUES
  else if str_eqb s ($"tags") then Ok TM_TAGS
  else Err (UnexpectedField s).

(** The local variables of visit_map, testmessage/deser.rs:52-54 *)
Record tm_acc := TmAcc {
  ta_message : option str;
  ta_values : option bmap;
  ta_tags : option (list str)
}.

(** testmessage/deser.rs:56-62 *)
Fixpoint tm_visit_fields (l : list (str * value)) (a : tm_acc) : result tm_acc de_error :=
  match l with
  | [] => Ok a
  | (k, v) :: l' =>
      rbind (tm_field_of k) (fun field =>
      rbind (match field with
             | TM_MESSAGE => rbind (de_string v) (fun s =>
                 Ok {| ta_message := Some s; ta_values := ta_values a; ta_tags := ta_tags a |})
             | TM_VALUES => rbind (de_map v) (fun m =>
                 Ok {| ta_message := ta_message a; ta_values := Some m; ta_tags := ta_tags a |})
             | TM_TAGS => rbind (de_vec de_string v) (fun t =>
                 Ok {| ta_message := ta_message a; ta_values := ta_values a; ta_tags := Some t |})
             end) (fun a => tm_visit_fields l' a))
  end.

(** testmessage/deser.rs:49-74 *)
Definition de_test_message (v : value) : result test_message de_error :=
  match v with
  | VMap l =>
      rbind (tm_visit_fields l {| ta_message := None; ta_values := None; ta_tags := None |})
            (fun a =>
      match ta_message a with
      | None => Err (MissingField ($"message"))
      | Some message =>
          Ok {| tm_message := message;
                tm_values := match ta_values a with Some m => m | None => [] end;
                tm_tags := ta_tags a |}
      end)
  | _ => Err InvalidType
  end.

(** ** Pattern: pattern/deser.rs *)

(** deser.rs:17-24, 38-46 *)
Inductive pat_field := F_NAME | F_UUID | F_PATTERN | F_VALUES | F_TAGS | F_TESTMESSAGES.
Definition pat_field_of (s : str) : result pat_field de_error :=
  if str_eqb s ($"name") then Ok F_NAME
  else if str_eqb s ($"uuid") then Ok F_UUID
  else if str_eqb s ($"pattern") then Ok F_PATTERN
  else if str_eqb s ($"values") then Ok F_VALUES
  else if str_eqb s ($"tags") then Ok F_TAGS
  else if str_eqb s ($"test_messages") then Ok F_TESTMESSAGES
  else Err (UnexpectedField s).

(** deser.rs:63-68 *)
Record pat_acc := PatAcc {
  pa_name : option str;
  pa_uuid : option uuid;
  pa_pattern : option str;
  pa_values : option bmap;
  pa_tags : option (list str);
  pa_test_messages : option (list test_message)
}.
Definition pat_acc_new : pat_acc := PatAcc None None None None None None.

Section Pattern.
  (** The uuid crate's text parser. *)
  Variable parse_uuid : str -> option uuid.

  Definition de_uuid (v : value) : result uuid de_error :=
    match v with
    | VStr s => match parse_uuid s with Some u => Ok u | None => Err InvalidUuid end
    | _ => Err InvalidType
    end.

  (** deser.rs:70-79 *)
  Definition pat_visit_field (a : pat_acc) (field : pat_field) (v : value)
    : result pat_acc de_error :=
    match field with
    | F_NAME => rbind (de_string v) (fun s =>
        Ok (PatAcc (Some s) (pa_uuid a) (pa_pattern a) (pa_values a) (pa_tags a)
                   (pa_test_messages a)))
    | F_UUID => rbind (de_uuid v) (fun u =>
        Ok (PatAcc (pa_name a) (Some u) (pa_pattern a) (pa_values a) (pa_tags a)
                   (pa_test_messages a)))
    | F_PATTERN => rbind (de_string v) (fun s =>
        Ok (PatAcc (pa_name a) (pa_uuid a) (Some s) (pa_values a) (pa_tags a)
                   (pa_test_messages a)))
    | F_VALUES => rbind (de_map v) (fun m =>
        Ok (PatAcc (pa_name a) (pa_uuid a) (pa_pattern a) (Some m) (pa_tags a)
                   (pa_test_messages a)))
    | F_TAGS => rbind (de_vec de_string v) (fun t =>
        Ok (PatAcc (pa_name a) (pa_uuid a) (pa_pattern a) (pa_values a) (Some t)
                   (pa_test_messages a)))
    | F_TESTMESSAGES => rbind (de_vec de_test_message v) (fun t =>
        Ok (PatAcc (pa_name a) (pa_uuid a) (pa_pattern a) (pa_values a) (pa_tags a)
                   (Some t)))
    end.
  Fixpoint pat_visit_fields (l : list (str * value)) (a : pat_acc) : result pat_acc de_error :=
    match l with
    | [] => Ok a
    | (k, v) :: l' =>
        rbind (pat_field_of k) (fun field =>
        rbind (pat_visit_field a field v) (fun a => pat_visit_fields l' a))
    end.

  (** deser.rs:81-106.  The missing uuid is reported under the name "pattern". *)
  Definition de_pattern_finish (a : pat_acc) : outcome (result pattern de_error) :=
    match pa_pattern a with
    | None => Ret (Err (MissingField ($"pattern")))
    | Some s =>
        let* r := compile s in
        match r with
        | Err _ => Ret (Err InvalidPattern)
        | Ok toks =>
            match pa_uuid a with
            | None => Ret (Err (MissingField ($"pattern")))
            | Some u =>
                Ret (Ok (pattern_new (pa_name a) u toks (pa_test_messages a) (pa_values a)
                                     (pa_tags a)))
            end
        end
    end.

  (** deser.rs:60-107 *)
  Definition de_pattern (v : value) : outcome (result pattern de_error) :=
    match v with
    | VMap l =>
        match pat_visit_fields l pat_acc_new with
        | Err e => Ret (Err e)
        | Ok a => de_pattern_finish a
        end
    | _ => Ret (Err InvalidType)
    end.

  (** ** PatternFile: file/deser.rs *)

  Fixpoint de_patterns (l : list value) : outcome (result (list pattern) de_error) :=
    match l with
    | [] => Ret (Ok [])
    | v :: l' =>
        let* r := de_pattern v in
        match r with
        | Err e => Ret (Err e)
        | Ok p =>
            let* rest := de_patterns l' in
            Ret (rbind rest (fun ps => Ok (p :: ps)))
        end
    end.
  Definition de_pattern_vec (v : value) : outcome (result (list pattern) de_error) :=
    match v with
    | VSeq l => de_patterns l
    | VNull => Ret (Ok [])
    | _ => Ret (Err InvalidType)
    end.

  (** file/deser.rs:49-55 *)
  Fixpoint file_visit_fields (l : list (str * value)) (a : option (list pattern))
    : outcome (result (option (list pattern)) de_error) :=
    match l with
    | [] => Ret (Ok a)
    | (k, v) :: l' =>
        if str_eqb k ($"patterns") then
          let* r := de_pattern_vec v in
          match r with
          | Err e => Ret (Err e)
          | Ok ps => file_visit_fields l' (Some ps)
          end
        else Ret (Err (UnexpectedField k))
    end.

  (** file/deser.rs:46-65 *)
  Definition de_pattern_file (v : value) : outcome (result (list pattern) de_error) :=
    match v with
    | VMap l =>
        let* r := file_visit_fields l None in
        match r with
        | Err e => Ret (Err e)
        | Ok None => Ret (Err (MissingField ($"patterns")))
        | Ok (Some ps) => Ret (Ok ps)
        end
    | _ => Ret (Err InvalidType)
    end.
End Pattern.
