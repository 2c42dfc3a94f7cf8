(** * Model of the texts of errors: testmessage/error.rs, pattern_source/error.rs
      and the Display of ParseError in pattern_parser.rs *)
From Verif Require Import Base Pattern Grammar Source.

(** ** Rust and library pieces *)

(** Lower-case hexadecimal digits. *)
Definition hex_digit (n : N) : byte := nth (N.to_nat n) ($"0123456789abcdef") x30.
Definition hex_byte (b : byte) : str := [hex_digit (Byte.to_N b / 16); hex_digit (Byte.to_N b mod 16)].
Definition hex (s : str) : str := flat_map hex_byte s.
(** uuid 0.2: [Uuid::hyphenated].  Groups of 4, 2, 2, 2 and 6 bytes. *)
Definition hyphenated (u : uuid) : str :=
  hex (firstn 4 u) ++ $"-" ++ hex (firstn 2 (skipn 4 u)) ++ $"-" ++ hex (firstn 2 (skipn 6 u)) ++
  $"-" ++ hex (firstn 2 (skipn 8 u)) ++ $"-" ++ hex (skipn 10 u).

(** [{}] of a number. *)
Fixpoint uint_text (d : Decimal.uint) : str :=
  match d with
  | Decimal.Nil => []
  | Decimal.D0 d => x30 :: uint_text d
  | Decimal.D1 d => x31 :: uint_text d
  | Decimal.D2 d => x32 :: uint_text d
  | Decimal.D3 d => x33 :: uint_text d
  | Decimal.D4 d => x34 :: uint_text d
  | Decimal.D5 d => x35 :: uint_text d
  | Decimal.D6 d => x36 :: uint_text d
  | Decimal.D7 d => x37 :: uint_text d
  | Decimal.D8 d => x38 :: uint_text d
  | Decimal.D9 d => x39 :: uint_text d
  end.
Definition nat_text (n : nat) : str := uint_text (Nat.to_uint n).

(** [char::escape_default] for ASCII characters. *)
Definition escape_default_byte (b : byte) : str :=
  match b with
  | x09 => $"\t"
  | x0d => $"\r"
  | x0a => $"\n"
  | x27 => $"\'"
  | x22 => [x5c; x22]
  | x5c => $"\\"
  | _ => if N.leb 32 (Byte.to_N b) && N.leb (Byte.to_N b) 126 then [b]
         else $"\u{" ++ (if N.leb 16 (Byte.to_N b) then hex_byte b else [hex_digit (Byte.to_N b)]) ++ $"}"
  end.
(** pattern_parser.rs:10-12, for ASCII text. *)
Definition escape_default (s : str) : str := flat_map escape_default_byte s.

(** [{:?}] of a String, for ASCII text. *)
Definition debug_ascii (s : str) : str := [x22] ++ escape_default s ++ [x22].

(** ** pattern_parser.rs:31-54

    [expected] is a HashSet: the order of its iteration, [iter], is not fixed. *)
Definition parse_error_text (e : parse_error) (iter : list str) : str :=
  $"error at " ++ nat_text (pe_line e) ++ $":" ++ nat_text (pe_column e) ++ $": expected " ++
  match iter with
  | [] => $"EOF"
  | [x] => $"`" ++ escape_default x ++ $"`"
  | x :: rest => $"one of `" ++ escape_default x ++ $"`" ++
                 flat_map (fun y => $", `" ++ escape_default y ++ $"`") rest
  end.
Definition parse_error_description : str := $"parse error".

(** ** testmessage/error.rs:87-149

    [debug] is [{:?}] of a String. *)
Section Texts.
  Variable debug : str -> str.

  Fixpoint join (sep : str) (l : list str) : str :=
    match l with
    | [] => []
    | [x] => x
    | x :: l' => x ++ sep ++ join sep l'
    end.
  Definition debug_tags (o : option (list str)) : str :=
    match o with
    | None => $"None"
    | Some l => $"Some([" ++ join ($", ") (map debug l) ++ $"])"
    end.

  (** error.rs:87-127 *)
  Definition tm_error_text (e : tm_error) : str :=
    match e with
    | ValueNotMatch u key expected got =>
        $"A parsed value does not equal to its expected value: uuid=" ++ hyphenated u ++ $" key=" ++ key ++
        $" expected=" ++ expected ++ $" got=" ++ got
    | KeyNotFound u key =>
        $"A parsed key in not found among the expected ones: uuid=" ++ hyphenated u ++ $" key=" ++ key
    | TestMessageDoesntMatch u message =>
        $"A test message did not match its pattern: uuid=" ++ hyphenated u ++ $" message='" ++ message ++ $"'"
    | MatchedToOtherPattern expected got message =>
        $"The test message matched to an other pattern: expected_uuid=" ++ hyphenated expected ++
        $" got_uuid=" ++ hyphenated got ++ $" test_message='" ++ message ++ $"'"
    | UnexpectedTags u expected got =>
        $"Unexpected tags found either in the parse result or among the expected ones: uuid=" ++ hyphenated u ++
        $" expected: " ++ debug_tags expected ++ $" got=" ++ debug_tags got
    end.
End Texts.

(** error.rs:129-149 *)
Definition tm_error_description (e : tm_error) : str :=
  match e with
  | ValueNotMatch _ _ _ _ => $"A parsed value does not equal to its expected value"
  | KeyNotFound _ _ => $"A parsed key in not found among the expected ones"
  | TestMessageDoesntMatch _ _ => $"A test message cannot be parsed but its pattern is inserted"
  | MatchedToOtherPattern _ _ _ => $"The test message matched to an other pattern"
  | UnexpectedTags _ _ _ => $"Unexpected tags found either in the parse result or among the expected ones"
  end.

(** ** pattern_source/error.rs:43-79

    For the errors of libraries, which the model reduces to their text: [about]
    is their description, [origin] their cause. *)
Definition build_error_text (debug : str -> str) (e : build_error) : str :=
  match e with
  | TestMessageError e => tm_error_text debug e
  | Io e | DeserJson e | DeserYaml e => e
  | UnsupportedFileExtension => $"The given file extension is not suppoted"
  | NotUtf8FileName => $"The given filename contains non Utf-8 characters"
  end.
Definition build_error_description (about : str -> str) (e : build_error) : str :=
  match e with
  | TestMessageError e => tm_error_description e
  | Io e | DeserJson e | DeserYaml e => about e
  | UnsupportedFileExtension => $"The given file extension is not supported"
  | NotUtf8FileName => $"The given filename contains non Utf-8 characters"
  end.
(** What [cause] refers to, as its text.  testmessage::Error keeps the default
    [cause], which is [None]. *)
Definition build_error_cause (origin : str -> option str) (e : build_error) : option str :=
  match e with
  | TestMessageError _ => None
  | Io e | DeserJson e | DeserYaml e => origin e
  | UnsupportedFileExtension | NotUtf8FileName => None
  end.
