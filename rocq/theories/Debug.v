(** * [{:?}] of Strings

    Rust's core library; used by the Display of testmessage/error.rs:117-124 for
    tags.  The versions of the library differ in the characters that are shown
    as they are ([plain]) and in how they show the character 0 ([zero]). *)
From Coq Require Import HexadecimalN.
From Verif Require Import Base Spec_unicode.
Local Open Scope N_scope.

(** [{:x}] of a number *)
Fixpoint hex_text (d : Hexadecimal.uint) : str :=
  match d with
  | Hexadecimal.Nil => []
  | Hexadecimal.D0 d => x30 :: hex_text d
  | Hexadecimal.D1 d => x31 :: hex_text d
  | Hexadecimal.D2 d => x32 :: hex_text d
  | Hexadecimal.D3 d => x33 :: hex_text d
  | Hexadecimal.D4 d => x34 :: hex_text d
  | Hexadecimal.D5 d => x35 :: hex_text d
  | Hexadecimal.D6 d => x36 :: hex_text d
  | Hexadecimal.D7 d => x37 :: hex_text d
  | Hexadecimal.D8 d => x38 :: hex_text d
  | Hexadecimal.D9 d => x39 :: hex_text d
  | Hexadecimal.Da d => x61 :: hex_text d
  | Hexadecimal.Db d => x62 :: hex_text d
  | Hexadecimal.Dc d => x63 :: hex_text d
  | Hexadecimal.Dd d => x64 :: hex_text d
  | Hexadecimal.De d => x65 :: hex_text d
  | Hexadecimal.Df d => x66 :: hex_text d
  end.

(** What follows the backslash of a short escape *)
Definition short_escape (zero : bool) (n : N) : option byte :=
  match n with
  | 0 => if zero then Some x30 else None
  | 9 => Some x74
  | 10 => Some x6e
  | 13 => Some x72
  | 34 => Some x22
  | 39 => Some x27
  | 92 => Some x5c
  | _ => None
  end.

(** [char::escape_debug] ([char::escape_default] in old versions) *)
Definition debug_char (plain : N -> bool) (zero : bool) (n : N) : str :=
  if plain n then encode n
  else match short_escape zero n with
       | Some b => [x5c; b]
       | None => $"\u{" ++ hex_text (N.to_hex_uint n) ++ $"}"
       end.

Definition debug_chars (plain : N -> bool) (zero : bool) (l : list N) : str :=
  [x22] ++ flat_map (debug_char plain zero) l ++ [x22].
