(** * Base: panics, bytes, Rust [&str] values and UTF-8.

    Nothing in this file models code of the repository itself: it models the
    pieces of the Rust language and standard library that the repository is
    written in.  A Rust [&str]/[String] is the list of its UTF-8 bytes; a
    panic is the explicit value [Panic]. *)

From Coq Require Export List Arith NArith ZArith Lia Bool.
From Coq Require Export Strings.Byte.
From Coq Require Strings.String.
Export ListNotations.
Export Coq.Strings.String.StringSyntax.
Delimit Scope string_scope with string.

(** ** Results of a Rust call

    [Ret a]: the call returned [a].  [Panic]: it panicked (failed slice,
    [unwrap] on [None], [unreachable!()], arithmetic underflow, index out of
    range).  [OutOfFuel]: the recursion bound given to the Gallina function
    was too small; theorem statements exclude this value. *)
Inductive outcome (A : Type) : Type :=
| Ret (a : A)
| Panic
| OutOfFuel.
Arguments Ret {A} a.
Arguments Panic {A}.
Arguments OutOfFuel {A}.

Definition bind {A B : Type} (m : outcome A) (k : A -> outcome B) : outcome B :=
  match m with
  | Ret a => k a
  | Panic => Panic
  | OutOfFuel => OutOfFuel
  end.

Notation "'let*' x ':=' m 'in' k" := (bind m (fun x => k))
  (at level 200, x pattern, m at level 100, k at level 200, right associativity).

(** ** Strings *)
Definition str := list byte.

(** String literals, as UTF-8 byte lists. *)
Notation "'$' s" := (String.list_byte_of_string s%string) (at level 1, only parsing).

Definition byte_eqb (x y : byte) : bool := N.eqb (Byte.to_N x) (Byte.to_N y).
Definition byte_cmp (x y : byte) : comparison := N.compare (Byte.to_N x) (Byte.to_N y).

(** [==] on strings. *)
Fixpoint str_eqb (a b : str) : bool :=
  match a, b with
  | [], [] => true
  | x :: a', y :: b' => byte_eqb x y && str_eqb a' b'
  | _, _ => false
  end.

(** [Ord::cmp] on strings: lexicographic on bytes (Rust std). *)
Fixpoint str_cmp (a b : str) : comparison :=
  match a, b with
  | [], [] => Eq
  | [], _ :: _ => Lt
  | _ :: _, [] => Gt
  | x :: a', y :: b' =>
      match byte_cmp x y with
      | Eq => str_cmp a' b'
      | c => c
      end
  end.

Fixpoint prefixb (p s : str) : bool :=
  match p, s with
  | [], _ => true
  | x :: p', y :: s' => byte_eqb x y && prefixb p' s'
  | _ :: _, [] => false
  end.

Definition is_empty {A : Type} (l : list A) : bool :=
  match l with [] => true | _ => false end.

(** Continuation bytes of UTF-8, 0x80..0xBF. *)
Definition is_cont (b : byte) : bool :=
  (N.leb 128 (Byte.to_N b) && N.ltb (Byte.to_N b) 192)%bool.

(** Rust std [str::is_char_boundary]. *)
Definition is_char_boundary (s : str) (i : nat) : bool :=
  if (Nat.eqb i 0 || Nat.eqb i (length s))%bool then true
  else match nth_error s i with
       | Some b => negb (is_cont b)
       | None => false
       end.

(** [&s[i..]] and [&s[..i]]: panic unless [i] is a char boundary of [s]. *)
Definition slice_from (s : str) (i : nat) : outcome str :=
  if is_char_boundary s i then Ret (skipn i s) else Panic.

Definition slice_to (s : str) (i : nat) : outcome str :=
  if is_char_boundary s i then Ret (firstn i s) else Panic.

(** [&s[i..j]]. *)
Definition slice (s : str) (i j : nat) : outcome str :=
  if (Nat.leb i j && is_char_boundary s i && is_char_boundary s j)%bool
  then Ret (firstn (j - i) (skipn i s)) else Panic.

(** Checked [usize] subtraction. *)
Definition usub (a b : nat) : outcome nat :=
  if Nat.leb b a then Ret (a - b) else Panic.

(** [str::find(&str)]: byte offset of the first occurrence. *)
Fixpoint str_find (needle s : str) : option nat :=
  if prefixb needle s then Some 0
  else match s with
       | [] => None
       | _ :: s' => option_map S (str_find needle s')
       end.

(** [Vec::get_mut(i).unwrap()] followed by an update through the reference. *)
Fixpoint update_nth {A : Type} (l : list A) (i : nat) (f : A -> outcome A)
  : outcome (list A) :=
  match l, i with
  | [], _ => Panic
  | x :: l', O => let* x' := f x in Ret (x' :: l')
  | x :: l', S i' => let* r := update_nth l' i' f in Ret (x :: r)
  end.

(** [Vec::get(i).unwrap()]. *)
Definition get_unwrap {A : Type} (l : list A) (i : nat) : outcome A :=
  match nth_error l i with Some x => Ret x | None => Panic end.

(** Bytes from numbers (used for hash streams and UTF-8 tests). *)
Definition byte_of_N (n : N) : byte :=
  match Byte.of_N (n mod 256) with Some b => b | None => x00 end.

(** ** UTF-8 validity

    The well-formed byte sequences of the Unicode standard, table 3-7.  Every
    Rust [&str] satisfies [utf8]; it is the type invariant of the language. *)
Definition in_rng (lo hi : N) (b : byte) : bool :=
  (N.leb lo (Byte.to_N b) && N.leb (Byte.to_N b) hi)%bool.

Definition utf8_char (c : str) : bool :=
  match c with
  | [a] => in_rng 0 127 a
  | [a; b] => in_rng 194 223 a && is_cont b
  | [a; b; c] =>
      (in_rng 224 224 a && in_rng 160 191 b && is_cont c)
      || (in_rng 225 236 a && is_cont b && is_cont c)
      || (in_rng 237 237 a && in_rng 128 159 b && is_cont c)
      || (in_rng 238 239 a && is_cont b && is_cont c)
  | [a; b; c; d] =>
      (in_rng 240 240 a && in_rng 144 191 b && is_cont c && is_cont d)
      || (in_rng 241 243 a && is_cont b && is_cont c && is_cont d)
      || (in_rng 244 244 a && in_rng 128 143 b && is_cont c && is_cont d)
  | _ => false
  end%bool.

Inductive utf8 : str -> Prop :=
| utf8_nil : utf8 []
| utf8_cons c s : utf8_char c = true -> utf8 s -> utf8 (c ++ s).

(** Number of bytes of the character starting with byte [b] (std's decoder). *)
Definition utf8_width (b : byte) : nat :=
  let n := Byte.to_N b in
  if N.ltb n 128 then 1 else if N.ltb n 224 then 2 else if N.ltb n 240 then 3 else 4.

(** A string all of whose bytes are ASCII. *)
Definition ascii_byte (b : byte) : bool := N.ltb (Byte.to_N b) 128.
Definition ascii (s : str) : bool := forallb ascii_byte s.

(** Executable validity test, used on concrete strings. *)
Fixpoint utf8b_go (fuel : nat) (s : str) : bool :=
  match fuel with
  | O => match s with [] => true | _ => false end
  | S f =>
      match s with
      | [] => true
      | _ =>
          (utf8_char (firstn 1 s) && utf8b_go f (skipn 1 s))
          || (utf8_char (firstn 2 s) && utf8b_go f (skipn 2 s))
          || (utf8_char (firstn 3 s) && utf8b_go f (skipn 3 s))
          || (utf8_char (firstn 4 s) && utf8b_go f (skipn 4 s))
      end
  end%bool.
Definition utf8b (s : str) : bool := utf8b_go (length s) s.
