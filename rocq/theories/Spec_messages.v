(** * How error texts are written, for C147: Rust's format strings *)
From Verif Require Import Base Pattern Source Spec_errors.

(** [format!]: every pair of braces is replaced by the next argument. *)
Fixpoint fill (template : str) (args : list str) : str :=
  match template with
  | [] => []
  | b :: t =>
      match t with
      | c :: t' =>
          if (byte_eqb b x7b && byte_eqb c x7d)%bool
          then match args with [] => fill t' [] | a :: args' => a ++ fill t' args' end
          else b :: fill t args
      | [] => [b]
      end
  end.

(** The format strings of testmessage/error.rs:91-123, with [{}] for [{:?}]. *)
Definition template (k : error_kind) : str :=
  match k with
  | KValue => $"A parsed value does not equal to its expected value: uuid={} key={} expected={} got={}"
  | KKey => $"A parsed key in not found among the expected ones: uuid={} key={}"
  | KNoMatch => $"A test message did not match its pattern: uuid={} message='{}'"
  | KOther => $"The test message matched to an other pattern: expected_uuid={} got_uuid={} test_message='{}'"
  | KTags => $"Unexpected tags found either in the parse result or among the expected ones: uuid={} expected: {} got={}"
  end.

(** [{:?}] of an [Option<&[String]>]. *)
Inductive listed (show : str -> str) : list str -> str -> Prop :=
| listed_nil : listed show [] []
| listed_one x : listed show [x] (show x)
| listed_more x y l t : listed show (y :: l) t -> listed show (x :: y :: l) (show x ++ $", " ++ t).
Inductive shown_tags (show : str -> str) : option (list str) -> str -> Prop :=
| shown_none : shown_tags show None ($"None")
| shown_some l t : listed show l t -> shown_tags show (Some l) (fill ($"Some([{}])") [t]).

Inductive arguments (show_uuid : uuid -> str) (show : str -> str) : tm_error -> list str -> Prop :=
| args_value u k x y : arguments show_uuid show (ValueNotMatch u k x y) [show_uuid u; k; x; y]
| args_key u k : arguments show_uuid show (KeyNotFound u k) [show_uuid u; k]
| args_no_match u m : arguments show_uuid show (TestMessageDoesntMatch u m) [show_uuid u; m]
| args_other u v m : arguments show_uuid show (MatchedToOtherPattern u v m) [show_uuid u; show_uuid v; m]
| args_tags u x y a b : shown_tags show x a -> shown_tags show y b ->
    arguments show_uuid show (UnexpectedTags u x y) [show_uuid u; a; b].

(** The numeral of a number: its digits have this value and do not begin with a
    superfluous zero. *)
Definition digit_value (b : byte) : option nat :=
  if (N.leb 48 (Byte.to_N b) && N.leb (Byte.to_N b) 57)%bool then Some (N.to_nat (Byte.to_N b - 48)) else None.
Fixpoint value (acc : nat) (t : str) : option nat :=
  match t with
  | [] => Some acc
  | b :: t' => match digit_value b with Some d => value (10 * acc + d) t' | None => None end
  end.
Definition numeral (n : nat) (t : str) : Prop :=
  t <> [] /\ value 0 t = Some n /\ ((exists t', t = x30 :: t') -> t = $"0").

(** The terminals of pattern.rustpeg. *)
Definition terminals : list str :=
  [$"%{"; $"}"; $"("; $")"; $":"; $","; $" "; $"="; [x22]; $"GREEDY"; $"INT"; $"SET"; $"min_len"; $"max_len";
   $"<character>"; $"[a-zA-Z_.]"; $"[a-z-A-Z0-9_.]"; $"[-]"; $"[0-9]"].
(** Of these only the quotation mark is not shown as it is. *)
Definition shown (x : str) : str := fill ($"`{}`") [if str_eqb x [x22] then [x5c; x22] else x].
