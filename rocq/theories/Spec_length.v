(** * Lengths of messages, for C169 *)
From Verif Require Import Base Parsers Pattern.
Local Open Scope N_scope.

Definition size (s : str) : N := N.of_nat (length s).

(** The fewest bytes a parser takes. *)
Definition fewest (q : parser) : N :=
  match q with
  | PSet s | PInt s => match sp_min_length s with Some m => N.max 1 m | None => 1 end
  | PGreedy _ => 0
  end.
(** The most bytes a token takes, if there is a bound. *)
Definition most (t : token) : option N :=
  match t with
  | Literal l => Some (size l)
  | Parser (PSet s) | Parser (PInt s) => sp_max_length s
  | Parser (PGreedy _) => None
  end.

(** Bytes of the parsers alone, and with the literals *)
Fixpoint parsers_take (ts : list token) : N :=
  match ts with
  | [] => 0
  | Literal _ :: ts' => parsers_take ts'
  | Parser q :: ts' => fewest q + parsers_take ts'
  end.
Fixpoint tokens_take (ts : list token) : N :=
  match ts with
  | [] => 0
  | Literal l :: ts' => size l + tokens_take ts'
  | Parser q :: ts' => fewest q + tokens_take ts'
  end.
Fixpoint tokens_hold (ts : list token) : option N :=
  match ts with
  | [] => Some 0
  | t :: ts' =>
      match most t, tokens_hold ts' with
      | Some a, Some b => Some (a + b)
      | _, _ => None
      end
  end.
