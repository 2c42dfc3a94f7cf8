(** * Values that are known before the message ends, for C172 *)
From Verif Require Import Base Parsers Pattern Spec.

(** The parser takes [v] from every text that begins with [v ++ c]: something else than
    its characters comes next, or its end string. *)
Definition settled (q : parser) (v c : str) : Prop :=
  captures q (v ++ c) v /\
  match q with
  | PSet _ | PInt _ => c <> []
  | PGreedy x => exists e d, gp_end_string x = Some e /\ c = e ++ d
  end.

(** The beginning [a] of a message settles the values [vs] of the first parsers. *)
Inductive begun : list token -> str -> list (parser * str) -> Prop :=
| begun_nothing ts a : begun ts a []
| begun_literal l ts a vs : begun ts a vs -> begun (Literal l :: ts) (l ++ a) vs
| begun_parser q v ts a vs : settled q v a -> begun ts a vs -> begun (Parser q :: ts) (v ++ a) ((q, v) :: vs).

(** What has to be read behind a value. *)
Definition needed (q : parser) : nat :=
  match q with
  | PSet _ | PInt _ => 1
  | PGreedy x => match gp_end_string x with Some e => length e | None => 0 end
  end.
