(** * Mixing the values of two messages, for C171 *)
From Verif Require Import Base Parsers Pattern.

(** Every value of [c] is the value at the same place in [a] or in [b]. *)
Inductive mixed : list (parser * str) -> list (parser * str) -> list (parser * str) -> Prop :=
| mixed_nil : mixed [] [] []
| mixed_cons x y z a b c : z = x \/ z = y -> mixed a b c -> mixed (x :: a) (y :: b) (z :: c).
