(** * Changing the characters without changing their order, for C163 *)
From Verif Require Import Base Parsers Pattern Spec.

(** [f] keeps the order of the bytes in [K]. *)
Definition keeps_order (f : byte -> byte) (K : byte -> Prop) : Prop :=
  forall a b, K a -> K b -> (Byte.to_N a < Byte.to_N b)%N -> (Byte.to_N (f a) < Byte.to_N (f b))%N.

(** The literals of the pattern consist of bytes in [K]. *)
Definition literals_in (K : byte -> Prop) (p : pattern) : Prop :=
  forall l, In (Literal l) (pat_tokens p) -> Forall K l.
