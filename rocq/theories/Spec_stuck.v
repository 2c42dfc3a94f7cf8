(** * Messages that went wrong, for C173 *)
From Verif Require Import Base Parsers Pattern Spec Spec_fill Spec_early.

(** No message beginning with [a] can be read: a literal is not there, a run of a set is
    too short or too long, or something is left over. *)
Inductive stuck : list token -> str -> Prop :=
| stuck_left_over b a : stuck [] (b :: a)
| stuck_literal l ts a : ~ prefix_of l a -> ~ prefix_of a l -> stuck (Literal l :: ts) a
| stuck_behind_literal l ts a : stuck ts a -> stuck (Literal l :: ts) (l ++ a)
| stuck_run q s ts v b c : q = PSet s \/ q = PInt s -> Forall (fun x => In x (sp_character_set s)) v -> ~ In b (sp_character_set s) ->
    ~ admissible_set s v -> stuck (Parser q :: ts) (v ++ b :: c)
| stuck_long q s ts v c n : q = PSet s \/ q = PInt s -> Forall (fun x => In x (sp_character_set s)) v ->
    sp_max_length s = Some n -> (n < N.of_nat (length v))%N -> stuck (Parser q :: ts) (v ++ c)
| stuck_behind_parser q v ts a : settled q v a -> stuck ts a -> stuck (Parser q :: ts) (v ++ a).

(** The token can be filled in: some length is within the bounds. *)
Definition fillable (t : token) : Prop :=
  match t with
  | Literal l => l <> []
  | Parser (PSet s) | Parser (PInt s) => sp_character_set s <> [] /\ exists v, length v <> 0 /\
      above_min (sp_min_length s) (length (v : str)) /\ below_max (sp_max_length s) (length v)
  | Parser (PGreedy _) => True
  end.
