(** * Continued messages, for C166 *)
From Verif Require Import Base Parsers Pattern Spec.

(** The byte occurs in no literal and no set of the patterns. *)
Definition foreign_token (b : byte) (t : token) : Prop :=
  match t with
  | Literal l => ~ In b l
  | Parser (PSet s) | Parser (PInt s) => ~ In b (sp_character_set s)
  | Parser (PGreedy _) => True
  end.
Definition foreign (b : byte) (ps : list pattern) : Prop :=
  forall p t, In p ps -> In t (pat_tokens p) -> foreign_token b t.
(** The last token of the pattern *)
Definition ends_with (p : pattern) (t : token) : Prop := exists ts, pat_tokens p = ts ++ [t].
