(** * INT written as SET, for C157 *)
From Verif Require Import Base Parsers Pattern Spec Spec_grammar.

Definition int_item (i : item) : item := match i with IInt bs n => ISet ($"0123456789") bs n | _ => i end.
