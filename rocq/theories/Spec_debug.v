(** * Shown strings, for C104 *)
From Verif Require Import Base Spec_unicode Debug.

(** No version of the library shows a quotation mark or a backslash as it is. *)
Definition escaping (plain : N -> bool) : Prop := plain 34%N = false /\ plain 92%N = false.

(** [d] is how the text [s] is shown. *)
Definition shown_as (plain : N -> bool) (zero : bool) (s d : str) : Prop :=
  exists l, Forall scalar l /\ s = encode_all l /\ d = debug_chars plain zero l.
