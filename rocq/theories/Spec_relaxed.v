(** * Relaxing the bounds of parsers, for C164 *)
From Verif Require Import Base Parsers Pattern.

Definition lower_min (mn mn' : option N) : Prop :=
  match mn' with None => True | Some b => exists a, mn = Some a /\ (b <= a)%N end.
Definition higher_max (mx mx' : option N) : Prop :=
  match mx' with None => True | Some b => exists a, mx = Some a /\ (a <= b)%N end.
(** Same name and characters; the lower bound is lowered or dropped, the upper bound
    raised or dropped. *)
Definition relaxed_set (s s' : set_parser) : Prop :=
  sp_name s' = sp_name s /\ sp_character_set s' = sp_character_set s /\
  lower_min (sp_min_length s) (sp_min_length s') /\ higher_max (sp_max_length s) (sp_max_length s').
Definition relaxed_token (t t' : token) : Prop :=
  match t, t' with
  | Parser (PSet s), Parser (PSet s') | Parser (PInt s), Parser (PInt s') => relaxed_set s s'
  | _, _ => t' = t
  end.
Definition relaxed (p p' : pattern) : Prop := Forall2 relaxed_token (pat_tokens p) (pat_tokens p').

(** The answer [r'] has the same values, for the pattern [p'] instead of [p]. *)
Definition same_values (m m' : list (str * str)) : Prop :=
  NoDup (map fst m) /\ NoDup (map fst m') /\ forall k v, In (k, v) m' <-> In (k, v) m.

(** Nothing but the bounds is changed. *)
Definition relaxed_only (p p' : pattern) : Prop :=
  relaxed p p' /\ pat_name p' = pat_name p /\ pat_uuid p' = pat_uuid p /\ pat_values p' = pat_values p /\
  pat_tags p' = pat_tags p /\ pat_test_messages p' = pat_test_messages p.
