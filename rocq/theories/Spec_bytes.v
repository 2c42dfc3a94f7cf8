(** * Changing the characters, for C161 *)
From Verif Require Import Base Parsers Pattern Spec.

(** [f] exchanges ASCII characters and keeps all other bytes; [g] undoes it. *)
Definition exchange (f g : byte -> byte) : Prop :=
  (forall b, g (f b) = b) /\ (forall b, f (g b) = b) /\ forall b, ascii_byte b = false -> f b = b.

(** The set [s'] holds what [f] makes of the characters of [s]; the name and the
    bounds are the same. *)
Definition exchanged_set (f : byte -> byte) (s s' : set_parser) : Prop :=
  sp_name s' = sp_name s /\ sp_min_length s' = sp_min_length s /\ sp_max_length s' = sp_max_length s /\
  forall b, In (f b) (sp_character_set s') <-> In b (sp_character_set s).
Definition exchanged_parser (f : byte -> byte) (q q' : parser) : Prop :=
  match q, q' with
  | PSet s, PSet s' | PInt s, PInt s' => exchanged_set f s s'
  | PGreedy x, PGreedy x' => gp_name x' = gp_name x /\ gp_end_string x' = option_map (map f) (gp_end_string x)
  | _, _ => False
  end.
Definition exchanged_token (f : byte -> byte) (t t' : token) : Prop :=
  match t, t' with
  | Literal l, Literal l' => l' = map f l
  | Parser q, Parser q' => exchanged_parser f q q'
  | _, _ => False
  end.
(** Whatever else belongs to a pattern may be different. *)
Definition exchanged (f : byte -> byte) (p p' : pattern) : Prop :=
  Forall2 (exchanged_token f) (pat_tokens p) (pat_tokens p').

(** The same answers, with patterns at the same place of the lists, and with the
    characters of the values exchanged. *)
Definition answers_exchanged (f : byte -> byte) (ps ps' : list pattern) (o o' : outcome (option match_result)) : Prop :=
  match o, o' with
  | Ret (Some r), Ret (Some r') =>
      (exists i p p', nth_error ps i = Some p /\ nth_error ps' i = Some p' /\
         mr_pattern r = stripped p /\ mr_pattern r' = stripped p') /\
      mr_values r' = map (fun x => (fst x, map f (snd x))) (mr_values r)
  | Ret None, Ret None => True
  | Panic, Panic => True
  | _, _ => False
  end.
