(** * Renaming values, for C154 *)
From Verif Require Import Base Parsers Pattern Spec.

Definition rename_parser (g : str -> str) (q : parser) : parser :=
  match q with
  | PSet s => PSet (SetParser (option_map g (sp_name s)) (sp_character_set s) (sp_min_length s) (sp_max_length s))
  | PInt s => PInt (SetParser (option_map g (sp_name s)) (sp_character_set s) (sp_min_length s) (sp_max_length s))
  | PGreedy x => PGreedy (GreedyParser (option_map g (gp_name x)) (gp_end_string x))
  end.
Definition rename_token (g : str -> str) (t : token) : token :=
  match t with Literal l => Literal l | Parser q => Parser (rename_parser g q) end.

(** [p'] has the tokens of [p] with the values renamed; whatever else belongs to a
    pattern may be different. *)
Definition renamed (g : str -> str) (p p' : pattern) : Prop := pat_tokens p' = map (rename_token g) (pat_tokens p).

(** The same with any change of the parsers. *)
Definition replace_token (phi : parser -> parser) (t : token) : token :=
  match t with Literal l => Literal l | Parser q => Parser (phi q) end.
Definition replaced (phi : parser -> parser) (p p' : pattern) : Prop := pat_tokens p' = map (replace_token phi) (pat_tokens p).

Definition one_to_one (g : str -> str) : Prop := forall x y, g x = g y -> x = y.

(** The same answers, with patterns at the same place of the lists, and with the
    values renamed. *)
Definition answers_renamed (g : str -> str) (ps ps' : list pattern) (o o' : outcome (option match_result)) : Prop :=
  match o, o' with
  | Ret (Some r), Ret (Some r') =>
      (exists i p p', nth_error ps i = Some p /\ nth_error ps' i = Some p' /\
         mr_pattern r = stripped p /\ mr_pattern r' = stripped p') /\
      forall k' v, maps_to (mr_values r') k' v <-> exists k, k' = g k /\ maps_to (mr_values r) k v
  | Ret None, Ret None => True
  | Panic, Panic => True
  | _, _ => False
  end.

(** ** INT as SET, for C157 *)
Definition int_as_set (q : parser) : parser := match q with PInt s => PSet s | _ => q end.

(** No parser of the patterns is an INT that as a SET would be another one of them. *)
Definition no_twins (ps : list pattern) : Prop :=
  forall s p p', In p ps -> In p' ps -> In (Parser (PInt s)) (pat_tokens p) -> ~ In (Parser (PSet s)) (pat_tokens p').
