(** * Statements about which patterns can match and what a match says about the message (C135, C136) *)
From Verif Require Import Base Utils Parsers Pattern Spec.

(** ** Patterns that match something

    [A] are the bytes messages may consist of. *)

(** A message can hold something that the token takes. *)
Definition possible (t : token) : Prop :=
  match t with
  | Parser (PSet s) | Parser (PInt s) =>
      sp_character_set s <> [] /\
      exists n, 0 < n /\ above_min (sp_min_length s) n /\ below_max (sp_max_length s) n
  | Parser (PGreedy _) | Literal _ => True
  end.

(** Some byte of messages is not in [set]. *)
Definition outside (A : byte -> Prop) (set : str) : Prop := exists b, A b /\ ~ In b set.

(** The text of [t] can come right after a longest run of bytes of [set]: it
    begins with another byte, or there is none. *)
Definition can_follow (A : byte -> Prop) (set : str) (t : token) : Prop :=
  match t with
  | Literal l => exists b l', l = b :: l' /\ ~ In b set
  | Parser (PSet s) | Parser (PInt s) => exists b, In b (sp_character_set s) /\ ~ In b set
  | Parser (PGreedy g) => gp_end_string g = None \/ outside A set
  end.

Definition takes_the_rest (t : token) : Prop :=
  exists g, t = Parser (PGreedy g) /\ gp_end_string g = None.

(** In the trie: every parser leaves something for the token after it. *)
Definition can_match (A : byte -> Prop) (ts : list token) : Prop :=
  Forall possible ts /\
  forall a t u b, ts = a ++ t :: u :: b ->
    (takes_the_rest t -> takes_the_rest u) /\
    forall s, t = Parser (PSet s) \/ t = Parser (PInt s) -> can_follow A (sp_character_set s) u.

(** In the suffix table, where literals may be missing from the message, partly
    or completely: the last token need not be there if it is a literal, and a
    literal that cannot come next is skipped. *)
Definition can_follow_loosely (A : byte -> Prop) (set : str) (u : token) (b : list token) : Prop :=
  can_follow A set u \/
  exists l, u = Literal l /\ (b = [] \/ outside A set /\ exists v b', b = v :: b' /\ can_follow A set v).

Definition can_match_loosely (A : byte -> Prop) (ts : list token) : Prop :=
  Forall possible ts /\
  forall a t u b, ts = a ++ t :: u :: b ->
    (takes_the_rest t -> takes_the_rest u) /\
    forall s, t = Parser (PSet s) \/ t = Parser (PInt s) -> can_follow_loosely A (sp_character_set s) u b.

(** ** Patterns that keep everything: all parsers have names, different ones *)
Definition parsers_in (ts : list token) : list parser :=
  flat_map (fun t => match t with Parser q => [q] | Literal _ => [] end) ts.
Definition all_named_apart (p : pattern) : Prop :=
  exists names, map name_of (parsers_in (pat_tokens p)) = map Some names /\ NoDup names.
