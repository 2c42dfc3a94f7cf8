(** * Filling in a pattern, for C165 *)
From Verif Require Import Base Parsers Pattern Spec.

(** [text] is made of the literals and of values for the parsers; after a literal
    that is not the last token there is something, and such a literal is not empty. *)
Inductive filled : list token -> list (parser * str) -> str -> Prop :=
| filled_nil : filled [] [] []
| filled_literal l ts vs text : ts = [] \/ (l <> [] /\ text <> []) ->
    filled ts vs text -> filled (Literal l :: ts) vs (l ++ text)
| filled_parser q v ts vs text :
    filled ts vs text -> filled (Parser q :: ts) ((q, v) :: vs) (v ++ text).

(** The value may be used for the parser: characters of the set, as many as the bounds
    say; no end string before the end. *)
Definition admissible_set (s : set_parser) (v : str) : Prop :=
  v <> [] /\ Forall (fun b => In b (sp_character_set s)) v /\
  match sp_min_length s with Some n => (n <= N.of_nat (length v))%N | None => True end /\
  match sp_max_length s with Some n => (N.of_nat (length v) <= n)%N | None => True end.
Definition admissible (q : parser) (v : str) : Prop :=
  match q with
  | PSet s | PInt s => admissible_set s v
  | PGreedy x =>
      match gp_end_string x with
      | Some e => forall a b, v ++ e = a ++ e ++ b -> b = []
      | None => True
      end
  end.

(** What begins with this token does not begin with a character of [set]. *)
Definition parts_from (set : str) (t : token) : Prop :=
  match t with
  | Literal (b :: _) => ~ In b set
  | Literal [] => False
  | Parser (PSet s) | Parser (PInt s) => forall b, In b set -> ~ In b (sp_character_set s)
  | Parser (PGreedy _) => False
  end.
(** Where every value ends can be seen from what follows: after SET and INT something
    else than their characters, after GREEDY its end string, or nothing. *)
Fixpoint spaced (ts : list token) : Prop :=
  match ts with
  | [] => True
  | Literal _ :: rest => spaced rest
  | Parser (PSet s) :: rest | Parser (PInt s) :: rest =>
      match rest with [] => True | t :: _ => parts_from (sp_character_set s) t end /\ spaced rest
  | Parser (PGreedy x) :: rest =>
      match gp_end_string x with
      | Some e => exists rest', rest = Literal e :: rest'
      | None => rest = []
      end /\ spaced rest
  end.
Definition admissible_values (vs : list (parser * str)) : Prop := Forall (fun x => admissible (fst x) (snd x)) vs.
