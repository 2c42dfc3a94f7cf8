(** * Patterns as regular expressions (C144) *)
From Verif Require Import Base Utils Parsers Pattern Spec.

(** ** Regular expressions over bytes, with the usual meaning *)
Inductive regex : Type :=
| Eps
| Byte (b : byte)
| OneOf (set : str)
| AnyByte
| Then (r r' : regex)
| Repeat (r : regex) (least most : option N).

Inductive matches : regex -> str -> Prop :=
| m_eps : matches Eps []
| m_byte b : matches (Byte b) [b]
| m_one_of set b : In b set -> matches (OneOf set) [b]
| m_any b : matches AnyByte [b]
| m_then r r' v w : matches r v -> matches r' w -> matches (Then r r') (v ++ w)
| m_repeat r mn mx vs :
    Forall (matches r) vs -> above_min mn (length vs) -> below_max mx (length vs) ->
    matches (Repeat r mn mx) (concat vs).

(** ** The regular expression of a pattern

    A literal is its text.  SET and INT are [[set]{m,n}], but at least one
    character long.  GREEDY is [.*]. *)
Fixpoint text_regex (l : str) : regex :=
  match l with [] => Eps | b :: l => Then (Byte b) (text_regex l) end.

Definition at_least_one (mn : option N) : option N :=
  match mn with Some m => Some (N.max 1 m) | None => Some 1%N end.
Definition parser_regex (q : parser) : regex :=
  match q with
  | PSet s | PInt s => Repeat (OneOf (sp_character_set s)) (at_least_one (sp_min_length s)) (sp_max_length s)
  | PGreedy _ => Repeat AnyByte None None
  end.
Definition token_regex (t : token) : regex :=
  match t with Literal l => text_regex l | Parser q => parser_regex q end.
Definition regex_of (ts : list token) : regex := fold_right (fun t r => Then (token_regex t) r) Eps ts.

(** The same, but GREEDY without an end string is [.+] after a literal: the trie
    does not look beyond a literal that is the end of the message (C17). *)
Fixpoint regex_after (literal : bool) (ts : list token) : regex :=
  match ts with
  | [] => Eps
  | Literal l :: ts => Then (text_regex l) (regex_after true ts)
  | Parser q :: ts =>
      Then (match q with
            | PGreedy g =>
                match gp_end_string g with
                | None => Repeat AnyByte (if literal then Some 1%N else None) None
                | Some _ => parser_regex q
                end
            | _ => parser_regex q
            end) (regex_after false ts)
  end.
Definition trie_regex (ts : list token) : regex := regex_after false ts.

(** In the suffix table any beginning of a literal will do: for "abc" [(a(b(c)?)?)?]. *)
Fixpoint beginning_regex (l : str) : regex :=
  match l with [] => Eps | b :: l => Repeat (Then (Byte b) (beginning_regex l)) None (Some 1%N) end.
Definition loose_regex (ts : list token) : regex :=
  fold_right (fun t r => Then (match t with Literal l => beginning_regex l | Parser q => parser_regex q end) r) Eps ts.

(** ** Patterns for which reading without going back is enough *)

(** What comes after a run of the set cannot be taken for a part of it, or it does
    not matter. *)
Definition clear_after (s : set_parser) (u : token) : Prop :=
  match u with
  | Literal l => exists b l', l = b :: l' /\ ~ In b (sp_character_set s)
  | Parser (PSet s') | Parser (PInt s') => forall b, In b (sp_character_set s') -> ~ In b (sp_character_set s)
  | Parser (PGreedy g) =>
      sp_max_length s = None /\
      match gp_end_string g with
      | None => True
      | Some e => exists b e', e = b :: e' /\ ~ In b (sp_character_set s)
      end
  end.

(** GREEDY, text, GREEDY, text, ..., GREEDY. *)
Inductive wild : list token -> Prop :=
| wild_last g : gp_end_string g = None -> wild [Parser (PGreedy g)]
| wild_next g e ts :
    gp_end_string g = Some e -> e <> [] -> wild ts -> wild (Parser (PGreedy g) :: Literal e :: ts).

Inductive definite : list token -> Prop :=
| def_literal l : definite [Literal l]
| def_set q s : q = PSet s \/ q = PInt s -> definite [Parser q]
| def_wild ts : wild ts -> definite ts
| def_literal_next l q ts : l <> [] -> definite (Parser q :: ts) -> definite (Literal l :: Parser q :: ts)
| def_set_next q s u ts :
    q = PSet s \/ q = PInt s -> clear_after s u -> definite (u :: ts) -> definite (Parser q :: u :: ts).

(** ** Groups

    Any way to divide the text among the tokens; [caps] are the parts that the
    expressions of the parsers match. *)
Inductive divided : list token -> str -> list (parser * str) -> Prop :=
| div_nil : divided [] [] []
| div_literal l ts text caps : divided ts text caps -> divided (Literal l :: ts) (l ++ text) caps
| div_parser q ts v text caps :
    matches (parser_regex q) v -> divided ts text caps -> divided (Parser q :: ts) (v ++ text) ((q, v) :: caps).

(** GREEDY is nowhere but at the end, and comes after a literal or alone. *)
Definition greedy_last (ts : list token) : Prop :=
  forall a g b, ts = a ++ Parser (PGreedy g) :: b -> b = [] /\ (a = [] \/ exists a' l, a = a' ++ [Literal l]).
