(** * Which token lists can be written, for C155 *)
From Coq Require Import Sorted.
From Verif Require Import Base Parsers Pattern Spec Spec_grammar.

Definition name_can (o : option str) : Prop := match o with Some n => name n | None => True end.
Definition bound_can (o : option N) : Prop := match o with Some v => fits v | None => True end.
Definition set_can (s : set_parser) : Prop :=
  name_can (sp_name s) /\ bound_can (sp_min_length s) /\ bound_can (sp_max_length s) /\
  StronglySorted byte_lt (sp_character_set s).

(** The bytes of a SET are those of some text without quotation marks, the bytes of
    an INT are the digits. *)
Definition parser_can (q : parser) : Prop :=
  match q with
  | PSet s => set_can s /\
      exists chars, utf8 chars /\ chars <> [] /\ ~ In x22 chars /\ forall b, In b (sp_character_set s) <-> In b chars
  | PInt s => set_can s /\ forall b, In b (sp_character_set s) <-> digit b
  | PGreedy g => name_can (gp_name g)
  end.
Definition is_greedy (q : parser) : bool := match q with PGreedy _ => true | _ => false end.

(** Text behind GREEDY is taken as it is, so it cannot have the characters that begin
    a parser; other text cannot have the characters that stand for these. *)
Fixpoint tokens_can (behind_greedy : bool) (ts : list token) : Prop :=
  match ts with
  | [] => True
  | Literal l :: ts' =>
      (l <> [] /\ utf8 l /\ ~ occurs_in (if behind_greedy then $"%{" else escape_seq) l) /\ tokens_can false ts'
  | Parser q :: ts' => parser_can q /\ tokens_can (is_greedy q) ts'
  end.

(** ** Different ways to write the same, for C156

    The same characters in any order and number, the same bounds that count, the
    same names and the same texts. *)
Definition same_item (i j : item) : Prop :=
  match i, j with
  | IText raw, IText raw' => raw = raw'
  | IGreedy n, IGreedy n' => n = n'
  | ISet chars bs n, ISet chars' bs' n' =>
      (forall b, In b chars <-> In b chars') /\ last_min bs None = last_min bs' None /\ last_max bs None = last_max bs' None /\ n = n'
  | IInt bs n, IInt bs' n' => last_min bs None = last_min bs' None /\ last_max bs None = last_max bs' None /\ n = n'
  | _, _ => False
  end.
