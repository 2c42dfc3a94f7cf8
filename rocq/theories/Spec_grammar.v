(** * Specification of the pattern language

    The concrete syntax as relations between texts and what they denote.
    Nothing here refers to the functions of Grammar.v. *)
From Coq Require Import Sorted.
From Verif Require Import Base Parsers Pattern Spec.

(** ** Characters *)
Definition digit (b : byte) : Prop := (48 <= Byte.to_N b <= 57)%N.
Definition letter (b : byte) : Prop :=
  (97 <= Byte.to_N b <= 122)%N \/ (65 <= Byte.to_N b <= 90)%N.
Definition name_start (b : byte) : Prop := letter b \/ b = x5f \/ b = x2e.
Definition name_char (b : byte) : Prop := name_start b \/ digit b.

(** ** Numbers *)
Definition decimal (d : str) : N :=
  fold_left (fun acc b => acc * 10 + (Byte.to_N b - 48))%N d 0%N.
Inductive number_text : str -> N -> Prop :=
| number_digits d : d <> [] -> Forall digit d -> fits (decimal d) -> number_text d (decimal d).

(** ** Names: a hyphen is possible as second character only *)
Inductive name : str -> Prop :=
| name_one c : name_start c -> name [c]
| name_more c d s : name_start c -> name_char d \/ d = x2d -> Forall name_char s ->
    name (c :: d :: s).
Inductive name_text : str -> option str -> Prop :=
| name_absent : name_text [] None
| name_present n : name n -> name_text ($":" ++ n) (Some n).

(** ** Length bounds *)
Inductive bound := MinLen (v : N) | MaxLen (v : N).
Inductive bound_text : str -> bound -> Prop :=
| bound_min d v : number_text d v -> bound_text ($"min_len=" ++ d) (MinLen v)
| bound_max d v : number_text d v -> bound_text ($"max_len=" ++ d) (MaxLen v).
Inductive comma_text : str -> Prop :=
| comma_spaces n : comma_text ($"," ++ repeat x20 n).
(** One or more bounds. *)
Inductive bounds_text : str -> list bound -> Prop :=
| bounds_one t b : bound_text t b -> bounds_text t [b]
| bounds_more t b c u bs : bound_text t b -> comma_text c -> bounds_text u bs ->
    bounds_text (t ++ c ++ u) (b :: bs).
Inductive opt_bounds_text : str -> list bound -> Prop :=
| bounds_none : opt_bounds_text [] []
| bounds_some t bs : bounds_text t bs -> opt_bounds_text t bs.

(** The bound that counts is the last one of its kind. *)
Fixpoint last_min (bs : list bound) (d : option N) : option N :=
  match bs with
  | [] => d
  | MinLen v :: bs' => last_min bs' (Some v)
  | MaxLen _ :: bs' => last_min bs' d
  end.
Fixpoint last_max (bs : list bound) (d : option N) : option N :=
  match bs with
  | [] => d
  | MaxLen v :: bs' => last_max bs' (Some v)
  | MinLen _ :: bs' => last_max bs' d
  end.

(** ** Items of a pattern *)
Inductive item :=
| IText (raw : str)
| IGreedy (n : option str)
| ISet (chars : str) (bs : list bound) (n : option str)
| IInt (bs : list bound) (n : option str).

Inductive set_bounds_text : str -> list bound -> Prop :=
| set_bounds_none : set_bounds_text [] []
| set_bounds_some c t bs : comma_text c -> opt_bounds_text t bs -> set_bounds_text (c ++ t) bs.
Inductive int_bounds_text : str -> list bound -> Prop :=
| int_bounds_none : int_bounds_text [] []
| int_bounds_some t bs : opt_bounds_text t bs -> int_bounds_text ($"(" ++ t ++ $")") bs.

Inductive item_text : str -> item -> Prop :=
| text_text raw : raw <> [] -> ~ occurs_in ($"%{") raw -> item_text raw (IText raw)
| text_greedy nt n : name_text nt n -> item_text ($"%{GREEDY" ++ nt ++ $"}") (IGreedy n)
| text_set chars bt bs nt n : chars <> [] -> ~ In x22 chars -> set_bounds_text bt bs -> name_text nt n ->
    item_text ($"%{SET(""" ++ chars ++ $"""" ++ bt ++ $")" ++ nt ++ $"}") (ISet chars bs n)
| text_int bt bs nt n : int_bounds_text bt bs -> name_text nt n ->
    item_text ($"%{INT" ++ bt ++ nt ++ $"}") (IInt bs n).

(** Two texts next to each other would be one. *)
Definition is_text (i : item) : bool := match i with IText _ => true | _ => false end.
Fixpoint texts_apart (is : list item) : Prop :=
  match is with
  | i :: (j :: _) as rest => ~ (is_text i = true /\ is_text j = true) /\ texts_apart rest
  | _ => True
  end.

Inductive items_text : str -> list item -> Prop :=
| items_nil : items_text [] []
| items_cons t i s is : item_text t i -> items_text s is -> items_text (t ++ s) (i :: is).

Definition pattern_text (s : str) (is : list item) : Prop :=
  items_text s is /\ is <> [] /\ texts_apart is.

(** ** What the items mean *)

(** \%\{ stands for %{. *)
Definition escape_seq : str := $"\%\{".
Inductive unescaped : str -> str -> Prop :=
| unescaped_plain p : ~ occurs_in escape_seq p -> unescaped p p
| unescaped_more p s u : ~ occurs_in escape_seq p -> unescaped s u ->
    unescaped (p ++ escape_seq ++ s) (p ++ $"%{" ++ u).

Definition set_with (chars : byte -> Prop) (bs : list bound) (n : option str) (p : set_parser) : Prop :=
  sp_name p = n /\ StronglySorted byte_lt (sp_character_set p) /\
  (forall b, In b (sp_character_set p) <-> chars b) /\
  sp_min_length p = last_min bs None /\ sp_max_length p = last_max bs None.

(** Text after GREEDY is its end string as well, and there it is not unescaped. *)
Inductive meaning : list item -> list token -> Prop :=
| means_nil : meaning [] []
| means_text raw u is ts : unescaped raw u -> meaning is ts ->
    meaning (IText raw :: is) (Literal u :: ts)
| means_greedy_text n raw is ts : meaning is ts ->
    meaning (IGreedy n :: IText raw :: is)
            (Parser (PGreedy {| gp_name := n; gp_end_string := Some raw |}) :: Literal raw :: ts)
| means_greedy n is ts : match is with i :: _ => is_text i = false | [] => True end -> meaning is ts ->
    meaning (IGreedy n :: is)
            (Parser (PGreedy {| gp_name := n; gp_end_string := None |}) :: ts)
| means_set chars bs n p is ts : set_with (fun b => In b chars) bs n p -> meaning is ts ->
    meaning (ISet chars bs n :: is) (Parser (PSet p) :: ts)
| means_int bs n p is ts : set_with digit bs n p -> meaning is ts ->
    meaning (IInt bs n :: is) (Parser (PInt p) :: ts).

(** ** Numbers that are too large

    A pattern overflows when, read from the left, it has well-formed items, then
    the beginning of a SET or INT item with well-formed bounds, then a bound whose
    number does not fit; what follows the number does not matter. *)
Definition no_digit_first (r : str) : Prop := match r with b :: _ => ~ digit b | [] => True end.
Inductive bounds_overflow : str -> Prop :=
| overflow_here kw d : kw = $"min_len=" \/ kw = $"max_len=" -> d <> [] -> Forall digit d ->
    ~ fits (decimal d) -> bounds_overflow (kw ++ d)
| overflow_later t b c u : bound_text t b -> comma_text c -> bounds_overflow u ->
    bounds_overflow (t ++ c ++ u).
Inductive item_overflow : str -> Prop :=
| overflow_int u : bounds_overflow u -> item_overflow ($"%{INT(" ++ u)
| overflow_set chars c u : chars <> [] -> ~ In x22 chars -> comma_text c -> bounds_overflow u ->
    item_overflow ($"%{SET(""" ++ chars ++ $"""" ++ c ++ u).
Definition pattern_overflow (s : str) : Prop :=
  exists t is u r, s = t ++ u ++ r /\ items_text t is /\ texts_apart is /\ item_overflow u /\ no_digit_first r.

(** ** Escaping *)
Inductive escaped : str -> str -> Prop :=
| escaped_plain p : ~ occurs_in ($"%{") p -> escaped p p
| escaped_more p u e : ~ occurs_in ($"%{") p -> escaped u e ->
    escaped (p ++ $"%{" ++ u) (p ++ escape_seq ++ e).

(** ** Names according to the README: hyphens anywhere but in front *)
Inductive readme_name : str -> Prop :=
| readme_name_intro c s : name_start c -> Forall (fun b => name_char b \/ b = x2d) s -> readme_name (c :: s).

(** ** Positions: line and column, both from 1, the column in bytes *)
Definition newlines (s : str) : nat := length (filter (fun b => byte_eqb b x0a) s).
Definition located (s : str) (off line col : nat) : Prop :=
  exists a b, firstn off s = a ++ b /\ ~ In x0a b /\ (a = [] \/ exists a', a = a' ++ [x0a]) /\
    line = 1 + newlines a /\ col = 1 + length b.

(** ** The shape of compiled patterns *)
Fixpoint literals_apart (ts : list token) : Prop :=
  match ts with
  | t :: (u :: _) as rest =>
      match t, u with Literal _, Literal _ => False | _, _ => True end /\ literals_apart rest
  | _ => True
  end.
(** The end string of every greedy parser is the literal after it. *)
Fixpoint greedy_linked (ts : list token) : Prop :=
  match ts with
  | t :: rest =>
      match t with
      | Parser (PGreedy g) =>
          gp_end_string g = match rest with Literal l :: _ => Some l | _ => None end
      | _ => True
      end /\ greedy_linked rest
  | [] => True
  end.
