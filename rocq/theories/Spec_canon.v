(** * Specification of the shape of loaded tries *)
From Verif Require Import Base Parsers Pattern Trie.

(** The empty literal is before all others; the others are ordered by their first
    byte and no two with the same first byte stand side by side. *)
Definition starts_before (a b : str) : Prop :=
  match a, b with
  | [], _ :: _ => True
  | x :: _, y :: _ => N.lt (Byte.to_N x) (Byte.to_N y)
  | _, [] => False
  end.

(** Two elements of the list, the first one before the second one. *)
Definition ordered_pairs {A : Type} (R : A -> A -> Prop) (l : list A) : Prop :=
  forall i j x y, i < j -> nth_error l i = Some x -> nth_error l j = Some y -> R x y.

(** A node that ends the literal of some pattern holds the pattern or what follows;
    any other one is there only because the literals below it part after it. *)
Definition compact_literal (n : lnode tree) : Prop :=
  if ln_has_value n then ln_pattern n <> None \/ ln_node n <> None
  else ln_literal n <> [] /\ ln_pattern n = None /\
       exists a b more, ln_node n = Some (Tree (a :: b :: more) []).

Definition compact_parser (n : pnode tree) : Prop := pn_pattern n <> None \/ pn_node n <> None.

Inductive compact : tree -> Prop :=
| compact_tree lcs pcs :
    ordered_pairs (fun m n => starts_before (ln_literal m) (ln_literal n)) lcs ->
    ordered_pairs (fun m n => pn_parser m <> pn_parser n) pcs ->
    (forall n, In n lcs -> compact_literal n) ->
    (forall n, In n pcs -> compact_parser n) ->
    (forall n c, In n lcs -> ln_node n = Some c -> c <> Tree [] [] /\ compact c) ->
    (forall n c, In n pcs -> pn_node n = Some c -> c <> Tree [] [] /\ compact c) ->
    compact (Tree lcs pcs).

(** What a trie holds, level by level: the literals that end somewhere, with the
    pattern and the level there, from left to right, and the parsers likewise.
    A node without a value only spells the start of the literals below it. *)
Inductive content :=
| Content (literals : list (str * option pattern * option content))
          (parsers : list (parser * option pattern * option content)).

Definition content_literals (c : content) : list (str * option pattern * option content) :=
  match c with Content l _ => l end.

Fixpoint content_of (t : tree) : content :=
  match t with
  | Tree lcs pcs =>
      Content
        (flat_map (fun n =>
           match n with
           | LNode lit true po co => [(lit, po, option_map content_of co)]
           | LNode lit false _ None => []
           | LNode lit false _ (Some c) =>
               map (fun e => match e with (l, po, co) => (lit ++ l, po, co) end)
                   (content_literals (content_of c))
           end) lcs)
        (map (fun n => match n with PNode q po co => (q, po, option_map content_of co) end) pcs)
  end.
