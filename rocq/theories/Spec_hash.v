(** * Statements about hash collisions (C137) *)
From Verif Require Import Base Utils Parsers Pattern Spec.

(** The parsers that patterns begin with. *)
Definition first_parsers (ps : list pattern) : list parser :=
  flat_map (fun p => match pat_tokens p with Parser q :: _ => [q] | _ => [] end) ps.

(** The first one of them that has the same hash as [q]. *)
Definition stand_in (sip : list byte -> N) (ps : list pattern) (q : parser) : parser :=
  match find (fun q' => N.eqb (sip (hash_stream q')) (sip (hash_stream q))) (first_parsers ps) with
  | Some q' => q'
  | None => q
  end.

(** The pattern with its first parser replaced by that one. *)
Definition confused_tokens (sip : list byte -> N) (ps : list pattern) (ts : list token) : list token :=
  match ts with
  | Parser q :: rest => Parser (stand_in sip ps q) :: rest
  | _ => ts
  end.
Definition confused (sip : list byte -> N) (ps : list pattern) (p : pattern) : pattern :=
  {| pat_name := pat_name p; pat_uuid := pat_uuid p; pat_tokens := confused_tokens sip ps (pat_tokens p);
     pat_values := pat_values p; pat_tags := pat_tags p; pat_test_messages := pat_test_messages p |}.

(** A hash function without collisions. *)
Definition injective_hash (h : list byte -> N) : Prop := forall x y, h x = h y -> x = y.

(** The hash function tells the parsers apart that patterns begin with. *)
Definition first_apart (sip : list byte -> N) (ps : list pattern) : Prop :=
  forall q q', In q (first_parsers ps) -> In q' (first_parsers ps) ->
    sip (hash_stream q) = sip (hash_stream q') -> hash_stream q = hash_stream q'.
