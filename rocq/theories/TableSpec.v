(** * An abstract description of what the suffix table does

    A table is a level of TrieSpec.v: a sorted map from literals to entries and
    the parsers in order of first addition.  The refinement proof
    (Table_refine.v) shows that the table of the code behaves exactly like this. *)
From Verif Require Import Base Utils Parsers Pattern Spec TrieSpec.

(** ** Adding a pattern

    As in the trie, but the literal is used as a key as it is. *)
Fixpoint t_insert (toks : list token) (L : level) (p : pattern) : level :=
  match toks with
  | [] => L
  | tok :: rest =>
      let f (e : entry) : entry :=
        if is_empty rest then (Some p, snd e)
        else (fst e, Some (t_insert rest level_empty p)) in
      match tok with
      | Literal l => Level (upsert l f (lits_of L)) (pars_of L)
      | Parser q => Level (lits_of L) (at_parser (pars_of L) q f)
      end
  end.

Definition t_add (L : level) (p : pattern) : level := t_insert (pat_tokens p) L (stripped p).
Definition t_adds (ps : list pattern) : level := fold_left t_add ps level_empty.

(** ** Matching *)

(** The last element. *)
Fixpoint last_opt {A : Type} (l : list A) : option A :=
  match l with
  | [] => None
  | [x] => Some x
  | _ :: l' => last_opt l'
  end.

Definition notgtb (c : comparison) : bool := match c with Gt => false | _ => true end.

(** The key nearest to [text]: the last one not greater than [text] or the first
    greater one, whichever shares more characters with [text]. *)
Definition nearest {A : Type} (K : list (str * A)) (text : str) : option (str * A) :=
  match last_opt (filter (fun x => notgtb (str_cmp (fst x) text)) K),
        hd_error (filter (fun x => negb (notgtb (str_cmp (fst x) text))) K) with
  | Some a, Some b =>
      if Nat.leb (common_prefix_len (fst b) text) (common_prefix_len (fst a) text)
      then Some a else Some b
  | Some a, None => Some a
  | None, o => o
  end.

(** The parsers are only tried when the level has no literal. *)
Fixpoint t_parse (L : level) (text : str) : option match_result :=
  match L with
  | Level K P =>
      match nearest (map (fun x => match x with
                                   | (k, (po, Some c)) => (k, (po, Some (t_parse c)))
                                   | (k, (po, None)) => (k, (po, None))
                                   end) K) text with
      | Some (k, (po, co)) =>
          let n := common_prefix_len k text in
          if Nat.eqb n (length text) then option_map match_result_new po
          else match co with
               | Some f => f (skipn n text)
               | None => None
               end
      | None => try_parsers t_parse P text
      end
  end.
