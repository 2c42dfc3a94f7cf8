(** * An abstract description of what the trie matcher does

    A level is a sorted map from literals to entries together with the list of
    parsers, in order of first addition.  There is no splitting of nodes here:
    the refinement proof (Trie_refine.v) shows that the trie of the code behaves
    exactly like this. *)
From Verif Require Import Base Utils Parsers Pattern Spec.

Inductive level :=
| Level (lits : list (str * (option pattern * option level)))
        (pars : list (parser * (option pattern * option level))).

(** What is stored at one position: the pattern ending there and what follows. *)
Notation entry := (option pattern * option level)%type.

Definition lits_of (L : level) := match L with Level K _ => K end.
Definition pars_of (L : level) := match L with Level _ P => P end.
Definition level_empty : level := Level [] [].

Definition keys {A : Type} (K : list (str * A)) : list str := map fst K.

(** [a] is a proper prefix of [b]. *)
Definition proper_prefixb (a b : str) : bool :=
  (prefixb a b && Nat.ltb (length a) (length b))%bool.

(** Key [k] leads on: it is not empty, a proper prefix of [text], and no key of
    the level properly extends it. *)
Definition routes (ks : list str) (k text : str) : bool :=
  (negb (is_empty k) && proper_prefixb k text
   && negb (existsb (proper_prefixb k) ks))%bool.

(** Longest common prefix, in bytes. *)
Fixpoint blcp (a b : str) : str :=
  match a, b with
  | x :: a', y :: b' => if byte_eqb x y then x :: blcp a' b' else []
  | _, _ => []
  end.

(** Two different keys part inside or at the end of a common prefix of [text]:
    then the parsers of the level are not tried. *)
Definition blocked (ks : list str) (text : str) : bool :=
  existsb (fun k1 => existsb (fun k2 =>
    negb (str_eqb k1 k2) && negb (is_empty (blcp k1 k2)) && prefixb (blcp k1 k2) text) ks) ks.

Fixpoint lookup {A : Type} (k : str) (K : list (str * A)) : option A :=
  match K with
  | [] => None
  | (k', e) :: K' => if str_eqb k k' then Some e else lookup k K'
  end.

(** Update or insert in a sorted map. *)
Fixpoint upsert (k : str) (f : entry -> entry) (K : list (str * entry)) : list (str * entry) :=
  match K with
  | [] => [(k, f (None, None))]
  | (k', e) :: K' =>
      match str_cmp k k' with
      | Lt => (k, f (None, None)) :: K
      | Eq => (k', f e) :: K'
      | Gt => (k', e) :: upsert k f K'
      end
  end.

(** ** Adding a pattern *)
Section Enter.
  Variable enter : level -> str -> (entry -> entry) -> level.
  (** The first routing key of [todo] with a following level. *)
  Fixpoint enter_literals (ks : list str) (todo : list (str * entry)) (l : str)
           (f : entry -> entry) : option (list (str * entry)) :=
    match todo with
    | [] => None
    | (k, (po, co)) :: todo' =>
        match co with
        | Some c =>
            if routes ks k l then Some ((k, (po, Some (enter c (skipn (length k) l) f))) :: todo')
            else option_map (cons (k, (po, co))) (enter_literals ks todo' l f)
        | None => option_map (cons (k, (po, co))) (enter_literals ks todo' l f)
        end
    end.
End Enter.

(** Updates the entry of literal [l]. *)
Fixpoint enter (L : level) (l : str) (f : entry -> entry) : level :=
  match L with
  | Level K P =>
      match enter_literals enter (keys K) K l f with
      | Some K' => Level K' P
      | None => Level (upsert l f K) P
      end
  end.

Lemma parser_eq_dec (p q : parser) : {p = q} + {p <> q}.
Proof.
  assert (byte_eq : forall x y : byte, {x = y} + {x <> y}) by apply Byte.byte_eq_dec.
  assert (str_eq : forall x y : str, {x = y} + {x <> y}) by (apply list_eq_dec; exact byte_eq).
  assert (ostr_eq : forall x y : option str, {x = y} + {x <> y}) by decide equality.
  assert (on_eq : forall x y : option N, {x = y} + {x <> y}) by (decide equality; apply N.eq_dec).
  assert (set_eq : forall x y : set_parser, {x = y} + {x <> y})
    by (decide equality; apply list_eq_dec; exact byte_eq).
  assert (greedy_eq : forall x y : greedy_parser, {x = y} + {x <> y}) by decide equality.
  decide equality.
Defined.

(** Updates the entry of parser [q]; a new one goes to the end. *)
Fixpoint at_parser (P : list (parser * entry)) (q : parser) (f : entry -> entry)
  : list (parser * entry) :=
  match P with
  | [] => [(q, f (None, None))]
  | (q', e) :: P' => if parser_eq_dec q' q then (q', f e) :: P' else (q', e) :: at_parser P' q f
  end.

(** The first token selects an entry; a last token stores the pattern there, any
    other one replaces what follows by a level holding just the rest. *)
Fixpoint s_insert (toks : list token) (L : level) (p : pattern) : level :=
  match toks with
  | [] => L
  | tok :: rest =>
      let f (e : entry) : entry :=
        if is_empty rest then (Some p, snd e)
        else (fst e, Some (s_insert rest level_empty p)) in
      match tok with
      | Literal l => enter L l f
      | Parser q => Level (lits_of L) (at_parser (pars_of L) q f)
      end
  end.

Definition s_add (L : level) (p : pattern) : level := s_insert (pat_tokens p) L (stripped p).
Definition s_adds (ps : list pattern) : level := fold_left s_add ps level_empty.

(** ** Matching *)

(** What a parser captures ([None]: nothing); see Properties_parsers.v for its
    meaning. *)
Definition capture (q : parser) (text : str) : option str :=
  match parser_parse q text with Ret o => o | _ => None end.

Section Parse.
  Variable parse : level -> str -> option match_result.

  Definition try_parser (q : parser) (e : entry) (text : str) : option match_result :=
    match capture q text with
    | None => None
    | Some v =>
        let rest := skipn (length v) text in
        option_map (fun r => match_result_insert r (q, v))
          (match snd e with
           | Some c => parse c rest
           | None => if is_empty rest then option_map match_result_new (fst e) else None
           end)
    end.

  Fixpoint try_parsers (P : list (parser * entry)) (text : str) : option match_result :=
    match P with
    | [] => None
    | (q, e) :: P' =>
        match try_parser q e text with
        | Some r => Some r
        | None => try_parsers P' text
        end
    end.

  (** The result of the level a routing key leads to. *)
  Fixpoint try_literals (ks : list str) (todo : list (str * entry)) (text : str)
    : option (option match_result) :=
    match todo with
    | [] => None
    | (k, (_, Some c)) :: todo' =>
        if routes ks k text then Some (parse c (skipn (length k) text))
        else try_literals ks todo' text
    | (k, (_, None)) :: todo' => try_literals ks todo' text
    end.
End Parse.

Fixpoint s_parse (L : level) (text : str) : option match_result :=
  match L with
  | Level K P =>
      match try_literals s_parse (keys K) K text with
      | Some r => r
      | None =>
          match lookup text K with
          | Some e => option_map match_result_new (fst e)
          | None => if blocked (keys K) text then None else try_parsers s_parse P text
          end
      end
  end.
