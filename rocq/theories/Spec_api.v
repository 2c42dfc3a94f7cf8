(** * Specification vocabulary about the smaller public interfaces *)
From Verif Require Import Base Utils Parsers Pattern Spec.

(** ** Searching: first the elements that compare Less, then the Equal ones, then
    the Greater ones *)
Definition before (x y : comparison) : Prop :=
  match x, y with
  | Lt, _ => True
  | Eq, Lt => False
  | Eq, _ => True
  | Gt, Gt => True
  | Gt, _ => False
  end.

(** ** Calls that configure a parser *)
Inductive setting :=
| SetName (n : option str)
| SetMin (n : option N)
| SetMax (n : option N)
| SetChars (s : str).

(** What the last call of a kind asked for; [d] if there was none. *)
Fixpoint last_of {A B : Type} (f : A -> option B) (l : list A) (d : B) : B :=
  match l with
  | [] => d
  | x :: l' => last_of f l' (match f x with Some b => b | None => d end)
  end.
Definition asks_name (s : setting) := match s with SetName n => Some n | _ => None end.
Definition asks_min (s : setting) := match s with SetMin n => Some n | _ => None end.
Definition asks_max (s : setting) := match s with SetMax n => Some n | _ => None end.
Definition asks_chars (s : setting) := match s with SetChars n => Some n | _ => None end.

(** The last optional parameter with key [k]. *)
Definition param (k : str) (o : option (list optional_parameter)) (r : option N) : Prop :=
  match r with
  | Some v => exists l a b, o = Some l /\ l = a ++ OptInt k v :: b /\ forall v', ~ In (OptInt k v') b
  | None => forall l v, o = Some l -> ~ In (OptInt k v) l
  end.

(** Client programs: a sequence of calls on one parser. *)
Definition configure (p : set_parser) (ss : list setting) : set_parser :=
  fold_left (fun p s =>
    match s with
    | SetName n => set_set_name p n
    | SetMin n => set_set_min_length p n
    | SetMax n => set_set_max_length p n
    | SetChars c => set_set_character_set p c
    end) ss p.

Inductive greedy_setting := GName (n : option str) | GEnd (e : option str).
Definition greedy_asks_name (s : greedy_setting) := match s with GName n => Some n | _ => None end.
Definition greedy_asks_end (s : greedy_setting) := match s with GEnd e => Some e | _ => None end.
Definition greedy_configure (p : greedy_parser) (ss : list greedy_setting) : greedy_parser :=
  fold_left (fun p s =>
    match s with GName n => greedy_set_name p n | GEnd e => greedy_set_end_string p e end) ss p.

(** What a greedy parser is to return: the text before the first end string,
    everything without one. *)
Definition up_to (e : option str) (v : str) (r : option str) : Prop :=
  match e, r with
  | Some e, Some w => before_first e v w
  | Some e, None => ~ occurs_in e v
  | None, r => r = Some v
  end.

(** ** Match results

    [inserted kvs k v]: the last parser named [k] came with [v]. *)
Definition inserted (kvs : list (parser * str)) (k v : str) : Prop :=
  exists a q b, kvs = a ++ (q, v) :: b /\ name_of q = Some k /\
    forall q' v', In (q', v') b -> name_of q' <> Some k.
