(** * The grammar without positions

    The rules of Grammar.v as functions from the rest of the input to the value
    and what remains; no positions and no error bookkeeping.  Grammar_refine.v
    proves that they agree with the rules. *)
From Verif Require Import Base Utils Parsers Pattern Grammar.

Inductive pres (A : Type) := PMatch (v : A) (rest : str) | PFail | PPanic.
Arguments PMatch {A} v rest.
Arguments PFail {A}.
Arguments PPanic {A}.

Definition pbind {A B : Type} (r : pres A) (k : A -> str -> pres B) : pres B :=
  match r with PMatch v s => k v s | PFail => PFail | PPanic => PPanic end.
Definition p_or {A : Type} (r alt : pres A) : pres A :=
  match r with PFail => alt | _ => r end.
Definition p_opt {A : Type} (r : pres A) (s : str) : pres (option A) :=
  match r with PMatch v s' => PMatch (Some v) s' | PFail => PMatch None s | PPanic => PPanic end.

Fixpoint strip (m s : str) : option str :=
  match m, s with
  | [], _ => Some s
  | x :: m', y :: s' => if byte_eqb x y then strip m' s' else None
  | _ :: _, [] => None
  end.
Definition p_str (m s : str) : pres unit :=
  match strip m s with Some r => PMatch tt r | None => PFail end.
Definition p_keyword (m s : str) : pres str :=
  pbind (p_str m s) (fun _ s => PMatch m s).

(** [f*] *)
Fixpoint p_star {A : Type} (f : str -> pres A) (fuel : nat) (s : str) : pres (list A) :=
  match fuel with
  | O => PPanic
  | S fuel' =>
      match f s with
      | PMatch v s' => pbind (p_star f fuel' s') (fun vs s'' => PMatch (v :: vs) s'')
      | PFail => PMatch [] s
      | PPanic => PPanic
      end
  end.

Fixpoint span (f : byte -> bool) (s : str) : str * str :=
  match s with
  | [] => ([], [])
  | b :: s' => if f b then let (a, r) := span f s' in (b :: a, r) else ([], s)
  end.

Definition hyphen_first (s : str) : bool :=
  match s with b :: _ => byte_eqb b x2d | [] => false end.
Fixpoint ident_tail (s : str) : str * str :=
  match s with
  | [] => ([], [])
  | b :: s' =>
      if ident_next [b] && negb (hyphen_first s')
      then let (a, r) := ident_tail s' in (b :: a, r) else ([], s)
  end.
Definition p_ident (s : str) : pres str :=
  match s with
  | [] => PFail
  | b :: s' => if ident_first [b] then let (a, r) := ident_tail s' in PMatch (b :: a) r else PFail
  end.
Definition p_name (s : str) : pres str :=
  pbind (p_str ($":") s) (fun _ s => p_ident s).

Fixpoint until (m s : str) : str * str :=
  if prefixb m s then ([], s)
  else match s with
       | [] => ([], [])
       | b :: s' => let (a, r) := until m s' in (b :: a, r)
       end.
Definition p_until (m s : str) : pres str :=
  let (a, r) := until m s in if is_empty a then PFail else PMatch a r.
Definition p_string (s : str) : pres str :=
  pbind (p_str quotation_mark s) (fun _ s =>
  pbind (p_until quotation_mark s) (fun v s =>
  pbind (p_str quotation_mark s) (fun _ s => PMatch v s))).

Definition p_comma (s : str) : pres unit :=
  pbind (p_str ($",") s) (fun _ s => PMatch tt (snd (span (fun b => byte_eqb b x20) s))).

Definition p_int (s : str) : pres N :=
  let (a, r) := span (fun b => is_digit [b]) s in
  if is_empty a then PFail
  else match usize_from_str a with Some n => PMatch n r | None => PPanic end.

Definition p_param1 (kw s : str) : pres optional_parameter :=
  pbind (p_keyword kw s) (fun name s =>
  pbind (p_str ($"=") s) (fun _ s =>
  pbind (p_int s) (fun value s => PMatch (OptInt name value) s))).
Definition p_param (s : str) : pres optional_parameter :=
  p_or (p_param1 ($"min_len") s) (p_param1 ($"max_len") s).

(** A further parameter, after a comma. *)
Definition p_more (s : str) : pres optional_parameter :=
  pbind (p_comma s) (fun _ s => p_param s).
Definition p_params (s : str) : pres (list optional_parameter) :=
  match p_param s with
  | PMatch v s' => pbind (p_star p_more (S (length s')) s') (fun vs s'' => PMatch (v :: vs) s'')
  | PFail => PMatch [] s
  | PPanic => PPanic
  end.

Definition p_set_params (s : str) : pres (list optional_parameter) :=
  pbind (p_comma s) (fun _ s => p_params s).
Definition p_int_params (s : str) : pres (list optional_parameter) :=
  pbind (p_str ($"(") s) (fun _ s =>
  pbind (p_params s) (fun ps s =>
  pbind (p_str ($")") s) (fun _ s => PMatch ps s))).

Definition p_set (s : str) : pres parser :=
  pbind (p_keyword ($"SET") s) (fun _ s =>
  pbind (p_str ($"(") s) (fun _ s =>
  pbind (p_string s) (fun set s =>
  pbind (p_opt (p_set_params s) s) (fun params s =>
  pbind (p_str ($")") s) (fun _ s =>
  pbind (p_opt (p_name s) s) (fun name s =>
  PMatch (new_set set name params) s)))))).
Definition p_int_parser (s : str) : pres parser :=
  pbind (p_keyword ($"INT") s) (fun _ s =>
  pbind (p_opt (p_int_params s) s) (fun params s =>
  pbind (p_opt (p_name s) s) (fun name s =>
  PMatch (new_int name params) s))).

Definition p_piece_parser (s : str) : pres (list token) :=
  pbind (p_str parser_begin s) (fun _ s =>
  pbind (p_or (p_set s) (p_int_parser s)) (fun q s =>
  pbind (p_str ($"}") s) (fun _ s => PMatch [Parser q] s))).
Definition p_literal (s : str) : pres str := p_until parser_begin s.
Definition p_piece_literal (s : str) : pres (list token) :=
  pbind (p_literal s) (fun l s => PMatch [Literal (unescape_literal l)] s).
Definition p_greedy (s : str) : pres (list token) :=
  pbind (p_str parser_begin s) (fun _ s =>
  pbind (p_keyword ($"GREEDY") s) (fun _ s =>
  pbind (p_opt (p_name s) s) (fun name s =>
  pbind (p_str ($"}") s) (fun _ s =>
  pbind (p_opt (p_literal s) s) (fun e s =>
  PMatch (match e with
          | Some e => [Parser (new_greedy name (Some e)); Literal e]
          | None => [Parser (new_greedy name None)]
          end) s))))).
Definition p_piece (s : str) : pres (list token) :=
  p_or (p_greedy s) (p_or (p_piece_literal s) (p_piece_parser s)).

Definition p_pattern (s : str) : pres (list token) :=
  match p_star p_piece (S (length s)) s with
  | PMatch vs s' => if is_empty vs then PFail else PMatch (concat vs) s'
  | PFail => PFail
  | PPanic => PPanic
  end.
