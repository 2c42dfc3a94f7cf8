(** * Model of src/utils/ and of the std slice functions it calls. *)
From Verif Require Import Base.

(** ** src/utils/common_prefix.rs *)

(** src/utils/common_prefix.rs:26-38, the loop of [common_prefix_len].  The two
    byte iterators [a_i], [b_i] are the remaining lists [a], [b]; the counter
    [i] runs up to [min_len], which is reached exactly when one of the two
    iterators is exhausted, so the final [min_len] is the current [i]. *)
Fixpoint cpl_loop (self a b : str) (i last : nat) : nat :=
  match a, b with
  | x :: a', y :: b' =>
      let last' := if is_char_boundary self i then i else last in
      if byte_eqb x y then cpl_loop self a' b' (S i) last' else last'
  | _, _ => i
  end.

(** src/utils/common_prefix.rs:20-39 *)
Definition common_prefix_len (self other : str) : nat :=
  cpl_loop self self other 0 0.

(** src/utils/common_prefix.rs:4-12 *)
Definition has_common_prefix (self other : str) : option nat :=
  let cpl := common_prefix_len self other in
  if Nat.ltb 0 cpl then Some cpl else None.

(** src/utils/common_prefix.rs:41-43 *)
Definition ltrunc (self : str) (len : nat) : outcome str := slice_from self len.

(** src/utils/common_prefix.rs:44-47 *)
Definition rtrunc (self : str) (len : nat) : outcome str :=
  let* new_len := usub (length self) len in
  slice_to self new_len.

(** ** src/utils/mod.rs *)

(** src/utils/mod.rs:8-16.  The two nested loops push every element of every
    inner vector. *)
Definition flatten_vec {A : Type} (vectors : list (list A)) : list A :=
  fold_left (fun acc vector => fold_left (fun acc' i => acc' ++ [i]) vector acc) vectors [].

(** ** std slice functions *)

(** Rust std [slice::binary_search_by] (the base/lim loop of the releases this
    crate targets).  [fuel] bounds the number of iterations; [length l] of them
    always suffice.  The comparison closure may panic. *)
Section BinarySearch.
  Context {A : Type} (l : list A) (f : A -> outcome comparison).
  Fixpoint bsearch_loop (fuel base lim : nat) : outcome (nat + nat) :=
    match lim with
    | O => Ret (inr base)
    | S lim_minus_1 =>
        match fuel with
        | O => OutOfFuel
        | S fuel' =>
            let ix := base + Nat.div2 lim in
            let* x := get_unwrap l ix in
            let* c := f x in
            match c with
            | Eq => Ret (inl ix)
            | Lt => bsearch_loop fuel' (S ix) (Nat.div2 lim_minus_1)
            | Gt => bsearch_loop fuel' base (Nat.div2 lim)
            end
        end
    end.
  (** [inl pos] is Rust's [Ok(pos)], [inr pos] is [Err(pos)]. *)
  Definition binary_search_by : outcome (nat + nat) :=
    bsearch_loop (length l) 0 (length l).
End BinarySearch.

(** Rust std [slice::sort], a stable sort.  Modelled by the insertion sort std
    uses for short slices: each element is compared with the already sorted
    ones from the right and inserted after the first one it is not [Less]
    than.  (For more than 16 elements std merges insertion-sorted runs; the
    result is the same stable sort, only the set of comparisons performed
    differs.)  The comparison may panic. *)
Section Sort.
  Context {A : Type} (cmp : A -> A -> outcome comparison).
  (** [rl] is the sorted prefix in reverse order. *)
  Fixpoint sort_insert (rl : list A) (x : A) : outcome (list A) :=
    match rl with
    | [] => Ret [x]
    | y :: rl' =>
        let* c := cmp x y in
        match c with
        | Lt => let* r := sort_insert rl' x in Ret (y :: r)
        | _ => Ret (x :: rl)
        end
    end.
  Fixpoint sort_loop (rl todo : list A) : outcome (list A) :=
    match todo with
    | [] => Ret (rev rl)
    | x :: todo' => let* rl' := sort_insert rl x in sort_loop rl' todo'
    end.
  Definition sort (l : list A) : outcome (list A) := sort_loop [] l.
End Sort.

(** ** src/utils/sortedvec.rs

    A [SortedVec<T>] is the list in its [array] field (sortedvec.rs:4-6); the
    [Ord] instance of [T] is the argument [cmp]. *)
Section SortedVec.
  Context {T : Type} (cmp : T -> T -> outcome comparison).

  (** sortedvec.rs:9-11 *)
  Definition sv_new : list T := [].

  (** sortedvec.rs:13-16 *)
  Definition sv_push (array : list T) (value : T) : outcome (list T) :=
    sort cmp (array ++ [value]).

  (** Successive [push] calls. *)
  Fixpoint sv_pushes (array : list T) (values : list T) : outcome (list T) :=
    match values with
    | [] => Ret array
    | value :: values' => let* array' := sv_push array value in sv_pushes array' values'
    end.

  (** sortedvec.rs:56-71, the hand-written loop. *)
  Fixpoint sv_bsearch_loop (array : list T) (needle : T) (fuel low high : nat)
    : outcome (option nat) :=
    if Nat.ltb low high then
      match fuel with
      | O => OutOfFuel
      | S fuel' =>
          let mid := Nat.div2 (low + high) in
          let* x := get_unwrap array mid in
          let* c := cmp x needle in
          match c with
          | Lt => sv_bsearch_loop array needle fuel' (S mid) high
          | Gt => sv_bsearch_loop array needle fuel' low mid
          | Eq => Ret (Some mid)
          end
      end
    else Ret None.
  Definition sv_binary_search (array : list T) (needle : T) : outcome (option nat) :=
    sv_bsearch_loop array needle (length array) 0 (length array).

  (** sortedvec.rs:18-20 *)
  Definition sv_find_pos (array : list T) (value : T) : outcome (option nat) :=
    sv_binary_search array value.

  (** sortedvec.rs:22-28 *)
  Definition sv_find (array : list T) (value : T) : outcome (option T) :=
    let* r := sv_binary_search array value in
    match r with
    | Some index => Ret (nth_error array index)
    | None => Ret None
    end.

  (** sortedvec.rs:30-32, [Vec::remove]: panics when out of range. *)
  Definition sv_remove (array : list T) (index : nat) : outcome (list T * T) :=
    match nth_error array index with
    | Some x => Ret (firstn index array ++ skipn (S index) array, x)
    | None => Panic
    end.

  (** sortedvec.rs:34-36 *)
  Definition sv_get (array : list T) (index : nat) : option T := nth_error array index.

  (** sortedvec.rs:42-48 *)
  Definition sv_len (array : list T) : nat := length array.
  Definition sv_is_empty (array : list T) : bool := is_empty array.

  (** sortedvec.rs:50-54 *)
  Definition sv_binary_search_by (array : list T) (f : T -> outcome comparison)
    : outcome (nat + nat) := binary_search_by array f.
End SortedVec.

(** ** std BTreeSet<u8> and BTreeMap<String/&str, ...>

    Both are kept as lists sorted by key without duplicates, so equal
    contents are equal lists. *)
Fixpoint bset_insert (x : byte) (l : list byte) : list byte :=
  match l with
  | [] => [x]
  | y :: l' =>
      match byte_cmp x y with
      | Lt => x :: l
      | Eq => l
      | Gt => y :: bset_insert x l'
      end
  end.
Definition bset_from_iter (l : list byte) : list byte :=
  fold_left (fun acc x => bset_insert x acc) l [].
Definition bset_contains (l : list byte) (x : byte) : bool := existsb (byte_eqb x) l.

Definition bmap := list (str * str).
Fixpoint bmap_insert (k v : str) (m : bmap) : bmap :=
  match m with
  | [] => [(k, v)]
  | (k', v') :: m' =>
      match str_cmp k k' with
      | Lt => (k, v) :: m
      | Eq => (k, v) :: m'
      | Gt => (k', v') :: bmap_insert k v m'
      end
  end.
Fixpoint bmap_get (m : bmap) (k : str) : option str :=
  match m with
  | [] => None
  | (k', v') :: m' => if str_eqb k k' then Some v' else bmap_get m' k
  end.
