(** * Documents that differ in the order of their fields, for C160 *)
From Verif Require Import Base Pattern Deser.
From Coq Require Import Permutation.

(** [reordered v v']: [v'] is [v] with the fields of its objects in another order;
    no object has two fields of the same name.  Lists keep their order. *)
Inductive reordered : value -> value -> Prop :=
| reordered_null : reordered VNull VNull
| reordered_str s : reordered (VStr s) (VStr s)
| reordered_other : reordered VOther VOther
| reordered_seq l l' : reordered_list l l' -> reordered (VSeq l) (VSeq l')
| reordered_map l m l' :
    NoDup (map fst l) -> reordered_fields l m -> Permutation m l' -> reordered (VMap l) (VMap l')
with reordered_list : list value -> list value -> Prop :=
| reordered_list_nil : reordered_list [] []
| reordered_list_cons v v' l l' : reordered v v' -> reordered_list l l' -> reordered_list (v :: l) (v' :: l')
with reordered_fields : list (str * value) -> list (str * value) -> Prop :=
| reordered_fields_nil : reordered_fields [] []
| reordered_fields_cons k v v' l l' :
    reordered v v' -> reordered_fields l l' -> reordered_fields ((k, v) :: l) ((k, v') :: l').

(** Both give the same, or both are rejected (perhaps for another reason). *)
Definition same_result {A E : Type} (r r' : result A E) : Prop :=
  match r, r' with
  | Ok a, Ok a' => a = a'
  | Err _, Err _ => True
  | _, _ => False
  end.
Definition same_outcome {A E : Type} (o o' : outcome (result A E)) : Prop :=
  match o, o' with
  | Ret r, Ret r' => same_result r r'
  | Panic, Panic => True
  | OutOfFuel, OutOfFuel => True
  | _, _ => False
  end.
