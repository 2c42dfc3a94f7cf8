(** * Specification vocabulary about error texts *)
From Verif Require Import Base Pattern Source Spec.

Inductive error_kind := KValue | KKey | KNoMatch | KOther | KTags.
Definition kind_of (e : tm_error) : error_kind :=
  match e with
  | ValueNotMatch _ _ _ _ => KValue
  | KeyNotFound _ _ => KKey
  | TestMessageDoesntMatch _ _ => KNoMatch
  | MatchedToOtherPattern _ _ _ => KOther
  | UnexpectedTags _ _ _ => KTags
  end.
(** The pattern whose test failed. *)
Definition pattern_of (e : tm_error) : uuid :=
  match e with
  | ValueNotMatch u _ _ _ | KeyNotFound u _ | TestMessageDoesntMatch u _ | MatchedToOtherPattern u _ _
  | UnexpectedTags u _ _ => u
  end.
Definition uuids_of (e : tm_error) : list uuid :=
  match e with
  | MatchedToOtherPattern u v _ => [u; v]
  | _ => [pattern_of e]
  end.
(** The texts an error is about. *)
Definition texts_of (e : tm_error) : list str :=
  match e with
  | ValueNotMatch _ k x y => [k; x; y]
  | KeyNotFound _ k => [k]
  | TestMessageDoesntMatch _ m | MatchedToOtherPattern _ _ m => [m]
  | UnexpectedTags _ _ _ => []
  end.
Definition tags_of (e : tm_error) : list str :=
  match e with
  | UnexpectedTags _ x y =>
      match x with Some l => l | None => [] end ++ match y with Some l => l | None => [] end
  | _ => []
  end.
Definition sixteen_bytes (u : uuid) : Prop := length u = 16.

(** What is assumed of [{:?}] for Strings: it begins with a quotation mark and
    shows where it ends. *)
Definition quoting (debug : str -> str) : Prop :=
  (forall s, exists t, debug s = x22 :: t) /\
  (forall a b x y, debug a ++ x = debug b ++ y -> a = b /\ x = y).

(** The hexadecimal digits. *)
Definition lower_hex (b : byte) : Prop := In b ($"0123456789abcdef").

Definition contains (s t : str) : Prop := exists a b, s = a ++ t ++ b.
