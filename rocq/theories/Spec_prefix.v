(** * Plain text in front of a pattern, for C151 and C152 *)
From Verif Require Import Base Parsers Pattern Spec Spec_pdb.

(** A text that the pattern language reads as it is, whatever follows. *)
Definition plain_front (pre : str) : Prop := utf8 pre /\ pre <> [] /\ ~ In x25 pre /\ ~ In x5c pre.

(** The tokens with the text in front. *)
Definition with_text (pre : str) (ts : list token) : list token :=
  match ts with
  | Literal l :: ts' => Literal (pre ++ l) :: ts'
  | _ => Literal pre :: ts
  end.

(** Two answers that say the same: both nothing or both the same values. *)
Definition same_answer (o o' : option match_result) : Prop :=
  match o, o' with
  | Some r, Some r' => forall k v, maps_to (mr_values r) k v <-> maps_to (mr_values r') k v
  | None, None => True
  | _, _ => False
  end.

(** [p'] is [p] with the text in front of the pattern, and every test message of
    [p'] is one of [p] with the program of the example in front. *)
Record fronted (pre : str) (programs : list str) (p p' : pattern) : Prop := {
  fr_name : pat_name p' = pat_name p;
  fr_uuid : pat_uuid p' = pat_uuid p;
  fr_tokens : pat_tokens p' = with_text pre (pat_tokens p);
  fr_tags : pat_tags p' = pat_tags p;
  fr_values : pat_values p' = pat_values p;
  fr_tests : exists l l', pat_test_messages p = Some l /\ pat_test_messages p' = Some l' /\
    length l = length programs /\ length l' = length programs /\
    forall i t t' program, nth_error l i = Some t -> nth_error l' i = Some t' -> nth_error programs i = Some program ->
      tm_message t' = program ++ $": " ++ tm_message t /\ tm_values t' = tm_values t /\ tm_tags t' = tm_tags t
}.
