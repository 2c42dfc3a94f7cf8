(** * Property C146: the texts of the model are those of Rust *)
From Verif Require Import Base Grammar Spec_unicode Unicode_claims.

(** ** C146 *)
Theorem C146_texts :
  forall s, utf8 s <-> exists l, Forall scalar l /\ s = encode_all l.
Proof. exact texts. Qed.
Print Assumptions C146_texts.

Theorem C146_one_reading :
  forall l l', Forall scalar l -> Forall scalar l' -> encode_all l = encode_all l' -> l = l'.
Proof. exact texts_unique. Qed.
Print Assumptions C146_one_reading.

Theorem C146_boundaries :
  forall l i, Forall scalar l ->
    (is_char_boundary (encode_all l) i = true <-> exists a b, l = a ++ b /\ i = length (encode_all a)).
Proof. exact boundaries. Qed.
Print Assumptions C146_boundaries.

Theorem C146_char_at :
  forall a n b, Forall scalar (a ++ n :: b) ->
    char_range_at (encode_all (a ++ n :: b)) (length (encode_all a)) =
      Ret (encode n, length (encode_all (a ++ [n]))).
Proof. exact char_at. Qed.
Print Assumptions C146_char_at.

(** A letter, an accented one, the euro sign and a face: one to four bytes. *)
Example C146_example :
  Forall scalar [97; 233; 8364; 128512]%N /\
  encode_all [97; 233; 8364; 128512]%N = $"aé€😀" /\ length ($"aé€😀") = 10 /\
  char_range_at ($"aé€😀") 3 = Ret ($"€", 6) /\ char_range_at ($"aé€😀") 4 = Panic /\
  utf8b [xed; xa0; x80] = false /\ utf8b [xc0; x80] = false /\ utf8b [xf4; x90; x80; x80] = false.
Proof.
  split; [|vm_compute; repeat split; reflexivity].
  repeat (apply Forall_cons; [first [left; reflexivity|right; split; apply N.leb_le; reflexivity]|]). apply Forall_nil.
Qed.
