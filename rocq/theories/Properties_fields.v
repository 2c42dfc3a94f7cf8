(** * Property C160: the order of the fields of a document does not matter *)
From Verif Require Import Base Base_facts Parsers Pattern Grammar Deser Spec_fields Fields_claims.
From Coq Require Import Permutation.

(** ** C160 *)
Theorem C160_pattern :
  forall parse_uuid v v', reordered v v' -> same_outcome (de_pattern parse_uuid v) (de_pattern parse_uuid v').
Proof. exact pattern_reordered. Qed.
Print Assumptions C160_pattern.

Theorem C160_message :
  forall v v', reordered v v' -> same_result (de_test_message v) (de_test_message v').
Proof. exact message_reordered. Qed.
Print Assumptions C160_message.

Theorem C160_file :
  forall parse_uuid v v' ps, reordered v v' ->
    (de_pattern_file parse_uuid v = Ret (Ok ps) <-> de_pattern_file parse_uuid v' = Ret (Ok ps)).
Proof. exact file_reordered. Qed.
Print Assumptions C160_file.

Definition any_uuid (s : str) : option uuid := Some s.

(** With two fields of the same name it does: the last one counts. *)
Theorem C160_repeated :
  exists l l' p p', Permutation l l' /\ de_pattern any_uuid (VMap l) = Ret (Ok p) /\ de_pattern any_uuid (VMap l') = Ret (Ok p') /\
    pat_tokens p <> pat_tokens p'.
Proof.
  exists [($"uuid", VStr ($"u")); ($"pattern", VStr ($"a")); ($"pattern", VStr ($"b"))].
  exists [($"uuid", VStr ($"u")); ($"pattern", VStr ($"b")); ($"pattern", VStr ($"a"))].
  do 2 eexists. split; [apply perm_skip, perm_swap|]. split; [vm_compute; reflexivity|]. split; [vm_compute; reflexivity|]. discriminate.
Qed.
Print Assumptions C160_repeated.

Definition in_order : value :=
  VMap [($"patterns", VSeq [VMap [($"uuid", VStr ($"u")); ($"pattern", VStr ($"x%{INT:n}")); ($"values", VMap [($"a", VStr ($"1")); ($"b", VStr ($"2"))]);
    ($"test_messages", VSeq [VMap [($"message", VStr ($"x1")); ($"values", VMap [($"n", VStr ($"1")); ($"a", VStr ($"1"))])]])]])].
Definition out_of_order : value :=
  VMap [($"patterns", VSeq [VMap [($"test_messages", VSeq [VMap [($"values", VMap [($"a", VStr ($"1")); ($"n", VStr ($"1"))]); ($"message", VStr ($"x1"))]]);
    ($"values", VMap [($"b", VStr ($"2")); ($"a", VStr ($"1"))]); ($"pattern", VStr ($"x%{INT:n}")); ($"uuid", VStr ($"u"))]])].
Ltac distinct := cbn [map fst]; repeat (apply NoDup_cons; [let H := fresh in intros H; cbn in H; intuition discriminate|]); apply NoDup_nil.
Example C160_example :
  reordered in_order out_of_order /\
  (exists ps, de_pattern_file any_uuid in_order = Ret (Ok ps) /\ de_pattern_file any_uuid out_of_order = Ret (Ok ps)) /\
  (** another field is reported as the wrong one *)
  de_pattern any_uuid (VMap [($"name", VNull); ($"uuid", VStr ($"u")); ($"colour", VNull)]) = Ret (Err InvalidType) /\
  de_pattern any_uuid (VMap [($"colour", VNull); ($"uuid", VStr ($"u")); ($"name", VNull)]) = Ret (Err (UnexpectedField ($"colour"))).
Proof.
  split; [|split; [eexists; split; vm_compute; reflexivity|split; vm_compute; reflexivity]].
  eapply reordered_map; [distinct| |apply Permutation_refl].
  constructor; [|constructor]. constructor. constructor; [|constructor].
  eapply reordered_map; [distinct| |].
  { constructor; [constructor|]. constructor; [constructor|]. constructor.
    { eapply reordered_map; [distinct| |apply perm_swap]. repeat constructor. }
    constructor; [|constructor]. constructor. constructor; [|constructor].
    eapply reordered_map; [distinct| |apply perm_swap].
    constructor; [constructor|constructor; [|constructor]].
    eapply reordered_map; [distinct| |apply perm_swap]. repeat constructor. }
  apply Permutation_rev.
Qed.
