(** * Properties C08, C09, C10: src/utils/ *)
From Coq Require Import Sorted Permutation.
From Verif Require Import Base Base_facts Utils Utils_facts Parsers Pattern Spec Parsers_claims.

(** ** C08 *)
Theorem C08_common_prefix_longest :
  forall a b, utf8 a -> utf8 b ->
    exists w, length w = common_prefix_len a b /\ longest_common_chars a b w.
Proof. exact cpl_longest. Qed.
Print Assumptions C08_common_prefix_longest.

Theorem C08_common_prefix_symmetric :
  forall a b, utf8 a -> utf8 b -> common_prefix_len a b = common_prefix_len b a.
Proof. exact cpl_sym. Qed.
Print Assumptions C08_common_prefix_symmetric.

Theorem C08_truncation_safe :
  forall a b, utf8 a -> utf8 b ->
    let n := common_prefix_len a b in
    exists w ra rb, n = length w /\ a = w ++ ra /\ b = w ++ rb /\
      ltrunc a n = Ret ra /\ ltrunc b n = Ret rb /\
      rtrunc a (length ra) = Ret w /\ rtrunc b (length rb) = Ret w.
Proof. exact cpl_truncate. Qed.
Print Assumptions C08_truncation_safe.

(** "a" followed by two different characters with the same first byte. *)
Example C08_example :
  utf8 ($"a¡b") /\ utf8 ($"a®b") /\ common_prefix_len ($"a¡b") ($"a®b") = 1 /\
  ltrunc ($"a¡b") 1 = Ret ($"¡b") /\ ltrunc ($"a¡b") 2 = Panic.
Proof.
  split; [apply utf8b_sound; vm_compute; reflexivity|].
  split; [apply utf8b_sound; vm_compute; reflexivity|]. vm_compute. auto.
Qed.

(** ** C09 *)
Theorem C09_sorted_vec :
  forall (A : Type) (c : A -> A -> comparison), total_order c ->
    forall xs, exists r,
      sv_pushes (fun x y => Ret (c x y)) sv_new xs = Ret r /\
      StronglySorted (sle c) r /\ Permutation xs r /\
      (forall z, filter (fun y => match c z y with Eq => true | _ => false end) r =
                 filter (fun y => match c z y with Eq => true | _ => false end) xs).
Proof. exact sv_pushes_new. Qed.
Print Assumptions C09_sorted_vec.

Lemma nat_total_order : total_order Nat.compare.
Proof.
  split.
  - intros x y. apply Nat.compare_antisym.
  - intros x y z H1 H2. rewrite Nat.compare_le_iff in *. lia.
Qed.

(** Equal elements keep their order: keys are compared, the second components
    tell the elements apart. *)
Example C09_example :
  sv_pushes (fun x y => Ret (Nat.compare (fst x) (fst y))) sv_new
    [(3, 0); (1, 1); (3, 2); (2, 3); (1, 4)] = Ret [(1, 1); (1, 4); (2, 3); (3, 0); (3, 2)].
Proof. reflexivity. Qed.

(** ** C10 *)
Theorem C10_find_pos :
  forall (A : Type) (c : A -> A -> comparison), total_order c ->
    forall l needle, StronglySorted (sle c) l ->
      match sv_find_pos (fun x y => Ret (c x y)) l needle with
      | Ret (Some i) => exists x, nth_error l i = Some x /\ c x needle = Eq
      | Ret None => forall x, In x l -> c x needle <> Eq
      | _ => False
      end.
Proof. exact (@sv_binary_search_spec). Qed.
Print Assumptions C10_find_pos.

Theorem C10_find :
  forall (A : Type) (c : A -> A -> comparison), total_order c ->
    forall l needle, StronglySorted (sle c) l ->
      match sv_find (fun x y => Ret (c x y)) l needle with
      | Ret (Some x) => In x l /\ c x needle = Eq
      | Ret None => forall x, In x l -> c x needle <> Eq
      | _ => False
      end.
Proof. exact (@sv_find_spec). Qed.
Print Assumptions C10_find.

Example C10_example :
  total_order Nat.compare /\ StronglySorted (sle Nat.compare) [1; 3; 3; 7; 9] /\
  sv_find_pos (fun x y => Ret (Nat.compare x y)) [1; 3; 3; 7; 9] 7 = Ret (Some 3) /\
  sv_find_pos (fun x y => Ret (Nat.compare x y)) [1; 3; 3; 7; 9] 4 = Ret None.
Proof.
  split; [exact nat_total_order|]. split; [|split; reflexivity].
  repeat (constructor; [|repeat (constructor; [vm_compute; discriminate|]); constructor]); constructor.
Qed.
