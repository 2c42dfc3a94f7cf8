(** * Property C161: the trie does not depend on the order of the characters *)
From Verif Require Import Base Base_facts Parsers Pattern Siphash Spec Spec_bytes Bytes_claims Deciders Tests.
From Verif Require Trie SuffixArray.

(** ** C161: exchanging ASCII characters one for one in the literals, sets and end
    strings of the patterns and in the message exchanges them in the values *)
Theorem C161_trie :
  forall f g sip sip' ps ps', exchange f g -> Forall2 (exchanged f) ps ps' ->
    Forall valid_pattern ps -> Forall valid_pattern ps' -> collision_free sip ps -> collision_free sip' ps' ->
    match Trie.add_patterns sip Trie.tree_new ps, Trie.add_patterns sip' Trie.tree_new ps' with
    | Ret t, Ret t' => forall text, utf8 text -> answers_exchanged f ps ps' (Trie.parse t text) (Trie.parse t' (map f text))
    | Panic, Panic => True
    | _, _ => False
    end.
Proof. exact trie_exchanged. Qed.
Print Assumptions C161_trie.

(** In the suffix table the order matters: of the literals "a" and "ac" the first is
    not found by "am", of "a" and "az" it is. *)
Definition cz (b : byte) : byte := if byte_eqb b x63 then x7a else if byte_eqb b x7a then x63 else b.
Definition with_az : list pattern := [tpat 1 ($"a%{SET(""m""):n}"); tpat 2 ($"az")].
Definition with_ac : list pattern := [tpat 1 ($"a%{SET(""m""):n}"); tpat 2 ($"ac")].
Ltac open_tokens :=
  match goal with |- Forall2 _ ?a ?b =>
    let a' := eval vm_compute in a in let b' := eval vm_compute in b in change a with a'; change b with b' end;
  repeat (apply Forall2_cons; [cbn [exchanged_token exchanged_parser]; try reflexivity|]); try apply Forall2_nil.
Lemma cz_exchange : exchange cz cz.
Proof.
  split; [|split]; intros b; destruct b; try reflexivity; intros E; discriminate E.
Qed.
Lemma with_exchanged : Forall2 (exchanged cz) with_az with_ac.
Proof.
  assert (forall s : set_parser, sp_character_set s = [x6d] -> exchanged_set cz s s) as H.
  { intros s E. split; [reflexivity|]. split; [reflexivity|]. split; [reflexivity|]. rewrite E. intros b. destruct b; simpl; intuition discriminate. }
  repeat (apply Forall2_cons; [unfold exchanged; open_tokens|]); try apply Forall2_nil.
  all: apply H; reflexivity.
Qed.
Theorem C161_table_differs :
  exists f ps ps' text, exchange f f /\ Forall2 (exchanged f) ps ps' /\
    Forall valid_pattern ps /\ Forall valid_pattern ps' /\ collision_free siphash ps /\ collision_free siphash ps' /\
    utf8 text /\ table_run ps text <> Ret None /\ table_run ps' (map f text) = Ret None /\
    trie_run ps' (map f text) <> Ret None.
Proof.
  exists cz, with_az, with_ac, ($"am"). split; [exact cz_exchange|]. split; [exact with_exchanged|].
  split; [apply valid_patterns_sound; vm_compute; reflexivity|]. split; [apply valid_patterns_sound; vm_compute; reflexivity|].
  split; [apply collision_freeb_sound; vm_compute; reflexivity|]. split; [apply collision_freeb_sound; vm_compute; reflexivity|].
  split; [apply utf8b_sound; vm_compute; reflexivity|]. split; [vm_compute; discriminate|]. split; [vm_compute; reflexivity|]. vm_compute; discriminate.
Qed.
Print Assumptions C161_table_differs.

(** The alphabet and the digits backwards: INT stays INT. *)
Definition backwards (b : byte) : byte :=
  let n := Byte.to_N b in
  if (N.leb 97 n && N.leb n 122)%bool then byte_of_N (219 - n)
  else if (N.leb 48 n && N.leb n 57)%bool then byte_of_N (105 - n) else b.
Definition forward_demo : list pattern :=
  [tpat 1 ($"cat"); tpat 2 ($"cat %{SET(""abc"",min_len=2):n}"); tpat 3 ($"%{GREEDY:who} is %{INT}"); tpat 4 ($"%{INT:n}")].
Definition backward_demo : list pattern :=
  [tpat 9 ($"xzg"); tpat 8 ($"xzg %{SET(""xyz"",min_len=2):n}"); tpat 7 ($"%{GREEDY:who} rh %{INT}"); tpat 6 ($"%{INT:n}")].
Example C161_example :
  exchange backwards backwards /\ Forall2 (exchanged backwards) forward_demo backward_demo /\
  Forall valid_pattern forward_demo /\ Forall valid_pattern backward_demo /\
  collision_free siphash forward_demo /\ collision_free siphash backward_demo /\
  map (trie_run forward_demo) [$"cat ba"; $"ann is 4"; $"12"; $"dog"] =
    [Ret (Some (uid 2, [($"n", $"ba")])); Ret (Some (uid 3, [($"who", $"ann")])); Ret (Some (uid 4, [($"n", $"12")])); Ret None] /\
  map (trie_run backward_demo) (map (map backwards) [$"cat ba"; $"ann is 4"; $"12"; $"dog"]) =
    [Ret (Some (uid 8, [($"n", $"yz")])); Ret (Some (uid 7, [($"who", $"zmm")])); Ret (Some (uid 6, [($"n", $"87")])); Ret None].
Proof.
  split; [split; [|split]; intros b; destruct b; try reflexivity; intros E; discriminate E|].
  split.
  { assert (forall s s' : set_parser, sp_name s' = sp_name s -> sp_min_length s' = sp_min_length s -> sp_max_length s' = sp_max_length s ->
      forallb (fun n => Bool.eqb (Utils.bset_contains (sp_character_set s') (backwards (byte_of_N (N.of_nat n))))
                                 (Utils.bset_contains (sp_character_set s) (byte_of_N (N.of_nat n)))) (seq 0 256) = true -> exchanged_set backwards s s') as H.
    { intros s s' E1 E2 E3 E4. repeat (split; [assumption|]). intros b. rewrite forallb_forall in E4.
      assert (exists n, In n (seq 0 256) /\ b = byte_of_N (N.of_nat n)) as (n & I & ->).
      { exists (N.to_nat (Byte.to_N b)). split; [apply in_seq; pose proof (Byte.to_N_bounded b); lia|].
        rewrite N2Nat.id. destruct b; reflexivity. }
      specialize (E4 n I). apply Bool.eqb_prop in E4. unfold Utils.bset_contains in E4.
      assert (forall c S, existsb (byte_eqb c) S = true <-> In c S) as M.
      { intros c S. rewrite existsb_exists. split; [intros (y & J & E); apply byte_eqb_eq in E; congruence|].
        intros J. exists c. split; [exact J|apply byte_eqb_eq; reflexivity]. }
      rewrite <- !M, E4. reflexivity. }
    repeat (apply Forall2_cons; [unfold exchanged; open_tokens|]); try apply Forall2_nil.
    all: try (split; reflexivity); apply H; vm_compute; reflexivity. }
  split; [apply valid_patterns_sound; vm_compute; reflexivity|]. split; [apply valid_patterns_sound; vm_compute; reflexivity|].
  split; [apply collision_freeb_sound; vm_compute; reflexivity|]. split; [apply collision_freeb_sound; vm_compute; reflexivity|].
  split; vm_compute; reflexivity.
Qed.
