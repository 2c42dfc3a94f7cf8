(** * Property C163: of the characters the suffix table uses the order only *)
From Verif Require Import Base Base_facts Parsers Pattern Siphash Spec Spec_bytes Spec_ordered Ordered_claims Deciders Tests Properties_bytes.
From Verif Require SuffixArray.

(** ** C163: exchanging ASCII characters one for one such that those in literals and
    message keep their order exchanges them in the values (C161_table_differs: the
    order is needed) *)
Theorem C163_table :
  forall f g K sip sip' ps ps', exchange f g -> keeps_order f K -> Forall2 (exchanged f) ps ps' -> Forall (literals_in K) ps ->
    Forall valid_pattern ps -> Forall valid_pattern ps' -> collision_free sip ps -> collision_free sip' ps' ->
    exists t t', SuffixArray.add_patterns sip SuffixArray.table_new ps = Ret t /\
      SuffixArray.add_patterns sip' SuffixArray.table_new ps' = Ret t' /\
      forall text, Forall K text -> answers_exchanged f ps ps' (SuffixArray.parse t text) (SuffixArray.parse t' (map f text)).
Proof. exact table_exchanged. Qed.
Print Assumptions C163_table.

(** Small letters become capitals, which are above digits and spaces as well. *)
Definition swap_case (b : byte) : byte :=
  let n := Byte.to_N b in
  if (N.leb 97 n && N.leb n 122)%bool then byte_of_N (n - 32)
  else if (N.leb 65 n && N.leb n 90)%bool then byte_of_N (n + 32) else b.
Definition no_capital (b : byte) : Prop := (Byte.to_N b < 65 \/ 97 <= Byte.to_N b <= 122)%N.
Definition small_demo : list pattern :=
  [tpat 1 ($"cat"); tpat 2 ($"cat %{SET(""abc"",min_len=2):n}"); tpat 3 ($"dog %{GREEDY:who} is %{INT}"); tpat 4 ($"cow %{INT:n}")].
Definition capital_demo : list pattern :=
  [tpat 9 ($"CAT"); tpat 8 ($"CAT %{SET(""ABC"",min_len=2):n}"); tpat 7 ($"DOG %{GREEDY:who} IS %{INT}"); tpat 6 ($"COW %{INT:n}")].
Lemma no_capitalb_sound b : (N.ltb (Byte.to_N b) 65 || (N.leb 97 (Byte.to_N b) && N.leb (Byte.to_N b) 122))%bool = true -> no_capital b.
Proof.
  intros E. apply Bool.orb_true_iff in E. destruct E as [E|E]; [left; apply N.ltb_lt; exact E|right].
  apply andb_prop in E. destruct E as [A B]. split; apply N.leb_le; assumption.
Qed.
Lemma swap_case_low b : (Byte.to_N b < 65)%N -> swap_case b = b.
Proof.
  intros L. unfold swap_case. replace (N.leb 97 (Byte.to_N b)) with false by (symmetry; apply N.leb_gt; lia).
  replace (N.leb 65 (Byte.to_N b)) with false by (symmetry; apply N.leb_gt; lia). reflexivity.
Qed.
Lemma swap_case_small b : (97 <= Byte.to_N b <= 122)%N -> Byte.to_N (swap_case b) = (Byte.to_N b - 32)%N.
Proof. destruct b; intros [A B]; try reflexivity; exfalso; vm_compute in A, B; try (apply A; reflexivity); apply B; reflexivity. Qed.
Example C163_example :
  exchange swap_case swap_case /\ keeps_order swap_case no_capital /\
  Forall2 (exchanged swap_case) small_demo capital_demo /\ Forall (literals_in no_capital) small_demo /\
  Forall valid_pattern small_demo /\ Forall valid_pattern capital_demo /\
  collision_free siphash small_demo /\ collision_free siphash capital_demo /\
  map (table_run small_demo) [$"cat ba"; $"dog ann is 4"; $"cow 12"; $"cup"; $"cat"] =
    [Ret (Some (uid 2, [($"n", $"ba")])); Ret (Some (uid 3, [($"who", $"ann")])); Ret (Some (uid 4, [($"n", $"12")])); Ret None;
     Ret (Some (uid 1, []))] /\
  map (table_run capital_demo) [$"CAT BA"; $"DOG ANN IS 4"; $"COW 12"; $"CUP"; $"CAT"] =
    [Ret (Some (uid 8, [($"n", $"BA")])); Ret (Some (uid 7, [($"who", $"ANN")])); Ret (Some (uid 6, [($"n", $"12")])); Ret None;
     Ret (Some (uid 9, []))].
Proof.
  split; [split; [|split]; intros b; destruct b; try reflexivity; intros E; discriminate E|].
  split.
  { intros a b [A|A] [B|B] L.
    - rewrite !swap_case_low by assumption. exact L.
    - rewrite (swap_case_low a A), (swap_case_small b B). lia.
    - lia.
    - rewrite (swap_case_small a A), (swap_case_small b B). lia. }
  split.
  { assert (forall s s' : set_parser, sp_name s' = sp_name s -> sp_min_length s' = sp_min_length s -> sp_max_length s' = sp_max_length s ->
      forallb (fun n => Bool.eqb (Utils.bset_contains (sp_character_set s') (swap_case (byte_of_N (N.of_nat n))))
                                 (Utils.bset_contains (sp_character_set s) (byte_of_N (N.of_nat n)))) (seq 0 256) = true -> exchanged_set swap_case s s') as H.
    { intros s s' E1 E2 E3 E4. repeat (split; [assumption|]). intros b. rewrite forallb_forall in E4.
      assert (exists n, In n (seq 0 256) /\ b = byte_of_N (N.of_nat n)) as (n & I & ->).
      { exists (N.to_nat (Byte.to_N b)). split; [apply in_seq; pose proof (Byte.to_N_bounded b); lia|].
        rewrite N2Nat.id. destruct b; reflexivity. }
      specialize (E4 n I). apply Bool.eqb_prop in E4. unfold Utils.bset_contains in E4.
      assert (forall c S, existsb (byte_eqb c) S = true <-> In c S) as M.
      { intros c S. rewrite existsb_exists. split; [intros (y & J & E); apply byte_eqb_eq in E; congruence|].
        intros J. exists c. split; [exact J|apply byte_eqb_eq; reflexivity]. }
      rewrite <- !M, E4. reflexivity. }
    repeat (apply Forall2_cons; [unfold exchanged; open_tokens|]); try apply Forall2_nil.
    all: try (split; reflexivity); apply H; vm_compute; reflexivity. }
  split.
  { assert (forallb (fun p => forallb (fun t => match t with Literal l => forallb (fun b => N.ltb (Byte.to_N b) 65 || (N.leb 97 (Byte.to_N b) && N.leb (Byte.to_N b) 122))%bool l | Parser _ => true end) (pat_tokens p)) small_demo = true) as E by (vm_compute; reflexivity).
    rewrite forallb_forall in E. apply Forall_forall. intros p Hp l Hl. specialize (E p Hp). rewrite forallb_forall in E. specialize (E _ Hl).
    cbn beta iota in E. rewrite forallb_forall in E. apply Forall_forall. intros b Hb. apply no_capitalb_sound. apply (E b Hb). }
  split; [apply valid_patterns_sound; vm_compute; reflexivity|]. split; [apply valid_patterns_sound; vm_compute; reflexivity|].
  split; [apply collision_freeb_sound; vm_compute; reflexivity|]. split; [apply collision_freeb_sound; vm_compute; reflexivity|].
  split; vm_compute; reflexivity.
Qed.
