(** * Property C173: messages that went wrong *)
From Verif Require Import Base Base_facts Utils Parsers Parsers_facts Pattern Grammar Source Spec Spec_fill Spec_early Spec_stuck Spec_table Spec_source Spec_canon Spec_separate Stuck_claims Stuck_separate Siphash Deciders Tests.
From Verif Require Trie SuffixArray.

(** ** C173: a message that went wrong stays wrong, any other can be completed *)
Theorem C173_stays_wrong :
  forall sip ps t p a b r,
    Forall valid_pattern ps -> collision_free sip ps -> NoDup (map pat_uuid ps) -> Trie.add_patterns sip Trie.tree_new ps = Ret t ->
    In p ps -> stuck (pat_tokens p) a -> utf8 (a ++ b) -> Trie.parse t (a ++ b) = Ret (Some r) -> mr_pattern r <> stripped p.
Proof. exact trie_stuck. Qed.
Print Assumptions C173_stays_wrong.

Theorem C173_exactly :
  forall sip p t a,
    valid_pattern p -> (forall q, parser_in [p] q -> parser_ascii_set q) -> collision_free sip [p] -> Trie.add_patterns sip Trie.tree_new [p] = Ret t ->
    pat_tokens p <> [] -> spaced (pat_tokens p) -> Forall fillable (pat_tokens p) -> utf8 a ->
    (stuck (pat_tokens p) a /\ forall b o, utf8 (a ++ b) -> Trie.parse t (a ++ b) = Ret o -> o = None) \/
    (~ stuck (pat_tokens p) a /\ exists b, utf8 (a ++ b) /\ forall o, Trie.parse t (a ++ b) = Ret o -> o <> None).
Proof. exact trie_goes_on. Qed.
Print Assumptions C173_exactly.

(** Among separate patterns a message can be completed as long as one of them is not stuck,
    and for this one. *)
Theorem C173_separate :
  forall sip ps t a,
    Forall valid_pattern ps -> (forall q, parser_in ps q -> parser_ascii_set q) -> separate ps -> Trie.add_patterns sip Trie.tree_new ps = Ret t ->
    Forall (fun p => spaced (pat_tokens p) /\ Forall fillable (pat_tokens p)) ps -> utf8 a ->
    ((forall p, In p ps -> stuck (pat_tokens p) a) -> forall b o, utf8 (a ++ b) -> Trie.parse t (a ++ b) = Ret o -> o = None) /\
    forall p, In p ps -> stuck (pat_tokens p) a \/
      exists b, utf8 (a ++ b) /\
        (forall o, Trie.parse t (a ++ b) = Ret o -> exists r, o = Some r /\ mr_pattern r = stripped p) /\
        forall sip' t', SuffixArray.add_patterns sip' SuffixArray.table_new ps = Ret t' ->
          exists r, SuffixArray.parse t' (a ++ b) = Ret (Some r) /\ mr_pattern r = stripped p.
Proof. exact separate_goes_on. Qed.
Print Assumptions C173_separate.
Example C173_separate_example :
  let ps := [tpat 1 ($"user %{INT:id}."); tpat 2 ($"root %{GREEDY:all}")] in
  Forall valid_pattern ps /\ (forall q, parser_in ps q -> parser_ascii_set q) /\ separate ps /\
  Forall (fun p => spaced (pat_tokens p) /\ Forall fillable (pat_tokens p)) ps /\
  (forall p, In p ps -> stuck (pat_tokens p) ($"rox")) /\
  map (trie_run ps) [$"rox"; $"root 1"; $"user 1."; $"user 1.."] =
    [Ret None; Ret (Some (uid 2, [($"all", $"1")])); Ret (Some (uid 1, [($"id", $"1")])); Ret None].
Proof.
  intros ps. split; [apply valid_patterns_sound; vm_compute; reflexivity|].
  split.
  { intros q (x & Jx & Jq). assert (Forall ascii_pattern ps) as Asc by (apply ascii_patterns_sound; vm_compute; reflexivity).
    rewrite Forall_forall in Asc. specialize (Asc x Jx). unfold ascii_pattern in Asc. rewrite Forall_forall in Asc. exact (Asc _ Jq). }
  split.
  { split; [intros q [<-|[<-|[]]]; eexists; eexists; vm_compute; reflexivity|].
    intros i j x y L Ei Ej l m r (a & Ea) (b & Eb). destruct i as [|[|i]]; [|exfalso|destruct i; discriminate Ei].
    - destruct j as [|[|j]]; [lia| |destruct j; discriminate Ej]. injection Ei as <-. injection Ej as <-. vm_compute in Ea, Eb.
      injection Ea as <- _. injection Eb as <- _. split; discriminate.
    - destruct j as [|[|j]]; [lia|lia|destruct j; discriminate Ej]. }
  split.
  { apply Forall_cons; [|apply Forall_cons; [|apply Forall_nil]];
      (match goal with |- spaced ?x /\ _ => let y := eval vm_compute in x in change x with y end;
       split; [cbn [spaced parts_from sp_character_set gp_end_string]; repeat split; try (eexists; reflexivity); cbn; intuition discriminate|]);
      repeat apply Forall_cons; try apply Forall_nil; cbn [fillable sp_character_set sp_min_length sp_max_length above_min below_max];
      try discriminate; try exact Logic.I; (split; [discriminate|]; exists ($"xx"); repeat split; cbn; discriminate). }
  split; [|vm_compute; reflexivity].
  assert (exists s t, pat_tokens (tpat 1 ($"user %{INT:id}.")) = Literal ($"user ") :: s /\ pat_tokens (tpat 2 ($"root %{GREEDY:all}")) = Literal ($"root ") :: t)
    as (s & t & E1 & E2) by (eexists; eexists; split; vm_compute; reflexivity).
  intros p [<-|[<-|[]]]; [rewrite E1|rewrite E2]; apply stuck_literal; intros (r & E); discriminate E.
Qed.

(** The suffix table also takes part of a literal, so there it is not so. *)
Theorem C173_table_refuted :
  exists p a b, valid_pattern p /\ stuck (pat_tokens p) a /\ utf8 (a ++ b) /\ trie_run [p] (a ++ b) = Ret None /\
    table_run [p] (a ++ b) = Ret (Some (pat_uuid p, [($"n", $"1")])).
Proof.
  exists (tpat 1 ($"ab%{INT:n}")), ($"a1"), [].
  split; [apply (Forall_inv (P := valid_pattern) (l := [])); apply valid_patterns_sound; vm_compute; reflexivity|].
  split.
  { assert (exists ts, pat_tokens (tpat 1 ($"ab%{INT:n}")) = Literal ($"ab") :: ts) as (ts & ->) by (eexists; vm_compute; reflexivity).
    apply stuck_literal; intros (r & E); discriminate E. }
  split; [apply ascii_utf8; vm_compute; reflexivity|]. split; vm_compute; reflexivity.
Qed.
Print Assumptions C173_table_refuted.

(** A pattern, beginnings that went wrong and one that did not *)
Example C173_example :
  let p := tpat 1 ($"user %{INT(max_len=3):id}: %{SET(""xy"",min_len=2):m} %{GREEDY:r}.") in
  valid_pattern p /\ (forall q, parser_in [p] q -> parser_ascii_set q) /\ collision_free siphash [p] /\ pat_tokens p <> [] /\
  spaced (pat_tokens p) /\ Forall fillable (pat_tokens p) /\
  stuck (pat_tokens p) ($"user 1234") /\ stuck (pat_tokens p) ($"user 12;") /\ stuck (pat_tokens p) ($"user 12: x ") /\
  map (trie_run [p]) [$"user 123: xy a."; $"user 1234: xy a."; $"user 12; xy a."; $"user 12: x a."] =
    [Ret (Some (uid 1, [($"id", $"123"); ($"m", $"xy"); ($"r", $"a")])); Ret None; Ret None; Ret None].
Proof.
  intros p. split; [apply (Forall_inv (P := valid_pattern) (l := [])); apply valid_patterns_sound; vm_compute; reflexivity|].
  split.
  { intros q (x & Jx & Jq). assert (Forall ascii_pattern [p]) as Asc by (apply ascii_patterns_sound; vm_compute; reflexivity).
    rewrite Forall_forall in Asc. specialize (Asc x Jx). unfold ascii_pattern in Asc. rewrite Forall_forall in Asc. exact (Asc _ Jq). }
  split; [apply collision_freeb_sound; vm_compute; reflexivity|]. split; [vm_compute; discriminate|].
  split.
  { match goal with |- spaced ?x => let y := eval vm_compute in x in change x with y end.
    cbn [spaced parts_from sp_character_set gp_end_string]. repeat split; try (eexists; reflexivity); cbn; intuition discriminate. }
  split.
  { match goal with |- Forall _ ?x => let y := eval vm_compute in x in change x with y end.
    repeat apply Forall_cons; try apply Forall_nil; cbn [fillable sp_character_set sp_min_length sp_max_length above_min below_max];
      try discriminate; try exact Logic.I; (split; [discriminate|]; exists ($"xx"); repeat split; cbn; discriminate). }
  assert (exists s q2 q3, pat_tokens p = [Literal ($"user "); Parser (PInt s); Literal ($": "); Parser (PSet q2); Literal ($" "); Parser q3; Literal ($".")] /\
    sp_character_set s = $"0123456789" /\ sp_min_length s = None /\ sp_max_length s = Some 3%N /\
    sp_character_set q2 = $"xy" /\ sp_min_length q2 = Some 2%N) as (s & q2 & q3 & -> & Es & Em & Ex & Es2 & Em2)
    by (eexists; eexists; eexists; split; [vm_compute; reflexivity|repeat split]).
  assert (forall v, Forall (fun x => In x ($"0123456789")) v -> v <> [] -> length v <= 3 -> forall c, settled (PInt s) v (x3a :: c)) as St.
  { intros v F Nv L c. split; [|discriminate]. cbn [captures]. rewrite Es, Em, Ex. split.
    - split; [exists (x3a :: c); reflexivity|]. split; [exact F|]. intros w (r & E) Fw. destruct (Nat.le_gt_cases (length w) (length v)) as [G|G]; [exact G|exfalso].
      assert (In x3a w) as J.
      { clear -E G. revert w E G. induction v as [|y v IH]; intros w E G; destruct w as [|z w]; cbn in *; try lia.
        - injection E as <- _. left. reflexivity.
        - injection E as _ E. right. apply (IH w E). lia. }
      rewrite Forall_forall in Fw. specialize (Fw _ J). cbn in Fw. intuition discriminate.
    - split; [exact Nv|]. split; cbn; [exact Logic.I|lia]. }
  assert (Forall (fun x => In x ($"0123456789")) ($"12")) as F12 by (repeat constructor; cbn; auto 12).
  assert (forall v, forallb (fun x => existsb (Byte.eqb x) ($"0123456789")) v = true -> Forall (fun x => In x ($"0123456789")) v) as Dg.
  { intros v H. apply Forall_forall. intros x J. rewrite forallb_forall in H. specialize (H x J). apply existsb_exists in H. destruct H as (y & Jy & E).
    apply Byte.byte_dec_bl in E. subst y. exact Jy. }
  split.
  { apply (stuck_behind_literal ($"user ") _ ($"1234")). apply (stuck_long (PInt s) s _ ($"1234") [] 3%N); [right; reflexivity|rewrite Es; apply Dg; reflexivity|exact Ex|reflexivity]. }
  split.
  { apply (stuck_behind_literal ($"user ") _ ($"12;")). apply (stuck_behind_parser (PInt s) ($"12") _ ($";")).
    - split; [|discriminate]. cbn [captures]. rewrite Es, Em, Ex. split.
      + split; [exists ($";"); reflexivity|]. split; [exact F12|]. intros w (r & E) Fw. destruct w as [|a [|b [|c w]]]; cbn; try lia.
        exfalso. cbn in E. injection E as _ _ E _. subst c. inversion Fw as [|? ? _ F1]; subst. inversion F1 as [|? ? _ F2]; subst. inversion F2 as [|? ? J _]; subst. cbn in J. intuition discriminate.
      + split; [discriminate|]. split; cbn; [exact Logic.I|lia].
    - apply stuck_literal; intros (r & E); discriminate E. }
  split.
  { apply (stuck_behind_literal ($"user ") _ ($"12: x ")). apply (stuck_behind_parser (PInt s) ($"12") _ ($": x ")); [apply (St ($"12") F12); [discriminate|cbn; lia]|].
    apply (stuck_behind_literal ($": ") _ ($"x ")). apply (stuck_run (PSet q2) q2 _ ($"x") x20 []); [left; reflexivity| | |].
    - rewrite Es2. repeat constructor; cbn; auto.
    - rewrite Es2. cbn. intuition discriminate.
    - intros (_ & _ & H & _). rewrite Em2 in H. cbn in H. lia. }
  vm_compute. reflexivity.
Qed.
