(** * Filling in a pattern *)
From Verif Require Import Base Base_facts Utils Parsers Pattern Source Spec Spec_table Spec_source Spec_canon Spec_separate Separate_claims
  Separate_tests Single_claims TrieSpec_cases Trie_main Table_claims Spec_fill.
From Verif Require Trie SuffixArray.

Lemma admissible_captures s v rest : admissible_set s v -> match rest with b :: _ => ~ In b (sp_character_set s) | [] => True end ->
  set_captures (sp_character_set s) (sp_min_length s) (sp_max_length s) (v ++ rest) v.
Proof.
  intros (N0 & F & Mn & Mx) H. split; [|split; [exact N0|split; [unfold above_min|unfold below_max]; assumption]].
  split; [exists rest; reflexivity|]. split; [exact F|]. intros w' (r & E) F'. destruct (Nat.le_gt_cases (length w') (length v)) as [L|L]; [exact L|exfalso].
  assert (exists b u, w' = v ++ b :: u) as (b & u & Ew).
  { clear -E L. revert v rest E L. induction w' as [|x w' IH]; intros v rest E L; [simpl in L; lia|]. destruct v as [|y v]; [exists x, w'; reflexivity|].
    injection E as -> E. destruct (IH v rest E) as (b & u & ->); [simpl in L; lia|]. exists b, u. reflexivity. }
  subst w'. rewrite <- app_assoc in E. apply app_inv_head in E. subst rest. apply Forall_app in F'. destruct F' as (_ & F'). inversion F'; subst. contradiction.
Qed.
Lemma captures_admissible q text v rest : text = v ++ rest -> captures q text v -> admissible q v.
Proof.
  intros Et. assert (forall s, set_captures (sp_character_set s) (sp_min_length s) (sp_max_length s) text v -> admissible_set s v) as H.
  { intros s ((_ & F & _) & N0 & Mn & Mx). split; [exact N0|]. split; [exact F|]. split; [exact Mn|exact Mx]. }
  destruct q as [s|s|x]; cbn [captures admissible]; try apply H. unfold greedy_captures. destruct (gp_end_string x) as [e|]; [|exact (fun _ => I)].
  intros ((r & E) & M) a b Eab. specialize (M a). destruct b as [|b bs]; [reflexivity|exfalso].
  assert (length v <= length a) as L.
  { apply M. exists ((b :: bs) ++ r). rewrite <- app_assoc in E. rewrite E. rewrite app_assoc, Eab, <- !app_assoc. reflexivity. }
  apply (f_equal (@length byte)) in Eab. rewrite !app_length in Eab. simpl in Eab. lia.
Qed.

Lemma walk_filled ts text caps : trie_walk ts text caps -> filled ts caps text /\ Forall (fun x => admissible (fst x) (snd x)) caps.
Proof.
  induction 1 as [l|q v C|l ts text caps N0 Nl Nt W IH|q ts v text caps N0 C W IH].
  - split; [|constructor]. rewrite <- (app_nil_r l) at 2. constructor; [left; reflexivity|constructor].
  - split; [|constructor; [cbn; apply (captures_admissible q v v []); [symmetry; apply app_nil_r|exact C]|constructor]].
    rewrite <- (app_nil_r v) at 2. constructor. constructor.
  - destruct IH as (F & A). split; [|exact A]. constructor; [right; auto|exact F].
  - destruct IH as (F & A). split; [constructor; exact F|]. constructor; [|exact A]. cbn. eapply captures_admissible; [reflexivity|exact C].
Qed.

(** The beginning of what is filled in *)
Lemma filled_begin set t ts vs text : filled (t :: ts) vs text -> Forall (fun x => admissible (fst x) (snd x)) vs -> parts_from set t ->
  match text with b :: _ => ~ In b set | [] => True end.
Proof.
  intros F A P. inversion F as [|l ? ? text' C F'|q v ? vs' text' F']; subst.
  - destruct l as [|b l]; [destruct P|]. exact P.
  - inversion A as [|? ? Av _]; subst. cbn [fst snd] in Av.
    assert (forall s, (forall b, In b set -> ~ In b (sp_character_set s)) -> admissible_set s v -> match v ++ text' with b :: _ => ~ In b set | [] => True end) as Z.
    { intros s D (N0 & Fv & _). destruct v as [|b v]; [congruence|]. simpl. intros J. inversion Fv; subst. exact (D b J H1). }
    destruct q as [s|s|x]; cbn [parts_from admissible] in *; [exact (Z s P Av)|exact (Z s P Av)|destruct P].
Qed.

Lemma filled_walk ts vs text : filled ts vs text -> spaced ts -> ts <> [] -> Forall (fun x => admissible (fst x) (snd x)) vs -> trie_walk ts text vs.
Proof.
  induction 1 as [|l ts vs text C F IH|q v ts vs text F IH]; intros S N0 A; [congruence| |].
  - cbn [spaced] in S. destruct ts as [|t ts].
    + inversion F; subst. rewrite app_nil_r. constructor.
    + destruct C as [C|(Nl & Nt)]; [discriminate C|]. apply tw_literal; [discriminate|exact Nl|exact Nt|]. apply IH; [exact S|discriminate|exact A].
  - inversion A as [|? ? Av A']; subst. cbn [fst snd] in Av.
    assert (captures q (v ++ text) v /\ spaced ts) as (C & S').
    { assert (forall s, match ts with [] => True | t :: _ => parts_from (sp_character_set s) t end -> admissible_set s v ->
        set_captures (sp_character_set s) (sp_min_length s) (sp_max_length s) (v ++ text) v) as Z.
      { intros s P Ad. apply admissible_captures; [exact Ad|]. destruct ts as [|t ts]; [inversion F; exact I|]. exact (filled_begin _ _ _ _ _ F A' P). }
      destruct q as [s|s|x]; cbn [spaced captures admissible] in *; [split; [apply Z|]; tauto|split; [apply Z|]; tauto|].
      destruct S as (S1 & S2). split; [|exact S2]. unfold greedy_captures. destruct (gp_end_string x) as [e|].
      - destruct S1 as (rest' & ->). inversion F as [|l ? ? text' C F'|]; subst. split; [exists text'; rewrite <- app_assoc; reflexivity|].
        intros w' (r & E). destruct (Nat.le_gt_cases (length v) (length w')) as [L|L]; [exact L|exfalso].
        assert (exists b, v ++ e = w' ++ e ++ b) as (b & Eb).
        { exists (skipn (length w' + length e) (v ++ e)).
          assert (w' ++ e = firstn (length w' + length e) (v ++ e)) as Ef.
          { assert (firstn (length (w' ++ e)) (v ++ e ++ text') = w' ++ e) as Q by (rewrite E, firstn_app, Nat.sub_diag, firstn_all, firstn_O, app_nil_r; reflexivity).
            rewrite app_length in Q. rewrite app_assoc, firstn_app in Q. rewrite app_length in Q.
            replace (length w' + length e - (length v + length e)) with 0 in Q by lia. rewrite firstn_O, app_nil_r in Q. symmetry. exact Q. }
          rewrite app_assoc, Ef. symmetry. apply firstn_skipn. }
        specialize (Av _ _ Eb). subst b. apply (f_equal (@length byte)) in Eb. rewrite !app_length in Eb. simpl in Eb. lia.
      - subst ts. inversion F; subst. rewrite app_nil_r. reflexivity. }
    destruct ts as [|t ts].
    + inversion F; subst. rewrite app_nil_r in *. constructor. exact C.
    + apply tw_parser; [discriminate|exact C|]. apply IH; [exact S'|discriminate|exact A'].
Qed.

(** ** The matchers *)
Theorem trie_filled sip p t vs text o :
  valid_pattern p -> collision_free sip [p] -> Trie.add_patterns sip Trie.tree_new [p] = Ret t ->
  spaced (pat_tokens p) -> pat_tokens p <> [] -> filled (pat_tokens p) vs text -> admissible_values vs -> utf8 text ->
  Trie.parse t text = Ret o -> exists r, o = Some r /\ mr_pattern r = stripped p /\ reports vs (mr_values r).
Proof.
  intros V C A S N0 F Ad U E. pose proof (filled_walk _ _ _ F S N0 Ad) as W. pose proof (trie_one sip p t text o V C A U E) as Q.
  destruct o as [r|]; [|destruct (Q _ W)]. destruct Q as (Ep & caps & W' & R). rewrite (trie_walk_unique _ _ _ W' _ W) in R. eauto.
Qed.
Theorem trie_only_filled sip p t text r :
  valid_pattern p -> collision_free sip [p] -> Trie.add_patterns sip Trie.tree_new [p] = Ret t -> utf8 text ->
  Trie.parse t text = Ret (Some r) -> exists vs, filled (pat_tokens p) vs text /\ admissible_values vs /\ reports vs (mr_values r).
Proof.
  intros V C A U E. destruct (trie_one sip p t text (Some r) V C A U E) as (_ & caps & W & R). destruct (walk_filled _ _ _ W) as (F & Ad). eauto.
Qed.
Theorem separate_filled sip ps t p vs text o :
  Forall valid_pattern ps -> separate ps -> Trie.add_patterns sip Trie.tree_new ps = Ret t ->
  In p ps -> spaced (pat_tokens p) -> filled (pat_tokens p) vs text -> admissible_values vs -> utf8 text ->
  Trie.parse t text = Ret o -> exists r, o = Some r /\ mr_pattern r = stripped p /\ reports vs (mr_values r).
Proof.
  intros V S A J Sp F Ad U E. assert (pat_tokens p <> []) as N0 by (destruct S as (S & _); destruct (S p J) as (l & ts & Et); congruence).
  pose proof (filled_walk _ _ _ F Sp N0 Ad) as W. pose proof (separate_answers sip ps t text o V S A U E) as Q.
  destruct o as [r|]; [|destruct (Q _ _ J W)]. destruct Q as (p2 & caps & (_ & _ & One) & Ep & R). destruct (One _ _ J W) as (-> & ->). eauto.
Qed.
Theorem separate_only_filled sip ps t text r :
  Forall valid_pattern ps -> separate ps -> Trie.add_patterns sip Trie.tree_new ps = Ret t -> utf8 text -> Trie.parse t text = Ret (Some r) ->
  exists p vs, In p ps /\ mr_pattern r = stripped p /\ filled (pat_tokens p) vs text /\ admissible_values vs /\ reports vs (mr_values r).
Proof.
  intros V S A U E. destruct (separate_answers sip ps t text (Some r) V S A U E) as (p & caps & (J & W & _) & Ep & R).
  destruct (walk_filled _ _ _ W) as (F & Ad). exists p, caps. auto.
Qed.
Theorem separate_table_filled sip ps t p vs text :
  Forall valid_pattern ps -> (forall q, parser_in ps q -> parser_ascii_set q) -> separate ps ->
  SuffixArray.add_patterns sip SuffixArray.table_new ps = Ret t ->
  In p ps -> spaced (pat_tokens p) -> filled (pat_tokens p) vs text -> admissible_values vs -> utf8 text ->
  exists r, SuffixArray.parse t text = Ret (Some r) /\ mr_pattern r = stripped p /\ reports vs (mr_values r).
Proof.
  intros V A S At J Sp F Ad U. assert (pat_tokens p <> []) as N0 by (destruct S as (S & _); destruct (S p J) as (l & ts & Et); congruence).
  exact (separate_table sip ps t text p vs V A S At U J (filled_walk _ _ _ F Sp N0 Ad)).
Qed.
