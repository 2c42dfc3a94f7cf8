(** * Facts about Parsers.v *)
From Coq Require Import Sorted.
From Verif Require Import Base Base_facts Utils Utils_facts Parsers Pattern Spec.

(** ** SET *)
Lemma cml_longest set v :
  exists w r, v = w ++ r /\ calculate_match_length set v = length w /\
    Forall (fun b => In b set) w /\ match r with [] => True | b :: _ => ~ In b set end.
Proof.
  induction v as [|c v IH]; simpl.
  - exists [], []. repeat split; constructor.
  - destruct (bset_contains set c) eqn:E.
    + apply bset_contains_in in E. destruct IH as (w & r & -> & L & F & N).
      exists (c :: w), r. rewrite L. repeat split; [constructor; assumption|exact N].
    + exists [], (c :: v). repeat split; [constructor|].
      intros H. apply bset_contains_in in H. congruence.
Qed.

Lemma longest_prefix_in_iff (S : byte -> Prop) v w :
  longest_prefix_in S v w <->
  exists r, v = w ++ r /\ Forall S w /\ match r with [] => True | b :: _ => ~ S b end.
Proof.
  split.
  - intros ((r & ->) & F & M). exists r. split; [reflexivity|]. split; [exact F|].
    destruct r as [|b r]; [exact I|]. intros Hb.
    specialize (M (w ++ [b])). rewrite app_length in M. simpl in M.
    assert (length w + 1 <= length w); [|lia]. apply M.
    + exists r. rewrite <- app_assoc. reflexivity.
    + apply Forall_app. split; [exact F|]. constructor; [exact Hb|constructor].
  - intros (r & -> & F & N). split; [exists r; reflexivity|]. split; [exact F|].
    intros w' Hp F'. destruct (Nat.le_gt_cases (length w') (length w)) as [|Hgt]; [assumption|].
    exfalso. destruct (prefix_comparable w w' (w ++ r)) as (q & ->);
      [exists r; reflexivity|exact Hp|lia|].
    destruct Hp as (r' & E). rewrite <- app_assoc in E. apply app_inv_head in E. subst r.
    destruct q as [|b q]; [rewrite app_nil_r in Hgt; lia|]. simpl in N. apply N.
    apply Forall_app in F'. destruct F' as [_ F']. inversion F'; assumption.
Qed.

Lemma longest_prefix_in_unique S v w w' :
  longest_prefix_in S v w -> longest_prefix_in S v w' -> w = w'.
Proof.
  intros (P & F & M) (P' & F' & M').
  pose proof (M w' P' F'). pose proof (M' w P F).
  destruct (prefix_comparable w w' v P P') as (q & E); [lia|].
  subst w'. rewrite app_length in *. destruct q; [rewrite app_nil_r; reflexivity|simpl in *; lia].
Qed.

Lemma is_match_length_ok_spec p n :
  is_match_length_ok p n = true <->
  0 < n /\ above_min (sp_min_length p) n /\ below_max (sp_max_length p) n.
Proof.
  unfold is_match_length_ok, is_min_length_ok, is_max_length_ok, above_min, below_max.
  rewrite !andb_true_iff, Nat.ltb_lt.
  destruct (sp_min_length p), (sp_max_length p); rewrite ?N.leb_le; tauto.
Qed.

Definition sp_captures (p : set_parser) : str -> str -> Prop :=
  set_captures (sp_character_set p) (sp_min_length p) (sp_max_length p).

(** The three outcomes of [SetParser::parse]. *)
Lemma set_parse_cases p v :
  utf8 v ->
  match set_parse p v with
  | Ret (Some w) => sp_captures p v w /\ utf8 w
  | Ret None => forall w, ~ sp_captures p v w
  | Panic => exists w, sp_captures p v w /\ ~ utf8 w
  | OutOfFuel => False
  end.
Proof.
  intros Hv. unfold set_parse.
  destruct (cml_longest (sp_character_set p) v) as (w & r & E & L & F & N).
  rewrite L.
  assert (LP : longest_prefix_in (fun b => In b (sp_character_set p)) v w).
  { apply longest_prefix_in_iff. exists r. auto. }
  destruct (is_match_length_ok p (length w)) eqn:Ok.
  - apply is_match_length_ok_spec in Ok. destruct Ok as (O1 & O2 & O3).
    assert (sp_captures p v w) as Hc.
    { split; [exact LP|]. split; [intros ->; simpl in O1; lia|]. auto. }
    unfold slice_to. rewrite E. destruct (is_char_boundary (w ++ r) (length w)) eqn:B; simpl.
    + rewrite firstn_app, firstn_all, Nat.sub_diag. simpl. rewrite app_nil_r.
      rewrite <- E. split; [exact Hc|]. apply boundary_app in B. apply (utf8_cut w r); [|exact B].
      rewrite <- E. exact Hv.
    + exists w. split; [rewrite <- E; exact Hc|]. intros Hw.
      assert (w = [] \/ head_not_cont r) as B'.
      { apply utf8_cut_iff; [rewrite <- E; exact Hv|exact Hw]. }
      apply boundary_app in B'. congruence.
  - intros w' (LP' & H1 & H2 & H3).
    rewrite (longest_prefix_in_unique _ _ _ _ LP' LP) in *.
    assert (is_match_length_ok p (length w) = true); [|congruence].
    apply is_match_length_ok_spec. split; [|auto]. destruct w; [congruence|simpl; lia].
Qed.

Lemma sp_captures_unique p v w w' : sp_captures p v w -> sp_captures p v w' -> w = w'.
Proof. intros (H & _) (H' & _). apply (longest_prefix_in_unique _ _ _ _ H H'). Qed.

Lemma set_parse_some p v w :
  utf8 v -> (set_parse p v = Ret (Some w) <-> sp_captures p v w /\ utf8 w).
Proof.
  intros Hv. pose proof (set_parse_cases p v Hv) as H. split.
  - intros E. rewrite E in H. exact H.
  - intros (Hc & Hw). destruct (set_parse p v) as [[w'|]| |].
    + destruct H as (H & _). rewrite (sp_captures_unique p v w w' Hc H). reflexivity.
    + exfalso. apply (H w Hc).
    + destruct H as (w' & H & Hn). rewrite (sp_captures_unique p v w w' Hc H) in Hw. contradiction.
    + contradiction.
Qed.

Lemma set_parse_none p v :
  utf8 v -> (set_parse p v = Ret None <-> forall w, ~ sp_captures p v w).
Proof.
  intros Hv. pose proof (set_parse_cases p v Hv) as H. split.
  - intros E. rewrite E in H. exact H.
  - intros Hn. destruct (set_parse p v) as [[w'|]| |].
    + exfalso. apply (Hn w'). apply H.
    + reflexivity.
    + destruct H as (w' & H & _). exfalso. apply (Hn w' H).
    + contradiction.
Qed.

Lemma set_parse_panic p v :
  utf8 v -> (set_parse p v = Panic <-> exists w, sp_captures p v w /\ ~ utf8 w).
Proof.
  intros Hv. pose proof (set_parse_cases p v Hv) as H. split.
  - intros E. rewrite E in H. exact H.
  - intros (w & Hc & Hn). destruct (set_parse p v) as [[w'|]| |].
    + exfalso. destruct H as (H & Hu). apply Hn.
      rewrite (sp_captures_unique p v w w' Hc H). exact Hu.
    + exfalso. apply (H w Hc).
    + reflexivity.
    + contradiction.
Qed.

(** A run of ASCII bytes ends at a character boundary. *)
Lemma Forall_ascii w : Forall (fun b => ascii_byte b = true) w <-> ascii w = true.
Proof. unfold ascii. rewrite forallb_forall, Forall_forall. tauto. Qed.

Lemma set_parse_ascii_no_panic p v :
  (forall b, In b (sp_character_set p) -> ascii_byte b = true) -> utf8 v ->
  set_parse p v <> Panic.
Proof.
  intros Ha Hv H. apply set_parse_panic in H; [|exact Hv].
  destruct H as (w & ((_ & F & _) & _) & Hn). apply Hn. apply ascii_utf8.
  apply Forall_ascii. eapply Forall_impl; [|exact F]. exact Ha.
Qed.

Lemma set_parse_no_fuel p v : utf8 v -> set_parse p v <> OutOfFuel.
Proof. intros Hv H. pose proof (set_parse_cases p v Hv) as C. rewrite H in C. exact C. Qed.

(** ** GREEDY *)
Lemma before_first_unique e v w w' : before_first e v w -> before_first e v w' -> w = w'.
Proof.
  intros (P & M) (P' & M').
  pose proof (M w' P'). pose proof (M' w P).
  assert (prefix_of w v) as Q by (destruct P as (r & ->); exists (e ++ r); rewrite app_assoc; reflexivity).
  assert (prefix_of w' v) as Q' by (destruct P' as (r & ->); exists (e ++ r); rewrite app_assoc; reflexivity).
  destruct (prefix_comparable w w' v Q Q') as (q & E); [lia|].
  subst w'. rewrite app_length in *. destruct q; [rewrite app_nil_r; reflexivity|simpl in *; lia].
Qed.

Lemma str_find_before_first e v i :
  str_find e v = Some i -> before_first e v (firstn i v) /\ length (firstn i v) = i.
Proof.
  intros H. apply str_find_some in H. destruct H as ((r & E) & L & M).
  assert (length (firstn i v) = i) as Hl by (rewrite firstn_length; lia).
  split; [|exact Hl]. split.
  - exists r. rewrite <- app_assoc. exact E.
  - intros w' (r' & E'). rewrite Hl.
    destruct (Nat.le_gt_cases i (length w')) as [|Hgt]; [assumption|exfalso].
    specialize (M (length w') Hgt). rewrite E', <- app_assoc, skipn_app, skipn_all, Nat.sub_diag in M.
    simpl in M. assert (prefixb e (e ++ r') = true) as Hp by (apply prefixb_app; eauto). congruence.
Qed.

Lemma utf8_before_occurrence a e r :
  utf8 (a ++ e ++ r) -> utf8 e -> e <> [] -> utf8 a.
Proof.
  intros H He Hne. apply (utf8_cut a (e ++ r) H). right.
  pose proof (utf8_head e He) as Hh. destruct e; [congruence|exact Hh].
Qed.

Lemma before_first_utf8 e v w : utf8 v -> utf8 e -> before_first e v w -> utf8 w.
Proof.
  intros Hv He ((r & E) & M). destruct e as [|x e].
  - assert (length w <= 0) as L.
    { apply (M []). exists v. reflexivity. }
    destruct w; [constructor|simpl in L; lia].
  - rewrite <- app_assoc in E. subst v. apply (utf8_before_occurrence w (x :: e) r); [exact Hv|exact He|discriminate].
Qed.

Definition gp_captures (p : greedy_parser) : str -> str -> Prop :=
  greedy_captures (gp_end_string p).

Lemma greedy_parse_cases p v :
  utf8 v -> opt_utf8 (gp_end_string p) ->
  match greedy_parse p v with
  | Ret (Some w) => gp_captures p v w /\ utf8 w
  | Ret None => exists e, gp_end_string p = Some e /\ ~ occurs_in e v
  | _ => False
  end.
Proof.
  intros Hv He. unfold greedy_parse, gp_captures, greedy_captures.
  destruct (gp_end_string p) as [e|]; simpl.
  - destruct (str_find e v) as [i|] eqn:F.
    + destruct (str_find_before_first e v i F) as [B L].
      assert (utf8 (firstn i v)) as Hu by (apply (before_first_utf8 e v); assumption).
      assert (slice_to v i = Ret (firstn i v)) as ->.
      { apply slice_to_ret. exists (skipn i v). split; [symmetry; apply firstn_skipn|].
        split; [exact L|]. apply utf8_cut_iff; [rewrite firstn_skipn; exact Hv|exact Hu]. }
      simpl. auto.
    + exists e. split; [reflexivity|]. intros (a & b & E).
      pose proof (proj1 (str_find_none e v) F a b). contradiction.
  - auto.
Qed.

Lemma gp_captures_unique p v w w' : gp_captures p v w -> gp_captures p v w' -> w = w'.
Proof.
  unfold gp_captures, greedy_captures. destruct (gp_end_string p); [apply before_first_unique|].
  congruence.
Qed.

(** ** All parsers *)
Lemma captures_unique p v w w' : captures p v w -> captures p v w' -> w = w'.
Proof.
  destruct p; simpl; [apply sp_captures_unique|apply sp_captures_unique|apply gp_captures_unique].
Qed.

Lemma captures_prefix p v w : captures p v w -> prefix_of w v.
Proof.
  destruct p as [s|s|g]; simpl.
  - intros ((H & _) & _). exact H.
  - intros ((H & _) & _). exact H.
  - unfold greedy_captures. destruct (gp_end_string g).
    + intros ((r & ->) & _). exists (s ++ r). rewrite app_assoc. reflexivity.
    + intros ->. exists []. rewrite app_nil_r. reflexivity.
Qed.

Lemma parser_parse_cases p v :
  utf8 v -> parser_utf8 p ->
  match parser_parse p v with
  | Ret (Some w) => captures p v w /\ utf8 w
  | Ret None => forall w, ~ captures p v w
  | Panic => exists w, captures p v w /\ ~ utf8 w
  | OutOfFuel => False
  end.
Proof.
  intros Hv Hp. destruct p as [s|s|g]; simpl.
  - apply set_parse_cases. exact Hv.
  - apply set_parse_cases. exact Hv.
  - pose proof (greedy_parse_cases g v Hv Hp) as H.
    destruct (greedy_parse g v) as [[w|]| |]; [exact H| |contradiction|contradiction].
    intros w Hc. destruct H as (e & E & Hn). apply Hn. unfold greedy_captures in Hc. rewrite E in Hc.
    destruct Hc as ((r & ->) & _). exists w, r. rewrite app_assoc. reflexivity.
Qed.

Lemma parser_parse_some p v w :
  utf8 v -> parser_utf8 p ->
  (parser_parse p v = Ret (Some w) <-> captures p v w /\ utf8 w).
Proof.
  intros Hv Hp. pose proof (parser_parse_cases p v Hv Hp) as H. split.
  - intros E. rewrite E in H. exact H.
  - intros (Hc & Hw). destruct (parser_parse p v) as [[w'|]| |].
    + destruct H as (H & _). rewrite (captures_unique p v w w' Hc H). reflexivity.
    + exfalso. apply (H w Hc).
    + destruct H as (w' & H & Hn). rewrite (captures_unique p v w w' Hc H) in Hw. contradiction.
    + contradiction.
Qed.

Lemma parser_parse_none p v :
  utf8 v -> parser_utf8 p ->
  (parser_parse p v = Ret None <-> forall w, ~ captures p v w).
Proof.
  intros Hv Hp. pose proof (parser_parse_cases p v Hv Hp) as H. split.
  - intros E. rewrite E in H. exact H.
  - intros Hn. destruct (parser_parse p v) as [[w'|]| |].
    + exfalso. apply (Hn w'). apply H.
    + reflexivity.
    + destruct H as (w' & H & _). exfalso. apply (Hn w' H).
    + contradiction.
Qed.

(** The parsers for which [parse] cannot panic. *)
Lemma parser_parse_total p v :
  utf8 v -> parser_utf8 p -> parser_ascii_set p -> exists o, parser_parse p v = Ret o.
Proof.
  intros Hv Hp Ha. pose proof (parser_parse_cases p v Hv Hp) as H.
  destruct (parser_parse p v) as [o| |] eqn:E; [eauto| |contradiction].
  exfalso. destruct p as [s|s|g]; simpl in *.
  - apply (set_parse_ascii_no_panic s v Ha Hv E).
  - apply (set_parse_ascii_no_panic s v Ha Hv E).
  - pose proof (greedy_parse_cases g v Hv Hp) as G. rewrite E in G. exact G.
Qed.

(** The digits. *)
Lemma digits_ascii b : In b (create_set_from_str digits) -> ascii_byte b = true.
Proof.
  intros H. apply bset_from_iter_in in H.
  assert (ascii digits = true) as A by reflexivity.
  unfold ascii in A. rewrite forallb_forall in A. apply A. exact H.
Qed.

Lemma in_digits b : In b digits <-> (48 <= Byte.to_N b <= 57)%N.
Proof.
  split.
  - intros H. assert (forallb (in_rng 48 57) digits = true) as A by reflexivity.
    rewrite forallb_forall in A. specialize (A b H). apply in_rng_spec in A. exact A.
  - intros H. apply in_rng_spec in H.
    assert (forall b, implb (in_rng 48 57 b) (bset_contains digits b) = true) as A
      by (intros []; reflexivity).
    specialize (A b). rewrite H in A. simpl in A. apply bset_contains_in. exact A.
Qed.
