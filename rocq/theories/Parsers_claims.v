(** * Proofs of the statements in Properties_parsers.v *)
From Coq Require Import Sorted.
From Verif Require Import Base Base_facts Utils Utils_facts Parsers Parsers_facts Pattern Spec
  Hash_facts.

(** A SetParser as configured by its constructor and setters. *)
Definition configured (set : str) (name : option str) (mn mx : option N) : set_parser :=
  set_set_max_length (set_set_min_length (set_set_name (set_new set) name) mn) mx.

Lemma set_captures_ext set set' mn mx v w :
  (forall b, In b set <-> In b set') ->
  set_captures set mn mx v w -> set_captures set' mn mx v w.
Proof.
  intros H ((P & F & M) & N & A & B). split; [|auto]. split; [exact P|]. split.
  - eapply Forall_impl; [|exact F]. intros b. apply H.
  - intros w' P' F'. apply M; [exact P'|]. eapply Forall_impl; [|exact F']. intros b. apply H.
Qed.

Lemma configured_captures set name mn mx v w :
  sp_captures (configured set name mn mx) v w <-> set_captures set mn mx v w.
Proof.
  unfold sp_captures, configured. simpl.
  split; apply set_captures_ext; intros b; unfold create_set_from_str; rewrite ?bset_from_iter_in; reflexivity.
Qed.

Lemma set_exact set name mn mx v :
  utf8 v ->
  match set_parse (configured set name mn mx) v with
  | Ret (Some w) => set_captures set mn mx v w /\ utf8 w
  | Ret None => forall w, ~ set_captures set mn mx v w
  | Panic => exists w, set_captures set mn mx v w /\ ~ utf8 w
  | OutOfFuel => False
  end.
Proof.
  intros Hv. pose proof (set_parse_cases (configured set name mn mx) v Hv) as H.
  destruct (set_parse (configured set name mn mx) v) as [[w|]| |].
  - rewrite configured_captures in H. exact H.
  - intros w Hw. apply (H w). apply configured_captures. exact Hw.
  - destruct H as (w & H & Hn). exists w. rewrite configured_captures in H. auto.
  - exact H.
Qed.

Lemma set_ascii_total set name mn mx v :
  ascii set = true -> utf8 v -> exists o, set_parse (configured set name mn mx) v = Ret o.
Proof.
  intros Ha Hv.
  assert (set_parse (configured set name mn mx) v <> Panic) as H1.
  { apply set_parse_ascii_no_panic; [|exact Hv]. intros b Hb. simpl in Hb.
    unfold create_set_from_str in Hb. rewrite !bset_from_iter_in in Hb.
    unfold ascii in Ha. rewrite forallb_forall in Ha. apply Ha. exact Hb. }
  pose proof (set_parse_no_fuel (configured set name mn mx) v Hv) as H2.
  destruct (set_parse (configured set name mn mx) v); [eauto|congruence|congruence].
Qed.

Lemma above_min_dec mn n : above_min mn n \/ ~ above_min mn n.
Proof. destruct mn as [m|]; simpl; [|auto]. lia. Qed.

Definition configured_int (name : option str) (mn mx : option N) : parser :=
  PInt (configured digits name mn mx).

Lemma int_exact name mn mx v :
  utf8 v ->
  match parser_parse (configured_int name mn mx) v with
  | Ret (Some w) => longest_prefix_in is_digit v w /\ w <> [] /\
                    above_min mn (length w) /\ below_max mx (length w)
  | Ret None => forall w, longest_prefix_in is_digit v w ->
                  w = [] \/ ~ above_min mn (length w) \/ ~ below_max mx (length w)
  | _ => False
  end.
Proof.
  intros Hv. pose proof (set_exact digits name mn mx v Hv) as H.
  destruct (set_ascii_total digits name mn mx v eq_refl Hv) as (o & E).
  unfold configured_int, parser_parse. rewrite E in *.
  assert (forall w, longest_prefix_in (fun b => In b digits) v w <-> longest_prefix_in is_digit v w) as HL.
  { intros w. unfold longest_prefix_in, is_digit.
    assert (forall u, Forall (fun b => In b digits) u <-> Forall (fun b => (48 <= Byte.to_N b <= 57)%N) u) as HF.
    { intros u. split; intros Hu; (eapply Forall_impl; [|exact Hu]); intros b; apply in_digits. }
    rewrite HF. split; intros (A1 & A2 & A3); (split; [exact A1|split; [exact A2|]]);
      intros w' Hw' Fw'; apply A3; try exact Hw'; apply HF; exact Fw'. }
  destruct o as [w|].
  - destruct H as ((H1 & H2) & _). apply HL in H1. auto.
  - intros w Hw. apply HL in Hw. specialize (H w). unfold set_captures in H.
    destruct w as [|b w]; [left; reflexivity|]. right.
    destruct (above_min_dec mn (length (b :: w))) as [A|A]; [|left; exact A].
    right. intros B. apply H. split; [exact Hw|]. split; [discriminate|]. auto.
Qed.

Lemma greedy_exact name e v :
  utf8 v -> opt_utf8 e ->
  match greedy_parse {| gp_name := name; gp_end_string := e |} v, e with
  | Ret (Some w), Some e => before_first e v w
  | Ret (Some w), None => w = v
  | Ret None, Some e => ~ occurs_in e v
  | _, _ => False
  end.
Proof.
  intros Hv He.
  pose proof (greedy_parse_cases {| gp_name := name; gp_end_string := e |} v Hv He) as H.
  destruct (greedy_parse {| gp_name := name; gp_end_string := e |} v) as [[w|]| |]; try contradiction.
  - destruct H as (H & _). unfold gp_captures, greedy_captures in H. simpl in H. destruct e; exact H.
  - destruct H as (e' & E & H). simpl in E. subst e. exact H.
Qed.

Lemma captured_value p v w :
  utf8 v -> parser_utf8 p -> parser_parse p v = Ret (Some w) ->
  exists rest, v = w ++ rest /\ utf8 w /\ utf8 rest.
Proof.
  intros Hv Hp E. apply parser_parse_some in E; [|exact Hv|exact Hp]. destruct E as (C & U).
  destruct (captures_prefix p v w C) as (r & ->). exists r. split; [reflexivity|]. split; [exact U|].
  apply (utf8_app_inv_r w); assumption.
Qed.

(** The README's claim about the bounds, its negation and what holds. *)
Lemma readme_regex_false :
  exists set mn mx v w,
    ascii set = true /\ ascii v = true /\ regex_captures set (Some mn) (Some mx) v w /\
    set_parse (configured set None (Some mn) (Some mx)) v = Ret None.
Proof.
  exists ($"abcd"), 1%N, 2%N, ($"abc"), ($"ab"). split; [reflexivity|]. split; [reflexivity|].
  split; [|vm_compute; reflexivity].
  split; [exists ($"c"); reflexivity|]. split; [repeat (constructor; [simpl; tauto|]); constructor|].
  split; [discriminate|]. split; [vm_compute; discriminate|]. split; [vm_compute; discriminate|].
  intros w' _ _ H. unfold below_max in H. simpl. lia.
Qed.

Lemma set_is_regex set name mn mx v w :
  ascii set = true -> utf8 v ->
  (set_parse (configured set name mn mx) v = Ret (Some w) <->
   regex_captures set mn mx v w /\ longest_prefix_in (fun b => In b set) v w).
Proof.
  intros Ha Hv. destruct (set_ascii_total set name mn mx v Ha Hv) as (o & E).
  pose proof (set_exact set name mn mx v Hv) as H. rewrite E in *. destruct o as [w'|].
  - destruct H as ((HL & N & A & B) & _). split.
    + intros H. inversion H; subst w'. split; [|exact HL]. destruct HL as (P & F & M).
      split; [exact P|]. split; [exact F|]. split; [exact N|]. split; [exact A|]. split; [exact B|].
      intros w' P' F' _. apply M; assumption.
    + intros (_ & HL'). rewrite (longest_prefix_in_unique _ _ _ _ HL HL'). reflexivity.
  - split; [discriminate|]. intros ((P & F & N & A & B & M) & HL). exfalso.
    apply (H w). split; auto.
Qed.

Lemma set_too_long set name mn mx v w :
  ascii set = true -> utf8 v ->
  longest_prefix_in (fun b => In b set) v w -> ~ below_max mx (length w) ->
  set_parse (configured set name mn mx) v = Ret None.
Proof.
  intros Ha Hv HL HB. destruct (set_ascii_total set name mn mx v Ha Hv) as (o & E).
  pose proof (set_exact set name mn mx v Hv) as H. rewrite E in *. destruct o as [w'|]; [|reflexivity].
  destruct H as ((HL' & _ & _ & B) & _). rewrite (longest_prefix_in_unique _ _ _ _ HL HL') in HB.
  contradiction.
Qed.

Lemma set_panics :
  exists set v, utf8 set /\ utf8 v /\ set_parse (set_new set) v = Panic.
Proof.
  exists ($"®"), ($"¡").
  split; [apply utf8b_sound; vm_compute; reflexivity|].
  split; [apply utf8b_sound; vm_compute; reflexivity|]. vm_compute. reflexivity.
Qed.

Lemma cpl_truncate a b :
  utf8 a -> utf8 b ->
  let n := common_prefix_len a b in
  exists w ra rb, n = length w /\ a = w ++ ra /\ b = w ++ rb /\
    ltrunc a n = Ret ra /\ ltrunc b n = Ret rb /\
    rtrunc a (length ra) = Ret w /\ rtrunc b (length rb) = Ret w.
Proof.
  intros Ha Hb. destruct (cpl_longest a b Ha Hb) as (w & L & U & (ra & ->) & (rb & ->) & _).
  exists w, ra, rb. simpl. rewrite <- L. split; [reflexivity|]. split; [reflexivity|]. split; [reflexivity|].
  split; [apply ltrunc_ok; assumption|]. split; [apply ltrunc_ok; assumption|].
  split; apply rtrunc_ok; assumption.
Qed.
