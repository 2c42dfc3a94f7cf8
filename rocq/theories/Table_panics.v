(** * Exactly when the suffix table panics *)
From Coq Require Import Sorted.
From Verif Require Import Base Base_facts Utils Utils_facts Parsers Parsers_facts Pattern Spec
  Spec_table Hash_facts SuffixArray TrieSpec TrieSpec_facts TrieSpec_props TableSpec Table_refine
  Trie_main Trie_claims Table_claims Spec_table_panics.
From Verif Require Trie Trie_refine Trie_total.

Lemma parser_panics q text :
  utf8 text -> parser_utf8 q -> (parser_parse q text = Panic <-> cuts_character q text).
Proof.
  intros Hu Hq. pose proof (parser_parse_cases q text Hu Hq) as H. unfold cuts_character. split.
  - intros E. rewrite E in H. exact H.
  - intros (w & Hc & Hn). destruct (parser_parse q text) as [[v|]| |].
    + destruct H as (H & Hv). rewrite (captures_unique q text w v Hc H) in Hn. contradiction.
    + destruct (H w Hc).
    + reflexivity.
    + contradiction.
Qed.

Lemma nearest_none {A} (K : list (str * A)) text : nearest K text = None -> K = [].
Proof.
  intros H. destruct K as [|x K]; [reflexivity|]. exfalso. unfold nearest in H.
  assert (forall (l : list (str * A)) y, last_opt (y :: l) <> None) as HL.
  { intros l. induction l as [|z l IH]; intros y; [discriminate|]. exact (IH z). }
  simpl filter in H. destruct (notgtb (str_cmp (fst x) text)); cbn [negb] in H.
  - destruct (last_opt (x :: _)) eqn:E in H; [|exact (HL _ _ E)].
    destruct (hd_error _); [|discriminate]. destruct (Nat.leb _ _); discriminate.
  - cbn [hd_error] in H. destruct (last_opt _); [|discriminate]. destruct (Nat.leb _ _); discriminate.
Qed.

Lemma nearest_nil {A} text : nearest (@nil (str * A)) text = None.
Proof. reflexivity. Qed.

(** ** Parsers *)
Definition fails (q : parser) (e : entry) (text : str) : Prop :=
  cuts_character q text \/
  exists v c, captures q text v /\ utf8 v /\ snd e = Some c /\ table_panics c (skipn (length v) text).

Definition fail_in (P : list (parser * entry)) (text : str) : Prop :=
  exists A q e B, P = A ++ (q, e) :: B /\ try_parsers t_parse A text = None /\ fails q e text.

Lemma fail_in_cons q e P text :
  fail_in ((q, e) :: P) text <->
  fails q e text \/ (try_parser t_parse q e text = None /\ fail_in P text).
Proof.
  split.
  - intros (A & q' & e' & B & E & Ht & Hf). destruct A as [|(q0, e0) A]; simpl in E; inversion E; subst.
    + left. exact Hf.
    + right. simpl in Ht. destruct (try_parser t_parse q0 e0 text); [discriminate|].
      split; [reflexivity|]. exists A, q', e', B. auto.
  - intros [H|(Ht & A & q' & e' & B & -> & Ht' & Hf)].
    + exists [], q, e, P. auto.
    + exists ((q, e) :: A), q', e', B. split; [reflexivity|]. split; [|exact Hf].
      simpl. rewrite Ht. exact Ht'.
Qed.

Lemma table_panics_iff K P text :
  table_panics (Level K P) text <->
  match nearest K text with
  | Some (k, e) =>
      common_prefix_len k text <> length text /\
      exists c, snd e = Some c /\ table_panics c (skipn (common_prefix_len k text) text)
  | None => fail_in P text
  end.
Proof.
  split.
  - intros H. inversion H as [K' P' text' k po c Hn Hc Hp|A q e B text' Ht Hc|A q po c B text' v Ht Hc Hv Hp]; subst.
    + rewrite Hn. split; [exact Hc|]. exists c. auto.
    + rewrite nearest_nil. exists A, q, e, B. split; [reflexivity|]. split; [exact Ht|]. left. exact Hc.
    + rewrite nearest_nil. exists A, q, (po, Some c), B. split; [reflexivity|]. split; [exact Ht|].
      right. exists v, c. auto.
  - destruct (nearest K text) as [(k, (po, co))|] eqn:E.
    + intros (Hn & c & Ec & Hp). simpl in Ec. subst co. exact (tp_literal K P text k po c E Hn Hp).
    + apply nearest_none in E. subst K. intros (A & q & (po, co) & B & -> & Ht & [Hf|(v & c & Hc & Hv & Ec & Hp)]).
      * apply tp_parser; assumption.
      * simpl in Ec. subst co. apply (tp_below A q po c B text v); assumption.
Qed.

Section Cases.
  Variable okp : parser -> Prop.
  Hypothesis okp_utf8 : forall p, okp p -> parser_utf8 p.
  Notation twf := (twf okp).

  Definition cases (fuel : nat) (t : table) (text : str) : Prop :=
    (parse_fuel fuel t text = Panic /\ table_panics (tabs t) text) \/
    (exists r, parse_fuel fuel t text = Ret r /\ ~ table_panics (tabs t) text).

  Lemma entry_cases fuel e text :
    (forall t text, twf t -> height t <= fuel -> utf8 text -> cases fuel t text) ->
    okp (pe_parser e) -> (forall c, pe_child e = Some c -> twf c /\ height c <= fuel) -> utf8 text ->
    (parser_e_parse (parse_fuel fuel) e text = Panic /\ fails (pe_parser e) (pentry e) text) \/
    (exists r, parser_e_parse (parse_fuel fuel) e text = Ret r /\ ~ fails (pe_parser e) (pentry e) text).
  Proof.
    intros IH Hq Hc Hu. destruct e as [q po co]. cbn [pe_parser pe_child] in *.
    unfold parser_e_parse, fails, pentry. cbn [pe_parser pe_child pe_pattern snd].
    pose proof (parser_panics q text Hu (okp_utf8 q Hq)) as HP.
    pose proof (parser_parse_cases q text Hu (okp_utf8 q Hq)) as HC.
    destruct (parser_parse q text) as [[v|]| |] eqn:Ep; cbn [bind].
    - destruct HC as (Hcap & Hv). pose proof Hcap as Hcap'. apply captures_prefix in Hcap'. destruct Hcap' as (rest & Et).
      assert (utf8 rest) as Hrest by (rewrite Et in Hu; apply (utf8_app_inv_r v rest Hv Hu)).
      assert (ltrunc text (length v) = Ret rest) as -> by (rewrite Et in Hu |- *; apply ltrunc_ok; assumption).
      assert (skipn (length v) text = rest) as Esk by (rewrite Et, skipn_app, skipn_all, Nat.sub_diag; reflexivity).
      cbn [bind]. destruct co as [c|]; cbn [option_map].
      + destruct (Hc c eq_refl) as (Wc & Hh).
        destruct (IH c rest Wc Hh Hrest) as [(E1 & E2)|(r & E1 & E2)]; rewrite E1; cbn [bind].
        * left. split; [reflexivity|]. right. exists v, (tabs c). rewrite Esk. auto.
        * right. destruct r as [r|]; (eexists; split; [reflexivity|]);
            (intros [H|(v' & c' & H1 & _ & H2 & H3)]; [apply HP in H; discriminate|]);
            inversion H2; subst c'; rewrite (captures_unique q text v' v H1 Hcap), Esk in H3; contradiction.
      + right. assert (~ (cuts_character q text \/ exists v0 c, captures q text v0 /\ utf8 v0 /\ @None level = Some c /\
                    table_panics c (skipn (length v0) text))) as HN.
        { intros [H|(v' & c' & _ & _ & H2 & _)]; [apply HP in H|]; discriminate. }
        destruct (is_empty rest); (eexists; split; [reflexivity|exact HN]).
    - right. eexists. split; [reflexivity|]. intros [H|(v' & c' & H1 & _)]; [apply HP in H; discriminate|]. exact (HC v' H1).
    - left. split; [reflexivity|]. left. apply HP. reflexivity.
    - contradiction.
  Qed.

  Lemma entries_cases fuel pes text :
    (forall t text, twf t -> height t <= fuel -> utf8 text -> cases fuel t text) ->
    (forall e, In e pes -> okp (pe_parser e)) ->
    (forall e c, In e pes -> pe_child e = Some c -> twf c /\ height c <= fuel) -> utf8 text ->
    (parse_with_parsers (parse_fuel fuel) pes text = Panic /\ fail_in (map ppair pes) text) \/
    (exists r, parse_with_parsers (parse_fuel fuel) pes text = Ret r /\ ~ fail_in (map ppair pes) text).
  Proof.
    intros IH. induction pes as [|e pes IHp]; intros Hok Hc Hu; cbn [parse_with_parsers map].
    - right. exists None. split; [reflexivity|]. intros (A & q & e & B & E & _). destruct A; discriminate.
    - destruct (entry_cases fuel e text IH (Hok e (or_introl eq_refl)) (fun c => Hc e c (or_introl eq_refl)) Hu)
        as [(E1 & E2)|(r & E1 & E2)]; rewrite E1; cbn [bind].
      + left. split; [reflexivity|]. apply fail_in_cons. left. exact E2.
      + apply (parser_e_parse_ret okp okp_utf8 _ fuel) in E1; [|apply (parse_fuel_ret okp okp_utf8)
          |apply Hok; left; reflexivity|intros c; apply Hc; left; reflexivity|exact Hu].
        destruct r as [r|].
        * right. eexists. split; [reflexivity|]. intros H. apply fail_in_cons in H.
          destruct H as [H|(H & _)]; [contradiction|congruence].
        * destruct IHp as [(F1 & F2)|(r & F1 & F2)]; auto.
          -- intros m Hm. apply Hok. right. exact Hm.
          -- intros m c Hm. apply Hc. right. exact Hm.
          -- left. split; [exact F1|]. apply fail_in_cons. right. auto.
          -- right. exists r. split; [exact F1|]. intros H. apply fail_in_cons in H. tauto.
  Qed.

  Lemma table_cases fuel : forall t text,
    twf t -> height t <= fuel -> utf8 text -> cases fuel t text.
  Proof.
    induction fuel as [|fuel IH]; intros t text W Hh Hu.
    { destruct t; cbn [height] in Hh; lia. }
    inversion W as [les pes HS Hl Hlw Hp Hpw]; subst. unfold cases.
    rewrite tabs_unfold. pose proof (table_panics_iff (map lpair les) (map ppair pes) text) as HI.
    cbn [parse_fuel]. destruct (lcp_ret les pes text HS Hu) as (o & Eo & Hin & Hn).
    rewrite Eo. cbn [bind]. rewrite <- Hn in HI. destruct o as [e|]; cbn [option_map lpair] in HI.
    - specialize (Hin e eq_refl). cbv zeta.
      destruct (Nat.eqb_spec (common_prefix_len (le_literal e) text) (length text)) as [E|E].
      { right. eexists. split; [reflexivity|]. rewrite HI. tauto. }
      pose proof (cpl_le_r (le_literal e) text) as L.
      destruct (Nat.ltb_spec (common_prefix_len (le_literal e) text) (length text)); [|lia].
      destruct (cut_text e text e (Hl e Hin) Hu eq_refl) as (Ec & Hu'). rewrite Ec. cbn [bind].
      unfold lentry in HI. cbn [snd] in HI. destruct (le_child e) as [c|] eqn:Ecc; cbn [option_map] in HI.
      + destruct (IH c (skipn (common_prefix_len (le_literal e) text) text)) as [(E1 & E2)|(r & E1 & E2)].
        * apply (Hlw e); assumption.
        * pose proof (height_lit les pes e c Hin Ecc). lia.
        * exact Hu'.
        * left. split; [exact E1|]. apply HI. split; [exact E|]. eauto.
        * right. exists r. split; [exact E1|]. rewrite HI. intros (_ & c' & H1 & H2). inversion H1; subst. contradiction.
      + right. eexists. split; [reflexivity|]. rewrite HI. intros (_ & c' & H1 & _). discriminate.
    - destruct (entries_cases fuel pes text IH) as [(E1 & E2)|(r & E1 & E2)]; auto.
      + intros e c He Hc. split; [apply (Hpw e); assumption|].
        pose proof (height_par les pes e c He Hc). lia.
      + left. split; [exact E1|]. apply HI. exact E2.
      + right. exists r. split; [exact E1|]. rewrite HI. exact E2.
  Qed.
End Cases.

Lemma table_matching_panics sip ps :
  Forall valid_pattern ps -> collision_free sip ps ->
  exists t, add_patterns sip table_new ps = Ret t /\
    forall text, utf8 text ->
      (parse t text = Panic <-> table_panics (t_adds ps) text) /\
      (~ table_panics (t_adds ps) text -> parse t text = Ret (t_parse (t_adds ps) text)).
Proof.
  intros V C. destruct (table_adds sip ps V) as (t & E & W & R). exists t. split; [exact E|].
  intros text Hu. rewrite <- (R C). specialize (R C).
  destruct (table_cases (okp_of ps) (okp_of_utf8 ps) (height t) t text W (le_n _) Hu) as [(E1 & E2)|(r & E1 & E2)];
    fold (parse t text) in E1.
  - split; [tauto|]. intros H. contradiction.
  - split; [rewrite E1; split; [discriminate|contradiction]|]. intros _. rewrite E1. f_equal.
    apply (parse_ret (okp_of ps) (okp_of_utf8 ps) t text r W Hu E1).
Qed.
