(** * Test messages of separate patterns, and the suffix table *)
From Coq Require Import Permutation.
From Verif Require Import Base Base_facts Utils Parsers Pattern Spec Spec_source Spec_hash Spec_separate
  Source Source_claims Loading_claims TrieSpec TrieSpec_cases Trie_claims Collide_claims Separate_claims Siphash Deciders Tests.
From Verif Require Trie SuffixArray Trie_total Table_claims.

Lemma separate_ideal_table sip ps : Forall valid_pattern ps -> separate ps ->
  SuffixArray.add_patterns sip SuffixArray.table_new ps = SuffixArray.add_patterns ideal_hash SuffixArray.table_new ps.
Proof.
  intros V S. apply table_first_apart; [exact V| |apply ideal_injective].
  intros q q' Hq. rewrite (separate_first ps S) in Hq. destruct Hq.
Qed.

(** ** The table *)
Theorem separate_table sip ps t text p caps :
  Forall valid_pattern ps -> (forall q, parser_in ps q -> parser_ascii_set q) -> separate ps ->
  SuffixArray.add_patterns sip SuffixArray.table_new ps = Ret t ->
  utf8 text -> In p ps -> trie_walk (pat_tokens p) text caps ->
  exists r, SuffixArray.parse t text = Ret (Some r) /\ mr_pattern r = stripped p /\ reports caps (mr_values r).
Proof.
  intros V A S At U Hp W.
  destruct (Table_claims.table_total sip ps V A) as (t' & At' & D). rewrite At in At'. injection At' as <-.
  destruct (D text U) as (r & E). rewrite (separate_ideal_table sip ps V S) in At.
  assert (collision_free ideal_hash ps) as C by apply ideal_collision_free, ideal_injective.
  pose proof (separate_apart ps S) as Ap. pose proof S as (S1 & _). destruct (S1 p Hp) as (l & Hl).
  assert (In p (filter (first_literal_fits text) ps)) as I
    by (apply filter_In; split; [exact Hp|apply (trie_walk_fits p l text caps Hl W)]).
  destruct (separate_fits text ps S) as [F|(q & _ & F)]; rewrite F in I; [destruct I|]. destruct I as [<-|[]].
  rewrite Forall_forall in V.
  assert (Forall usable_token (pat_tokens q)) as Us.
  { apply usable_tokens; [apply V; exact Hp|]. intros x Hx. apply A. exists q. auto. }
  pose proof (s_parse_single q text Us U) as H. destruct (s_parse (s_adds [q]) text) as [r'|] eqn:Es; [|destruct (H caps W)].
  destruct H as (Ep & caps' & W' & R). assert (caps' = caps) as -> by (eapply trie_walk_unique; eassumption).
  exists r'. split; [|auto]. rewrite <- Forall_forall in V. rewrite E. f_equal.
  rewrite (Table_claims.table_refines ideal_hash ps t text r V C At U E). apply Table_claims.agree_apart; try assumption.
  rewrite (s_parse_apart ps text Ap), F. exact Es.
Qed.

Lemma separate_table_passes sip ps m p t :
  Forall valid_pattern ps -> (forall q, parser_in ps q -> parser_ascii_set q) -> separate ps ->
  SuffixArray.add_patterns sip SuffixArray.table_new (map untested ps) = Ret m -> In p ps -> utf8 (tm_message t) ->
  describes t p -> passes (table_ops sip) m p t.
Proof.
  intros V A S Am Hp U (caps & W & Tg & Val).
  destruct (separate_table sip (map untested ps) m (tm_message t) (untested p) caps) as (r & E & Er & R); try assumption.
  - apply untested_valid. exact V.
  - intros q Hq. apply A. apply untested_parsers. exact Hq.
  - apply separate_untested. exact S.
  - apply in_map. exact Hp.
  - exists r. split; [exact E|]. rewrite Er. split; [reflexivity|]. split; [rewrite Er; exact Tg|].
    intros k v I. apply (reports_value caps r p k v R); [rewrite Er; reflexivity|apply Val; exact I].
Qed.

Lemma table_loaded_upto sip before p m1 m2 :
  loads (table_ops sip) (mo_new (table_ops sip)) (map (fun p => Ok p) before) m1 ->
  mo_add_pattern (table_ops sip) m1 (untested p) = Ret m2 ->
  SuffixArray.add_patterns sip SuffixArray.table_new (map untested (before ++ [p])) = Ret m2.
Proof.
  intros L Ad. apply loads_adds in L. destruct L as (_ & L). rewrite patterns_of_map in L.
  rewrite <- table_adds, map_app. change SuffixArray.table_new with (mo_new (table_ops sip)).
  rewrite adds_app, L. cbn [bind map adds]. rewrite Ad. reflexivity.
Qed.

Theorem separate_table_loads sip ps :
  Forall valid_pattern ps -> (forall q, parser_in ps q -> parser_ascii_set q) -> utf8_tests ps -> separate ps ->
  (forall p t, In p ps -> In t (tests p) -> describes t p) ->
  exists m, from_source (table_ops sip) (map (fun p => Ok p) ps) = Ret (Ok m) /\
    forall p t, In p ps -> In t (tests p) -> passes (table_ops sip) m p t.
Proof.
  intros V A U S D.
  destruct (table_loading_total sip (map (fun p => Ok p) ps)) as ((x & E) & _); [rewrite patterns_of_map; assumption..|].
  destruct x as [m|e].
  - exists m. split; [exact E|]. apply from_source_ok, loads_adds in E. destruct E as (_ & Am).
    rewrite patterns_of_map, table_adds in Am. intros p t Hp Ht.
    apply (separate_table_passes sip ps m p t); auto. apply (U p t Hp Ht).
  - exfalso. apply from_source_err in E.
    inversion E as [m0 before m' e0 after L0 E1 E2|m0 before m' p after m'' a t b e0 L Ad Et Hb F E1 E2]; subst.
    + assert (In (Err e) (map (fun p => Ok p) ps : list build_result)) as I.
      { match goal with H : _ = map _ ps |- _ => rewrite <- H end. apply in_app_iff. right. left. reflexivity. }
      apply in_map_iff in I. destruct I as (p & I & _). discriminate.
    + match goal with H : _ = map _ ps |- _ => symmetry in H; apply ok_app in H; destruct H as (bf & af & Ep & ->) end.
      assert (ps = (bf ++ [p]) ++ af) as Ep' by (rewrite <- app_assoc; exact Ep).
      assert (In p (bf ++ [p])) as Hp by (apply in_app_iff; right; left; reflexivity).
      assert (incl (bf ++ [p]) ps) as Inc by (rewrite Ep'; apply incl_appl, incl_refl).
      assert (In t (tests p)) as Ht by (rewrite Et; apply in_app_iff; right; left; reflexivity).
      apply (passes_not_fails (table_ops sip) m'' p t e0); [|exact F].
      apply (separate_table_passes sip (bf ++ [p]) m'' p t); try assumption.
      * apply (incl_Forall Inc V).
      * intros q (y & Hy & Hq). apply A. exists y. split; [apply Inc; exact Hy|exact Hq].
      * rewrite Ep' in S. apply (separate_part _ _ S).
      * apply (table_loaded_upto sip bf p m' m'' L Ad).
      * apply (U p t); [apply Inc; exact Hp|exact Ht].
      * apply D; [apply Inc; exact Hp|exact Ht].
Qed.

(** ** The trie after loading *)
Theorem separate_tests_stay sip ps m :
  Forall valid_pattern ps -> utf8_tests ps -> separate ps -> NoDup (map pat_uuid ps) ->
  from_source (trie_ops sip) (map (fun p => Ok p) ps) = Ret (Ok m) ->
  forall p t, In p ps -> In t (tests p) ->
    passes (trie_ops sip) m p t \/ mo_parse (trie_ops sip) m (tm_message t) = Panic.
Proof.
  intros V U S N L p t Hp Ht.
  assert (describes t p) as D by (apply (separate_loads sip ps V U S N (ex_intro _ _ L)); eauto).
  apply from_source_ok, loads_adds in L. destruct L as (_ & Am). rewrite patterns_of_map, trie_adds in Am.
  cbn [trie_ops mo_parse]. destruct (Trie.parse m (tm_message t)) as [r| |] eqn:E.
  - left. apply (separate_passes sip ps m p t V S N Am Hp (U p t Hp Ht)); eauto.
  - right. reflexivity.
  - destruct (Trie_total.parse_terminates m (tm_message t) E).
Qed.

(** ** The table accepts less than its patterns say *)
Definition cut_short : list pattern := [tested (tpat 1 ($"app")) [$"ap"]].
Theorem separate_table_misled :
  exists ps m,
    Forall valid_pattern ps /\ (forall q, parser_in ps q -> parser_ascii_set q) /\ utf8_tests ps /\ separate ps /\
    NoDup (map pat_uuid ps) /\ from_source (table_ops siphash) (map (fun p => Ok p) ps) = Ret (Ok m) /\
    exists p t, In p ps /\ In t (tests p) /\ ~ describes t p.
Proof.
  exists cut_short. eexists. split; [apply valid_patterns_sound; vm_compute; reflexivity|].
  split; [intros q (p & [<-|[]] & H); vm_compute in H; destruct H as [H|[]]; discriminate H|].
  split; [intros p t [<-|[]] [<-|[]]; apply utf8b_sound; vm_compute; reflexivity|].
  split; [apply separate_cons; split; [eexists; eexists; vm_compute; reflexivity|split; [intros q l m r []|]]|].
  { split; [intros ? []|intros i j x y _ H; destruct i; discriminate]. }
  split; [vm_compute; repeat constructor; simpl; tauto|]. split; [vm_compute; reflexivity|].
  exists (tested (tpat 1 ($"app")) [$"ap"]). eexists. split; [left; reflexivity|]. split; [left; reflexivity|].
  intros (caps & W & _). vm_compute in W. inversion W; congruence.
Qed.
