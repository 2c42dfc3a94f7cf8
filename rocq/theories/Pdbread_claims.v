(** * Proofs about what the converter from patterndb reads *)
From Verif Require Import Base Base_facts Pattern Grammar Deser Errors Pdb2adb Spec_pdb Pdb_document Pdbread Spec_pdbread Pdbread_facts Pdbread_standard.

Theorem read_dies examples doc :
  read examples doc <> OutOfFuel /\
  (read examples doc = Panic <-> exists e, element_of [] doc e /\ fatal examples e).
Proof.
  unfold read. pose proof (handle_all_spec examples [] (ended [] doc) no_tables (so_far_nothing examples)) as H.
  destruct (handle_all examples (ended [] doc) no_tables) as [t| |]; [| |destruct H].
  - destruct H as (H & _). split; [discriminate|]. split; [discriminate|]. intros (e & He & Hf).
    apply ended_spec in He. apply fatalb_spec in Hf.
    assert (existsb (fatalb examples) (ended [] doc) = true) by (apply existsb_exists; eauto). congruence.
  - split; [discriminate|]. split; [intros _|reflexivity].
    apply existsb_exists in H. destruct H as (e & He & Hf). exists e. rewrite <- ended_spec, <- fatalb_spec. auto.
Qed.

Lemma ancestors_elements up x e :
  element_of up x e -> forall a, In a (el_up e) ->
  In a up \/ exists e', element_of up x e' /\ (el_tag e', el_atts e') = a.
Proof.
  induction 1 as [up tag atts l|up tag atts l x e Hx He IH]; intros a Ha.
  - left. exact Ha.
  - destruct (IH a Ha) as [[E|H]|(e' & He' & E)].
    + right. exists (up, (tag, atts, l)). split; [constructor|exact E].
    + left. exact H.
    + right. exists e'. split; [|exact E]. econstructor; eassumption.
Qed.

Lemma touched_rule doc e id :
  element_of [] doc e -> touches id e = true -> exists e', element_of [] doc e' /\ is_rule id e' = true.
Proof.
  intros He Ht. unfold touches in Ht. rewrite !Bool.orb_true_iff in Ht.
  assert (is_rule id e = true \/ belongs id e = true) as [H|H].
  { unfold pattern_of, example_of, tag_of, value_of in Ht. rewrite !Bool.andb_true_iff in Ht. tauto. }
  - eauto.
  - unfold belongs in H. destruct (owner ($"rule") e) as [a|] eqn:Ea; [|discriminate].
    unfold owner in Ea. apply find_some in Ea. destruct Ea as (Ha & Hr).
    destruct (ancestors_elements _ _ _ He a Ha) as [[]|(e' & He' & <-)]. exists e'. split; [exact He'|].
    unfold is_rule. cbn [fst snd] in *. rewrite Hr, H. reflexivity.
Qed.

Lemma last_in_filter {A} (f : A -> bool) l x r : rev (filter f l) = x :: r ->
  exists a b, l = a ++ x :: b /\ f x = true /\ forall y, In y b -> f y = false.
Proof.
  revert x r. induction l as [|y l IH] using rev_ind; intros x r E; [discriminate|].
  rewrite filter_snoc in E. destruct (f y) eqn:Ey.
  - rewrite rev_app_distr in E. cbn in E. injection E as <- _. exists l, []. split; [reflexivity|]. split; [exact Ey|intros ? []].
  - rewrite app_nil_r in E. destruct (IH _ _ E) as (a & b & -> & Hx & Hb). exists a, (b ++ [y]).
    rewrite <- app_assoc. split; [reflexivity|]. split; [exact Hx|]. intros z Hz. apply in_app_iff in Hz.
    destruct Hz as [Hz|[<-|[]]]; [auto|exact Ey].
Qed.

(** ** Examples *)
Lemma last_child_tagged tag l x after : last_child tag l = Some (x, after) <-> last_tagged tag l x after.
Proof.
  revert x after. induction l as [|y l IH]; intros x after; cbn [last_child].
  - split; [discriminate|]. intros (b & E & _). destruct b; discriminate.
  - destruct (last_child tag l) as [(x', after')|] eqn:E.
    + split.
      * intros X. injection X as -> ->. destruct (proj1 (IH x after) eq_refl) as (b & -> & H). exists (y :: b). split; [reflexivity|exact H].
      * intros (b & Eb & Ht & Hn). destruct b as [|z b]; cbn [app] in Eb; injection Eb as -> ->.
        -- exfalso. destruct (proj1 (IH x' after') eq_refl) as (b & -> & Ht' & _). 
           assert (In x' (b ++ x' :: after')) as Hin by (apply in_app_iff; right; left; reflexivity).
           change tagged with has_tag in *. rewrite (Hn x' Hin) in Ht'. discriminate.
        -- rewrite <- (proj2 (IH x after)); [reflexivity|]. exists b. auto.
    + apply last_child_none in E. change has_tag with tagged in *. split.
      * destruct (tagged tag y) eqn:Ey; [|discriminate]. intros X. injection X as -> ->. exists []. split; [reflexivity|].
        split; [exact Ey|]. apply existsb_none. rewrite E. reflexivity.
      * intros (b & Eb & Ht & Hn). destruct b as [|z b]; cbn [app] in Eb; injection Eb as -> ->; [rewrite Ht; reflexivity|].
        exfalso. assert (existsb (tagged tag) (b ++ x :: after) = true); [|congruence].
        apply existsb_exists. exists x. split; [apply in_app_iff; right; left; reflexivity|exact Ht].
Qed.

Lemma hash_of_filled l : hash_of l (match l with [] => None | _ => Some (filled l) end).
Proof.
  split; [destruct l; split; congruence|]. intros h' E. destruct l as [|kv l]; [discriminate|]. injection E as <-.
  split; [apply filled_nodup|]. intros k v. apply filled_last.
Qed.

Lemma fold_pairs vs h :
  fold_left (fun h v => hash_put (hash_key (att ($"name") (xml_atts v))) (xml_text v) h) vs h =
  fold_left (fun h kv => hash_put (fst kv) (snd kv) h) (map name_and_text vs) h.
Proof.
  revert h. induction vs as [|v vs IH]; intros h; [reflexivity|]. cbn [map fold_left]. rewrite IH.
  rewrite att_attribute. reflexivity.
Qed.

Lemma test_values_spec l :
  ((forall y, In y l -> tagged ($"test_values") y = false) -> test_values l = None) /\
  forall v after, last_tagged ($"test_values") l v after ->
    hash_of (map name_and_text (filter (tagged ($"test_value")) (flat_map opening (children v) ++ flat_map opening after)))
      (test_values l).
Proof.
  unfold test_values. split.
  - intros H. assert (last_child ($"test_values") l = None) as ->; [|reflexivity]. apply last_child_none.
    apply Bool.negb_true_iff, existsb_none. exact H.
  - intros v after H. apply last_child_tagged in H. rewrite H.
    assert (tl (begun v) = flat_map opening (children v)) as -> by (destruct v; reflexivity).
    change begun with opening. change has_tag with tagged.
    match goal with |- hash_of (map _ ?vs) _ => destruct vs as [|w ws] eqn:E end.
    + apply (hash_of_filled []).
    + rewrite fold_pairs. apply (hash_of_filled (map name_and_text (w :: ws))).
Qed.

Lemma example_read_spec e x : example_read e = [x] -> example_from (el_children e) x.
Proof.
  unfold example_read. destruct (last_child ($"test_message") (el_children e)) as [(m, after)|] eqn:E; [|discriminate].
  intros X. injection X as <-. apply last_child_tagged in E. destruct (test_values_spec (el_children e)) as (H1 & H2).
  constructor; cbn [ex_message ex_program ex_values]; [|exact H1|exact H2].
  exists m, after. split; [exact E|]. rewrite att_attribute. split; reflexivity.
Qed.

Theorem read_result examples doc t :
  read examples doc = Ret t ->
  NoDup (map fst (tb_rulesets t)) /\ NoDup (map fst (tb_rules t)) /\
  (forall name, hash_get name (tb_rulesets t) = unless_empty (map el_text (filter (program_of name) (closing [] doc)))) /\
  (forall id r, In (id, r) (tb_rules t) -> rule_read examples (closing [] doc) id r) /\
  (forall id, In id (map fst (tb_rules t)) <-> exists e, element_of [] doc e /\ is_rule id e = true).
Proof.
  change (closing [] doc) with (ended [] doc).
  intros HR. pose proof (proj2 (read_dies examples doc)) as HD. rewrite HR in HD.
  unfold read in HR. pose proof (handle_all_spec examples [] (ended [] doc) no_tables (so_far_nothing examples)) as H.
  rewrite HR in H. destruct H as (_ & [H1 H2 (N1 & N2)]). cbn [app] in H1, H2.
  assert (forall id, existsb (touches id) (ended [] doc) = true <-> exists e, element_of [] doc e /\ is_rule id e = true) as HT.
  { intros id. rewrite existsb_exists. split.
    - intros (e & He & Ht). apply ended_spec in He. eapply touched_rule; eassumption.
    - intros (e & He & Ht). exists e. split; [apply ended_spec; exact He|]. unfold touches. rewrite Ht. reflexivity. }
  split; [exact N2|]. split; [exact N1|]. split; [exact H1|]. split.
  - intros id r Hr. apply hash_get_in in Hr; [|exact N1]. rewrite H2 in Hr.
    destruct (existsb (touches id) (ended [] doc)) eqn:Et; [|discriminate]. injection Hr as <-.
    apply HT in Et. destruct Et as (e0 & He0 & Hr0).
    constructor; cbn [rule_so_far rl_id rl_ruleset rl_patterns rl_examples rl_tags rl_values]; try reflexivity.
    + destruct (rev (filter (is_rule id) (ended [] doc))) as [|e l] eqn:El.
      { assert (In e0 (filter (is_rule id) (ended [] doc))) as Hin
          by (apply filter_In; split; [apply ended_spec; exact He0|exact Hr0]).
        apply in_rev in Hin. rewrite El in Hin. destruct Hin. }
      destruct (last_in_filter _ _ _ _ El) as (a & b & E & He & Hb).
      destruct (owner ($"ruleset") e) as [s|] eqn:Es.
      * exists a, e, b, s. rewrite ruleset_name_set. auto.
      * exfalso. destruct HD as (_ & HD). discriminate HD. exists e. split.
        { apply ended_spec. rewrite E. apply in_app_iff. right. left. reflexivity. }
        right. left. split; [|exact Es]. unfold is_rule in He. apply Bool.andb_true_iff in He. apply str_eqb_eq, He.
    + destruct examples; [|reflexivity].
      assert (forall e, In e (filter (example_of id) (ended [] doc)) -> exists x, example_read e = [x]) as HX.
      { intros e He. apply filter_In in He. destruct He as (He & Hx). unfold example_read.
        destruct (last_child ($"test_message") (el_children e)) as [(m, after)|] eqn:El; [eauto|]. exfalso.
        apply last_child_none in El. destruct HD as (_ & HD). discriminate HD. exists e. split; [apply ended_spec; exact He|].
        do 4 right. unfold example_of in Hx. apply Bool.andb_true_iff in Hx. split; [apply Hx|]. split; [reflexivity|].
        apply existsb_none. apply Bool.negb_true_iff. exact El. }
      induction (filter (example_of id) (ended [] doc)) as [|e l IH]; [constructor|]. cbn [flat_map].
      destruct (HX e (or_introl eq_refl)) as (x & Ex). rewrite Ex. constructor; [apply example_read_spec; exact Ex|].
      apply IH. intros e' He'. apply HX. right. exact He'.
    + match goal with |- hash_of ?l _ => pose proof (hash_of_filled l) as HH end.
      assert (forall vs, map (fun e => (hash_key (att ($"name") (el_atts e)), el_text e)) vs =
                         map (fun e => (or_empty (attribute ($"name") (el_atts e)), el_text e)) vs) as HM.
      { intros vs. apply map_ext. intros e. rewrite att_attribute. reflexivity. }
      destruct (filter (value_of id) (ended [] doc)) as [|v vs]; [exact HH|]. rewrite HM. exact HH.
  - intros id. rewrite <- HT. split.
    + intros Hin. apply in_map_iff in Hin. destruct Hin as ((k & r) & <- & Hin). apply hash_get_in in Hin; [|exact N1].
      rewrite H2 in Hin. cbn [fst] in *. destruct (existsb (touches k) (ended [] doc)); [reflexivity|discriminate].
    + intros Et. specialize (H2 id). rewrite Et in H2. apply hash_get_in in H2; [|exact N1].
      apply in_map_iff. eexists. split; [|exact H2]. reflexivity.
Qed.

(** ** What is read is fit for C116 to C119 *)
Theorem read_proper examples doc t : read examples doc = Ret t -> Forall proper_rule (map snd (tb_rules t)).
Proof.
  intros H. destruct (read_result _ _ _ H) as (_ & _ & _ & HR & _). apply Forall_forall. intros r Hr.
  apply in_map_iff in Hr. destruct Hr as ((id & r') & <- & Hr). cbn [snd]. destruct (HR id r' Hr) as [_ _ _ HX _ HV]. split.
  - destruct (rl_values r') as [l|]; [|exact I]. apply (proj2 HV l eq_refl).
  - intros e He. destruct examples; [|rewrite HX in He; destruct He].
    assert (exists l, example_from l e) as (l & [_ H1 H2]).
    { clear - HX He. induction HX as [|a x la lx Hx HX IH]; [destruct He|]. destruct He as [->|He]; [eauto|apply IH; exact He]. }
    destruct (ex_values e) as [h|] eqn:Eh; [|exact I].
    destruct (last_child ($"test_values") l) as [(v, after)|] eqn:El.
    + apply last_child_tagged in El. apply (proj2 (H2 v after El) h eq_refl).
    + exfalso. apply last_child_none in El. assert (Some h = None) as X; [|discriminate X].
      apply H1. apply existsb_none. apply Bool.negb_true_iff. exact El.
Qed.

(** ** Standard documents *)
Lemma sources_read examples db P : (forall s, In s db -> P (ps_name s) = unless_empty (ps_programs s)) ->
  sources P (rules_in examples db) = sources_in examples db.
Proof.
  intros H. unfold sources, sources_in. f_equal. unfold rules_in.
  induction db as [|s db IH]; [reflexivity|]. cbn [flat_map]. rewrite flat_map_app, IH.
  2: { intros s' Hs'. apply H. right. exact Hs'. }
  f_equal. specialize (H s (or_introl eq_refl)). clear IH.
  destruct (ps_programs s) as [|p l] eqn:Ep.
  - induction (ps_rules s) as [|r rs IH]; [reflexivity|]. cbn [map flat_map]. rewrite IH.
    unfold rule_sources, rule_in. cbn [rl_ruleset rl_patterns]. rewrite H. reflexivity.
  - induction (ps_rules s) as [|r rs IH]; [reflexivity|]. cbn [map flat_map]. rewrite IH. f_equal.
    unfold rule_sources at 1. cbn [rule_in rl_ruleset rl_patterns]. rewrite H. cbn [unless_empty].
    destruct (pr_patterns r); reflexivity.
Qed.

Theorem script_loaded examples with_program fresh parse_uuid db doc pats :
  standard db -> script examples with_program fresh (pdb_xml db) = Ret doc ->
  de_pattern_file parse_uuid doc = Ret (Ok pats) ->
  length pats = length (results p2p (sources_in examples db)) /\
  forall i res p, nth_error (results p2p (sources_in examples db)) i = Some res -> nth_error pats i = Some p ->
    becomes with_program parse_uuid fresh res i p.
Proof.
  intros HS HD HP. destruct (standard_read examples db HS) as (t & HR & E & S). unfold script in HD. rewrite HR in HD.
  cbn [bind] in HD. pose proof (read_proper _ _ _ HR) as PR. rewrite E in HD, PR.
  rewrite <- (sources_read examples db (fun name => hash_get name (tb_rulesets t)) S). eapply document_loaded; eassumption.
Qed.

Theorem script_dies examples with_program fresh db : standard db ->
  script examples with_program fresh (pdb_xml db) <> OutOfFuel /\
  (script examples with_program fresh (pdb_xml db) = Panic <->
   examples = true /\ exists s r, In s db /\ In r (ps_rules s) /\ ps_programs s <> [] /\ pr_patterns r = [] /\ pr_examples r <> []).
Proof.
  intros HS. destruct (standard_read examples db HS) as (t & HR & E & S). unfold script. rewrite HR. cbn [bind]. rewrite E.
  split.
  - unfold convert.
    assert (forall P rs n m, convert_rules with_program P fresh rs n m <> OutOfFuel) as HF.
    { intros P. induction rs as [|r rs IH]; intros n m; cbn [convert_rules]; [discriminate|].
      destruct (P (rl_ruleset r)) as [[|p l]|]; try apply IH.
      destruct (rl_patterns r) as [ps|], (rl_examples r); try apply IH; try discriminate;
        destruct (convert_patterns with_program fresh r p (rl_id r) ps n m) as ((vs, n'), m');
        specialize (IH n' m'); destruct (convert_rules with_program P fresh rs n' m'); cbn [bind]; congruence. }
    match goal with |- context [convert_rules ?a ?b ?c ?d ?e ?f] => specialize (HF b d e f); destruct (convert_rules a b c d e f) end;
      cbn [bind]; congruence.
  - rewrite convert_dies, Exists_exists. unfold untestable, rules_in. split.
    + intros (r & Hr & (p & l & HP) & H1 & H2). apply in_flat_map in Hr. destruct Hr as (s & Hs & Hr).
      apply in_map_iff in Hr. destruct Hr as (r' & <- & Hr). cbn [rule_in rl_ruleset rl_patterns rl_examples] in *.
      rewrite (S s Hs) in HP. destruct examples; [|destruct H2; reflexivity]. split; [reflexivity|].
      exists s, r'. split; [exact Hs|]. split; [exact Hr|]. split; [intros E'; rewrite E' in HP; discriminate|].
      split; [destruct (pr_patterns r'); [reflexivity|discriminate]|]. intros E'. rewrite E' in H2. apply H2. reflexivity.
    + intros (-> & s & r & Hs & Hr & H1 & H2 & H3). exists (rule_in true s r). split.
      { apply in_flat_map. exists s. split; [exact Hs|]. apply in_map. exact Hr. }
      cbn [rule_in rl_ruleset rl_patterns rl_examples]. rewrite (S s Hs), H2.
      destruct (ps_programs s) as [|p l]; [destruct H1; reflexivity|]. split; [exists p, l; reflexivity|].
      split; [reflexivity|]. destruct (pr_examples r); [destruct H3; reflexivity|discriminate].
Qed.

(** The uuids and the names. *)
Theorem script_uuids examples with_program fresh parse_uuid db doc pats :
  standard db -> script examples with_program fresh (pdb_xml db) = Ret doc ->
  de_pattern_file parse_uuid doc = Ret (Ok pats) ->
  (forall i j, parse_uuid (fresh i) = parse_uuid (fresh j) -> i = j) ->
  (forall i r, In r (flat_map ps_rules db) -> parse_uuid (fresh i) <> parse_uuid (pr_id r)) ->
  NoDup (map (fun r => parse_uuid (pr_id r)) (flat_map ps_rules db)) ->
  NoDup (map pat_uuid pats).
Proof.
  intros HS HD HP U1 U2 U3. destruct (standard_read examples db HS) as (t & HR & E & S). unfold script in HD. rewrite HR in HD.
  cbn [bind] in HD. pose proof (read_proper _ _ _ HR) as PR. rewrite E in HD, PR.
  eapply loaded_uuids_differ; [exact PR|exact HD|exact HP|].
  assert (map (fun r => parse_uuid (rl_id r)) (rules_in examples db) =
          map (fun r => parse_uuid (pr_id r)) (flat_map ps_rules db)) as EM.
  { unfold rules_in. clear. induction db as [|s db IH]; [reflexivity|]. cbn [flat_map]. rewrite !map_app, IH, map_map. reflexivity. }
  split; [exact U1|]. split; [|rewrite EM; exact U3].
  intros i r Hr. apply in_flat_map in Hr. destruct Hr as (s & Hs & Hr). apply in_map_iff in Hr.
  destruct Hr as (r' & <- & Hr). apply U2. apply in_flat_map. eauto.
Qed.
