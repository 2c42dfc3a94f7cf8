(** * Proofs about the converted document *)
From Coq Require Import Sorted.
From Verif Require Import Base Base_facts Utils Utils_facts Parsers Pattern Spec Grammar Spec_grammar Spec_source Deser Spec_deser
  Source_claims Deser_claims Errors Errors_claims Pdb2adb Spec_pdb Pdb_claims.

Definition numb {A} (g : nat) (l : list A) : list (nat * A) := combine (List.seq g (length l)) l.
Lemma numb_app {A} (a b : list A) g : numb g (a ++ b) = numb g a ++ numb (g + length a) b.
Proof.
  revert g. induction a as [|x a IH]; intros g; [rewrite Nat.add_0_r; reflexivity|].
  cbn [app numb]. change (numb g (x :: a ++ b)) with ((g, x) :: numb (S g) (a ++ b)). rewrite IH.
  change (numb g (x :: a)) with ((g, x) :: numb (S g) a). cbn [app length]. rewrite Nat.add_succ_r. reflexivity.
Qed.
Lemma numb_nth {A} (l : list A) : forall g i x, nth_error l i = Some x -> nth_error (numb g l) i = Some (g + i, x).
Proof.
  induction l as [|y l IH]; intros g [|i] x H; try discriminate H.
  - cbn in H. injection H as ->. cbn. rewrite Nat.add_0_r. reflexivity.
  - change (numb g (y :: l)) with ((g, y) :: numb (S g) l). cbn [nth_error] in *. rewrite (IH (S g) i x H). f_equal. f_equal. lia.
Qed.

Lemma Exists_dec_prop {A} (P : A -> Prop) l : (forall x, P x \/ ~ P x) -> Exists P l \/ ~ Exists P l.
Proof.
  intros D. induction l as [|x l IH]; [right; intros H; inversion H|].
  destruct (D x) as [H|H]; [left; left; exact H|]. destruct IH as [K|K]; [left; right; exact K|].
  right. intros X. inversion X; contradiction.
Qed.

Section Document.
  Variable with_program : bool.
  Variable programs : str -> option (list str).
  Variable fresh : nat -> str.

  Definition made_entry (n : nat) (res : nat * source * str) : value :=
    entry with_program (src_rule (snd (fst res))) (src_program (snd (fst res))) (source_uuid fresh (fst res)) n (snd res).
  Fixpoint entries (n : nat) (l : list (nat * source * str)) : list value :=
    match l with [] => [] | r :: l' => made_entry n r :: entries (S n) l' end.
  Lemma entries_app a b n : entries n (a ++ b) = entries n a ++ entries (n + length a) b.
  Proof.
    revert n. induction a as [|x a IH]; intros n; cbn [app entries length]; [rewrite Nat.add_0_r; reflexivity|].
    rewrite IH, Nat.add_succ_r. reflexivity.
  Qed.
  Lemma results_app conv a b : results conv (a ++ b) = results conv a ++ results conv b.
  Proof. apply flat_map_app. Qed.

  Definition uuid_at (r : rule) (g j : nat) : str := match j with O => rl_id r | S _ => fresh (pred g) end.
  Definition src_list (r : rule) (program : str) (j : nat) (ps : list str) : list source :=
    map (fun ip => Source r program (fst ip) (snd ip)) (combine (List.seq j (length ps)) ps).
  Lemma convert_patterns_spec r program ps : forall j p_id g,
    convert_patterns with_program fresh r program (uuid_at r g j) ps p_id g =
    (entries p_id (results p2p (numb g (src_list r program j ps))),
     p_id + length (results p2p (numb g (src_list r program j ps))), g + length ps).
  Proof.
    induction ps as [|p ps IH]; intros j p_id g; [cbn; rewrite !Nat.add_0_r; reflexivity|].
    cbn [convert_patterns]. change (fresh g) with (uuid_at r (S g) (S j)).
    change (numb g (src_list r program j (p :: ps))) with ((g, Source r program j p) :: numb (S g) (src_list r program (S j) ps)).
    cbn [results flat_map snd src_pattern].
    fold (results p2p (numb (S g) (src_list r program (S j) ps))).
    destruct (p2p p) as [s|] eqn:E; cbn [truthy].
    - destruct (is_empty s || str_eqb s ($"0")) eqn:D; cbn [negb].
      + rewrite IH. cbn [app length]. rewrite Nat.add_succ_r. reflexivity.
      + rewrite IH. cbn [app length entries]. rewrite !Nat.add_succ_r. reflexivity.
    - rewrite IH. cbn [app length]. rewrite Nat.add_succ_r. reflexivity.
  Qed.
  Lemma src_list_length r program ps : forall j, length (src_list r program j ps) = length ps.
  Proof. intros j. unfold src_list. rewrite map_length, combine_length, seq_length. apply Nat.min_id. Qed.

  Lemma convert_rules_spec rs : forall p_id g,
    (~ Exists (untestable programs) rs ->
     convert_rules with_program programs fresh rs p_id g =
     Ret (entries p_id (results p2p (numb g (flat_map (rule_sources programs) rs))))) /\
    (Exists (untestable programs) rs -> convert_rules with_program programs fresh rs p_id g = Panic).
  Proof.
    induction rs as [|r rs IH]; intros p_id g.
    - split; [reflexivity|intros H; inversion H].
    - cbn [convert_rules flat_map]. unfold rule_sources at 1.
      destruct (programs (rl_ruleset r)) as [[|program more]|] eqn:P.
      1, 3: destruct (IH p_id g) as [A B]; split; intros H; [apply A; intros X; apply H; right; exact X|];
        apply B; inversion H as [? ? ((q & m & Q) & _)|]; [congruence|assumption].
      destruct (rl_patterns r) as [ps|] eqn:Q.
      + pose proof (convert_patterns_spec r program ps 0 p_id g) as C. cbn [uuid_at] in C. rewrite C. clear C.
        rewrite numb_app, results_app, entries_app.
        unfold numbered. change (map _ (combine (List.seq 0 (length ps)) ps)) with (src_list r program 0 ps).
        rewrite src_list_length.
        destruct (IH (p_id + length (results p2p (numb g (src_list r program 0 ps)))) (g + length ps)) as [A B]. split; intros H.
        * rewrite A; [reflexivity|]. intros X. apply H. right. exact X.
        * rewrite B; [reflexivity|]. inversion H as [? ? (_ & N & _)|]; [congruence|assumption].
      + destruct (rl_examples r) as [|e es] eqn:X.
        * destruct (IH p_id g) as [A B]. split; intros H; [apply A; intros Y; apply H; right; exact Y|].
          apply B. inversion H as [? ? (_ & _ & N)|]; [congruence|assumption].
        * split; [|reflexivity]. intros H. exfalso. apply H. left. split; [eauto|]. split; [exact Q|]. rewrite X. discriminate.
  Qed.

  Theorem convert_dies rs : convert with_program programs fresh rs = Panic <-> Exists (untestable programs) rs.
  Proof.
    unfold convert. destruct (convert_rules_spec rs 0 0) as [A B]. split.
    - intros H. destruct (convert_rules with_program programs fresh rs 0 0) as [vs| |] eqn:E; try discriminate H.
      assert (Exists (untestable programs) rs \/ ~ Exists (untestable programs) rs) as [X|X]; [|exact X|discriminate (A X)].
      apply Exists_dec_prop. intros r. unfold untestable. destruct (programs (rl_ruleset r)) as [[|p m]|].
      + right. intros ((? & ? & Y) & _). discriminate.
      + destruct (rl_patterns r); [right; intros (_ & Y & _); discriminate|]. destruct (rl_examples r).
        * right. intros (_ & _ & Y). contradiction.
        * left. split; [eauto|]. split; [reflexivity|discriminate].
      + right. intros ((? & ? & Y) & _). discriminate.
    - intros H. rewrite (B H). reflexivity.
  Qed.
  Lemma convert_entries rs doc : convert with_program programs fresh rs = Ret doc ->
    doc = VMap [($"patterns", VSeq (entries 0 (results p2p (sources programs rs))))].
  Proof.
    intros H. assert (~ Exists (untestable programs) rs) as N.
    { intros X. apply convert_dies in X. congruence. }
    unfold convert in H. destruct (convert_rules_spec rs 0 0) as [A _]. rewrite (A N) in H. cbn in H. injection H as <-. reflexivity.
  Qed.
End Document.

(** ** Loading *)
Lemma de_strings l : NoDup (map fst l) -> exists m,
  de_map (VMap (map (fun kv : str * str => (fst kv, VStr (snd kv))) l)) = Ok m /\ ascending_keys m /\
  forall k s, In (k, s) m <-> In (k, s) l.
Proof.
  intros N. exists (fold_left (fun m kv => bmap_insert (fst kv) (snd kv) m) l []).
  assert (de_map (VMap (map (fun kv : str * str => (fst kv, VStr (snd kv))) l)) =
          Ok (fold_left (fun m kv => bmap_insert (fst kv) (snd kv) m) l [])) as E.
  { cbn [de_map]. apply de_map_entries_ok. eauto. }
  split; [exact E|]. apply de_map_ok in E. destruct E as [(E & _)|(l' & E & _ & S & H)]; [discriminate|].
  injection E as <-. split; [exact S|]. intros k s. rewrite H, binds_in.
  - rewrite in_map_iff. split; [intros ((k', s') & E & I); injection E as <- <-; exact I|].
    intros I. exists (k, s). auto.
  - rewrite map_map. exact N.
Qed.
Lemma de_strings_vec l : de_vec de_string (VSeq (map VStr l)) = Ok l.
Proof. cbn [de_vec]. induction l as [|s l IH]; [reflexivity|]. cbn [map map_result de_string rbind]. rewrite IH. reflexivity. Qed.

Section Loading.
  Variable with_program : bool.
  Variable parse_uuid : str -> option uuid.
  Variable fresh : nat -> str.

  Lemma prefixed_eq o s : (if with_program then interpolated o ++ $": " else []) ++ s = prefixed with_program o s.
  Proof. unfold prefixed. destruct with_program; [|reflexivity]. rewrite <- app_assoc. reflexivity. Qed.

  Lemma test_loads e : distinct_keys (ex_values e) ->
    exists t, de_test_message (test_message_value with_program e) = Ok t /\ example_becomes with_program e t.
  Proof.
    intros D. unfold test_message_value. rewrite prefixed_eq. unfold example_becomes.
    destruct (ex_values e) as [l|] eqn:E.
    - destruct (de_strings l D) as (m & Em & S & H). eexists. split.
      + unfold de_test_message. cbn [tm_visit_fields].
        change (tm_field_of ($"message")) with (@Ok _ de_error TM_MESSAGE). cbn [rbind de_string].
        change (tm_field_of ($"values")) with (@Ok _ de_error TM_VALUES). cbn [rbind]. rewrite Em. cbn [rbind ta_message ta_values ta_tags].
        reflexivity.
      + split; [reflexivity|]. split; [reflexivity|]. split; [exact S|]. intros k s. cbn [tm_values]. rewrite H. split.
        * intros I. exists l. auto.
        * intros (l' & E' & I). congruence.
    - eexists. split; [reflexivity|]. split; [reflexivity|]. split; [reflexivity|]. split; [constructor|].
      intros k s. cbn. split; [intros []|]. intros (l' & E' & _). discriminate.
  Qed.
  Lemma tests_load es : (forall e, In e es -> distinct_keys (ex_values e)) ->
    exists l, de_vec de_test_message (VSeq (map (test_message_value with_program) es)) = Ok l /\
      Forall2 (example_becomes with_program) es l.
  Proof.
    cbn [de_vec]. induction es as [|e es IH]; intros D; [exists []; split; [reflexivity|constructor]|].
    destruct (test_loads e (D e (or_introl eq_refl))) as (t & Et & Ht).
    destruct IH as (l & El & Hl); [intros e' I; apply D; right; exact I|].
    exists (t :: l). split; [|constructor; assumption]. cbn [map map_result]. rewrite Et. cbn [rbind]. rewrite El. reflexivity.
  Qed.

  Definition value_part (r : rule) (o : option bmap) : Prop :=
    (o = None <-> ~ exists k s, kept_value r k s) /\
    (forall m, o = Some m -> ascending_keys m /\ forall k s, In (k, s) m <-> kept_value r k s).

  Lemma extra_values_spec r : distinct_keys (rl_values r) ->
    (extra_values r = [] /\ value_part r None) \/
    exists l m, extra_values r = [($"values", VMap l)] /\ de_map (VMap l) = Ok m /\ value_part r (Some m).
  Proof.
    intros D. unfold extra_values, value_part, kept_value. destruct (rl_values r) as [l|] eqn:E.
    - assert (forall k s, In (k, s) (filter (fun kv => negb (re_has ($"$(") (snd kv))) l) <->
                          exists l', Some l = Some l' /\ In (k, s) l' /\ ~ occurs_in ($"$(") s) as F.
      { intros k s. rewrite filter_In. cbn [snd]. rewrite negb_true_iff. pose proof (re_has_spec ($"$(") s) as R. split.
        - intros [I N]. exists l. split; [reflexivity|]. split; [exact I|]. rewrite <- R. congruence.
        - intros (l' & X & I & N). injection X as <-. split; [exact I|]. rewrite <- R in N. destruct (re_has ($"$(") s); [congruence|reflexivity]. }
      destruct (filter (fun kv => negb (re_has ($"$(") (snd kv))) l) as [|x l'] eqn:G.
      + left. split; [reflexivity|]. split; [|discriminate]. split; [|reflexivity]. intros _ (k & s & H). apply F in H. exact H.
      + right. assert (NoDup (map fst (x :: l'))) as N.
        { rewrite <- G. clear - D. cbn [distinct_keys] in D. induction l as [|y l IH]; [constructor|].
          inversion D as [|? ? A B]; subst. cbn [filter]. destruct (negb _); [|apply IH, B]. cbn [map]. constructor; [|apply IH, B].
          intros I. apply A. apply in_map_iff in I as (z & E & I). apply filter_In in I as [I _]. rewrite <- E. apply in_map, I. }
        destruct (de_strings (x :: l') N) as (m & Em & S & H). eexists. exists m. split; [reflexivity|]. split; [exact Em|].
        split; [|intros m' X; injection X as <-; split; [exact S|]; intros k s; rewrite H; apply F].
        split; [discriminate|]. intros X. exfalso. apply X. destruct x as (k, s). exists k, s. apply F. left. reflexivity.
    - left. split; [reflexivity|]. split; [|discriminate]. split; [|reflexivity]. intros _ (k & s & l' & X & _). discriminate.
  Qed.

  Lemma entry_loads res n : proper_rule (src_rule (snd (fst res))) ->
    (parse_uuid (source_uuid fresh (fst res)) = None -> de_pattern parse_uuid (made_entry with_program fresh n res) = Ret (Err InvalidUuid)) /\
    (forall u, parse_uuid (source_uuid fresh (fst res)) = Some u ->
      exists p, (pat_uuid p = u) /\
        (forall ts, compile (prefixed with_program (Some (src_program (snd (fst res)))) (snd res)) = Ret (Ok ts) ->
           de_pattern parse_uuid (made_entry with_program fresh n res) = Ret (Ok (set_pattern_tokens p ts)) /\
           becomes with_program parse_uuid fresh res n (set_pattern_tokens p ts)) /\
        (forall e, compile (prefixed with_program (Some (src_program (snd (fst res)))) (snd res)) = Ret (Err e) ->
           de_pattern parse_uuid (made_entry with_program fresh n res) = Ret (Err InvalidPattern)) /\
        (compile (prefixed with_program (Some (src_program (snd (fst res)))) (snd res)) = Panic ->
           de_pattern parse_uuid (made_entry with_program fresh n res) = Panic) /\
        (compile (prefixed with_program (Some (src_program (snd (fst res)))) (snd res)) = OutOfFuel ->
           de_pattern parse_uuid (made_entry with_program fresh n res) = OutOfFuel)).
  Proof.
    destruct res as [[g src] s]. cbn [fst snd]. intros [Dv De].
    unfold made_entry, entry. cbn [fst snd].
    change (if with_program then src_program src ++ $": " else [])
      with (if with_program then interpolated (Some (src_program src)) ++ $": " else []). rewrite prefixed_eq.
    destruct (tests_load (rl_examples (src_rule src)) De) as (tms & Et & Ht).
    unfold de_pattern. cbn [app pat_visit_fields].
    change (pat_field_of ($"uuid")) with (@Ok _ de_error F_UUID).
    change (pat_field_of ($"pattern")) with (@Ok _ de_error F_PATTERN).
    change (pat_field_of ($"name")) with (@Ok _ de_error F_NAME).
    change (pat_field_of ($"test_messages")) with (@Ok _ de_error F_TESTMESSAGES).
    cbn [rbind pat_visit_field de_uuid de_string].
    split; [intros ->; reflexivity|]. intros u Eu. rewrite Eu. cbn [rbind].
    rewrite Et. cbn [rbind pa_name pa_uuid pa_pattern pa_values pa_tags pa_test_messages pat_acc_new].
    assert (exists vals, value_part (src_rule src) vals /\
      forall a, pa_values a = None -> pa_tags a = None ->
        pat_visit_fields parse_uuid (extra_values (src_rule src) ++ extra_tags (src_rule src)) a =
        Ok (PatAcc (pa_name a) (pa_uuid a) (pa_pattern a) vals (rl_tags (src_rule src)) (pa_test_messages a))) as (vals & Hv & Hl).
    { assert (forall a, pa_tags a = None -> pat_visit_fields parse_uuid (extra_tags (src_rule src)) a =
        Ok (PatAcc (pa_name a) (pa_uuid a) (pa_pattern a) (pa_values a) (rl_tags (src_rule src)) (pa_test_messages a))) as Ht'.
      { intros a E. unfold extra_tags. destruct (rl_tags (src_rule src)) as [l|]; [|cbn; rewrite <- E; destruct a; reflexivity].
        cbn [pat_visit_fields]. change (pat_field_of ($"tags")) with (@Ok _ de_error F_TAGS). cbn [rbind pat_visit_field].
        rewrite de_strings_vec. reflexivity. }
      destruct (extra_values_spec (src_rule src) Dv) as [(E & H)|(l & m & E & Em & H)].
      - exists None. split; [exact H|]. intros a Ev Eg. rewrite E. cbn [app]. rewrite (Ht' a Eg), Ev. reflexivity.
      - exists (Some m). split; [exact H|]. intros a Ev Eg. rewrite E. cbn [app pat_visit_fields].
        change (pat_field_of ($"values")) with (@Ok _ de_error F_VALUES). cbn [rbind pat_visit_field]. rewrite Em. cbn [rbind].
        rewrite Ht' by exact Eg. reflexivity. }
    rewrite Hl by reflexivity. cbn [pa_name pa_uuid pa_pattern pa_test_messages]. unfold de_pattern_finish. cbn [pa_pattern].
    exists {| pat_name := Some (rl_ruleset (src_rule src) ++ $"_" ++ nat_text n); pat_uuid := u; pat_tokens := [];
              pat_values := vals; pat_tags := rl_tags (src_rule src); pat_test_messages := Some tms |}.
    split; [reflexivity|]. split; [|split; [|split]].
    - intros ts C. rewrite C. cbn. split; [reflexivity|]. destruct Hv as [Hv1 Hv2]. constructor; cbn; try assumption; try reflexivity.
      exists tms. auto.
    - intros e C. rewrite C. reflexivity.
    - intros C. rewrite C. reflexivity.
    - intros C. rewrite C. reflexivity.
  Qed.
End Loading.

Lemma result_rule conv programs rs res : In res (results conv (sources programs rs)) -> In (src_rule (snd (fst res))) rs.
Proof.
  unfold results. rewrite in_flat_map. intros ((g, src) & I & H). assert (fst res = (g, src)) as ->.
  { destruct (conv _) as [s|]; [|destruct H]. destruct (is_empty s || str_eqb s ($"0")); [destruct H|].
    destruct H as [<-|[]]. reflexivity. }
  unfold sources, numbered in I. apply in_combine_r in I. apply in_flat_map in I as (r & I & J). cbn [snd].
  unfold rule_sources in J. destruct (programs (rl_ruleset r)) as [[|p m]|]; [destruct J| |destruct J].
  destruct (rl_patterns r) as [ps|]; [|destruct J]. apply in_map_iff in J as (ip & <- & _). exact I.
Qed.

Lemma de_file_entries parse_uuid vs pats :
  de_pattern_file parse_uuid (VMap [($"patterns", VSeq vs)]) = Ret (Ok pats) <->
  Forall2 (fun v p => de_pattern parse_uuid v = Ret (Ok p)) vs pats.
Proof.
  unfold de_pattern_file. cbn [file_visit_fields]. change (str_eqb ($"patterns") ($"patterns")) with true. cbv iota.
  cbn [de_pattern_vec]. rewrite (Forall2_iff _ _ (de_pattern_ok parse_uuid)). rewrite <- de_patterns_ok.
  destruct (de_patterns parse_uuid vs) as [[ps|e]| |]; cbn; split; intros H; try discriminate H; congruence.
Qed.

Section File.
  Variable with_program : bool.
  Variable programs : str -> option (list str).
  Variable fresh : nat -> str.
  Variable parse_uuid : str -> option uuid.

  Lemma entries_loaded l : (forall res, In res l -> proper_rule (src_rule (snd (fst res)))) -> forall n pats,
    Forall2 (fun v p => de_pattern parse_uuid v = Ret (Ok p)) (entries with_program fresh n l) pats ->
    length pats = length l /\
    forall i res p, nth_error l i = Some res -> nth_error pats i = Some p -> becomes with_program parse_uuid fresh res (n + i) p.
  Proof.
    induction l as [|x l IH]; intros Hp n pats H; cbn [entries] in H.
    - inversion H. split; [reflexivity|]. intros [|i] res p E; discriminate.
    - inversion H as [|v p0 ? pats' H1 H2]; subst.
      destruct (IH (fun res I => Hp res (or_intror I)) (S n) pats' H2) as [L K]. split; [cbn; congruence|].
      intros [|i] res p E E'; cbn in E, E'.
      + injection E as <-. injection E' as <-. rewrite Nat.add_0_r.
        destruct (entry_loads with_program parse_uuid fresh x n (Hp x (or_introl eq_refl))) as [A B].
        destruct (parse_uuid (source_uuid fresh (fst x))) as [u|]; [|rewrite A in H1 by reflexivity; discriminate].
        destruct (B u eq_refl) as (q & _ & B1 & B2 & B3 & B4).
        destruct (compile (prefixed with_program (Some (src_program (snd (fst x)))) (snd x))) as [[ts|e]| |] eqn:C.
        * destruct (B1 ts eq_refl) as [B1' B1'']. rewrite B1' in H1. injection H1 as <-. exact B1''.
        * rewrite (B2 e eq_refl) in H1. discriminate.
        * rewrite (B3 eq_refl) in H1. discriminate.
        * rewrite (B4 eq_refl) in H1. discriminate.
      + specialize (K i res p E E'). replace (n + S i) with (S n + i) by lia. exact K.
  Qed.
  Lemma entries_load l : (forall res, In res l -> proper_rule (src_rule (snd (fst res)))) -> forall n,
    (forall res, In res l -> parse_uuid (source_uuid fresh (fst res)) <> None /\
       exists ts, compile (prefixed with_program (Some (src_program (snd (fst res)))) (snd res)) = Ret (Ok ts)) ->
    exists pats, Forall2 (fun v p => de_pattern parse_uuid v = Ret (Ok p)) (entries with_program fresh n l) pats.
  Proof.
    induction l as [|x l IH]; intros Hp n H; cbn [entries]; [exists []; constructor|].
    destruct (IH (fun res I => Hp res (or_intror I)) (S n) (fun res I => H res (or_intror I))) as (pats & K).
    destruct (H x (or_introl eq_refl)) as [U (ts & C)].
    destruct (entry_loads with_program parse_uuid fresh x n (Hp x (or_introl eq_refl))) as [_ B].
    destruct (parse_uuid (source_uuid fresh (fst x))) as [u|]; [|contradiction].
    destruct (B u eq_refl) as (q & _ & B1 & _). destruct (B1 ts C) as [B1' _]. eexists. constructor; [exact B1'|exact K].
  Qed.

  Lemma rule_sources_proper rs : Forall proper_rule rs ->
    forall res, In res (results p2p (sources programs rs)) -> proper_rule (src_rule (snd (fst res))).
  Proof. intros H res I. apply result_rule in I. rewrite Forall_forall in H. auto. Qed.

  Theorem document_loaded rs doc pats : Forall proper_rule rs -> convert with_program programs fresh rs = Ret doc ->
    de_pattern_file parse_uuid doc = Ret (Ok pats) ->
    length pats = length (results p2p (sources programs rs)) /\
    forall i res p, nth_error (results p2p (sources programs rs)) i = Some res -> nth_error pats i = Some p ->
      becomes with_program parse_uuid fresh res i p.
  Proof.
    intros Hp C H. apply convert_entries in C. subst doc. apply de_file_entries in H.
    exact (entries_loaded _ (rule_sources_proper rs Hp) 0 pats H).
  Qed.
  Theorem document_loads rs doc : Forall proper_rule rs -> convert with_program programs fresh rs = Ret doc ->
    ((exists pats, de_pattern_file parse_uuid doc = Ret (Ok pats)) <->
     forall gs s, In (gs, s) (results p2p (sources programs rs)) ->
       parse_uuid (source_uuid fresh gs) <> None /\
       exists ts, compile (prefixed with_program (Some (src_program (snd gs))) s) = Ret (Ok ts)).
  Proof.
    intros Hp C. split.
    - intros (pats & H) gs s I. destruct (document_loaded rs doc pats Hp C H) as [L K].
      apply In_nth_error in I as (i & I).
      assert (i < length pats) as Li by (rewrite L; apply nth_error_Some; congruence).
      destruct (nth_error pats i) as [p|] eqn:E; [|apply nth_error_None in E; lia].
      destruct (K i _ p I E) as [_ U T _ _ _ _]. cbn [fst snd] in U, T. split; [congruence|eauto].
    - intros H. apply convert_entries in C. subst doc.
      destruct (entries_load _ (rule_sources_proper rs Hp) 0 (fun res I => H (fst res) (snd res) ltac:(destruct res; exact I))) as (pats & K).
      exists pats. apply de_file_entries. exact K.
  Qed.

  (** *** uuids *)
  Definition key (gs : nat * source) : option uuid := parse_uuid (source_uuid fresh gs).
  Lemma rule_keys r program ps : forall j g x, In x (map key (numb g (src_list r program (S j) ps))) ->
    exists k, pred g <= k /\ k < pred g + length ps /\ x = parse_uuid (fresh k).
  Proof.
    induction ps as [|p ps IH]; intros j g x H; [destruct H|].
    change (numb g (src_list r program (S j) (p :: ps))) with ((g, Source r program (S j) p) :: numb (S g) (src_list r program (S (S j)) ps)) in H.
    cbn [map] in H. destruct H as [<-|H].
    - exists (pred g). cbn. split; [lia|]. split; [lia|reflexivity].
    - apply IH in H as (k & A & B & E). exists k. cbn in *. split; [lia|]. split; [lia|exact E].
  Qed.
  Lemma rule_keys_nodup r program ps : (forall i j, parse_uuid (fresh i) = parse_uuid (fresh j) -> i = j) -> forall j g, 0 < g ->
    NoDup (map key (numb g (src_list r program (S j) ps))).
  Proof.
    intros F. induction ps as [|p ps IH]; intros j g G; [constructor|].
    change (numb g (src_list r program (S j) (p :: ps))) with ((g, Source r program (S j) p) :: numb (S g) (src_list r program (S (S j)) ps)).
    cbn [map]. constructor; [|apply IH; lia]. intros H. apply rule_keys in H as (k & A & _ & E).
    unfold key, source_uuid in E. cbn [snd fst src_index] in E. apply F in E. lia.
  Qed.
  Lemma all_keys rs : forall g x, In x (map key (numb g (flat_map (rule_sources programs) rs))) ->
    (exists r, In r rs /\ x = parse_uuid (rl_id r)) \/ exists k, g <= k /\ x = parse_uuid (fresh k).
  Proof.
    induction rs as [|r rs IH]; intros g x H; [destruct H|]. cbn [flat_map] in H. rewrite numb_app, map_app in H.
    apply in_app_or in H as [H|H].
    - unfold rule_sources in H. destruct (programs (rl_ruleset r)) as [[|program m]|]; [destruct H| |destruct H].
      destruct (rl_patterns r) as [ps|]; [|destruct H].
      unfold numbered in H. change (map _ (combine (List.seq 0 (length ps)) ps)) with (src_list r program 0 ps) in H.
      destruct ps as [|p ps]; [destruct H|].
      change (numb g (src_list r program 0 (p :: ps))) with ((g, Source r program 0 p) :: numb (S g) (src_list r program 1 ps)) in H.
      cbn [map] in H. destruct H as [<-|H]; [left; exists r; split; [left; reflexivity|reflexivity]|].
      apply rule_keys in H as (k & A & _ & E). right. exists k. split; [cbn in A; lia|exact E].
    - apply IH in H as [(r' & I & E)|(k & A & E)]; [left; exists r'; split; [right; exact I|exact E]|].
      right. exists k. split; [lia|exact E].
  Qed.
  Lemma NoDup_app_intro {A} (a b : list A) : NoDup a -> NoDup b -> (forall x, In x a -> ~ In x b) -> NoDup (a ++ b).
  Proof.
    induction 1 as [|x a N Ha IH]; intros Hb D; [exact Hb|]. cbn [app]. constructor.
    - rewrite in_app_iff. intros [I|I]; [contradiction|]. apply (D x); [left; reflexivity|exact I].
    - apply IH; [exact Hb|]. intros y I. apply D. right. exact I.
  Qed.
  Lemma all_keys_nodup rs : uuids_differ parse_uuid fresh rs -> forall g, NoDup (map key (numb g (flat_map (rule_sources programs) rs))).
  Proof.
    induction rs as [|r rs IH]; intros (F & D & N) g; [constructor|]. cbn [flat_map]. rewrite numb_app, map_app.
    inversion N as [|? ? N1 N2]; subst.
    assert (uuids_differ parse_uuid fresh rs) as U.
    { split; [exact F|]. split; [|exact N2]. intros i r' I. apply D. right. exact I. }
    apply NoDup_app_intro; [|apply IH, U|].
    - unfold rule_sources. destruct (programs (rl_ruleset r)) as [[|program m]|]; [constructor| |constructor].
      destruct (rl_patterns r) as [ps|]; [|constructor].
      unfold numbered. change (map _ (combine (List.seq 0 (length ps)) ps)) with (src_list r program 0 ps).
      destruct ps as [|p ps]; [constructor|].
      change (numb g (src_list r program 0 (p :: ps))) with ((g, Source r program 0 p) :: numb (S g) (src_list r program 1 ps)).
      cbn [map]. constructor; [|apply rule_keys_nodup; [exact F|lia]].
      intros H. apply rule_keys in H as (k & _ & _ & E). apply (D k r (or_introl eq_refl)). symmetry. exact E.
    - intros x I J.
      assert (x = parse_uuid (rl_id r) \/ exists k, k < g + length (rule_sources programs r) /\ x = parse_uuid (fresh k)) as X.
      { clear J. unfold rule_sources in *. destruct (programs (rl_ruleset r)) as [[|program m]|]; [destruct I| |destruct I].
        destruct (rl_patterns r) as [ps|]; [|destruct I].
        unfold numbered in *. change (map _ (combine (List.seq 0 (length ps)) ps)) with (src_list r program 0 ps) in *.
        destruct ps as [|p ps]; [destruct I|].
        change (numb g (src_list r program 0 (p :: ps))) with ((g, Source r program 0 p) :: numb (S g) (src_list r program 1 ps)) in I.
        cbn [map] in I. destruct I as [<-|I]; [left; reflexivity|].
        apply rule_keys in I as (k & _ & B & E). right. exists k. split; [|exact E]. rewrite src_list_length. cbn in *. lia. }
      apply all_keys in J as [(r' & I' & E)|(k & A & E)].
      + destruct X as [X|(k & _ & X)]; [|apply (D k r' (or_intror I')); congruence].
        apply N1. rewrite <- X, E. apply in_map_iff. exists r'. auto.
      + destruct X as [X|(k' & B & X)]; [apply (D k r (or_introl eq_refl)); congruence|].
        assert (k = k') by (apply F; congruence). lia.
  Qed.
  Lemma results_nodup conv l : NoDup (map key l) -> NoDup (map (fun res => key (fst res)) (results conv l)).
  Proof.
    induction l as [|x l IH]; intros N; [constructor|]. inversion N as [|? ? N1 N2]; subst.
    change (results conv (x :: l)) with (match conv (src_pattern (snd x)) with
      | Some s => if is_empty s || str_eqb s ($"0") then [] else [(x, s)] | None => [] end ++ results conv l).
    destruct (conv _) as [s|]; [|apply IH, N2]. destruct (_ || _); [apply IH, N2|]. cbn [app map fst].
    constructor; [|apply IH, N2]. intros H. apply in_map_iff in H as (res & E & I). apply N1. rewrite <- E.
    apply in_map. clear - I. unfold results in I. rewrite in_flat_map in I. destruct I as (y & I & J).
    destruct (conv _) as [s|]; [|destruct J]. destruct (_ || _); [destruct J|]. destruct J as [<-|[]]. exact I.
  Qed.

  Theorem loaded_uuids_differ rs doc pats : Forall proper_rule rs -> convert with_program programs fresh rs = Ret doc ->
    de_pattern_file parse_uuid doc = Ret (Ok pats) -> uuids_differ parse_uuid fresh rs -> NoDup (map pat_uuid pats).
  Proof.
    intros Hp C H U. destruct (document_loaded rs doc pats Hp C H) as [L K].
    pose proof (results_nodup p2p _ (all_keys_nodup rs U 0)) as N. fold (sources programs rs) in N.
    assert (map Some (map pat_uuid pats) = map (fun res => key (fst res)) (results p2p (sources programs rs))) as E.
    { change (numb 0 (flat_map (rule_sources programs) rs)) with (sources programs rs) in *.
      revert L K. generalize (results p2p (sources programs rs)) as l. clear. intros l. revert pats.
      assert (forall l pats n, length pats = length l ->
        (forall i res p, nth_error l i = Some res -> nth_error pats i = Some p -> becomes with_program parse_uuid fresh res (n + i) p) ->
        map Some (map pat_uuid pats) = map (fun res => key (fst res)) l) as G.
      { induction l0 as [|x l0 IH]; intros [|p pats] n L K; try discriminate L; [reflexivity|]. cbn [map]. f_equal.
        - symmetry. apply (bc_uuid _ _ _ _ _ _ (K 0 x p eq_refl eq_refl)).
        - apply (IH pats (S n)); [cbn in L; lia|]. intros i res q A B. replace (S n + i) with (n + S i) by lia. apply K; assumption. }
      intros pats L K. apply (G l pats 0); assumption. }
    change (numb 0 (flat_map (rule_sources programs) rs)) with (sources programs rs) in N. rewrite <- E in N.
    apply NoDup_map_inv in N. exact N.
  Qed.

  Lemma underscore_suffix (a b d e : str) : ~ In x5f d -> ~ In x5f e -> a ++ x5f :: d = b ++ x5f :: e -> d = e.
  Proof.
    revert b. induction a as [|x a IH]; intros [|y b] D E H; cbn [app] in H.
    - injection H. auto.
    - exfalso. injection H as _ H. apply D. rewrite H. apply in_or_app. right. left. reflexivity.
    - exfalso. injection H as _ H. apply E. rewrite <- H. apply in_or_app. right. left. reflexivity.
    - injection H as _ H. apply (IH b); assumption.
  Qed.
  Theorem loaded_names_differ rs doc pats : Forall proper_rule rs -> convert with_program programs fresh rs = Ret doc ->
    de_pattern_file parse_uuid doc = Ret (Ok pats) -> NoDup (map pat_name pats).
  Proof.
    intros Hp C H. destruct (document_loaded rs doc pats Hp C H) as [L K].
    apply NoDup_nth_error. intros i j Li E. rewrite map_length in Li.
    assert (exists p, nth_error pats i = Some p) as (p & Ep).
    { destruct (nth_error pats i) eqn:X; [eauto|]. apply nth_error_None in X. lia. }
    rewrite !nth_error_map, Ep in E. cbn [option_map] in E.
    destruct (nth_error pats j) as [q|] eqn:Eq; [|discriminate]. injection E as E.
    assert (forall k r, nth_error pats k = Some r -> exists res, nth_error (results p2p (sources programs rs)) k = Some res) as X.
    { intros k r X. destruct (nth_error (results p2p (sources programs rs)) k) eqn:Y; [eauto|]. apply nth_error_None in Y.
      assert (k < length pats) by (apply nth_error_Some; congruence). lia. }
    destruct (X i p Ep) as (ri & Ri). destruct (X j q Eq) as (rj & Rj).
    pose proof (bc_name _ _ _ _ _ _ (K i ri p Ri Ep)) as Ni. pose proof (bc_name _ _ _ _ _ _ (K j rj q Rj Eq)) as Nj.
    rewrite Ni, Nj in E. injection E as E. apply nat_text_inj.
    assert (forall n, ~ In x5f (nat_text n)) as D.
    { intros n I. pose proof (uint_text_digits (Nat.to_uint n)) as Fd. rewrite Forall_forall in Fd. apply Fd in I. vm_compute in I.
      intuition discriminate. }
    apply (underscore_suffix _ _ _ _ (D i) (D j) E).
  Qed.
End File.
