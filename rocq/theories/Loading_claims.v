(** * Loading with the two matchers, and from files *)
From Verif Require Import Base Base_facts Utils Parsers Pattern Spec Source Spec_source Source_claims
  Siphash Tests Deciders.
From Verif Require Trie SuffixArray Trie_main Trie_claims Table_claims.

Lemma patterns_of_map ps : patterns_of (map (fun p => Ok p) ps) = ps.
Proof. induction ps as [|p ps IH]; [reflexivity|]. cbn [map patterns_of]. rewrite IH. reflexivity. Qed.

Lemma patterns_of_app a b : patterns_of (a ++ b) = patterns_of a ++ patterns_of b.
Proof. induction a as [|[p|e] a IH]; cbn [app patterns_of]; [reflexivity| |exact IH]. rewrite IH. reflexivity. Qed.

Lemma stops_tested {M} (ops : matcher_ops M) m ps e : stops ops m (map (fun p => Ok p) ps) e -> exists x, e = TestMessageError x.
Proof.
  intros H. inversion H as [m0 before m' e0 after _ E1 E2|m0 before m' p after m'' a t b e0 _ _ _ _ _]; subst; [|eauto].
  exfalso. assert (In (Err e) (map (fun p => Ok p) ps : list build_result)) as I.
  { rewrite <- E2. apply in_app_iff. right. left. reflexivity. }
  apply in_map_iff in I. destruct I as (p & I & _). discriminate.
Qed.

(** ** Files *)
Section Files.
  Variable open_file : str -> result (str * option str) str.
  Variable dj dy : str -> outcome (result (list pattern) str).
  Local Notation reading := (Spec_source.reading open_file).
  Local Notation file_has := (Spec_source.file_has open_file dj dy).

  Lemma is_json_spec e : is_json e = true <-> e = $"json".
  Proof. apply str_eqb_eq. Qed.
  Lemma is_yaml_spec e : is_yaml e = true <-> e = $"yaml" \/ e = $"yml" \/ e = $"YAML" \/ e = $"YML".
  Proof. unfold is_yaml. rewrite !orb_true_iff, !str_eqb_eq. tauto. Qed.

  Lemma load_json path : has_extension path ($"json") -> load_file open_file dj dy path = reading dj DeserJson path.
  Proof.
    intros H. apply extension_spec in H. unfold load_file, Spec_source.reading, read. rewrite H.
    change (is_json ($"json")) with true. cbv iota. destruct (open_file path) as [(b, e)|e]; [|reflexivity].
    destruct (dj b) as [[ps|e']| |]; reflexivity.
  Qed.
  Lemma load_yaml path e : has_extension path e -> e = $"yaml" \/ e = $"yml" \/ e = $"YAML" \/ e = $"YML" ->
    load_file open_file dj dy path = reading dy DeserYaml path.
  Proof.
    intros H Y. apply extension_spec in H. unfold load_file, Spec_source.reading, read. rewrite H.
    assert (is_json e = false) as -> by (destruct Y as [->|[->|[->| ->]]]; reflexivity).
    apply is_yaml_spec in Y. rewrite Y. destruct (open_file path) as [(b, e1)|e1]; [|reflexivity].
    destruct (dy b) as [[ps|e']| |]; reflexivity.
  Qed.
  Lemma load_other path : (forall e, has_extension path e -> ~ In e [$"json"; $"yaml"; $"yml"; $"YAML"; $"YML"]) ->
    load_file open_file dj dy path = Ret (Err UnsupportedFileExtension).
  Proof.
    intros H. unfold load_file. destruct (extension path) as [e|] eqn:E; [|reflexivity].
    apply extension_spec in E. specialize (H e E).
    destruct (is_json e) eqn:J; [destruct H; apply is_json_spec in J; subst; left; reflexivity|].
    destruct (is_yaml e) eqn:Y; [|reflexivity]. destruct H. apply is_yaml_spec in Y. simpl. intuition.
  Qed.

  Lemma kinds path :
    has_extension path ($"json") \/
    (exists x, In x [$"yaml"; $"yml"; $"YAML"; $"YML"] /\ has_extension path x) \/
    (forall e, has_extension path e -> ~ In e [$"json"; $"yaml"; $"yml"; $"YAML"; $"YML"]).
  Proof.
    destruct (extension path) as [e|] eqn:E.
    - apply extension_spec in E. destruct (is_json e) eqn:J.
      + apply is_json_spec in J. subst. auto.
      + destruct (is_yaml e) eqn:Y.
        * apply is_yaml_spec in Y. right. left. exists e. split; [simpl; intuition|exact E].
        * right. right. intros e' H'. rewrite (has_extension_unique _ _ _ H' E). intros I.
          assert (is_json e = true \/ is_yaml e = true) as [|]; [|congruence|congruence].
          rewrite is_json_spec, is_yaml_spec. simpl in I. intuition.
    - right. right. intros e' H'. apply extension_spec in H'. congruence.
  Qed.

  Lemma load_ok path ps : load_file open_file dj dy path = Ret (Ok ps) <-> file_has path ps.
  Proof.
    destruct (kinds path) as [J|[(x & I & Y)|N]].
    - rewrite (load_json path J). unfold Spec_source.reading, Spec_source.file_has. split.
      + destruct (open_file path) as [(b, e)|e]; [|discriminate]. destruct (dj b) as [[qs|e']| |] eqn:D; try discriminate.
        intros H. inversion H; subst. exists b, e. auto.
      + intros (b & e & -> & [(_ & ->)|(x & I & Y & _)]); [reflexivity|].
        exfalso. rewrite (has_extension_unique _ _ _ Y J) in I. simpl in I. intuition discriminate.
    - rewrite (load_yaml path x Y) by (simpl in I; intuition). unfold Spec_source.reading, Spec_source.file_has. split.
      + destruct (open_file path) as [(b, e)|e]; [|discriminate]. destruct (dy b) as [[qs|e']| |] eqn:D; try discriminate.
        intros H. inversion H; subst. exists b, e. split; [reflexivity|]. right. eauto.
      + intros (b & e & -> & [(J & _)|(x' & _ & _ & ->)]); [|reflexivity].
        exfalso. rewrite (has_extension_unique _ _ _ Y J) in I. simpl in I. intuition discriminate.
    - rewrite (load_other path N). split; [discriminate|]. intros (b & e & _ & [(J & _)|(x & I & Y & _)]).
      + destruct (N _ J). left. reflexivity.
      + destruct (N _ Y). right. exact I.
  Qed.

  Context {M : Type} (ops : matcher_ops M).

  Theorem from_file_ok path m : from_file ops open_file dj dy path = Ret (Ok m) <->
    exists ps, file_has path ps /\ loads ops (mo_new ops) (map (fun p => Ok p) (rev ps)) m.
  Proof.
    unfold from_file. split.
    - destruct (load_file open_file dj dy path) as [[ps|e]| |] eqn:L; cbn [bind]; try discriminate.
      rewrite into_iter_spec. cbn [bind]. intros H. apply from_source_ok in H. exists ps. split; [apply load_ok; exact L|exact H].
    - intros (ps & F & H). apply load_ok in F. rewrite F. cbn [bind]. rewrite into_iter_spec. cbn [bind].
      apply from_source_ok. exact H.
  Qed.

  Theorem from_file_ignoring path m : from_file_ignore_errors ops open_file dj dy path = Ret (Ok m) ->
    exists ps, file_has path ps /\ adds ops (mo_new ops) (map untested (rev ps)) = Ret m.
  Proof.
    unfold from_file_ignore_errors. destruct (load_file open_file dj dy path) as [[ps|e]| |] eqn:L; cbn [bind]; try discriminate.
    rewrite into_iter_spec. cbn [bind]. intros H. exists ps. split; [apply load_ok; exact L|].
    destruct (from_source_ignore_errors ops (map (fun p => Ok p) (rev ps))) as [m'| |] eqn:E; cbn [bind] in H; try discriminate.
    inversion H; subst. apply ignore_errors_adds in E.
    rewrite patterns_of_map in E. exact E.
  Qed.

  Theorem from_file_ignoring_total path ps m :
    file_has path ps -> adds ops (mo_new ops) (map untested (rev ps)) = Ret m ->
    (forall before p after m1, rev ps = before ++ p :: after ->
       adds ops (mo_new ops) (map untested (before ++ [p])) = Ret m1 ->
       forall t, In t (tests p) -> exists r, mo_parse ops m1 (tm_message t) = Ret r) ->
    from_file_ignore_errors ops open_file dj dy path = Ret (Ok m).
  Proof.
    intros F A D. apply load_ok in F. unfold from_file_ignore_errors. rewrite F. cbn [bind].
    rewrite into_iter_spec. cbn [bind]. rewrite (ignore_errors_total ops _ m); [reflexivity| |];
      rewrite patterns_of_map; assumption.
  Qed.

  (** The errors of [load_file]. *)
  Lemma load_err path e : load_file open_file dj dy path = Ret (Err e) <->
    (exists x y, e = Io x /\ In y [$"json"; $"yaml"; $"yml"; $"YAML"; $"YML"] /\ has_extension path y /\
       open_file path = Err x) \/
    (exists b r x, e = DeserJson x /\ has_extension path ($"json") /\ open_file path = Ok (b, r) /\ dj b = Ret (Err x)) \/
    (exists b r x y, e = DeserYaml x /\ In y [$"yaml"; $"yml"; $"YAML"; $"YML"] /\ has_extension path y /\
       open_file path = Ok (b, r) /\ dy b = Ret (Err x)) \/
    (e = UnsupportedFileExtension /\
     forall x, has_extension path x -> ~ In x [$"json"; $"yaml"; $"yml"; $"YAML"; $"YML"]).
  Proof.
    split.
    - intros L. destruct (kinds path) as [J|[(x & I & Y)|N]].
      + rewrite (load_json path J) in L. unfold Spec_source.reading in L. destruct (open_file path) as [(b, r)|x] eqn:O.
        * destruct (dj b) as [[qs|x]| |] eqn:D; try discriminate. inversion L; subst. right. left. exists b, r, x. auto.
        * inversion L; subst. left. exists x, ($"json"). repeat split; auto. left. reflexivity.
      + rewrite (load_yaml path x Y) in L by (simpl in I; intuition). unfold Spec_source.reading in L.
        destruct (open_file path) as [(b, r)|z] eqn:O.
        * destruct (dy b) as [[qs|z]| |] eqn:D; try discriminate. inversion L; subst. right. right. left. exists b, r, z, x. auto.
        * inversion L; subst. left. exists z, x. repeat split; auto. right. exact I.
      + rewrite (load_other path N) in L. inversion L; subst. do 3 right. auto.
    - intros [(x & y & -> & I & H & O)|[(b & r & x & -> & H & O & D)|[(b & r & x & y & -> & I & H & O & D)|(-> & N)]]].
      + destruct I as [<-|I].
        * rewrite (load_json path H). unfold Spec_source.reading. rewrite O. reflexivity.
        * rewrite (load_yaml path y H) by (simpl in I; intuition). unfold Spec_source.reading. rewrite O. reflexivity.
      + rewrite (load_json path H). unfold Spec_source.reading. rewrite O, D. reflexivity.
      + rewrite (load_yaml path y H) by (simpl in I; intuition). unfold Spec_source.reading. rewrite O, D. reflexivity.
      + apply load_other. exact N.
  Qed.

  (** The errors of [from_file_ignore_errors]: those of reading the file. *)
  Theorem from_file_ignoring_errors path e : from_file_ignore_errors ops open_file dj dy path = Ret (Err e) <->
    (exists x y, e = Io x /\ In y [$"json"; $"yaml"; $"yml"; $"YAML"; $"YML"] /\ has_extension path y /\
       open_file path = Err x) \/
    (exists b r x, e = DeserJson x /\ has_extension path ($"json") /\ open_file path = Ok (b, r) /\ dj b = Ret (Err x)) \/
    (exists b r x y, e = DeserYaml x /\ In y [$"yaml"; $"yml"; $"YAML"; $"YML"] /\ has_extension path y /\
       open_file path = Ok (b, r) /\ dy b = Ret (Err x)) \/
    (e = UnsupportedFileExtension /\
     forall x, has_extension path x -> ~ In x [$"json"; $"yaml"; $"yml"; $"YAML"; $"YML"]).
  Proof.
    rewrite <- load_err. unfold from_file_ignore_errors.
    destruct (load_file open_file dj dy path) as [[ps|e']| |]; cbn [bind]; try (split; discriminate).
    - rewrite into_iter_spec. cbn [bind].
      destruct (from_source_ignore_errors ops (map (fun p => Ok p) (rev ps))); cbn [bind]; split; discriminate.
    - split; intros H; inversion H; reflexivity.
  Qed.

  (** The errors of [from_file]. *)
  Theorem from_file_errors path e : from_file ops open_file dj dy path = Ret (Err e) <->
    (exists x y, e = Io x /\ In y [$"json"; $"yaml"; $"yml"; $"YAML"; $"YML"] /\ has_extension path y /\
       open_file path = Err x) \/
    (exists b r x, e = DeserJson x /\ has_extension path ($"json") /\ open_file path = Ok (b, r) /\ dj b = Ret (Err x)) \/
    (exists b r x y, e = DeserYaml x /\ In y [$"yaml"; $"yml"; $"YAML"; $"YML"] /\ has_extension path y /\
       open_file path = Ok (b, r) /\ dy b = Ret (Err x)) \/
    (e = UnsupportedFileExtension /\
     forall x, has_extension path x -> ~ In x [$"json"; $"yaml"; $"yml"; $"YAML"; $"YML"]) \/
    (exists ps x, file_has path ps /\ e = TestMessageError x /\
       stops ops (mo_new ops) (map (fun p => Ok p) (rev ps)) e).
  Proof.
    split.
    - unfold from_file. destruct (load_file open_file dj dy path) as [[ps|e']| |] eqn:L; cbn [bind]; try discriminate.
      + rewrite into_iter_spec. cbn [bind]. intros H. apply from_source_err in H.
        do 4 right. exists ps. destruct (stops_tested ops _ _ _ H) as (x & E). exists x.
        split; [apply load_ok; exact L|]. auto.
      + intros H. inversion H; subst e'. clear H. destruct (kinds path) as [J|[(x & I & Y)|N]].
        * rewrite (load_json path J) in L. unfold Spec_source.reading in L. destruct (open_file path) as [(b, r)|x] eqn:O.
          -- destruct (dj b) as [[qs|x]| |] eqn:D; try discriminate. inversion L; subst. right. left. exists b, r, x. auto.
          -- inversion L; subst. left. exists x, ($"json"). repeat split; auto. left. reflexivity.
        * rewrite (load_yaml path x Y) in L by (simpl in I; intuition). unfold Spec_source.reading in L.
          destruct (open_file path) as [(b, r)|z] eqn:O.
          -- destruct (dy b) as [[qs|z]| |] eqn:D; try discriminate. inversion L; subst. right. right. left. exists b, r, z, x. auto.
          -- inversion L; subst. left. exists z, x. repeat split; auto. right. exact I.
        * rewrite (load_other path N) in L. inversion L; subst. do 3 right. left. auto.
    - assert (forall x, load_file open_file dj dy path = Ret (Err x) -> from_file ops open_file dj dy path = Ret (Err x)) as K.
      { intros x L. unfold from_file. rewrite L. reflexivity. }
      intros [(x & y & -> & I & H & O)|[(b & r & x & -> & H & O & D)|[(b & r & x & y & -> & I & H & O & D)|[(-> & N)|(ps & x & F & _ & S)]]]].
      + apply K. destruct I as [<-|I].
        * rewrite (load_json path H). unfold Spec_source.reading. rewrite O. reflexivity.
        * rewrite (load_yaml path y H) by (simpl in I; intuition). unfold Spec_source.reading. rewrite O. reflexivity.
      + apply K. rewrite (load_json path H). unfold Spec_source.reading. rewrite O, D. reflexivity.
      + apply K. rewrite (load_yaml path y H) by (simpl in I; intuition). unfold Spec_source.reading. rewrite O, D. reflexivity.
      + apply K. apply load_other. exact N.
      + unfold from_file. apply load_ok in F. rewrite F. cbn [bind]. rewrite into_iter_spec. cbn [bind].
        apply from_source_err. exact S.
  Qed.

  Theorem no_name_error path : from_file ops open_file dj dy path <> Ret (Err NotUtf8FileName) /\
    from_file_ignore_errors ops open_file dj dy path <> Ret (Err NotUtf8FileName).
  Proof.
    assert (load_file open_file dj dy path <> Ret (Err NotUtf8FileName)) as N.
    { unfold load_file. destruct (extension path) as [x|]; [|discriminate]. destruct (is_json x).
      - unfold read. destruct (open_file path) as [(b, r)|e]; [|discriminate].
        destruct (dj b) as [[ps|e]| |]; cbn [bind]; discriminate.
      - destruct (is_yaml x); [|discriminate]. unfold read. destruct (open_file path) as [(b, r)|e]; [|discriminate].
        destruct (dy b) as [[ps|e]| |]; cbn [bind]; discriminate. }
    split.
    - intros H. apply from_file_errors in H.
      destruct H as [(x & y & E & _)|[(b & r & x & E & _)|[(b & r & x & y & E & _)|[(E & _)|(ps & x & _ & E & _)]]]]; discriminate.
    - unfold from_file_ignore_errors. destruct (load_file open_file dj dy path) as [[ps|e]| |]; cbn [bind]; try discriminate.
      + rewrite into_iter_spec. cbn [bind]. destruct (from_source_ignore_errors ops _); cbn [bind]; discriminate.
      + intros H. inversion H; subst. apply N. reflexivity.
  Qed.

  (** A file that can be read with errors ignored gives whatever loaded. *)
  Theorem from_file_partial_read path b e m :
    open_file path = Ok (b, e) -> from_file ops open_file dj dy path = Ret (Ok m) ->
    from_file ops (fun _ => Ok (b, None)) dj dy path = Ret (Ok m).
  Proof.
    intros O H. unfold from_file, load_file, read in *. rewrite O in H. exact H.
  Qed.
End Files.

(** ** The trie *)
Lemma trie_adds sip ps : forall t, adds (trie_ops sip) t ps = Trie.add_patterns sip t ps.
Proof.
  induction ps as [|p ps IH]; intros t; [reflexivity|]. cbn [adds Trie.add_patterns]. cbn [trie_ops mo_add_pattern].
  destruct (Trie.add_pattern sip t p); cbn [bind]; auto.
Qed.
Lemma table_adds sip ps : forall t, adds (table_ops sip) t ps = SuffixArray.add_patterns sip t ps.
Proof.
  induction ps as [|p ps IH]; intros t; [reflexivity|]. cbn [adds SuffixArray.add_patterns]. cbn [table_ops mo_add_pattern].
  destruct (SuffixArray.add_pattern sip t p); cbn [bind]; auto.
Qed.

Lemma untested_valid ps : Forall valid_pattern ps -> Forall valid_pattern (map untested ps).
Proof. intros H. apply Forall_map. exact H. Qed.
Lemma untested_ascii ps : Forall ascii_pattern ps -> Forall ascii_pattern (map untested ps).
Proof. intros H. apply Forall_map. exact H. Qed.
Lemma untested_parsers ps q : parser_in (map untested ps) q <-> parser_in ps q.
Proof.
  split.
  - intros (p & I & H). apply in_map_iff in I. destruct I as (p' & <- & I). exists p'. auto.
  - intros (p & I & H). exists (untested p). split; [apply in_map; exact I|exact H].
Qed.
Lemma untested_collision_free sip ps : collision_free sip ps -> collision_free sip (map untested ps).
Proof. intros C q q' H H'. apply C; apply untested_parsers; assumption. Qed.

Section Generic.
  Context {M : Type} (ops : matcher_ops M).

  (** Checked loading gives an answer when matching is defined on the test messages. *)
  Lemma from_source_total src : forall m m',
    adds ops m (map untested (patterns_of src)) = Ret m' ->
    (forall before p after m1, patterns_of src = before ++ p :: after ->
       adds ops m (map untested (before ++ [p])) = Ret m1 ->
       forall t, In t (tests p) -> exists r, mo_parse ops m1 (tm_message t) = Ret r) ->
    exists x, from_source_loop ops m src = Ret x.
  Proof.
    induction src as [|[p|e] src IH]; intros m m' A H; cbn [from_source_loop patterns_of map adds] in *; [eauto| |].
    - unfold check_pattern. rewrite extract_spec. cbn [bind].
      destruct (mo_add_pattern ops m (untested p)) as [m1| |] eqn:E; cbn [bind] in *; try discriminate.
      destruct (check_defined ops m1 (pat_uuid p) (rev (tests p))) as (c & ->).
      { intros t Ht. apply (H [] p (patterns_of src) m1); [reflexivity| |apply in_rev; exact Ht].
        cbn [app map adds]. rewrite E. reflexivity. }
      cbn [bind]. destruct c as [[]|e]; [|eauto]. apply (IH m1 m' A). intros before q after m2 Ep A2 t Ht.
      apply (H (p :: before) q after m2); [cbn [app]; congruence| |exact Ht].
      cbn [app map adds]. rewrite E. exact A2.
    - unfold check_pattern. cbn [bind]. eauto.
  Qed.

  Theorem last_tests_pass src p m : from_source ops (src ++ [Ok p]) = Ret (Ok m) ->
    forall t, In t (tests p) -> passes ops m p t.
  Proof.
    intros H. apply from_source_ok in H. apply loads_split in H. destruct H as (m1 & m2 & _ & _ & T & L).
    inversion L; subst. exact T.
  Qed.
End Generic.

Lemma trie_tests_defined sip ps : Forall valid_pattern ps -> Forall ascii_pattern ps -> ascii_tests ps ->
  forall before p after m1, ps = before ++ p :: after ->
    adds (trie_ops sip) (mo_new (trie_ops sip)) (map untested (before ++ [p])) = Ret m1 ->
    forall t, In t (tests p) -> exists r, mo_parse (trie_ops sip) m1 (tm_message t) = Ret r.
Proof.
  intros V A T before p after m1 E A1 t Ht. rewrite trie_adds in A1.
  assert (incl (before ++ [p]) ps) as Inc.
  { rewrite E. intros x Hx. rewrite in_app_iff in *. simpl in *. tauto. }
  destruct (Trie_main.trie_total sip (map untested (before ++ [p]))) as (m & Am & P).
  - apply untested_valid. apply (incl_Forall Inc V).
  - apply untested_ascii. apply (incl_Forall Inc A).
  - cbn [trie_ops mo_new] in A1. rewrite A1 in Am. injection Am as <-. apply P. apply (T p t); [|exact Ht].
    rewrite E. apply in_app_iff. right. left. reflexivity.
Qed.

Theorem trie_loading_total sip src :
  Forall valid_pattern (patterns_of src) -> Forall ascii_pattern (patterns_of src) -> ascii_tests (patterns_of src) ->
  (exists x, from_source (trie_ops sip) src = Ret x) /\
  (exists m, from_source_ignore_errors (trie_ops sip) src = Ret m /\
     Trie.add_patterns sip Trie.tree_new (map untested (patterns_of src)) = Ret m).
Proof.
  intros V A T.
  destruct (Trie_main.trie_total sip (map untested (patterns_of src)) (untested_valid _ V) (untested_ascii _ A)) as (m & Am & _).
  pose proof (trie_tests_defined sip (patterns_of src) V A T) as D. split.
  - apply (from_source_total (trie_ops sip) src _ m); [rewrite trie_adds; exact Am|exact D].
  - exists m. split; [|exact Am]. apply ignore_errors_total; [rewrite trie_adds; exact Am|exact D].
Qed.

Lemma table_tests_defined sip ps : Forall valid_pattern ps -> (forall q, parser_in ps q -> parser_ascii_set q) -> utf8_tests ps ->
  forall before p after m1, ps = before ++ p :: after ->
    adds (table_ops sip) (mo_new (table_ops sip)) (map untested (before ++ [p])) = Ret m1 ->
    forall t, In t (tests p) -> exists r, mo_parse (table_ops sip) m1 (tm_message t) = Ret r.
Proof.
  intros V A T before p after m1 E A1 t Ht. rewrite table_adds in A1.
  assert (incl (before ++ [p]) ps) as Inc.
  { rewrite E. intros x Hx. rewrite in_app_iff in *. simpl in *. tauto. }
  destruct (Table_claims.table_total sip (map untested (before ++ [p]))) as (m & Am & P).
  - apply untested_valid. apply (incl_Forall Inc V).
  - intros q Hq. apply A. apply (proj1 (untested_parsers _ _)) in Hq. destruct Hq as (p' & I & H). exists p'. split; [apply Inc; exact I|exact H].
  - cbn [table_ops mo_new] in A1. rewrite A1 in Am. injection Am as <-. apply P. apply (T p t); [|exact Ht].
    rewrite E. apply in_app_iff. right. left. reflexivity.
Qed.

Theorem table_loading_total sip src :
  Forall valid_pattern (patterns_of src) -> (forall q, parser_in (patterns_of src) q -> parser_ascii_set q) ->
  utf8_tests (patterns_of src) ->
  (exists x, from_source (table_ops sip) src = Ret x) /\
  (exists m, from_source_ignore_errors (table_ops sip) src = Ret m /\
     SuffixArray.add_patterns sip SuffixArray.table_new (map untested (patterns_of src)) = Ret m).
Proof.
  intros V A T.
  destruct (Table_claims.table_total sip (map untested (patterns_of src)) (untested_valid _ V)) as (m & Am & _).
  { intros q Hq. apply A. apply untested_parsers. exact Hq. }
  pose proof (table_tests_defined sip (patterns_of src) V A T) as D. split.
  - apply (from_source_total (table_ops sip) src _ m); [rewrite table_adds; exact Am|exact D].
  - exists m. split; [|exact Am]. apply ignore_errors_total; [rewrite table_adds; exact Am|exact D].
Qed.

(** ** Test messages and the final matcher *)
Definition tested (p : pattern) (msgs : list str) : pattern :=
  set_test_messages p (Some (map (fun m => {| tm_message := m; tm_values := []; tm_tags := None |}) msgs)).

Definition losing : list pattern :=
  [tested (tpat 1 ($"a%{INT:x} b")) [$"a1 b"]; tested (tpat 2 ($"a%{INT:x} c")) [$"a1 c"]].
Definition losing_table : list pattern :=
  [tested (tpat 1 ($"a%{GREEDY:x}")) [$"abc"]; tested (tpat 2 ($"abc%{INT:x}")) [$"abc1"]].

Lemma trie_load_loses : exists src m p t, Forall valid_pattern (patterns_of src) /\ Forall ascii_pattern (patterns_of src) /\
  collision_free siphash (patterns_of src) /\ ascii_tests (patterns_of src) /\
  from_source (trie_ops siphash) src = Ret (Ok m) /\ In (Ok p) src /\ In t (tests p) /\
  mo_parse (trie_ops siphash) m (tm_message t) = Ret None.
Proof.
  exists (map (fun p => Ok p) losing). eexists. exists (tested (tpat 1 ($"a%{INT:x} b")) [$"a1 b"]), {| tm_message := $"a1 b"; tm_values := []; tm_tags := None |}.
  rewrite patterns_of_map.
  split; [apply valid_patterns_sound; vm_compute; reflexivity|]. split; [apply ascii_patterns_sound; vm_compute; reflexivity|].
  split; [apply collision_freeb_sound; vm_compute; reflexivity|]. split.
  { intros p t [<-|[<-|[]]] [<-|[]]; reflexivity. }
  split; [vm_compute; reflexivity|]. split; [left; reflexivity|]. split; [left; reflexivity|]. vm_compute. reflexivity.
Qed.

Lemma table_load_loses : exists src m p t, Forall valid_pattern (patterns_of src) /\ Forall ascii_pattern (patterns_of src) /\
  collision_free siphash (patterns_of src) /\ ascii_tests (patterns_of src) /\
  from_source (table_ops siphash) src = Ret (Ok m) /\ In (Ok p) src /\ In t (tests p) /\
  mo_parse (table_ops siphash) m (tm_message t) = Ret None.
Proof.
  exists (map (fun p => Ok p) losing_table). eexists. exists (tested (tpat 1 ($"a%{GREEDY:x}")) [$"abc"]), {| tm_message := $"abc"; tm_values := []; tm_tags := None |}.
  rewrite patterns_of_map.
  split; [apply valid_patterns_sound; vm_compute; reflexivity|]. split; [apply ascii_patterns_sound; vm_compute; reflexivity|].
  split; [apply collision_freeb_sound; vm_compute; reflexivity|]. split.
  { intros p t [<-|[<-|[]]] [<-|[]]; reflexivity. }
  split; [vm_compute; reflexivity|]. split; [left; reflexivity|]. split; [left; reflexivity|]. vm_compute. reflexivity.
Qed.

(** A test message that no later pattern can concern still passes at the end. *)
Theorem trie_tests_stay sip before p after m t :
  let ps := patterns_of (before ++ Ok p :: after) in
  Forall valid_pattern ps -> Forall ascii_pattern ps -> collision_free sip ps -> ascii_tests ps ->
  from_source (trie_ops sip) (before ++ Ok p :: after) = Ret (Ok m) ->
  In t (tests p) -> (forall q, In (Ok q) after -> may_concern (tm_message t) q = false) ->
  passes (trie_ops sip) m p t.
Proof.
  intros ps V A C T H Ht N. apply from_source_ok in H.
  pose proof (loads_adds _ _ _ _ H) as (_ & Am). rewrite trie_adds in Am. fold ps in Am. cbn [trie_ops mo_new] in Am.
  apply loads_split in H. destruct H as (m1 & m2 & L1 & A2 & P & L2).
  destruct (P t Ht) as (r & E & Eu & S). exists r. split; [|auto].
  pose proof (loads_adds _ _ _ _ L1) as (_ & A1). rewrite trie_adds in A1.
  set (qs := map untested (patterns_of before ++ [p])).
  assert (Trie.add_patterns sip Trie.tree_new qs = Ret m2) as Aq.
  { unfold qs. rewrite <- (trie_adds sip), map_app, adds_app, trie_adds. cbn [trie_ops mo_new] in A1. rewrite A1. cbn [bind map adds].
    rewrite A2. reflexivity. }
  assert (map untested ps = qs ++ map untested (patterns_of after)) as Eps.
  { unfold ps, qs. rewrite patterns_of_app. cbn [patterns_of]. rewrite !map_app. cbn [map]. rewrite <- app_assoc. reflexivity. }
  assert (filter (may_concern (tm_message t)) (map untested ps) = filter (may_concern (tm_message t)) qs) as Ef.
  { rewrite Eps, filter_app. rewrite <- (app_nil_r (filter _ qs)) at 2. f_equal.
    assert (forall q, In q (patterns_of after) -> may_concern (tm_message t) q = false) as N'.
    { intros q Hq. apply N. clear - Hq. induction after as [|[x|e] after IH]; cbn [patterns_of] in Hq; [destruct Hq| |right; auto].
      destruct Hq as [->|Hq]; [left; reflexivity|right; auto]. }
    clear - N'. induction (patterns_of after) as [|q l IH]; [reflexivity|]. cbn [map filter].
    assert (may_concern (tm_message t) (untested q) = false) as -> by (apply (N' q); left; reflexivity).
    apply IH. intros x Hx. apply N'. right. exact Hx. }
  assert (incl qs (map untested ps)) as Iq by (rewrite Eps; apply incl_appl, incl_refl).
  pose proof (untested_valid ps V) as V'. pose proof (untested_ascii ps A) as A'. pose proof (untested_collision_free sip ps C) as C'.
  assert (ascii (tm_message t) = true) as At.
  { apply (T p t); [|exact Ht]. unfold ps. rewrite patterns_of_app. apply in_app_iff. right. left. reflexivity. }
  assert (incl (filter (may_concern (tm_message t)) qs) qs) as If by (intros x Hx; apply filter_In in Hx; tauto).
  destruct (Trie_main.trie_total sip (filter (may_concern (tm_message t)) qs)) as (mf & Af & Pf).
  { apply (incl_Forall If). apply (incl_Forall Iq V'). }
  { apply (incl_Forall If). apply (incl_Forall Iq A'). }
  destruct (Trie_main.trie_total sip (map untested ps) V' A') as (m' & Am' & Pm). rewrite Am in Am'. injection Am' as <-.
  destruct (Pm _ At) as (r1 & E1), (Pf _ At) as (r2 & E2).
  pose proof (Trie_claims.trie_concern sip (map untested ps) m mf (tm_message t) r1 r2 V' C' Am) as K1.
  rewrite Ef in K1. specialize (K1 Af (ascii_utf8 _ At) E1 E2).
  assert (collision_free sip qs) as Cq.
  { intros x y Hx Hy. apply C'; [destruct Hx as (z & Hz & Hz'); exists z; auto|destruct Hy as (z & Hz & Hz'); exists z; auto]. }
  cbn [trie_ops mo_parse] in *.
  pose proof (Trie_claims.trie_concern sip qs m2 mf (tm_message t) (Some r) r2 (incl_Forall Iq V') Cq Aq Af (ascii_utf8 _ At) E E2) as K2.
  congruence.
Qed.

(** ** What a loaded matcher reports *)
Theorem trie_loaded_pattern sip src m text r :
  Forall valid_pattern (patterns_of src) -> collision_free sip (patterns_of src) ->
  from_source (trie_ops sip) src = Ret (Ok m) \/ from_source_ignore_errors (trie_ops sip) src = Ret m ->
  utf8 text -> mo_parse (trie_ops sip) m text = Ret (Some r) ->
  exists p caps, In (Ok p) src /\ mr_pattern r = stripped (untested p) /\ walk (pat_tokens p) text caps /\
    reports caps (mr_values r).
Proof.
  intros V C H U E.
  assert (Trie.add_patterns sip Trie.tree_new (map untested (patterns_of src)) = Ret m) as A.
  { rewrite <- trie_adds. destruct H as [H|H].
    - apply from_source_ok in H. apply loads_adds in H. tauto.
    - apply ignore_errors_adds in H. exact H. }
  destruct (Trie_main.trie_sound sip _ m text r (untested_valid _ V) (untested_collision_free _ _ C) A U E) as (p & caps & I & Ep & W & R).
  apply in_map_iff in I. destruct I as (p' & <- & I). exists p', caps. split; [|auto].
  clear - I. induction src as [|[x|e] src IH]; cbn [patterns_of] in I; [destruct I| |right; auto].
  destruct I as [->|I]; [left; reflexivity|right; auto].
Qed.

Theorem table_loaded_pattern sip src m text r :
  Forall valid_pattern (patterns_of src) -> collision_free sip (patterns_of src) ->
  from_source (table_ops sip) src = Ret (Ok m) \/ from_source_ignore_errors (table_ops sip) src = Ret m ->
  utf8 text -> mo_parse (table_ops sip) m text = Ret (Some r) ->
  exists p caps, In (Ok p) src /\ mr_pattern r = stripped (untested p) /\
    Spec_table.table_walk (pat_tokens p) text caps /\ reports caps (mr_values r).
Proof.
  intros V C H U E.
  assert (SuffixArray.add_patterns sip SuffixArray.table_new (map untested (patterns_of src)) = Ret m) as A.
  { rewrite <- table_adds. destruct H as [H|H].
    - apply from_source_ok in H. apply loads_adds in H. tauto.
    - apply ignore_errors_adds in H. exact H. }
  destruct (Table_claims.table_sound sip _ m text r (untested_valid _ V) (untested_collision_free _ _ C) A U E) as (p & caps & I & Ep & W & R).
  apply in_map_iff in I. destruct I as (p' & <- & I). exists p', caps. split; [|auto].
  clear - I. induction src as [|[x|e] src IH]; cbn [patterns_of] in I; [destruct I| |right; auto].
  destruct I as [->|I]; [left; reflexivity|right; auto].
Qed.

Theorem untested_spec p : tests (untested p) = [] /\ pat_name (untested p) = pat_name p /\ pat_uuid (untested p) = pat_uuid p /\
  pat_tokens (untested p) = pat_tokens p /\ pat_values (untested p) = pat_values p /\ pat_tags (untested p) = pat_tags p.
Proof. unfold tests, untested. destruct p as [n u ts v g [l|]]; cbn; auto 10. Qed.

(** ** The builder *)
Definition builder_call (b : compiled_pattern) (t : token) : compiled_pattern :=
  match t with Literal l => builder_literal b l | Parser p => builder_parser b p end.
Theorem builder_spec ts : builder_build (fold_left builder_call ts builder_new) = ts.
Proof.
  unfold builder_build. enough (forall b, fold_left builder_call ts b = b ++ ts) as H by apply H.
  induction ts as [|t ts IH]; intros b; cbn [fold_left]; [symmetry; apply app_nil_r|].
  rewrite IH. destruct t; cbn [builder_call]; unfold builder_parser, builder_literal; rewrite <- app_assoc; reflexivity.
Qed.

(** ** A read error half way through the file *)
Theorem read_error_dropped : exists open_file dj dy path b e m,
  open_file path = Ok (b, Some e) /\
  from_file (trie_ops siphash) open_file dj dy path = Ret (Ok m) /\
  exists whole m', dy whole <> dy b /\
    from_file (trie_ops siphash) (fun _ => Ok (whole, None)) dj dy path = Ret (Ok m') /\ m <> m'.
Proof.
  exists (fun _ => Ok ($"1", Some ($"device error"))), (fun _ => Ret (Err [])),
    (fun s => Ret (Ok (if str_eqb s ($"1") then [tpat 1 ($"a")] else [tpat 1 ($"a"); tpat 2 ($"b")]))), ($"p.yaml"), ($"1"), ($"device error").
  eexists. split; [reflexivity|]. split; [vm_compute; reflexivity|]. exists ($"12"). eexists.
  split; [vm_compute; discriminate|]. split; [vm_compute; reflexivity|discriminate].
Qed.
