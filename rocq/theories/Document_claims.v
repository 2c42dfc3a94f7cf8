(** * From documents to matchers *)
From Verif Require Import Base Base_facts Utils Parsers Pattern Spec Grammar Spec_grammar Grammar_claims Spec_source Source Source_claims
  Loading_claims Deser Spec_deser Deser_claims.
From Verif Require Trie SuffixArray.

Definition everywhere (P : str -> Prop) (v : value) : Prop := forall s, contains v s -> P s.

Lemma everywhere_elem P l x : everywhere P (VSeq l) -> In x l -> everywhere P x.
Proof. intros H I s C. apply H. eapply contains_seq; eassumption. Qed.
Lemma everywhere_field P l k x : everywhere P (VMap l) -> binds l k x -> everywhere P x.
Proof.
  intros H (a & b & -> & _) s C. apply H. eapply contains_value; [|exact C]. apply in_app_iff. right. left. reflexivity.
Qed.
Lemma everywhere_string P l k s : everywhere P (VMap l) -> field l k string_value (Some s) -> P s.
Proof.
  intros H [(E & _)|(v & a & E & B & T)]; [discriminate|]. injection E as ->. unfold string_value in T. subst v.
  apply (everywhere_field P l k _ H B). constructor.
Qed.
Lemma everywhere_seq {A} P (ty : value -> A -> Prop) v l y : everywhere P v -> seq_value ty v l -> In y l ->
  exists x, everywhere P x /\ ty x y.
Proof.
  intros H [(_ & ->)|(vs & -> & F)] I; [destruct I|]. induction F as [|x y' vs l T F IH]; [destruct I|].
  destruct I as [->|I]; [|apply IH; [|exact I]].
  - exists x. split; [|exact T]. apply (everywhere_elem P _ _ H). left. reflexivity.
  - intros s C. apply H. inversion C; subst. eapply contains_seq; [right; eassumption|assumption].
Qed.
Lemma everywhere_field_seq {A} P (ty : value -> A -> Prop) l k ys y : everywhere P (VMap l) -> field l k (seq_value ty) (Some ys) -> In y ys ->
  exists x, everywhere P x /\ ty x y.
Proof.
  intros H [(E & _)|(v & a & E & B & T)] I; [discriminate|]. injection E as ->.
  exact (everywhere_seq P ty v a y (everywhere_field P l k v H B) T I).
Qed.

Section Documents.
  Variable parse_uuid : str -> option uuid.

  Lemma message_texts P v t : everywhere P v -> message_value v t -> P (tm_message t).
  Proof. intros H (l & -> & _ & M & _). exact (everywhere_string P l _ _ H M). Qed.

  Lemma pattern_texts P v p : everywhere P v -> pattern_value parse_uuid v p ->
    (exists s, P s /\ compile s = Ret (Ok (pat_tokens p))) /\ forall t, In t (tests p) -> P (tm_message t).
  Proof.
    intros H (l & s & -> & _ & _ & _ & S & C & _ & _ & T). split.
    - exists s. split; [exact (everywhere_string P l _ _ H S)|exact C].
    - unfold tests. destruct (pat_test_messages p) as [ts|]; [|intros t []]. intros t I.
      destruct (everywhere_field_seq P _ l _ ts t H T I) as (x & Hx & M). exact (message_texts P x t Hx M).
  Qed.

  Lemma file_texts P v ps p : everywhere P v -> file_value parse_uuid v ps -> In p ps -> exists x, everywhere P x /\ pattern_value parse_uuid x p.
  Proof. intros H (l & -> & _ & F) I. exact (everywhere_field_seq P _ l _ ps p H F I). Qed.

  Theorem file_valid v ps : utf8_document v -> file_value parse_uuid v ps -> Forall valid_pattern ps /\ utf8_tests ps.
  Proof.
    intros H F. split.
    - apply Forall_forall. intros p I. destruct (file_texts utf8 v ps p H F I) as (x & Hx & V).
      destruct (pattern_texts utf8 x p Hx V) as ((s & U & C) & _). exact (compile_valid s _ U C).
    - intros p t I It. destruct (file_texts utf8 v ps p H F I) as (x & Hx & V).
      destruct (pattern_texts utf8 x p Hx V) as (_ & T). exact (T t It).
  Qed.
  Lemma ascii_doc_utf8 v : ascii_document v -> utf8_document v.
  Proof. intros H s C. apply ascii_utf8. apply H. exact C. Qed.
  Theorem file_ascii v ps : ascii_document v -> file_value parse_uuid v ps -> Forall ascii_pattern ps /\ ascii_tests ps.
  Proof.
    intros H F. split.
    - apply Forall_forall. intros p I. destruct (file_texts (fun s => ascii s = true) v ps p H F I) as (x & Hx & V).
      destruct (pattern_texts (fun s => ascii s = true) x p Hx V) as ((s & U & C) & _). exact (compile_ascii s _ U C).
    - intros p t I It. destruct (file_texts (fun s => ascii s = true) v ps p H F I) as (x & Hx & V).
      destruct (pattern_texts (fun s => ascii s = true) x p Hx V) as (_ & T). exact (T t It).
  Qed.

  (** Every document is loaded, rejected or makes the compiler panic. *)
  Theorem de_pattern_cases v : utf8_document v ->
    (exists p, pattern_value parse_uuid v p) \/ (exists e, pattern_error parse_uuid v e) \/ pattern_panics parse_uuid v.
  Proof.
    intros U. destruct (de_pattern parse_uuid v) as [[p|e]| |] eqn:D.
    - left. exists p. apply de_pattern_ok. exact D.
    - right. left. exists e. apply de_pattern_err. exact D.
    - right. right. apply de_pattern_panics. exact D.
    - exfalso. unfold de_pattern in D. destruct v as [|s|vs|l|]; try discriminate.
      destruct (pat_visit_fields parse_uuid l pat_acc_new) as [a|e] eqn:V; [|discriminate].
      apply pat_visit_ok in V. destruct V as (_ & _ & _ & H3 & _). cbn in H3. unfold de_pattern_finish in D.
      destruct (pa_pattern a) as [s|]; [|discriminate].
      assert (utf8 s) as Us by exact (everywhere_string utf8 l _ _ U (proj1 (field_some _ _ _ _ H3))).
      pose proof (compile_terminates s Us) as T. destruct (compile s) as [[ts|e]| |]; cbn [bind] in D; try discriminate; [|contradiction].
      destruct (pa_uuid a); discriminate.
  Qed.
  Lemma de_pattern_fuel v : utf8_document v -> de_pattern parse_uuid v <> OutOfFuel.
  Proof.
    intros U. destruct (de_pattern_cases v U) as [(p & H)|[(e & H)|H]].
    - apply de_pattern_ok in H. rewrite H. discriminate.
    - apply de_pattern_err in H. rewrite H. discriminate.
    - apply de_pattern_panics in H. rewrite H. discriminate.
  Qed.
  Lemma de_patterns_fuel l : (forall v, In v l -> utf8_document v) -> de_patterns parse_uuid l <> OutOfFuel.
  Proof.
    induction l as [|v l IH]; intros U; cbn [de_patterns]; [discriminate|].
    pose proof (de_pattern_fuel v (U v ltac:(left; reflexivity))) as F.
    destruct (de_pattern parse_uuid v) as [[p|e]| |]; cbn [bind]; try discriminate; [|contradiction].
    specialize (IH (fun x I => U x (or_intror I))). destruct (de_patterns parse_uuid l); cbn [bind]; try discriminate. contradiction.
  Qed.
  Lemma file_visit_fuel l : (forall k v, In (k, v) l -> utf8_document v) -> forall a, file_visit_fields parse_uuid l a <> OutOfFuel.
  Proof.
    induction l as [|(k, v) l IH]; intros U a; cbn [file_visit_fields]; [discriminate|].
    destruct (str_eqb k ($"patterns")); [|discriminate].
    assert (de_pattern_vec parse_uuid v <> OutOfFuel) as F.
    { specialize (U k v ltac:(left; reflexivity)). destruct v as [|s|vs|m|]; cbn [de_pattern_vec]; try discriminate.
      apply de_patterns_fuel. intros x I. exact (everywhere_elem utf8 vs x U I). }
    destruct (de_pattern_vec parse_uuid v) as [[ps|e]| |]; cbn [bind]; try discriminate; [|contradiction].
    apply IH. intros k' v' I. apply (U k' v'). right. exact I.
  Qed.
  Theorem de_file_cases v : utf8_document v ->
    (exists ps, file_value parse_uuid v ps) \/ (exists e, file_error parse_uuid v e) \/ file_panics parse_uuid v.
  Proof.
    intros U. destruct (de_pattern_file parse_uuid v) as [[p|e]| |] eqn:D.
    - left. exists p. apply de_file_ok. exact D.
    - right. left. exists e. apply de_file_err. exact D.
    - right. right. apply de_file_panics. exact D.
    - exfalso. destruct v as [|s|vs|l|]; try discriminate. cbn [de_pattern_file] in D.
      assert (file_visit_fields parse_uuid l None <> OutOfFuel) as F.
      { apply file_visit_fuel. intros k x I s C. apply U. eapply contains_value; eassumption. }
      destruct (file_visit_fields parse_uuid l None) as [[[qs|]|e]| |]; cbn [bind] in D; try discriminate. contradiction.
  Qed.

  (** ** Into the matchers *)
  Lemma rev_incl {A} (l : list A) (P : A -> Prop) : Forall P l -> Forall P (rev l).
  Proof. rewrite !Forall_forall. intros H x I. apply H. apply in_rev. exact I. Qed.
  Theorem ascii_document_loads sip v ps : ascii_document v -> file_value parse_uuid v ps ->
    (exists x, from_source (trie_ops sip) (map (fun p => Ok p) (rev ps)) = Ret x) /\
    (exists x, from_source (table_ops sip) (map (fun p => Ok p) (rev ps)) = Ret x) /\
    (exists m, from_source_ignore_errors (trie_ops sip) (map (fun p => Ok p) (rev ps)) = Ret m) /\
    (exists m, from_source_ignore_errors (table_ops sip) (map (fun p => Ok p) (rev ps)) = Ret m).
  Proof.
    intros A F. destruct (file_valid v ps (ascii_doc_utf8 v A) F) as (V & U). destruct (file_ascii v ps A F) as (S & T).
    apply rev_incl in V. apply rev_incl in S.
    destruct (trie_loading_total sip (map (fun p => Ok p) (rev ps))) as (H1 & m1 & H2 & _).
    1-3: rewrite patterns_of_map; auto. { intros p t I. apply T. apply in_rev. exact I. }
    destruct (table_loading_total sip (map (fun p => Ok p) (rev ps))) as (H3 & m2 & H4 & _).
    1-3: rewrite patterns_of_map; auto.
    { intros q (p & I & Iq). rewrite Forall_forall in S. specialize (S p I). unfold ascii_pattern in S. rewrite Forall_forall in S.
      exact (S _ Iq). }
    { intros p t I. apply U. apply in_rev. exact I. }
    eauto 10.
  Qed.

  (** What a trie built from a document reports comes from the document. *)
  Theorem document_sound sip v ps m text r :
    utf8_document v -> file_value parse_uuid v ps -> collision_free sip ps ->
    from_source (trie_ops sip) (map (fun p => Ok p) (rev ps)) = Ret (Ok m) \/
      from_source_ignore_errors (trie_ops sip) (map (fun p => Ok p) (rev ps)) = Ret m ->
    utf8 text -> mo_parse (trie_ops sip) m text = Ret (Some r) ->
    exists doc docs fields p s caps,
      v = VMap doc /\ binds doc ($"patterns") (VSeq docs) /\ In (VMap fields) docs /\ pattern_value parse_uuid (VMap fields) p /\
      binds fields ($"pattern") (VStr s) /\ compile s = Ret (Ok (pat_tokens p)) /\
      mr_pattern r = stripped (untested p) /\ walk (pat_tokens p) text caps /\ reports caps (mr_values r).
  Proof.
    intros U F C L Ut M. destruct (file_valid v ps U F) as (V & _).
    destruct (trie_loaded_pattern sip (map (fun p => Ok p) (rev ps)) m text r) as (p & caps & I & E & W & R); try assumption.
    - rewrite patterns_of_map. apply rev_incl. exact V.
    - rewrite patterns_of_map. intros q q' (p & I & H) (p' & I' & H'). apply C; [exists p|exists p']; split; auto; apply in_rev; assumption.
    - apply in_map_iff in I. destruct I as (p' & E' & I). injection E' as ->. rewrite <- in_rev in I.
      destruct F as (doc & -> & _ & [(E1 & _)|(w & qs & E1 & B & T)]); [discriminate|]. injection E1 as <-.
      destruct T as [(_ & ->)|(docs & -> & T)]; [destruct I|].
      assert (exists x, In x docs /\ pattern_value parse_uuid x p) as (x & Ix & P).
      { clear - T I. induction T as [|x y docs ps T F IH]; [destruct I|]. destruct I as [->|I]; [exists x; split; [left; reflexivity|exact T]|].
        destruct (IH I) as (z & Iz & P). exists z. split; [right; exact Iz|exact P]. }
      pose proof P as P'. destruct P' as (l & s & -> & _ & _ & _ & S & Cs & _).
      destruct S as [(E1 & _)|(w & s' & E1 & Bs & Ts)]; [discriminate|]. injection E1 as <-. unfold string_value in Ts. subst w.
      exists doc, docs, l, p, s, caps. auto 10.
  Qed.

  Theorem document_sound_table sip v ps m text r :
    utf8_document v -> file_value parse_uuid v ps -> collision_free sip ps ->
    from_source (table_ops sip) (map (fun p => Ok p) (rev ps)) = Ret (Ok m) \/
      from_source_ignore_errors (table_ops sip) (map (fun p => Ok p) (rev ps)) = Ret m ->
    utf8 text -> mo_parse (table_ops sip) m text = Ret (Some r) ->
    exists doc docs fields p s caps,
      v = VMap doc /\ binds doc ($"patterns") (VSeq docs) /\ In (VMap fields) docs /\ pattern_value parse_uuid (VMap fields) p /\
      binds fields ($"pattern") (VStr s) /\ compile s = Ret (Ok (pat_tokens p)) /\
      mr_pattern r = stripped (untested p) /\ Spec_table.table_walk (pat_tokens p) text caps /\ reports caps (mr_values r).
  Proof.
    intros U F C L Ut M. destruct (file_valid v ps U F) as (V & _).
    destruct (table_loaded_pattern sip (map (fun p => Ok p) (rev ps)) m text r) as (p & caps & I & E & W & R); try assumption.
    - rewrite patterns_of_map. apply rev_incl. exact V.
    - rewrite patterns_of_map. intros q q' (p & I & H) (p' & I' & H'). apply C; [exists p|exists p']; split; auto; apply in_rev; assumption.
    - apply in_map_iff in I. destruct I as (p' & E' & I). injection E' as ->. rewrite <- in_rev in I.
      destruct F as (doc & -> & _ & [(E1 & _)|(w & qs & E1 & B & T)]); [discriminate|]. injection E1 as <-.
      destruct T as [(_ & ->)|(docs & -> & T)]; [destruct I|].
      assert (exists x, In x docs /\ pattern_value parse_uuid x p) as (x & Ix & P).
      { clear - T I. induction T as [|x y docs ps T F IH]; [destruct I|]. destruct I as [->|I]; [exists x; split; [left; reflexivity|exact T]|].
        destruct (IH I) as (z & Iz & P). exists z. split; [right; exact Iz|exact P]. }
      pose proof P as P'. destruct P' as (l & s & -> & _ & _ & _ & S & Cs & _).
      destruct S as [(E1 & _)|(w & s' & E1 & Bs & Ts)]; [discriminate|]. injection E1 as <-. unfold string_value in Ts. subst w.
      exists doc, docs, l, p, s, caps. auto 10.
  Qed.
End Documents.

(** ** Missing fields *)
Lemma message_missing v f : message_error v (MissingField f) -> f = $"message" /\ exists l, v = VMap l /\ ~ In ($"message") (map fst l).
Proof.
  intros H. inversion H as [|a k x b e _ _ H'|l E _ N]; subst; [inversion H'|]. eauto.
Qed.
Theorem missing_field parse_uuid l f : de_pattern parse_uuid (VMap l) = Ret (Err (MissingField f)) ->
  (f = $"pattern" /\ (~ In ($"pattern") (map fst l) \/ ~ In ($"uuid") (map fst l))) \/
  (f = $"message" /\ exists ms m, In ($"test_messages", VSeq ms) l /\ In (VMap m) ms /\ ~ In ($"message") (map fst m)).
Proof.
  intros H. apply de_pattern_err in H. inversion H as [|a k x b e E _ H'|l' E _ N|l' s e E|l' s ts E _ _ _ N]; subst.
  - right. injection E as ->. inversion H' as [| | | |e -> S]; subst.
    destruct S as [(_ & S)|(c & y & d & -> & _ & M)]; [discriminate|]. apply message_missing in M. destruct M as (-> & m & -> & N).
    split; [reflexivity|]. exists (c ++ VMap m :: d), m. split; [apply in_app_iff; right; left; reflexivity|].
    split; [apply in_app_iff; right; left; reflexivity|exact N].
  - injection E as <-. auto.
  - injection E as <-. auto.
Qed.
Theorem wrong_missing_field : exists parse_uuid l, de_pattern parse_uuid (VMap l) = Ret (Err (MissingField ($"pattern"))) /\
  In ($"pattern") (map fst l).
Proof. exists (fun _ => None), [($"pattern", VStr ($"a"))]. split; [vm_compute; reflexivity|left; reflexivity]. Qed.

(** ** Deciding [ascii_document] *)
Fixpoint ascii_documentb (v : value) : bool :=
  match v with
  | VStr s => ascii s
  | VSeq l => (fix go l := match l with [] => true | x :: l' => ascii_documentb x && go l' end) l
  | VMap l => (fix go l := match l with [] => true | (k, x) :: l' => ascii k && ascii_documentb x && go l' end) l
  | _ => true
  end.
Lemma ascii_documentb_sound v : ascii_documentb v = true -> ascii_document v.
Proof.
  intros H s C. induction C as [s|l x s I C IH|l k x I|l k x s I C IH]; cbn in H; [exact H| | |]; try apply IH; try clear IH;
    induction l as [|y l IHl]; try (destruct I; fail).
  - apply andb_true_iff in H. destruct H as (H1 & H2). destruct I as [->|I]; auto.
  - destruct y as (k', x'). apply andb_true_iff in H. destruct H as (H1 & H2). apply andb_true_iff in H1.
    destruct I as [E|I]; [injection E as -> ->; tauto|auto].
  - destruct y as (k', x'). apply andb_true_iff in H. destruct H as (H1 & H2). apply andb_true_iff in H1.
    destruct I as [E|I]; [injection E as -> ->; tauto|auto].
Qed.
