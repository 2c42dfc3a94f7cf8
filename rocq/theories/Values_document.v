(** * Values and lengths of messages, for loaded documents *)
From Verif Require Import Base Base_facts Parsers Pattern Grammar Spec Spec_table Source Spec_source Deser Spec_deser Deser_claims Document_claims
  Spec_length Length_claims Spec_values Values_claims.

Lemma binds_within {A} (m : list (str * A)) k v : binds m k v -> In (k, v) m.
Proof. intros (a & b & -> & _). apply in_app_iff. right. left. reflexivity. Qed.

Section Document.
  Variables (parse_uuid : str -> option uuid) (v : value).
  Hypothesis Utf8 : utf8_document v.

  Lemma source_utf8 doc docs fields s : v = VMap doc -> binds doc ($"patterns") (VSeq docs) -> In (VMap fields) docs ->
    binds fields ($"pattern") (VStr s) -> utf8 s.
  Proof.
    intros E B J B'. apply Utf8. rewrite E. apply (contains_value doc ($"patterns") (VSeq docs)); [exact (binds_within _ _ _ B)|].
    apply (contains_seq docs (VMap fields) s J). apply (contains_value fields ($"pattern") (VStr s)); [exact (binds_within _ _ _ B')|constructor].
  Qed.
  Theorem document_values sip ps m text r :
    file_value parse_uuid v ps -> collision_free sip ps ->
    from_source (trie_ops sip) (map (fun p => Ok p) (rev ps)) = Ret (Ok m) \/
      from_source_ignore_errors (trie_ops sip) (map (fun p => Ok p) (rev ps)) = Ret m ->
    utf8 text -> mo_parse (trie_ops sip) m text = Ret (Some r) ->
    exists doc docs fields p s,
      v = VMap doc /\ binds doc ($"patterns") (VSeq docs) /\ In (VMap fields) docs /\ pattern_value parse_uuid (VMap fields) p /\
      binds fields ($"pattern") (VStr s) /\ compile s = Ret (Ok (pat_tokens p)) /\
      mr_pattern r = stripped (untested p) /\ values_right p text (mr_values r) /\
      (tokens_take (pat_tokens p) <= size text)%N /\ forall n, tokens_hold (pat_tokens p) = Some n -> (size text <= n)%N.
  Proof.
    intros F C L U E. destruct (document_sound parse_uuid sip v ps m text r Utf8 F C L U E) as (doc & docs & fields & p & s & caps & Ev & B & J & P & B' & Cs & Er & W & R).
    exists doc, docs, fields, p, s. do 7 (split; [assumption|]). pose proof (source_utf8 doc docs fields s Ev B J B') as Us.
    split; [exact (values_of p s text caps _ Us Cs R (walk_values _ _ _ W))|]. exact (walk_size _ _ _ W).
  Qed.

  Theorem document_values_table sip ps m text r :
    file_value parse_uuid v ps -> collision_free sip ps ->
    from_source (table_ops sip) (map (fun p => Ok p) (rev ps)) = Ret (Ok m) \/
      from_source_ignore_errors (table_ops sip) (map (fun p => Ok p) (rev ps)) = Ret m ->
    utf8 text -> mo_parse (table_ops sip) m text = Ret (Some r) ->
    exists doc docs fields p s,
      v = VMap doc /\ binds doc ($"patterns") (VSeq docs) /\ In (VMap fields) docs /\ pattern_value parse_uuid (VMap fields) p /\
      binds fields ($"pattern") (VStr s) /\ compile s = Ret (Ok (pat_tokens p)) /\
      mr_pattern r = stripped (untested p) /\ values_right p text (mr_values r) /\
      (parsers_take (pat_tokens p) <= size text)%N /\ forall n, tokens_hold (pat_tokens p) = Some n -> (size text <= n)%N.
  Proof.
    intros F C L U E. destruct (document_sound_table parse_uuid sip v ps m text r Utf8 F C L U E) as (doc & docs & fields & p & s & caps & Ev & B & J & P & B' & Cs & Er & W & R).
    exists doc, docs, fields, p, s. do 7 (split; [assumption|]). pose proof (source_utf8 doc docs fields s Ev B J B') as Us.
    split; [exact (values_of p s text caps _ Us Cs R (table_walk_values _ _ _ W))|]. exact (table_walk_size _ _ _ W).
  Qed.
End Document.
