(** * Properties C47 and C81 to C86: the Deserialize implementations *)
From Verif Require Import Base Base_facts Parsers Pattern Spec Grammar Spec_source Source Deser Spec_deser Deser_claims
  Document_claims Siphash Deciders Tests.
From Verif Require Trie SuffixArray.

(** ** C47 *)
Theorem C47_pattern :
  forall parse_uuid v p, de_pattern parse_uuid v = Ret (Ok p) <-> pattern_value parse_uuid v p.
Proof. exact de_pattern_ok. Qed.
Print Assumptions C47_pattern.
Theorem C47_message :
  forall v t, de_test_message v = Ok t <-> message_value v t.
Proof. exact de_message_ok. Qed.
Print Assumptions C47_message.

(** Repeated fields and keys, a null list and fields in an odd order. *)
Example C47_example :
  pattern_value parse_uuid_ex
    (VMap [($"tags", VNull); ($"pattern", VStr ($"x")); ($"name", VStr ($"first"));
           ($"values", VMap [($"b", VStr ($"1")); ($"a", VStr ($"2")); ($"b", VStr ($"3"))]);
           ($"uuid", VStr u_pam); ($"name", VStr ($"second")); ($"pattern", VStr ($"y%{INT:n}"));
           ($"test_messages", VSeq [VMap [($"message", VStr ($"y1"))]])])
    {| pat_name := Some ($"second"); pat_uuid := u_pam; pat_tokens := comp ($"y%{INT:n}");
       pat_values := Some [($"a", $"2"); ($"b", $"3")]; pat_tags := Some [];
       pat_test_messages := Some [{| tm_message := $"y1"; tm_values := []; tm_tags := None |}] |}.
Proof. apply C47_pattern. vm_compute. reflexivity. Qed.

(** ** C81 *)
Theorem C81_pattern_error :
  forall parse_uuid v e, de_pattern parse_uuid v = Ret (Err e) <-> pattern_error parse_uuid v e.
Proof. exact de_pattern_err. Qed.
Print Assumptions C81_pattern_error.
Theorem C81_message_error :
  forall v e, de_test_message v = Err e <-> message_error v e.
Proof. exact de_message_err. Qed.
Print Assumptions C81_message_error.
Theorem C81_pattern_panic :
  forall parse_uuid v, de_pattern parse_uuid v = Panic <-> pattern_panics parse_uuid v.
Proof. exact de_pattern_panics. Qed.
Print Assumptions C81_pattern_panic.
Theorem C81_nothing_else :
  forall parse_uuid v, utf8_document v ->
    (exists p, pattern_value parse_uuid v p) \/ (exists e, pattern_error parse_uuid v e) \/ pattern_panics parse_uuid v.
Proof. exact de_pattern_cases. Qed.
Print Assumptions C81_nothing_else.

(** The first bad field is reported, before any missing one. *)
Example C81_examples :
  map (de_pattern parse_uuid_ex)
    [VMap [($"uuid", VStr ($"no")); ($"colour", VNull)];
     VMap [($"colour", VNull); ($"uuid", VStr ($"no"))];
     VMap [($"test_messages", VSeq [VMap [($"message", VStr ($"m"))]; VMap [($"tags", VNull)]]); ($"name", VOther)];
     VMap [($"pattern", VStr ($"%{")); ($"name", VStr ($"n"))];
     VSeq []] =
  [Ret (Err InvalidUuid); Ret (Err (UnexpectedField ($"colour"))); Ret (Err (MissingField ($"message")));
   Ret (Err InvalidPattern); Ret (Err InvalidType)].
Proof. vm_compute. reflexivity. Qed.
Example C81_panics : pattern_panics parse_uuid_ex (VMap [($"pattern", VStr ($"%{INT(min_len=18446744073709551616)}"))]).
Proof. apply C81_pattern_panic. vm_compute. reflexivity. Qed.

(** ** C82 is false: a missing uuid is reported as a missing pattern *)
Theorem C82_refuted :
  exists parse_uuid l, de_pattern parse_uuid (VMap l) = Ret (Err (MissingField ($"pattern"))) /\
    In ($"pattern") (map fst l).
Proof. exact wrong_missing_field. Qed.
Print Assumptions C82_refuted.
(** What holds: something required is missing, and the message part is right. *)
Theorem C82_something_missing :
  forall parse_uuid l f, de_pattern parse_uuid (VMap l) = Ret (Err (MissingField f)) ->
    (f = $"pattern" /\ (~ In ($"pattern") (map fst l) \/ ~ In ($"uuid") (map fst l))) \/
    (f = $"message" /\ exists ms m, In ($"test_messages", VSeq ms) l /\ In (VMap m) ms /\ ~ In ($"message") (map fst m)).
Proof. exact missing_field. Qed.
Print Assumptions C82_something_missing.

(** ** C83 *)
Theorem C83_file :
  forall parse_uuid v ps, de_pattern_file parse_uuid v = Ret (Ok ps) <-> file_value parse_uuid v ps.
Proof. exact de_file_ok. Qed.
Print Assumptions C83_file.
Example C83_example :
  exists ps, file_value parse_uuid_ex ssh_ok ps /\ map pat_uuid ps = [u_pubkey; u_disc; u_pam].
Proof.
  destruct (de_pattern_file parse_uuid_ex ssh_ok) as [[ps|e]| |] eqn:E; [|vm_compute in E; discriminate..].
  exists ps. split; [apply C83_file; exact E|]. vm_compute in E. injection E as <-. reflexivity.
Qed.

(** ** C84 *)
Theorem C84_file_error :
  forall parse_uuid v e, de_pattern_file parse_uuid v = Ret (Err e) <-> file_error parse_uuid v e.
Proof. exact de_file_err. Qed.
Print Assumptions C84_file_error.
Theorem C84_file_panic :
  forall parse_uuid v, de_pattern_file parse_uuid v = Panic <-> file_panics parse_uuid v.
Proof. exact de_file_panics. Qed.
Print Assumptions C84_file_panic.
Theorem C84_nothing_else :
  forall parse_uuid v, utf8_document v ->
    (exists ps, file_value parse_uuid v ps) \/ (exists e, file_error parse_uuid v e) \/ file_panics parse_uuid v.
Proof. exact de_file_cases. Qed.
Print Assumptions C84_nothing_else.
Example C84_examples :
  map (de_pattern_file parse_uuid_ex)
    [VMap []; VMap [($"patterns", VNull); ($"pattern", VNull)]; VMap [($"patterns", VSeq [VMap []; VOther])]; VNull] =
  [Ret (Err (MissingField ($"patterns"))); Ret (Err (UnexpectedField ($"pattern"))); Ret (Err (MissingField ($"pattern")));
   Ret (Err InvalidType)].
Proof. vm_compute. reflexivity. Qed.

(** ** C85 *)
Theorem C85_valid :
  forall parse_uuid v ps, utf8_document v -> file_value parse_uuid v ps -> Forall valid_pattern ps /\ utf8_tests ps.
Proof. exact file_valid. Qed.
Print Assumptions C85_valid.
Theorem C85_loads :
  forall parse_uuid sip v ps, ascii_document v -> file_value parse_uuid v ps ->
    (exists x, from_source (trie_ops sip) (map (fun p => Ok p) (rev ps)) = Ret x) /\
    (exists x, from_source (table_ops sip) (map (fun p => Ok p) (rev ps)) = Ret x) /\
    (exists m, from_source_ignore_errors (trie_ops sip) (map (fun p => Ok p) (rev ps)) = Ret m) /\
    (exists m, from_source_ignore_errors (table_ops sip) (map (fun p => Ok p) (rev ps)) = Ret m).
Proof. exact ascii_document_loads. Qed.
Print Assumptions C85_loads.

(** ** C86 *)
Theorem C86_end_to_end :
  forall parse_uuid sip v ps m text r,
    utf8_document v -> file_value parse_uuid v ps -> collision_free sip ps ->
    from_source (trie_ops sip) (map (fun p => Ok p) (rev ps)) = Ret (Ok m) \/
      from_source_ignore_errors (trie_ops sip) (map (fun p => Ok p) (rev ps)) = Ret m ->
    utf8 text -> mo_parse (trie_ops sip) m text = Ret (Some r) ->
    exists doc docs fields p s caps,
      v = VMap doc /\ binds doc ($"patterns") (VSeq docs) /\ In (VMap fields) docs /\ pattern_value parse_uuid (VMap fields) p /\
      binds fields ($"pattern") (VStr s) /\ compile s = Ret (Ok (pat_tokens p)) /\
      mr_pattern r = stripped (untested p) /\ walk (pat_tokens p) text caps /\ reports caps (mr_values r).
Proof. exact document_sound. Qed.
Print Assumptions C86_end_to_end.

(** The repository's own ssh_ok.json is such a document. *)
Definition pubkey_msg := $"Jun 25 14:09:58 lobotomy sshd[26568]: Accepted publickey for zts from 1.22.3.44 port 35221 ssh2".
Example C86_example :
  ascii_document ssh_ok /\ exists ps m r, file_value parse_uuid_ex ssh_ok ps /\ collision_free siphash ps /\
    from_source (trie_ops siphash) (map (fun p => Ok p) (rev ps)) = Ret (Ok m) /\
    mo_parse (trie_ops siphash) m pubkey_msg = Ret (Some r) /\ pat_uuid (mr_pattern r) = u_pubkey /\
    mr_values r = [($"day", $"25"); ($"hour", $"14"); ($"min", $"09"); ($"oct0", $"1"); ($"oct1", $"22"); ($"oct2", $"3");
                   ($"oct3", $"44"); ($"pid", $"26568"); ($"port", $"35221"); ($"sec", $"58")] /\
    (** the test message of its last pattern, which passed during loading, is lost (C42) *)
    mo_parse (trie_ops siphash) m pam_msg = Ret None.
Proof.
  split.
  - apply ascii_documentb_sound. vm_compute. reflexivity.
  - destruct (de_pattern_file parse_uuid_ex ssh_ok) as [[ps|e]| |] eqn:E; [|vm_compute in E; discriminate..].
    exists ps. vm_compute in E. injection E as <-. do 2 eexists. split; [apply C83_file; vm_compute; reflexivity|].
    split; [apply collision_freeb_sound; vm_compute; reflexivity|]. split; [vm_compute; reflexivity|].
    split; [vm_compute; reflexivity|]. repeat split; vm_compute; reflexivity.
Qed.

(** ** C96: the same for the suffix table *)
Theorem C96_end_to_end :
  forall parse_uuid sip v ps m text r,
    utf8_document v -> file_value parse_uuid v ps -> collision_free sip ps ->
    from_source (table_ops sip) (map (fun p => Ok p) (rev ps)) = Ret (Ok m) \/
      from_source_ignore_errors (table_ops sip) (map (fun p => Ok p) (rev ps)) = Ret m ->
    utf8 text -> mo_parse (table_ops sip) m text = Ret (Some r) ->
    exists doc docs fields p s caps,
      v = VMap doc /\ binds doc ($"patterns") (VSeq docs) /\ In (VMap fields) docs /\ pattern_value parse_uuid (VMap fields) p /\
      binds fields ($"pattern") (VStr s) /\ compile s = Ret (Ok (pat_tokens p)) /\
      mr_pattern r = stripped (untested p) /\ Spec_table.table_walk (pat_tokens p) text caps /\ reports caps (mr_values r).
Proof. exact document_sound_table. Qed.
Print Assumptions C96_end_to_end.

Example C96_example :
  exists ps m r, file_value parse_uuid_ex ssh_ok ps /\ collision_free siphash ps /\
    from_source_ignore_errors (table_ops siphash) (map (fun p => Ok p) (rev ps)) = Ret m /\
    mo_parse (table_ops siphash) m pubkey_msg = Ret (Some r) /\ pat_uuid (mr_pattern r) = u_pubkey.
Proof.
  destruct (de_pattern_file parse_uuid_ex ssh_ok) as [[ps|e]| |] eqn:E; [|vm_compute in E; discriminate..].
  exists ps. vm_compute in E. injection E as <-. do 2 eexists. split; [apply C83_file; vm_compute; reflexivity|].
  split; [apply collision_freeb_sound; vm_compute; reflexivity|]. split; [vm_compute; reflexivity|].
  split; vm_compute; reflexivity.
Qed.
