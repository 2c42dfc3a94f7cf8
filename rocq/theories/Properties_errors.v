(** * Properties C102 to C108: the texts of errors *)
From Coq Require Import Permutation.
From Verif Require Import Base Base_facts Pattern Grammar Source Errors Spec Spec_errors Spec_messages Errors_claims Messages_claims Spec_unicode Debug Spec_debug Debug_claims Tests.

Definition uuid_example : uuid :=
  [x9a; x49; xc8; x90; xa3; x5b; x48; x15; x9f; xba; xd7; xd2; x0f; x64; x01; xff].
Definition uuid_example' : uuid :=
  [x9a; x49; xc8; x90; xa3; x5b; x48; x15; x9f; xba; xd7; xd2; x0f; x64; x02; x00].

(** ** C102 *)
Theorem C102_uuid_shape :
  forall u, sixteen_bytes u ->
    exists a b c d e, hyphenated u = a ++ $"-" ++ b ++ $"-" ++ c ++ $"-" ++ d ++ $"-" ++ e /\
      length a = 8 /\ length b = 4 /\ length c = 4 /\ length d = 4 /\ length e = 12 /\
      Forall lower_hex (a ++ b ++ c ++ d ++ e).
Proof. exact hyphenated_shape. Qed.
Print Assumptions C102_uuid_shape.
Theorem C102_uuid_unique :
  forall u v, sixteen_bytes u -> sixteen_bytes v -> hyphenated u = hyphenated v -> u = v.
Proof. exact hyphenated_inj. Qed.
Print Assumptions C102_uuid_unique.
Example C102_example :
  sixteen_bytes uuid_example /\ hyphenated uuid_example = $"9a49c890-a35b-4815-9fba-d7d20f6401ff".
Proof. split; vm_compute; reflexivity. Qed.

(** ** C103 *)
Theorem C103_kind_and_uuids :
  forall debug e e', Forall sixteen_bytes (uuids_of e) -> Forall sixteen_bytes (uuids_of e') ->
    tm_error_text debug e = tm_error_text debug e' -> kind_of e = kind_of e' /\ uuids_of e = uuids_of e'.
Proof. exact text_kind_uuid. Qed.
Print Assumptions C103_kind_and_uuids.
Theorem C103_nothing_left_out :
  forall debug e,
    (forall u, In u (uuids_of e) -> contains (tm_error_text debug e) (hyphenated u)) /\
    (forall t, In t (texts_of e) -> contains (tm_error_text debug e) t) /\
    (forall t, In t (tags_of e) -> contains (tm_error_text debug e) (debug t)).
Proof. exact text_complete. Qed.
Print Assumptions C103_nothing_left_out.
Example C103_example :
  Forall sixteen_bytes (uuids_of (MatchedToOtherPattern uuid_example uuid_example' ($"m"))) /\
  tm_error_text debug_ascii (MatchedToOtherPattern uuid_example uuid_example' ($"m")) =
    $"The test message matched to an other pattern: expected_uuid=9a49c890-a35b-4815-9fba-d7d20f6401ff got_uuid=9a49c890-a35b-4815-9fba-d7d20f640200 test_message='m'".
Proof. split; [repeat constructor|vm_compute; reflexivity]. Qed.
Example C103_tags_example :
  tm_error_text debug_ascii (UnexpectedTags uuid_example (Some [$"a"; $"b"]) None) =
    $"Unexpected tags found either in the parse result or among the expected ones: uuid=9a49c890-a35b-4815-9fba-d7d20f6401ff expected: Some([" ++
    [x22; x61; x22; x2c; x20; x22; x62; x22] ++ $"]) got=None".
Proof. vm_compute. reflexivity. Qed.

(** ** C104: the full statement has no restriction on the kind *)
Theorem C104_refuted :
  exists debug e e', quoting debug /\
    Forall sixteen_bytes (uuids_of e) /\ Forall sixteen_bytes (uuids_of e') /\
    tm_error_text debug e = tm_error_text debug e' /\ e <> e'.
Proof.
  exists debug_ascii, (ValueNotMatch uuid_example ($"k") ($"a") ($"b got=c")),
    (ValueNotMatch uuid_example ($"k") ($"a got=b") ($"c")).
  split; [exact debug_ascii_quoting|]. split; [repeat constructor|]. split; [repeat constructor|].
  split; [vm_compute; reflexivity|discriminate].
Qed.
Print Assumptions C104_refuted.
Theorem C104_text_unique_partial :
  forall debug e e', quoting debug ->
    Forall sixteen_bytes (uuids_of e) -> Forall sixteen_bytes (uuids_of e') -> kind_of e <> KValue ->
    tm_error_text debug e = tm_error_text debug e' -> e = e'.
Proof. exact text_inj. Qed.
Print Assumptions C104_text_unique_partial.
Theorem C104_quoting : quoting debug_ascii.
Proof. exact debug_ascii_quoting. Qed.
Print Assumptions C104_quoting.

(** Without an assumption about the Debug format, for tags of any characters and
    all versions of the library *)
Theorem C104_shown_partial :
  forall plain zero debug e e', escaping plain ->
    (forall s, In s (tags_of e ++ tags_of e') -> shown_as plain zero s (debug s)) ->
    Forall sixteen_bytes (uuids_of e) -> Forall sixteen_bytes (uuids_of e') -> kind_of e <> KValue ->
    tm_error_text debug e = tm_error_text debug e' -> e = e'.
Proof. exact (fun plain zero debug e e' Esc => shown_text_inj plain zero Esc debug e e'). Qed.
Print Assumptions C104_shown_partial.
Theorem C104_shown_ends :
  forall plain zero, escaping plain ->
    forall s s' d d' x y, shown_as plain zero s d -> shown_as plain zero s' d' -> d ++ x = d' ++ y -> s = s' /\ x = y.
Proof. exact shown_splits. Qed.
Print Assumptions C104_shown_ends.

(** The characters a quotation mark, newline, é, 0, smiley: in an old version, and in one that
    shows all others as they are. *)
Example C104_shown_example :
  let l := [97; 34; 10; 233; 0; 128512]%N in
  escaping (fun n => (N.ltb 34 n && N.ltb n 92) || (N.ltb 92 n && N.ltb n 127)) /\ escaping (fun n => negb (N.ltb n 32 || N.eqb n 34 || N.eqb n 92)) /\ Forall scalar l /\
  debug_chars (fun n => (N.ltb 34 n && N.ltb n 92) || (N.ltb 92 n && N.ltb n 127)) false l =
    [x22] ++ $"a\" ++ [x22] ++ $"\n\u{e9}\u{0}\u{1f600}" ++ [x22] /\
  debug_chars (fun n => negb (N.ltb n 32 || N.eqb n 34 || N.eqb n 92)) true l =
    [x22] ++ $"a\" ++ [x22] ++ $"\n" ++ [xc3; xa9] ++ $"\0" ++ [xf0; x9f; x98; x80] ++ [x22] /\
  shown_as (fun n => negb (N.ltb n 32 || N.eqb n 34 || N.eqb n 92)) true [xc3; xa9] ([x22] ++ [xc3; xa9] ++ [x22]).
Proof.
  split; [split; reflexivity|]. split; [split; reflexivity|]. split; [repeat (constructor; [unfold scalar; lia|]); constructor|].
  split; [vm_compute; reflexivity|]. split; [vm_compute; reflexivity|].
  exists [233%N]. split; [constructor; [unfold scalar; lia|constructor]|]. split; vm_compute; reflexivity.
Qed.

(** ** C105: the full statement has no restriction on the kind *)
Theorem C105_refuted :
  exists debug e, forall t, tm_error_text debug e <> tm_error_description e ++ t.
Proof. exists debug_ascii, (TestMessageDoesntMatch uuid_example ($"m")). intros t. discriminate. Qed.
Print Assumptions C105_refuted.
Theorem C105_description_partial :
  forall debug e, kind_of e <> KNoMatch ->
    exists t, tm_error_text debug e = tm_error_description e ++ $": " ++ t.
Proof. exact text_description. Qed.
Print Assumptions C105_description_partial.
Theorem C105_description_kind :
  forall e e', tm_error_description e = tm_error_description e' <-> kind_of e = kind_of e'.
Proof. exact description_kind. Qed.
Print Assumptions C105_description_kind.

(** ** C106 *)
Theorem C106_refuted :
  exists debug about, build_error_text debug UnsupportedFileExtension <>
                      build_error_description about UnsupportedFileExtension.
Proof. exists debug_ascii, (fun s => s). discriminate. Qed.
Print Assumptions C106_refuted.
Theorem C106_kinds :
  forall debug e e',
    match e, e' with
    | (TestMessageError _ | UnsupportedFileExtension | NotUtf8FileName), (Io _ | DeserJson _ | DeserYaml _) => True
    | (Io _ | DeserJson _ | DeserYaml _), _ => True
    | TestMessageError x, TestMessageError y =>
        build_error_text debug e = build_error_text debug e' <-> tm_error_text debug x = tm_error_text debug y
    | _, _ => build_error_text debug e = build_error_text debug e' -> e = e'
    end.
Proof. exact build_text_kinds. Qed.
Print Assumptions C106_kinds.

(** ** C107 *)
Theorem C107_refuted :
  exists debug origin e, build_error_cause origin (TestMessageError e) <> Some (tm_error_text debug e).
Proof. exists debug_ascii, (fun _ => None), (KeyNotFound uuid_example ($"k")). discriminate. Qed.
Print Assumptions C107_refuted.
Theorem C107_cause_of_wrapped :
  forall origin e c, build_error_cause origin e = Some c <->
    exists x, (e = Io x \/ e = DeserJson x \/ e = DeserYaml x) /\ origin x = Some c.
Proof.
  intros origin e c. split.
  - destruct e; intros H; try discriminate H; eauto 6.
  - intros (x & [->|[->| ->]] & H); exact H.
Qed.
Print Assumptions C107_cause_of_wrapped.

(** ** C108 *)
Theorem C108_text_unique :
  forall s e it s' e' it',
    utf8 s -> compile s = Ret (Err e) -> Permutation (pe_expected e) it ->
    utf8 s' -> compile s' = Ret (Err e') -> Permutation (pe_expected e') it' ->
    parse_error_text e it = parse_error_text e' it' ->
    pe_line e = pe_line e' /\ pe_column e = pe_column e' /\ Permutation (pe_expected e) (pe_expected e').
Proof. exact compile_error_text. Qed.
Print Assumptions C108_text_unique.
Theorem C108_no_eof :
  forall s e it, utf8 s -> compile s = Ret (Err e) -> Permutation (pe_expected e) it ->
    exists t, parse_error_text e it =
      $"error at " ++ nat_text (pe_line e) ++ $":" ++ nat_text (pe_column e) ++ $": expected " ++ t /\ t <> $"EOF".
Proof. exact compile_error_no_eof. Qed.
Print Assumptions C108_no_eof.
Theorem C108_lists_all :
  forall e it x, Permutation (pe_expected e) it -> In x (pe_expected e) ->
    contains (parse_error_text e it) ($"`" ++ escape_default x ++ $"`").
Proof. intros e it x P I. exact (parse_text_lists e it x (Permutation_in x P I)). Qed.
Print Assumptions C108_lists_all.
Example C108_example :
  match compile ($"ab" ++ [x0a] ++ $"%{SET(""a") with
  | Ret (Err e) => parse_error_text e (rev (pe_expected e))
  | _ => []
  end = $"error at 2:9: expected one of `<character>`, `" ++ [x5c; x22] ++ $"`".
Proof. vm_compute. reflexivity. Qed.

(** ** C147 *)
Theorem C147_test_message :
  forall debug e a, arguments hyphenated debug e a ->
    tm_error_text debug e = fill (template (kind_of e)) a.
Proof. exact text_template. Qed.
Print Assumptions C147_test_message.
Theorem C147_every_error : forall debug e, exists a, arguments hyphenated debug e a.
Proof. exact has_arguments. Qed.
Print Assumptions C147_every_error.
Theorem C147_parse_error :
  forall s e it, utf8 s -> compile s = Ret (Err e) -> Permutation (pe_expected e) it ->
    exists line column list,
      numeral (pe_line e) line /\ numeral (pe_column e) column /\ listed shown it list /\
      parse_error_text e it =
        fill (match it with
              | [_] => $"error at {}:{}: expected {}"
              | _ => $"error at {}:{}: expected one of {}"
              end) [line; column; list].
Proof. exact parse_error_written. Qed.
Print Assumptions C147_parse_error.
Theorem C147_terminals :
  forall s e x, utf8 s -> compile s = Ret (Err e) -> In x (pe_expected e) -> In x terminals.
Proof. exact expected_terminals. Qed.
Print Assumptions C147_terminals.

Example C147_example :
  arguments hyphenated debug_ascii (UnexpectedTags uuid_example (Some [$"a"; $"b"]) None)
    [$"9a49c890-a35b-4815-9fba-d7d20f6401ff"; $"Some([""a"", ""b""])"; $"None"] /\
  numeral 120 ($"120") /\ numeral 0 ($"0") /\ ~ numeral 7 ($"07") /\ shown [x22] = $"`\""`".
Proof.
  split; [|split; [|split; [|split]]].
  - change ($"9a49c890-a35b-4815-9fba-d7d20f6401ff") with (hyphenated uuid_example). constructor; [|constructor].
    change ($"Some([""a"", ""b""])") with (fill ($"Some([{}])") [debug_ascii ($"a") ++ $", " ++ debug_ascii ($"b")]).
    repeat constructor.
  - split; [discriminate|]. split; [vm_compute; reflexivity|]. intros (t & E). discriminate E.
  - split; [discriminate|]. split; [vm_compute; reflexivity|]. intros _. reflexivity.
  - intros (_ & _ & H). discriminate (H (ex_intro _ ($"7") eq_refl)).
  - reflexivity.
Qed.
(** Characters that are not shown as they are, and those on the edges. *)
Example C147_escapes :
  escape_default ([x09; x0d; x0a; x27; x22; x5c] ++ $" ~") = $"\t\r\n\'\""\\ ~" /\
  escape_default [x1f; x7f; x0b] = $"\u{1f}\u{7f}\u{b}".
Proof. split; vm_compute; reflexivity. Qed.
