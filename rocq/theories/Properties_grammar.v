(** * Properties C32 to C39 and C67 to C73, C97 to C101: src/grammar/ *)
From Verif Require Import Base Base_facts Parsers Pattern Spec Grammar Spec_grammar Grammar_claims Deciders Tests Rustpeg Rustpeg_claims Viable_claims Complete_claims.

(** ** C32 *)
Theorem C32_language :
  forall s ts, utf8 s ->
    (compile s = Ret (Ok ts) <-> exists is, pattern_text s is /\ meaning is ts).
Proof. exact compile_accepts. Qed.
Print Assumptions C32_language.

Example C32_accepted :
  utf8 ($"id=%{SET(""ba"", min_len=1,max_len=20):set.1}\%\{ %{GREEDY:g} end") /\
  compile ($"id=%{SET(""ba"", min_len=1,max_len=20):set.1}\%\{ %{GREEDY:g} end") =
    Ret (Ok [Literal ($"id=");
             Parser (PSet {| sp_name := Some ($"set.1"); sp_character_set := $"ab";
                             sp_min_length := Some 1%N; sp_max_length := Some 20%N |});
             Literal ($"%{ ");
             Parser (PGreedy {| gp_name := Some ($"g"); gp_end_string := Some ($" end") |});
             Literal ($" end")]).
Proof. split; [apply ascii_utf8; reflexivity|vm_compute; reflexivity]. Qed.
(** Odd but accepted: an empty parameter list, and a comma without parameters. *)
Example C32_odd :
  compile ($"%{INT()}%{SET(""a"",  )}") =
    Ret (Ok [Parser (PInt {| sp_name := None; sp_character_set := $"0123456789";
                             sp_min_length := None; sp_max_length := None |});
             Parser (PSet {| sp_name := None; sp_character_set := $"a";
                             sp_min_length := None; sp_max_length := None |})]).
Proof. vm_compute. reflexivity. Qed.
Example C32_rejected :
  forall is, ~ pattern_text ($"%{SET()}") is.
Proof.
  intros is P. destruct (Grammar_syntax.meaning_total is) as (ts & M).
  assert (compile ($"%{SET()}") = Ret (Ok ts)) as E by (apply C32_language; [apply ascii_utf8; reflexivity|eauto]).
  vm_compute in E. discriminate.
Qed.

(** ** C33 *)
Theorem C33_escaped_text :
  forall u e, utf8 u -> u <> [] -> ~ occurs_in escape_seq u -> escaped u e ->
    compile e = Ret (Ok [Literal u]).
Proof. exact compile_escaped. Qed.
Print Assumptions C33_escaped_text.
Theorem C33_every_text_escapes : forall u, exists e, escaped u e.
Proof. exact escaped_total. Qed.
Print Assumptions C33_every_text_escapes.

Example C33_example :
  escaped ($"a%{b%{c") ($"a\%\{b\%\{c") /\ compile ($"a\%\{b\%\{c") = Ret (Ok [Literal ($"a%{b%{c")]).
Proof.
  split; [|vm_compute; reflexivity].
  assert (forall b, b <> x25 -> ~ occurs_in ($"%{") [b]) as S.
  { intros b N ([|x [|y a]] & z & E); cbn in E; discriminate. }
  apply (escaped_more ($"a") _ _ (S x61 ltac:(discriminate))).
  apply (escaped_more ($"b") _ _ (S x62 ltac:(discriminate))).
  apply (escaped_plain ($"c") (S x63 ltac:(discriminate))).
Qed.

(** ** C34 is false: a number above 2^64 - 1 is unwrapped *)
Theorem C34_refuted : exists s, utf8 s /\ compile s = Panic.
Proof. exact compile_overflow. Qed.
Print Assumptions C34_refuted.

(** ** C67: exactly these pattern strings panic *)
Theorem C67_panics : forall s, utf8 s -> (compile s = Panic <-> pattern_overflow s).
Proof. exact compile_panics. Qed.
Print Assumptions C67_panics.
Theorem C67_terminates : forall s, utf8 s -> compile s <> OutOfFuel.
Proof. exact compile_terminates. Qed.
Print Assumptions C67_terminates.

(** The text in front is well-formed, what follows is not. *)
Example C67_panicking : compile ($"a %{SET(""b"",min_len=3,max_len=99999999999999999999 ???") = Panic.
Proof. vm_compute. reflexivity. Qed.
(** The number is not reached. *)
Example C67_not_panicking :
  exists e, compile ($"a %{XY %{SET(""b"",min_len=3,max_len=99999999999999999999 ???") = Ret (Err e).
Proof. vm_compute. eexists. reflexivity. Qed.

(** ** C35 *)
Theorem C35_no_panic :
  forall s, utf8 s ->
    (forall x d y, s = x ++ d ++ y -> d <> [] -> Forall digit d ->
       match rev x with b :: _ => ~ digit b | [] => True end -> no_digit_first y -> fits (decimal d)) ->
    exists r, compile s = Ret r.
Proof. exact compile_small_numbers. Qed.
Print Assumptions C35_no_panic.

(** The largest number that fits. *)
Example C35_example :
  compile ($"%{INT(max_len=18446744073709551615)}") =
    Ret (Ok [Parser (PInt {| sp_name := None; sp_character_set := $"0123456789";
                             sp_min_length := None; sp_max_length := Some 18446744073709551615%N |})]) /\
  fits (decimal ($"18446744073709551615")) /\ ~ fits (decimal ($"18446744073709551616")).
Proof. split; [vm_compute; reflexivity|]. split; vm_compute; [reflexivity|discriminate]. Qed.

(** ** C36 is false: "ab-c" *)
Theorem C36_refuted :
  exists n, readme_name n /\ utf8 n /\ exists e, compile ($"%{INT:" ++ n ++ $"}") = Ret (Err e).
Proof. exact readme_name_rejected. Qed.
Print Assumptions C36_refuted.

(** ** C68: exactly these names are accepted *)
Theorem C68_names :
  forall n p, utf8 n -> set_with digit [] (Some n) p ->
    (compile ($"%{INT:" ++ n ++ $"}") = Ret (Ok [Parser (PInt p)]) <-> name n).
Proof. exact compile_name. Qed.
Print Assumptions C68_names.

Example C68_example :
  map (fun n => match compile ($"%{INT:" ++ n ++ $"}") with Ret (Ok _) => true | _ => false end)
    [$"a"; $"_"; $".x"; $"a-b"; $"a-"; $"ab1.c_d"; $"ab-c"; $"-a"; $"1a"; $"a--"; $""] =
    [true; true; true; true; true; true; false; false; false; false; false].
Proof. vm_compute. reflexivity. Qed.

(** ** C37 *)
Theorem C37_greedy :
  forall nt n raw, name_text nt n -> utf8 raw -> ~ occurs_in ($"%{") raw ->
    compile ($"%{GREEDY" ++ nt ++ $"}" ++ raw) =
    Ret (Ok (match raw with
             | [] => [Parser (PGreedy {| gp_name := n; gp_end_string := None |})]
             | _ => [Parser (PGreedy {| gp_name := n; gp_end_string := Some raw |}); Literal raw]
             end)).
Proof. exact compile_greedy. Qed.
Print Assumptions C37_greedy.

(** The escape sequence stays as written. *)
Example C37_example :
  compile ($"%{GREEDY:g}\%\{") =
    Ret (Ok [Parser (PGreedy {| gp_name := Some ($"g"); gp_end_string := Some ($"\%\{") |}); Literal ($"\%\{")]).
Proof. vm_compute. reflexivity. Qed.

(** ** C38 *)
Theorem C38_literals : forall s ts l, utf8 s -> compile s = Ret (Ok ts) -> In (Literal l) ts -> l <> [].
Proof. exact compile_literals. Qed.
Print Assumptions C38_literals.

(** ** C69 *)
Theorem C69_shape :
  forall s ts, utf8 s -> compile s = Ret (Ok ts) -> ts <> [] /\ literals_apart ts /\ greedy_linked ts.
Proof. exact compile_shape. Qed.
Print Assumptions C69_shape.

Example C38_C69_example :
  compile ($"a%{GREEDY}%{GREEDY}b%{INT}") =
    Ret (Ok [Literal ($"a"); Parser (PGreedy {| gp_name := None; gp_end_string := None |});
             Parser (PGreedy {| gp_name := None; gp_end_string := Some ($"b") |}); Literal ($"b");
             Parser (PInt {| sp_name := None; sp_character_set := $"0123456789";
                             sp_min_length := None; sp_max_length := None |})]).
Proof. vm_compute. reflexivity. Qed.

(** ** C70: compiled patterns are what the theorems about the matchers assume *)
Theorem C70_valid : forall s ts, utf8 s -> compile s = Ret (Ok ts) -> Forall valid_token ts.
Proof. exact compile_valid. Qed.
Print Assumptions C70_valid.
Theorem C70_ascii : forall s ts, ascii s = true -> compile s = Ret (Ok ts) -> Forall ascii_token ts.
Proof. exact compile_ascii. Qed.
Print Assumptions C70_ascii.

Example C70_example :
  exists ts, compile ($"a%{SET(""xyx"",max_len=7):n}b") = Ret (Ok ts) /\ length ts = 3.
Proof. vm_compute. eexists. split; reflexivity. Qed.

(** ** C39 is false for line and column: "a", carriage return, newline, "%{" *)
Theorem C39_refuted :
  exists s e, utf8 s /\ compile s = Ret (Err e) /\ ~ located s (pe_offset e) (pe_line e) (pe_column e).
Proof. exact crlf_misplaced. Qed.
Print Assumptions C39_refuted.

(** ** C39 for the offset, C71 for line and column without carriage returns,
       and no error is reported before the end of a well-formed beginning *)
Theorem C71_error_position :
  forall s e, utf8 s -> compile s = Ret (Err e) ->
    pe_offset e <= length s /\ is_char_boundary s (pe_offset e) = true /\ pe_expected e <> [] /\
    (~ In x0d (firstn (pe_offset e) s) -> located s (pe_offset e) (pe_line e) (pe_column e)) /\
    (forall t is z, s = t ++ z -> items_text t is -> texts_apart is -> z = [] \/ prefix_of ($"%{") z ->
       length t <= pe_offset e).
Proof. exact compile_error. Qed.
Print Assumptions C71_error_position.
Theorem C71_position_unique :
  forall s off l c l' c', located s off l c -> located s off l' c' -> l = l' /\ c = c'.
Proof. exact located_unique. Qed.
Print Assumptions C71_position_unique.

Example C71_example :
  compile ($"ab" ++ [x0a] ++ $"c%{INT:1}") =
    Ret (Err {| pe_line := 2; pe_column := 8; pe_offset := 10; pe_expected := [$"[a-zA-Z_.]"] |}).
Proof. vm_compute. reflexivity. Qed.

(** ** C72 *)
Theorem C72_unambiguous :
  forall s is ts is' ts', utf8 s -> pattern_text s is -> meaning is ts ->
    pattern_text s is' -> meaning is' ts' -> ts = ts'.
Proof. exact pattern_unambiguous. Qed.
Print Assumptions C72_unambiguous.

(** ** C73 *)
Theorem C73_concatenation :
  forall s ts s' ts', utf8 s -> utf8 s' -> compile s = Ret (Ok ts) -> compile s' = Ret (Ok ts') ->
    prefix_of ($"%{") s' -> compile (s ++ s') = Ret (Ok (ts ++ ts')).
Proof. exact compile_app. Qed.
Print Assumptions C73_concatenation.

(** The condition is needed: two texts become one literal. *)
Example C73_needed :
  compile ($"a") = Ret (Ok [Literal ($"a")]) /\ compile ($"b") = Ret (Ok [Literal ($"b")]) /\
  compile ($"ab") = Ret (Ok [Literal ($"ab")]).
Proof. vm_compute. auto. Qed.

(** ** C97 *)
Theorem C97_generated_parser :
  forall s, utf8 s -> compile s <> Panic ->
    exists r m, run (Rule R_pattern) s r m /\
      match compile s with
      | Ret (Ok _) => r = Some []
      | Ret (Err e) => r <> Some [] /\ furthest s m (pe_offset e) (pe_expected e)
      | _ => False
      end.
Proof. exact compile_rustpeg. Qed.
Print Assumptions C97_generated_parser.
Theorem C97_one_meaning :
  forall e s r m r' m', run e s r m -> run e s r' m' -> r = r' /\ m = m'.
Proof. intros e s r m r' m' H. exact (run_unique e s r m H r' m'). Qed.
Print Assumptions C97_one_meaning.

Example C97_hypotheses :
  utf8 ($"%{INT:ab-c}") /\
  compile ($"%{INT:ab-c}") =
    Ret (Err {| pe_line := 1; pe_column := 8; pe_offset := 7; pe_expected := [$"}"] |}).
Proof. split; [apply ascii_utf8; reflexivity|vm_compute; reflexivity]. Qed.
(** A name ends before the character that precedes a hyphen. *)
Example C97_run :
  run (Rule R_parser_name) ($":a}") (Some ($"}")) [($"}", $"[a-z-A-Z0-9_.]")].
Proof.
  apply run_rule. refine (run_seq _ _ _ ($"a}") _ [] _ (run_text ($":") _) _).
  apply run_rule. refine (run_seq _ _ _ ($"}") _ [] _ _ _).
  - apply (run_class _ x61 ($"}")). exists (Between x61 x7a). split; [left; reflexivity|]. split; intros H; vm_compute in H; discriminate.
  - apply run_many_done, run_seq_fail.
    apply (run_class_fail [Between x61 x7a; One x2d; Between x41 x5a; Between x30 x39; One x5f; One x2e] ($"}")).
    intros b t E. injection E as <- <-. intros (i & I & H).
    repeat (destruct I as [<-|I]; [first [discriminate H|destruct H as [H1 H2]; vm_compute in H1, H2; congruence]|]). destruct I.
Qed.

(** ** C98 *)
Theorem C98_viable_prefix :
  forall s e, utf8 s -> compile s = Ret (Err e) ->
    exists c ts, ascii c = true /\ compile (firstn (pe_offset e) s ++ c) = Ret (Ok ts).
Proof. exact error_viable. Qed.
Print Assumptions C98_viable_prefix.

Example C98_example :
  utf8 ($"n %{INT(min_len=4") /\
  compile ($"n %{INT(min_len=4") =
    Ret (Err {| pe_line := 1; pe_column := 18; pe_offset := 17; pe_expected := [$"[0-9]"; $","; $")"] |}) /\
  exists ts, compile (firstn 17 ($"n %{INT(min_len=4") ++ $")}") = Ret (Ok ts).
Proof.
  split; [apply ascii_utf8; reflexivity|]. split; [vm_compute; reflexivity|]. eexists. vm_compute. reflexivity.
Qed.

(** ** C99: the full statement would be that no valid pattern begins with the
       text up to and including the character at the error.  The exceptions: a
       longer terminal that begins with that character but is not there, an
       empty SET, and a hyphen after that character. *)
Theorem C99_stuck_partial :
  forall s e c r z ts, utf8 s -> compile s = Ret (Err e) ->
    skipn (pe_offset e) s = c ++ r -> utf8_char c = true -> utf8 z ->
    compile (firstn (pe_offset e) s ++ c ++ z) = Ret (Ok ts) ->
    (exists k, In k (pe_expected e) /\ prefix_of c k /\ prefix_of k (c ++ z) /\ ~ prefix_of k (c ++ r)) \/
    prefix_of ($"SET(""""") (c ++ r) \/
    (exists b r', c ++ r = b :: x2d :: r').
Proof. exact error_stuck. Qed.
Print Assumptions C99_stuck_partial.

(** The first exception, with [GREEDY]; the hyphen is in C99_refuted. *)
Example C99_keyword :
  exists ts, compile ($"%{GRxx") =
    Ret (Err {| pe_line := 1; pe_column := 3; pe_offset := 2; pe_expected := [$"GREEDY"; $"SET"; $"INT"] |}) /\
  compile (firstn 2 ($"%{GRxx") ++ $"G" ++ $"REEDY}") = Ret (Ok ts).
Proof. eexists. split; vm_compute; reflexivity. Qed.
(** Where there is no exception, nothing goes on with the character at the error. *)
Example C99_stuck_example :
  compile ($"ab%{INT]") =
    Ret (Err {| pe_line := 1; pe_column := 8; pe_offset := 7; pe_expected := [$"("; $":"; $"}"] |}) /\
  forall z ts, utf8 z -> compile (firstn 7 ($"ab%{INT]") ++ $"]" ++ z) <> Ret (Ok ts).
Proof.
  split; [vm_compute; reflexivity|]. intros z ts U E.
  destruct (C99_stuck_partial ($"ab%{INT]") {| pe_line := 1; pe_column := 8; pe_offset := 7; pe_expected := [$"("; $":"; $"}"] |}
              ($"]") [] z ts) as [(k & [<-|[<-|[<-|[]]]] & (u & X) & _)|[(u & X)|(b & r & X)]];
    try discriminate X; try exact U; try reflexivity; try exact E.
  apply ascii_utf8. reflexivity.
Qed.

Theorem C99_refuted :
  exists s e z ts, utf8 s /\ compile s = Ret (Err e) /\ pe_offset e < length s /\
    compile (firstn (S (pe_offset e)) s ++ z) = Ret (Ok ts).
Proof.
  exists ($"%{INT:ab-c}"), {| pe_line := 1; pe_column := 8; pe_offset := 7; pe_expected := [$"}"] |}, ($"}").
  eexists. split; [apply ascii_utf8; reflexivity|]. split; [vm_compute; reflexivity|].
  split; [apply Nat.ltb_lt; reflexivity|]. vm_compute. reflexivity.
Qed.
Print Assumptions C99_refuted.

(** ** C100: the full statement has no exceptions *)
Theorem C100_expected_partial :
  forall s e x, utf8 s -> compile s = Ret (Err e) -> In x (pe_expected e) ->
    x <> $"[-]" -> ~ (x = [x22] /\ exists p, firstn (pe_offset e) s = p ++ [x22]) ->
    exists y c, stands_for x y /\ utf8 (y ++ c) /\
      forall e', compile (firstn (pe_offset e) s ++ y ++ c) <> Ret (Err e').
Proof. exact error_expected. Qed.
Print Assumptions C100_expected_partial.

Example C100_example :
  compile ($"%{SET(""a") =
    Ret (Err {| pe_line := 1; pe_column := 9; pe_offset := 8; pe_expected := [[x22]; $"<character>"] |}).
Proof. vm_compute. reflexivity. Qed.

Theorem C100_refuted :
  exists s e x, utf8 s /\ compile s = Ret (Err e) /\ In x (pe_expected e) /\
    forall y c, stands_for x y -> utf8 (y ++ c) ->
      exists e', compile (firstn (pe_offset e) s ++ y ++ c) = Ret (Err e').
Proof. exact hyphen_expected. Qed.
Print Assumptions C100_refuted.

(** ** C101: the full statement would be that every terminal which can follow
       the text before the error is listed.  The exceptions are an empty SET,
       where [SET] is missing, and a hyphen one character further on, where the
       class of the characters of a name is missing. *)
Theorem C101_complete_partial :
  forall s e y ts, utf8 s -> utf8 y -> compile s = Ret (Err e) ->
    compile (firstn (pe_offset e) s ++ y) = Ret (Ok ts) ->
    exists x z, stands_for x z /\ prefix_of z y /\
      (In x (pe_expected e) \/
       (x = $"SET" /\ prefix_of ($"SET(""""") (skipn (pe_offset e) s)) \/
       (x = $"[a-z-A-Z0-9_.]" /\ exists c z', skipn (pe_offset e) s = c :: x2d :: z')).
Proof. exact error_complete. Qed.
Print Assumptions C101_complete_partial.

Example C101_example :
  exists ts, compile ($"a%{SET(""x"";)}") =
    Ret (Err {| pe_line := 1; pe_column := 11; pe_offset := 10; pe_expected := [$","; $")"] |}) /\
  compile (firstn 10 ($"a%{SET(""x"";)}") ++ $", min_len=3):n} end") = Ret (Ok ts).
Proof. eexists. split; vm_compute; reflexivity. Qed.

Theorem C101_refuted :
  exists s e x c ts, utf8 s /\ compile s = Ret (Err e) /\ stands_for x x /\
    compile (firstn (pe_offset e) s ++ x ++ c) = Ret (Ok ts) /\ ~ In x (pe_expected e).
Proof.
  exists ($"%{SET("""")}"), {| pe_line := 1; pe_column := 3; pe_offset := 2; pe_expected := [$"GREEDY"; $"INT"] |},
    ($"SET"), ($"(""a"")}"). eexists.
  split; [apply ascii_utf8; reflexivity|]. split; [vm_compute; reflexivity|]. split; [constructor; exact I|].
  split; [vm_compute; reflexivity|]. intros [H|[H|[]]]; discriminate.
Qed.
Print Assumptions C101_refuted.

(** ** C145 *)
Theorem C145_not_there :
  forall s e x z, utf8 s -> compile s = Ret (Err e) -> In x (pe_expected e) -> stands_for x z ->
    ~ prefix_of z (skipn (pe_offset e) s).
Proof. exact expected_honest. Qed.
Print Assumptions C145_not_there.

Example C145_example :
  exists e, compile ($"%{INT:1}") = Ret (Err e) /\ In ($"[a-zA-Z_.]") (pe_expected e) /\
    stands_for ($"[a-zA-Z_.]") ($"q").
Proof.
  eexists. split; [vm_compute; reflexivity|]. split; [left; reflexivity|].
  apply (stands_class ($"a-zA-Z_.") x71). exists (Between x61 x7a). split; [left; reflexivity|].
  split; apply N.leb_le; reflexivity.
Qed.
