(** * Properties C01 to C07, C11 and C49: src/parsers/ *)
From Coq Require Import Sorted.
From Verif Require Import Base Base_facts Utils Parsers Pattern Spec Hash_facts Parsers_claims.

(** ** C01 *)
Theorem C01_set_exact :
  forall set name mn mx v, utf8 v ->
    match set_parse (set_set_max_length (set_set_min_length
                       (set_set_name (set_new set) name) mn) mx) v with
    | Ret (Some w) => set_captures set mn mx v w /\ utf8 w
    | Ret None => forall w, ~ set_captures set mn mx v w
    | Panic => exists w, set_captures set mn mx v w /\ ~ utf8 w
    | OutOfFuel => False
    end.
Proof. exact set_exact. Qed.
Print Assumptions C01_set_exact.

Example C01_example :
  set_parse (set_set_max_length (set_set_min_length (set_new ($"abcd")) (Some 2%N)) (Some 4%N))
    ($"dabzzz") = Ret (Some ($"dab")) /\
  set_parse (set_set_max_length (set_set_min_length (set_new ($"abcd")) (Some 2%N)) (Some 4%N))
    ($"azzz") = Ret None.
Proof. split; reflexivity. Qed.

(** ** C02 *)
Theorem C02_set_ascii_total :
  forall set name mn mx v, ascii set = true -> utf8 v ->
    exists o, set_parse (set_set_max_length (set_set_min_length
                          (set_set_name (set_new set) name) mn) mx) v = Ret o.
Proof. exact set_ascii_total. Qed.
Print Assumptions C02_set_ascii_total.

Example C02_example :
  ascii ($"ab ") = true /\ utf8 ($"ab¡") /\ set_parse (set_new ($"ab ")) ($"ab¡") = Ret (Some ($"ab")).
Proof.
  split; [reflexivity|]. split; [apply utf8b_sound; vm_compute; reflexivity|]. vm_compute. reflexivity.
Qed.

(** ** C03 is false: the set "®" on the text "¡" *)
Theorem C03_refuted :
  exists set v, utf8 set /\ utf8 v /\ set_parse (set_new set) v = Panic.
Proof. exact set_panics. Qed.
Print Assumptions C03_refuted.

(** ** C04 is false: [abcd]{1,2} on "abc" *)
Theorem C04_refuted :
  exists set mn mx v w,
    ascii set = true /\ ascii v = true /\ regex_captures set (Some mn) (Some mx) v w /\
    set_parse (set_set_max_length (set_set_min_length
                 (set_set_name (set_new set) None) (Some mn)) (Some mx)) v = Ret None.
Proof. exact readme_regex_false. Qed.
Print Assumptions C04_refuted.

(** ** C49: what holds instead of C04 *)
Theorem C49_set_is_regex :
  forall set name mn mx v w, ascii set = true -> utf8 v ->
    (set_parse (set_set_max_length (set_set_min_length
                  (set_set_name (set_new set) name) mn) mx) v = Ret (Some w) <->
     regex_captures set mn mx v w /\ longest_prefix_in (fun b => In b set) v w).
Proof. exact set_is_regex. Qed.
Print Assumptions C49_set_is_regex.

Theorem C49_set_too_long :
  forall set name mn mx v w, ascii set = true -> utf8 v ->
    longest_prefix_in (fun b => In b set) v w -> ~ below_max mx (length w) ->
    set_parse (set_set_max_length (set_set_min_length
                 (set_set_name (set_new set) name) mn) mx) v = Ret None.
Proof. exact set_too_long. Qed.
Print Assumptions C49_set_too_long.

Example C49_example :
  set_parse (set_set_max_length (set_new ($"abcd")) (Some 2%N)) ($"abX") = Ret (Some ($"ab")) /\
  set_parse (set_set_max_length (set_new ($"abcd")) (Some 2%N)) ($"abcX") = Ret None.
Proof. split; reflexivity. Qed.

(** ** C05.  [set_set_*] on the delegate are IntParser's own setters. *)
Theorem C05_int_exact :
  forall name mn mx v, utf8 v ->
    match parser_parse (PInt (set_set_max_length (set_set_min_length
                                (set_set_name int_new name) mn) mx)) v with
    | Ret (Some w) => longest_prefix_in is_digit v w /\ w <> [] /\
                      above_min mn (length w) /\ below_max mx (length w)
    | Ret None => forall w, longest_prefix_in is_digit v w ->
                    w = [] \/ ~ above_min mn (length w) \/ ~ below_max mx (length w)
    | _ => False
    end.
Proof. exact int_exact. Qed.
Print Assumptions C05_int_exact.

Example C05_example :
  parser_parse (PInt int_new) ($"042 km") = Ret (Some ($"042")) /\
  parser_parse (PInt int_new) ($"km") = Ret None /\
  parser_parse (PInt (set_set_max_length int_new (Some 2%N))) ($"042") = Ret None.
Proof. repeat split; reflexivity. Qed.

(** ** C06 *)
Theorem C06_greedy_exact :
  forall name e v, utf8 v -> opt_utf8 e ->
    match greedy_parse {| gp_name := name; gp_end_string := e |} v, e with
    | Ret (Some w), Some e => before_first e v w
    | Ret (Some w), None => w = v
    | Ret None, Some e => ~ occurs_in e v
    | _, _ => False
    end.
Proof. exact greedy_exact. Qed.
Print Assumptions C06_greedy_exact.

Example C06_example :
  greedy_parse {| gp_name := None; gp_end_string := Some ($"ab") |} ($"xaab ab") = Ret (Some ($"xa")) /\
  greedy_parse {| gp_name := None; gp_end_string := Some ($"ab") |} ($"xa") = Ret None /\
  greedy_parse {| gp_name := None; gp_end_string := None |} ($"xa") = Ret (Some ($"xa")).
Proof. repeat split; reflexivity. Qed.

(** ** C07 *)
Theorem C07_captured_value :
  forall p v w, utf8 v -> parser_utf8 p -> parser_parse p v = Ret (Some w) ->
    exists rest, v = w ++ rest /\ utf8 w /\ utf8 rest.
Proof. exact captured_value. Qed.
Print Assumptions C07_captured_value.

Example C07_example :
  parser_parse (PSet (set_new ($"a®"))) ($"a®b") = Ret (Some ($"a®")).
Proof. reflexivity. Qed.

(** ** C11 *)
Theorem C11_hash_stream_injective :
  forall p q, valid_parser p -> valid_parser q -> (hash_stream p = hash_stream q <-> p = q).
Proof. exact hash_stream_inj. Qed.
Print Assumptions C11_hash_stream_injective.

Example C11_example :
  valid_parser (PSet (set_set_min_length (set_with_name ($"n") ($"ba")) (Some 3%N))) /\
  hash_stream (PSet int_new) <> hash_stream (PInt int_new).
Proof.
  split; [|vm_compute; discriminate].
  split; [apply utf8b_sound; vm_compute; reflexivity|]. split; [|split; [vm_compute; reflexivity|exact I]].
  vm_compute. repeat (constructor; [|repeat (constructor; [vm_compute; reflexivity|]); constructor]); constructor.
Qed.
