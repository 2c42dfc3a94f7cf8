(** * Property C162: which argument lists of parsers are accepted *)
From Verif Require Import Base Base_facts Parsers Pattern Grammar Spec Spec_grammar Spec_arguments Arguments_claims.

(** ** C162: the README's syntax of parsers, with optional="value", is not accepted *)
Theorem C162_refuted :
  exists a bs, readme_arguments a bs /\ utf8 a /\
    (exists e, compile ($"%{INT(" ++ a ++ $")}") = Ret (Err e)) /\
    (exists e, compile ($"%{SET(""ab""," ++ a ++ $")}") = Ret (Err e)).
Proof. exact readme_quoted_refused. Qed.
Print Assumptions C162_refuted.

(** What is accepted instead: *)
Theorem C162_types :
  forall r ts, utf8 r -> compile ($"%{" ++ r) = Ret (Ok ts) ->
    prefix_of ($"GREEDY:") r \/ prefix_of ($"GREEDY}") r \/ prefix_of ($"SET(""") r \/
    prefix_of ($"INT(") r \/ prefix_of ($"INT:") r \/ prefix_of ($"INT}") r.
Proof. exact parser_types. Qed.
Print Assumptions C162_types.

Theorem C162_int :
  forall a nt n ts, utf8 a -> ~ In x7d a -> name_text nt n ->
    (compile ($"%{INT(" ++ a ++ $")" ++ nt ++ $"}") = Ret (Ok ts) <->
     exists bs p, int_arguments a bs /\ set_with digit bs n p /\ ts = [Parser (PInt p)]).
Proof. exact int_accepted. Qed.
Print Assumptions C162_int.

Theorem C162_set :
  forall a nt n ts, utf8 a -> ~ In x7d a -> name_text nt n ->
    (compile ($"%{SET(" ++ a ++ $")" ++ nt ++ $"}") = Ret (Ok ts) <->
     exists chars bs p, set_arguments a chars bs /\ set_with (fun b => In b chars) bs n p /\ ts = [Parser (PSet p)]).
Proof. exact set_accepted. Qed.
Print Assumptions C162_set.

(** Spaces are possible after commas only, a comma may end the list of SET but not
    that of INT, parentheses may be empty for INT only. *)
Definition accepted (s : str) : bool := match compile s with Ret (Ok _) => true | _ => false end.
Example C162_example :
  map accepted
    [$"%{INT()}"; $"%{INT():n}"; $"%{INT(min_len=1,   max_len=2):n}"; $"%{INT(max_len=2,min_len=1,min_len=3)}";
     $"%{SET(""ab"")}"; $"%{SET(""ab"",)}"; $"%{SET(""ab"",  ):n}"; $"%{SET(""ab"", min_len=1)}"] =
    [true; true; true; true; true; true; true; true] /\
  map accepted
    [$"%{GREEDY()}"; $"%{int}"; $"%{SET}"; $"%{SET()}"; $"%{SET("""")}"; $"%{SET(ab)}"; $"%{SET( ""ab"")}";
     $"%{SET(""ab"" ,min_len=1)}"; $"%{SET(""ab"",min_len = 1)}"; $"%{SET(""ab"",min_len=1,)}"; $"%{SET(""ab"",min_len=""1"")}";
     $"%{INT(min_len=1,)}"; $"%{INT(,min_len=1)}"; $"%{INT( min_len=1)}"; $"%{INT(""1"")}"; $"%{INT(size=1)}"] =
    repeat false 16 /\
  (exists bs, int_arguments ($"min_len=2, max_len=10") bs /\ bs = [MinLen 2; MaxLen 10]).
Proof.
  split; [vm_compute; reflexivity|]. split; [vm_compute; reflexivity|].
  eexists. split; [|reflexivity]. apply int_arguments_some.
  apply (bounds_more ($"min_len=2") _ ($", ") ($"max_len=10")).
  - apply (bound_min ($"2")). apply (number_digits ($"2")); [discriminate|repeat constructor; vm_compute; discriminate|vm_compute; reflexivity].
  - exact (comma_spaces 1).
  - apply bounds_one. apply (bound_max ($"10")). apply (number_digits ($"10")); [discriminate|repeat constructor; vm_compute; discriminate|vm_compute; reflexivity].
Qed.
