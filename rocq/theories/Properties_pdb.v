(** * Properties C109 to C119: the converter from patterndb *)
From Verif Require Import Base Base_facts Utils Parsers Pattern Grammar Deser Errors Pdb2adb Spec Spec_grammar Spec_deser Spec_pdb
  Pdb_claims Pdb_document.

(** ** C109 *)
Theorem C109_conversion :
  forall items iss, Forall convertible items -> Forall2 converted items iss -> Forall expressible (merge (concat iss)) ->
    exists s, p2p (flat_map pdb_text items) = Some s /\
      (concat iss = [] -> s = []) /\
      (concat iss <> [] -> (exists ts, compile s = Ret (Ok ts)) /\
                           forall ts, compile s = Ret (Ok ts) <-> meaning (merge (concat iss)) ts).
Proof. exact conversion_faithful. Qed.
Print Assumptions C109_conversion.
Theorem C109_every_parser :
  forall i, convertible i -> ((exists is, converted i is) <-> ~ exists n, i = PdbParser SET n None).
Proof. exact converted_exists. Qed.
Print Assumptions C109_every_parser.

Lemma name_x : name ($"x"). Proof. apply name_one. left. left. vm_compute. split; discriminate. Qed.
Lemma plain_ascii o : ascii o = true -> o <> [] -> ~ In x3a o -> ~ In x40 o -> plain_option o.
Proof. intros. split; [apply ascii_utf8; assumption|]. auto. Qed.
Definition example_items : list pdb_item :=
  [PdbText ($"user "); PdbParser QSTRING (Some ($"x")) (Some ($"<>")); PdbText ($" port ");
   PdbParser NUMBER None None; PdbParser ESTRING None (Some ($":")); PdbParser ANYSTRING (Some ($"x")) None].
Example C109_example :
  Forall convertible example_items /\
  (exists iss, Forall2 converted example_items iss /\ concat iss <> [] /\ Forall expressible (merge (concat iss))) /\
  flat_map pdb_text example_items = $"user @QSTRING:x:<>@ port @NUMBER@@ESTRING:::@@ANYSTRING:x@" /\
  p2p (flat_map pdb_text example_items) =
    Some ($"user <%{GREEDY:x}> port %{INT:pdb2adb2ignore}%{GREEDY:pdb2adb2ignore}:%{GREEDY:x}").
Proof.
  split; [|split; [|split; vm_compute; reflexivity]].
  - assert (forall x, Some ($"x") = Some x -> name x) as Nx by (intros x E; injection E as <-; exact name_x).
    assert (forall x : str, None = Some x -> name x) as Nn by discriminate.
    repeat apply Forall_cons; try apply Forall_nil.
    + split; [apply ascii_utf8; reflexivity|vm_compute; intuition discriminate].
    + split; [exact Nx|]. intros x E. injection E as <-. left.
      apply plain_ascii; [reflexivity|discriminate|vm_compute; intuition discriminate|vm_compute; intuition discriminate].
    + split; [apply ascii_utf8; reflexivity|vm_compute; intuition discriminate].
    + split; [exact Nn|discriminate].
    + split; [exact Nn|]. intros x E. injection E as <-. right. auto.
    + split; [exact Nx|discriminate].
  - eexists. split; [|split].
    + repeat apply Forall2_cons; try apply Forall2_nil.
      * apply conv_text. discriminate.
      * apply (conv_qstring (Some ($"x")) ($"<") ($">") []); reflexivity.
      * apply conv_text. discriminate.
      * apply conv_number.
      * apply conv_estring.
      * apply conv_greedy. cbn. tauto.
    + discriminate.
    + cbn [concat app merge]. repeat apply Forall_cons; try apply Forall_nil; try exact I;
        cbn [expressible]; intros H; apply re_has_spec in H; vm_compute in H; discriminate.
Qed.

(** ** C110: the full statement has no restriction on the text *)
Theorem C110_refuted : exists t, utf8 t /\ p2p (doubled t) <> Some t.
Proof. exists ($"a@b"). split; [apply ascii_utf8; reflexivity|vm_compute; discriminate]. Qed.
Print Assumptions C110_refuted.
Theorem C110_at_signs_partial :
  forall t, (~ In x40 t -> p2p (doubled t) = Some t) /\ (In x40 t -> p2p (doubled t) = None).
Proof. exact at_signs. Qed.
Print Assumptions C110_at_signs_partial.
Example C110_example : ~ In x40 ($"a b") /\ In x40 ($"a@b") /\ doubled ($"a@b") = $"a@@b".
Proof. split; [vm_compute; intuition discriminate|]. split; [vm_compute; tauto|vm_compute; reflexivity]. Qed.

(** ** C111: the full statement asks for one literal for every text *)
Theorem C111_refuted :
  exists t u v, utf8 t /\ ~ In x40 t /\ p2p t = Some t /\ (forall ts, compile t <> Ret (Ok ts)) /\
    ~ In x40 u /\ p2p u = Some u /\ (exists p, compile u = Ret (Ok [Parser p])) /\
    ~ In x40 v /\ p2p v = Some v /\ (exists w, compile v = Ret (Ok [Literal w]) /\ w <> v).
Proof.
  exists ($"100%{"), ($"%{INT:n}"), ($"\%\{").
  split; [apply ascii_utf8; reflexivity|]. split; [vm_compute; intuition discriminate|]. split; [vm_compute; reflexivity|].
  split; [vm_compute; discriminate|]. split; [vm_compute; intuition discriminate|]. split; [vm_compute; reflexivity|].
  split; [eexists; vm_compute; reflexivity|]. split; [vm_compute; intuition discriminate|]. split; [vm_compute; reflexivity|].
  eexists. split; [vm_compute; reflexivity|]. discriminate.
Qed.
Print Assumptions C111_refuted.
Theorem C111_plain_text_partial :
  forall t, utf8 t -> t <> [] -> ~ In x40 t -> ~ occurs_in ($"%{") t -> ~ occurs_in escape_seq t ->
    p2p t = Some t /\ compile t = Ret (Ok [Literal t]).
Proof. exact plain_text_kept. Qed.
Print Assumptions C111_plain_text_partial.
Example C111_example : ~ occurs_in ($"%{") ($"100 %") /\ ~ occurs_in escape_seq ($"100 %").
Proof. split; intros H; apply re_has_spec in H; vm_compute in H; discriminate. Qed.

(** ** C112: the full statement does not restrict what follows *)
Theorem C112_refuted :
  exists s ts q v text, p2p ($"@ESTRING:x:,@ b") = Some s /\ compile s = Ret (Ok ts) /\
    walk ts text [(q, v)] /\ name_of q = Some ($"x") /\ occurs_in ($",") v.
Proof.
  exists ($"%{GREEDY:x}, b"),
    [Parser (PGreedy {| gp_name := Some ($"x"); gp_end_string := Some ($", b") |}); Literal ($", b")],
    (PGreedy {| gp_name := Some ($"x"); gp_end_string := Some ($", b") |}), ($"a,c"), ($"a,c, b").
  split; [vm_compute; reflexivity|]. split; [vm_compute; reflexivity|]. split; [|split].
  - change ($"a,c, b") with ($"a,c" ++ ($", b" ++ [])). apply walk_parser; [|apply walk_literal, walk_nil].
    cbn [captures greedy_captures gp_end_string]. split; [exists []; reflexivity|].
    intros w' H. destruct (Nat.le_gt_cases (length ($"a,c")) (length w')) as [L|L]; [exact L|]. exfalso.
    destruct H as (r & E). destruct w' as [|a [|b [|c w']]]; cbn in L, E; try discriminate E; lia.
  - reflexivity.
  - exists ($"a"), ($"c"). reflexivity.
Qed.
Print Assumptions C112_refuted.
Theorem C112_first_delimiter_partial :
  forall n o rest iss s ts text caps,
    Forall convertible (PdbParser ESTRING n (Some o) :: rest) -> parser_next rest ->
    Forall2 converted (PdbParser ESTRING n (Some o) :: rest) iss -> Forall expressible (merge (concat iss)) ->
    p2p (flat_map pdb_text (PdbParser ESTRING n (Some o) :: rest)) = Some s -> compile s = Ret (Ok ts) ->
    walk ts text caps ->
    exists v text' q caps', text = v ++ o ++ text' /\ before_first o text v /\ caps = (q, v) :: caps' /\
      name_of q = Some (match n with Some x => x | None => unnamed end).
Proof. exact estring_first_delimiter. Qed.
Print Assumptions C112_first_delimiter_partial.
Example C112_example :
  Forall convertible [PdbParser ESTRING (Some ($"x")) (Some ($","))] /\
  Forall2 converted [PdbParser ESTRING (Some ($"x")) (Some ($","))] [[IGreedy (Some ($"x")); IText ($",")]] /\
  Forall expressible (merge (concat [[IGreedy (Some ($"x")); IText ($",")]])) /\
  exists ts q, p2p ($"@ESTRING:x:,@") = Some ($"%{GREEDY:x},") /\ compile ($"%{GREEDY:x},") = Ret (Ok ts) /\
    walk ts ($"a b,") [(q, $"a b")].
Proof.
  split; [|split; [|split]].
  - constructor; [|constructor]. split; [intros x E; injection E as <-; exact name_x|]. intros x E. injection E as <-. left.
    apply plain_ascii; [reflexivity|discriminate|vm_compute; intuition discriminate|vm_compute; intuition discriminate].
  - constructor; [apply (conv_estring (Some ($"x")))|constructor].
  - cbn [concat app merge]. repeat apply Forall_cons; try apply Forall_nil; [exact I|].
    cbn [expressible]. intros H. apply re_has_spec in H. vm_compute in H. discriminate.
  - exists [Parser (PGreedy {| gp_name := Some ($"x"); gp_end_string := Some ($",") |}); Literal ($",")],
      (PGreedy {| gp_name := Some ($"x"); gp_end_string := Some ($",") |}).
    split; [vm_compute; reflexivity|]. split; [vm_compute; reflexivity|].
    change ($"a b,") with ($"a b" ++ ($"," ++ [])). apply walk_parser; [|apply walk_literal, walk_nil].
    cbn [captures greedy_captures gp_end_string]. split; [exists []; reflexivity|].
    intros w' H. destruct (Nat.le_gt_cases (length ($"a b")) (length w')) as [L|L]; [exact L|]. exfalso.
    destruct H as (r & E). destruct w' as [|a [|b [|c w']]]; cbn in L, E; try discriminate E; lia.
Qed.

(** ** C113: the full statement allows colons in options *)
Theorem C113_refuted :
  exists o o', o <> o' /\ utf8 o /\ utf8 o' /\ ~ In x40 o /\ ~ In x40 o' /\
    p2p (pdb_text (PdbParser ESTRING (Some ($"x")) (Some o))) = p2p (pdb_text (PdbParser ESTRING (Some ($"x")) (Some o'))).
Proof.
  exists ($"a:b"), ($"a"). split; [discriminate|]. split; [apply ascii_utf8; reflexivity|]. split; [apply ascii_utf8; reflexivity|].
  split; [vm_compute; intuition discriminate|]. split; [vm_compute; intuition discriminate|]. vm_compute. reflexivity.
Qed.
Print Assumptions C113_refuted.
Theorem C113_rest_ignored :
  forall k n a b, name n -> plain_option a -> ~ In x40 b -> ~ prefix_of ($":") (rev b) ->
    p2p (pdb_text (PdbParser k (Some n) (Some (a ++ $":" ++ b)))) = p2p (pdb_text (PdbParser k (Some n) (Some a))).
Proof. exact option_cut. Qed.
Print Assumptions C113_rest_ignored.
Example C113_example :
  name ($"x") /\ plain_option ($"ab") /\ ~ In x40 ($"c") /\ ~ prefix_of ($":") (rev ($"c")) /\
  p2p ($"@SET:x:ab:c@") = Some ([x25; x7b; x53; x45; x54; x28; x22] ++ $"ab" ++ [x22; x29] ++ $":x}").
Proof.
  split; [exact name_x|]. split; [apply plain_ascii; [reflexivity|discriminate|vm_compute; intuition discriminate|vm_compute; intuition discriminate]|].
  split; [vm_compute; intuition discriminate|]. split; [intros (r & E); discriminate|vm_compute; reflexivity].
Qed.

(** ** C114: the full statement has no restriction on the pattern *)
Definition rule_of (patterns : list str) : rule :=
  {| rl_id := $"id"; rl_ruleset := $"set"; rl_patterns := Some patterns; rl_examples := []; rl_tags := None; rl_values := None |}.
Theorem C114_refuted :
  exists s, p2p s = Some s /\ (exists ts, compile s = Ret (Ok ts)) /\
    results p2p (sources (fun _ => Some [$"program"]) [rule_of [s]]) = [] /\
    forall b fresh, convert b (fun _ => Some [$"program"]) fresh [rule_of [s]] = Ret (VMap [($"patterns", VSeq [])]).
Proof.
  exists ($"0"). split; [vm_compute; reflexivity|]. split; [eexists; vm_compute; reflexivity|].
  split; [vm_compute; reflexivity|]. intros b fresh. vm_compute. reflexivity.
Qed.
Print Assumptions C114_refuted.

(** ** C115 *)
Theorem C115_dropped :
  forall s ps, parts s ps -> (p2p s = None <-> exists p t, In p ps /\ type_part p t /\ ~ accepted_type t).
Proof. exact dropped_patterns. Qed.
Print Assumptions C115_dropped.
Theorem C115_parts : forall s, exists ps, parts s ps.
Proof. exact parts_exist. Qed.
Print Assumptions C115_parts.
(** The full statement asks that a type be the name of a parser. *)
Theorem C115_refuted :
  exists s, (exists r, p2p s = Some r) /\ (exists p t, parts s [p] /\ type_part p t /\ ~ In t (map kind_name all_kinds)).
Proof.
  exists ($"@NOTQSTRINGS:x:'@"). split; [eexists; vm_compute; reflexivity|].
  exists ($"NOTQSTRINGS:x:'"), ($"NOTQSTRINGS"). split; [|split].
  - apply (parts_more [] ($"NOTQSTRINGS:x:'") [] []); [intros []|vm_compute; intuition discriminate|].
    apply parts_text. intros [].
  - split; [vm_compute; intuition discriminate|]. right. exists ($"x:'"). reflexivity.
  - vm_compute. intuition discriminate.
Qed.
Print Assumptions C115_refuted.
Theorem C115_known_types : forall k, accepted_type (kind_name k).
Proof. intros k. apply acceptedb_spec. destruct k; vm_compute; reflexivity. Qed.
Print Assumptions C115_known_types.
Example C115_example :
  parts ($"a@PCRE:x:.*@b") [$"PCRE:x:.*"] /\ type_part ($"PCRE:x:.*") ($"PCRE") /\ ~ accepted_type ($"PCRE") /\
  p2p ($"a@PCRE:x:.*@b") = None.
Proof.
  split; [|split; [|split; [|vm_compute; reflexivity]]].
  - apply (parts_more ($"a") ($"PCRE:x:.*") ($"b") []); [vm_compute; intuition discriminate|vm_compute; intuition discriminate|].
    apply parts_text. vm_compute. intuition discriminate.
  - split; [vm_compute; intuition discriminate|]. right. exists ($"x:.*"). reflexivity.
  - intros H. apply acceptedb_spec in H. vm_compute in H. discriminate.
Qed.

(** ** C116 *)
Theorem C116_loaded :
  forall with_program programs fresh parse_uuid rs doc pats,
    Forall proper_rule rs -> convert with_program programs fresh rs = Ret doc ->
    de_pattern_file parse_uuid doc = Ret (Ok pats) ->
    length pats = length (results p2p (sources programs rs)) /\
    forall i res p, nth_error (results p2p (sources programs rs)) i = Some res -> nth_error pats i = Some p ->
      becomes with_program parse_uuid fresh res i p.
Proof. exact document_loaded. Qed.
Print Assumptions C116_loaded.

(** ** C117 *)
Theorem C117_loads :
  forall with_program programs fresh parse_uuid rs doc,
    Forall proper_rule rs -> convert with_program programs fresh rs = Ret doc ->
    ((exists pats, de_pattern_file parse_uuid doc = Ret (Ok pats)) <->
     forall gs s, In (gs, s) (results p2p (sources programs rs)) ->
       parse_uuid (source_uuid fresh gs) <> None /\
       exists ts, compile (prefixed with_program (Some (src_program (snd gs))) s) = Ret (Ok ts)).
Proof. exact document_loads. Qed.
Print Assumptions C117_loads.

(** ** C118 *)
Theorem C118_uuids :
  forall with_program programs fresh parse_uuid rs doc pats,
    Forall proper_rule rs -> convert with_program programs fresh rs = Ret doc ->
    de_pattern_file parse_uuid doc = Ret (Ok pats) -> uuids_differ parse_uuid fresh rs -> NoDup (map pat_uuid pats).
Proof. exact loaded_uuids_differ. Qed.
Print Assumptions C118_uuids.
Theorem C118_names :
  forall with_program programs fresh parse_uuid rs doc pats,
    Forall proper_rule rs -> convert with_program programs fresh rs = Ret doc ->
    de_pattern_file parse_uuid doc = Ret (Ok pats) -> NoDup (map pat_name pats).
Proof. exact loaded_names_differ. Qed.
Print Assumptions C118_names.

(** ** C119 *)
Theorem C119_dies :
  forall with_program programs fresh rs, convert with_program programs fresh rs = Panic <-> Exists (untestable programs) rs.
Proof. exact convert_dies. Qed.
Print Assumptions C119_dies.

(** An example for C116 to C119: two rules, the first with two patterns, and a
    reader of uuids that takes any text. *)
Definition example_rules : list rule :=
  [{| rl_id := $"one"; rl_ruleset := $"sshd"; rl_patterns := Some [$"port @NUMBER:p@"; $"@PCRE:x:.*@"; $"user @ANYSTRING:u@"];
      rl_examples := [{| ex_message := $"port 22"; ex_program := Some ($"sshd"); ex_values := Some [($"p", $"22")] |}];
      rl_tags := Some [$"t"]; rl_values := Some [($"a", $"1"); ($"b", $"$(x)")] |};
   {| rl_id := $"two"; rl_ruleset := $"none"; rl_patterns := None; rl_examples := []; rl_tags := None; rl_values := None |};
   {| rl_id := $"three"; rl_ruleset := $"sshd"; rl_patterns := Some [$"bye"]; rl_examples := []; rl_tags := None; rl_values := None |}].
Definition example_programs (s : str) : option (list str) := if str_eqb s ($"sshd") then Some [$"sshd"] else None.
Definition example_fresh (n : nat) : str := $"fresh" ++ repeat x30 n.
Example C116_example :
  Forall proper_rule example_rules /\ uuids_differ Some example_fresh example_rules /\
  ~ Exists (untestable example_programs) example_rules /\
  exists doc p q r, convert true example_programs example_fresh example_rules = Ret doc /\
    de_pattern_file Some doc = Ret (Ok [p; q; r]) /\
    pat_name q = Some ($"sshd_1") /\ pat_uuid q = $"fresh0" /\ pat_uuid r = $"three" /\ pat_values p = Some [($"a", $"1")] /\
    compile ($"sshd: port %{INT:p}") = Ret (Ok (pat_tokens p)).
Proof.
  split; [|split; [|split]].
  - repeat apply Forall_cons; try apply Forall_nil.
    + split; [cbn; constructor; [cbn; intuition discriminate|constructor; [intros []|constructor]]|].
      intros e [<-|[]]. cbn. constructor; [intros []|constructor].
    + split; [exact I|intros e []].
    + split; [exact I|intros e []].
  - split; [|split].
    + intros i j E. injection E as E. apply (f_equal (@length byte)) in E.
      rewrite !repeat_length in E. exact E.
    + intros i r [<-|[<-|[<-|[]]]] E; discriminate E.
    + cbn. repeat (constructor; [cbn; intuition discriminate|]). constructor.
  - intros H. repeat (inversion H as [? ? U|? ? U]; subst; clear H; [destruct U as ((? & ? & A) & B & C); try discriminate; contradiction|rename U into H]).
    inversion H.
  - do 4 eexists. split; [vm_compute; reflexivity|]. split; [vm_compute; reflexivity|]. repeat split; vm_compute; reflexivity.
Qed.
Example C119_example :
  Exists (untestable example_programs)
    [{| rl_id := $"one"; rl_ruleset := $"sshd"; rl_patterns := None;
        rl_examples := [{| ex_message := $"m"; ex_program := None; ex_values := None |}]; rl_tags := None; rl_values := None |}].
Proof. left. split; [exists ($"sshd"), []; reflexivity|]. split; [reflexivity|discriminate]. Qed.
