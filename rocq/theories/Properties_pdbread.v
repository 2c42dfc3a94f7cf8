(** * Properties C132 to C134: what the converter from patterndb reads *)
From Verif Require Import Base Base_facts Pattern Grammar Deser Errors Pdb2adb Spec_pdb Pdbread Spec_pdbread
  Pdbread_facts Pdbread_standard Pdbread_claims.

(** ** C132 *)
Theorem C132_read :
  forall examples doc t, read examples doc = Ret t ->
    NoDup (map fst (tb_rulesets t)) /\ NoDup (map fst (tb_rules t)) /\
    (forall name, hash_get name (tb_rulesets t) = unless_empty (map el_text (filter (program_of name) (closing [] doc)))) /\
    (forall id r, In (id, r) (tb_rules t) -> rule_read examples (closing [] doc) id r) /\
    (forall id, In id (map fst (tb_rules t)) <-> exists e, element_of [] doc e /\ is_rule id e = true).
Proof. exact read_result. Qed.
Print Assumptions C132_read.
Theorem C132_dies :
  forall examples doc, read examples doc <> OutOfFuel /\
    (read examples doc = Panic <-> exists e, element_of [] doc e /\ fatal examples e).
Proof. exact read_dies. Qed.
Print Assumptions C132_dies.
Theorem C132_elements :
  forall x up e, In e (closing up x) <-> element_of up x e.
Proof. exact ended_spec. Qed.
Print Assumptions C132_elements.
Theorem C132_owner :
  forall tag e a, owner tag e = Some a <-> nearest tag (el_up e) a.
Proof. intros tag e a. exact (parent_nearest tag (el_up e) a). Qed.
Print Assumptions C132_owner.
(** What C116 to C118 ask of the rules holds for what is read. *)
Theorem C132_proper :
  forall examples doc t, read examples doc = Ret t -> Forall proper_rule (map snd (tb_rules t)).
Proof. exact read_proper. Qed.
Print Assumptions C132_proper.

(** Mixed forms: a pattern without a list around it, a rule inside a rule, a value
    given twice, an example with two messages. *)
Definition odd_document : xml :=
  Elt ($"patterndb") []
    [Elt ($"ruleset") [($"id", $"s")]
       [Elt ($"pattern") [] [Text ($"sshd")];
        Elt ($"rules") []
          [Elt ($"rule") [($"id", $"1")]
             [Elt ($"pattern") [] [Text ($"a "); Elt ($"b") [] [Text ($"c")]];
              Elt ($"value") [($"name", $"k")] [Text ($"v")];
              Elt ($"values") [] [Elt ($"value") [($"name", $"k")] [Text ($"w")]];
              Elt ($"rule") [($"id", $"2")] [Elt ($"patterns") [] [Elt ($"pattern") [] [Text ($"in")]]];
              Elt ($"example") [] [Elt ($"test_message") [] [Text ($"m")];
                                   Elt ($"test_message") [($"program", $"p")] [Text ($"n")];
                                   Elt ($"test_value") [($"name", $"x")] [Text ($"1")];
                                   Elt ($"test_values") [] [];
                                   Elt ($"test_value") [($"name", $"y")] [Text ($"2")]]]]]].
Example C132_example :
  read true odd_document =
    Ret (Tables [($"s", [$"sshd"])]
      [($"1", Rule_ ($"1") ($"s") (Some [$"a c"]) [Example_ ($"n") (Some ($"p")) (Some [($"y", $"2")])] None
                (Some [($"k", $"w")]));
       ($"2", Rule_ ($"2") ($"s") (Some [$"in"]) [] None None)]) /\
  read true (Elt ($"ruleset") [] []) = Panic /\
  read true (Elt ($"patterndb") [] [Elt ($"ruleset") [] [Elt ($"rule") [] [Elt ($"example") [] []]]]) = Panic /\
  read false (Elt ($"patterndb") [] [Elt ($"ruleset") [] [Elt ($"rule") [] [Elt ($"example") [] []]]]) <> Panic.
Proof. repeat split; try (vm_compute; reflexivity). vm_compute. discriminate. Qed.

(** ** C133: the full statement does not ask for different names and ids *)
Definition rule_with (id pattern : str) : pdb_rule := PdbRule id [pattern] [] [] [].
Theorem C133_own_program_refuted :
  exists db s r t r', In s db /\ In r (ps_rules s) /\ NoDup (map pr_id (flat_map ps_rules db)) /\
    read true (pdb_xml db) = Ret t /\ In (pr_id r, r') (tb_rules t) /\
    match hash_get (rl_ruleset r') (tb_rulesets t) with Some (program :: _) => ~ In program (ps_programs s) | _ => False end.
Proof.
  exists [PdbRuleset ($"mail") ($"1") [$"postfix"] [rule_with ($"10") ($"a")];
          PdbRuleset ($"mail") ($"2") [$"dovecot"] [rule_with ($"20") ($"b")]],
    (PdbRuleset ($"mail") ($"2") [$"dovecot"] [rule_with ($"20") ($"b")]), (rule_with ($"20") ($"b")).
  do 2 eexists. split; [right; left; reflexivity|]. split; [left; reflexivity|].
  split; [cbn; constructor; [intros [E|[]]; discriminate E|constructor; [intros []|constructor]]|].
  split; [vm_compute; reflexivity|]. split; [right; left; reflexivity|]. vm_compute. intros [E|[]]. discriminate E.
Qed.
Print Assumptions C133_own_program_refuted.
Theorem C133_apart_refuted :
  exists db t, NoDup (map ps_name db) /\ length (flat_map ps_rules db) = 2 /\ read true (pdb_xml db) = Ret t /\
    exists id r, tb_rules t = [(id, r)] /\ length (match rl_patterns r with Some l => l | None => [] end) = 2.
Proof.
  exists [PdbRuleset ($"a") ($"1") [$"x"] [rule_with ($"10") ($"a")];
          PdbRuleset ($"b") ($"2") [$"y"] [rule_with ($"10") ($"b")]].
  eexists. split; [cbn; constructor; [intros [E|[]]; discriminate E|constructor; [intros []|constructor]]|].
  split; [reflexivity|]. split; [vm_compute; reflexivity|]. do 2 eexists. split; reflexivity.
Qed.
Print Assumptions C133_apart_refuted.
Theorem C133_standard_partial :
  forall examples db, standard db ->
    exists t, read examples (pdb_xml db) = Ret t /\ map snd (tb_rules t) = rules_in examples db /\
      forall s, In s db -> hash_get (ps_name s) (tb_rulesets t) = unless_empty (ps_programs s).
Proof. exact standard_read. Qed.
Print Assumptions C133_standard_partial.

(** ** C134 *)
Theorem C134_loaded :
  forall examples with_program fresh parse_uuid db doc pats,
    standard db -> script examples with_program fresh (pdb_xml db) = Ret doc ->
    de_pattern_file parse_uuid doc = Ret (Ok pats) ->
    length pats = length (results p2p (sources_in examples db)) /\
    forall i res p, nth_error (results p2p (sources_in examples db)) i = Some res -> nth_error pats i = Some p ->
      becomes with_program parse_uuid fresh res i p.
Proof. exact script_loaded. Qed.
Print Assumptions C134_loaded.
Theorem C134_dies :
  forall examples with_program fresh db, standard db ->
    script examples with_program fresh (pdb_xml db) <> OutOfFuel /\
    (script examples with_program fresh (pdb_xml db) = Panic <->
     examples = true /\ exists s r, In s db /\ In r (ps_rules s) /\ ps_programs s <> [] /\ pr_patterns r = [] /\ pr_examples r <> []).
Proof. exact script_dies. Qed.
Print Assumptions C134_dies.
Theorem C134_uuids :
  forall examples with_program fresh parse_uuid db doc pats,
    standard db -> script examples with_program fresh (pdb_xml db) = Ret doc ->
    de_pattern_file parse_uuid doc = Ret (Ok pats) ->
    (forall i j, parse_uuid (fresh i) = parse_uuid (fresh j) -> i = j) ->
    (forall i r, In r (flat_map ps_rules db) -> parse_uuid (fresh i) <> parse_uuid (pr_id r)) ->
    NoDup (map (fun r => parse_uuid (pr_id r)) (flat_map ps_rules db)) ->
    NoDup (map pat_uuid pats).
Proof. exact script_uuids. Qed.
Print Assumptions C134_uuids.

(** Two rulesets; the first rule has two patterns, an example, values and a tag. *)
Definition example_db : list pdb_ruleset :=
  [PdbRuleset ($"ssh") ($"s1") [$"sshd"; $"ssh"]
     [PdbRule ($"one") [$"port @NUMBER:p@"; $"user @ANYSTRING:u@"]
        [PdbExample ($"port 22") (Some ($"sshd")) [($"p", $"22")]] [($"a", $"1"); ($"b", $"2")] [$"t"];
      PdbRule ($"two") [] [] [] []];
   PdbRuleset ($"su") ($"s2") [$"su"] [PdbRule ($"three") [$"bye"] [] [] []]].
Definition example_uuids (n : nat) : str := $"fresh" ++ repeat x30 n.
Example C134_example :
  standard example_db /\
  exists doc p q r, script true true example_uuids (pdb_xml example_db) = Ret doc /\
    de_pattern_file Some doc = Ret (Ok [p; q; r]) /\
    map pat_uuid [p; q; r] = [$"one"; $"fresh"; $"three"] /\
    compile ($"sshd: user %{GREEDY:u}") = Ret (Ok (pat_tokens q)) /\
    compile ($"su: bye") = Ret (Ok (pat_tokens r)) /\
    pat_values p = Some [($"a", $"1"); ($"b", $"2")] /\ pat_tags p = Some [$"t"].
Proof.
  split.
  - constructor.
    + intros s [<-|[<-|[]]]; split; discriminate.
    + cbn. constructor; [intros [E|[]]; discriminate E|constructor; [intros []|constructor]].
    + cbn. repeat (constructor; [cbn; intuition discriminate|]). constructor.
    + intros r [<-|[<-|[<-|[]]]]; split; cbn; try constructor; try (intros x []; fail);
        try (cbn; intuition discriminate); try (constructor; [intros []|constructor]).
      intros x [<-|[]]. cbn. constructor; [intros []|constructor].
  - do 4 eexists. split; [vm_compute; reflexivity|]. split; [vm_compute; reflexivity|].
    repeat split; vm_compute; reflexivity.
Qed.
Example C134_dies_example :
  standard [PdbRuleset ($"ssh") ($"s1") [$"sshd"] [PdbRule ($"one") [] [PdbExample ($"m") None []] [] []]] /\
  script true false example_uuids
    (pdb_xml [PdbRuleset ($"ssh") ($"s1") [$"sshd"] [PdbRule ($"one") [] [PdbExample ($"m") None []] [] []]]) = Panic.
Proof.
  split; [|vm_compute; reflexivity]. constructor.
  - intros s [<-|[]]. split; discriminate.
  - cbn. constructor; [intros []|constructor].
  - cbn. constructor; [intros []|constructor].
  - intros r [<-|[]]. split; [constructor|]. intros x [<-|[]]. constructor.
Qed.
