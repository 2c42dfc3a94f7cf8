(** * The repository's own tests, replayed on the model

    Each example is a unit or integration test of /repo evaluated on the model;
    they validate the transcription, not the properties. *)
From Verif Require Import Base Utils Parsers Pattern Grammar Source Deser Siphash.
From Verif Require Trie SuffixArray.

Definition uid (n : N) : uuid := [byte_of_N n].

(** A pattern with the given tokens and a distinct uuid. *)
Definition pat (n : N) (toks : compiled_pattern) : pattern :=
  pattern_new None (uid n) toks None None None.

(** Compiled text pattern; the empty token list if it does not compile. *)
Definition comp (s : str) : compiled_pattern :=
  match compile s with Ret (Ok t) => t | _ => [] end.
Definition tpat (n : N) (s : str) : pattern := pat n (comp s).

Definition trie (ps : list pattern) : outcome Trie.tree :=
  Trie.add_patterns siphash Trie.tree_new ps.
Definition table (ps : list pattern) : outcome SuffixArray.table :=
  SuffixArray.add_patterns siphash SuffixArray.table_new ps.

(** Uuid and values of a match. *)
Definition summary (r : option match_result) : option (uuid * bmap) :=
  option_map (fun r => (pat_uuid (mr_pattern r), mr_values r)) r.
Definition trie_run (ps : list pattern) (text : str) : outcome (option (uuid * bmap)) :=
  let* t := trie ps in let* r := Trie.parse t text in Ret (summary r).
Definition table_run (ps : list pattern) (text : str) : outcome (option (uuid * bmap)) :=
  let* t := table ps in let* r := SuffixArray.parse t text in Ret (summary r).

Definition S_ (name set : str) : token := Parser (PSet (set_with_name name set)).
Definition L_ (s : str) : token := Literal s.

(** ** src/utils/common_prefix.rs, src/parsers/ tests *)

Example common_prefix_1 : common_prefix_len ($"alpha") ($"alppha") = 3.
Proof. vm_compute. reflexivity. Qed.
Example common_prefix_2 : common_prefix_len ($"b¡") ($"b®") = 1.
Proof. vm_compute. reflexivity. Qed.

Example set_1 : set_parse (set_with_name ($"test") ($"")) ($"almafa") = Ret None.
Proof. vm_compute. reflexivity. Qed.
Example set_2 : set_parse (set_with_name ($"test") ($"123")) ($"almafa") = Ret None.
Proof. vm_compute. reflexivity. Qed.
Example set_3 : set_parse (set_with_name ($"test") ($"amfl")) ($"almafa1") = Ret (Some ($"almafa")).
Proof. vm_compute. reflexivity. Qed.
Example greedy_1 : greedy_parse (greedy_from_str ($"name") ($"foo")) ($"qux baz bar") = Ret None.
Proof. vm_compute. reflexivity. Qed.
Example greedy_2 :
  greedy_parse (greedy_from_str ($"name") ($"foo")) ($"qux foo bar") = Ret (Some ($"qux ")).
Proof. vm_compute. reflexivity. Qed.

(** ** src/matcher/trie/node/mod.rs tests *)

Definition keep (n : Trie.lnode Trie.tree) : outcome (Trie.lnode Trie.tree) := Ret n.
Definition ins (t : outcome Trie.tree) (s : str) : outcome Trie.tree :=
  let* t := t in Trie.insert_literal t s keep.
(** [Some n]: found, in a node with [n] literal children. *)
Definition found (t : outcome Trie.tree) (s : str) : outcome (option nat) :=
  let* t := t in
  let* r := Trie.lookup_literal t s in
  Ret (match r with
       | inl (n, _) => Some (length (Trie.literal_children n))
       | inr _ => None
       end).

Example trie_alma :
  let t1 := ins (Ret Trie.tree_new) ($"alma") in
  let t2 := ins t1 ($"alm") in
  (found t1 ($"alma"), found t1 ($"alm"), found t2 ($"alm"), found t2 ($"alma"),
   (let* t := t2 in Ret (length (Trie.literal_children t))))
  = (Ret (Some 1), Ret None, Ret (Some 2), Ret (Some 2), Ret 1).
Proof. vm_compute. reflexivity. Qed.

Example trie_split :
  let t := ins (ins (ins (Ret Trie.tree_new) ($"alm")) ($"alma")) ($"ai") in
  ((let* t := t in Ret (length (Trie.literal_children t))), found t ($"alma"),
   found t ($"alm"), found t ($"ai"))
  = (Ret 1, Ret (Some 2), Ret (Some 2), Ret (Some 2)).
Proof. vm_compute. reflexivity. Qed.

Example trie_edge :
  found (ins (ins (Ret Trie.tree_new) ($"alm")) ($"ala")) ($"al") = Ret None.
Proof. vm_compute. reflexivity. Qed.

Example trie_same_parsers :
  let count ps := let* t := trie ps in Ret (length (Trie.parser_children t)) in
  (count [pat 1 [S_ ($"test") ($"ab")]; pat 2 [S_ ($"test") ($"ab")]],
   count [pat 1 [S_ ($"test") ($"ab")]; pat 2 [S_ ($"test") ($"a")]]) = (Ret 1, Ret 2).
Proof. vm_compute. reflexivity. Qed.

Definition parser_trie : list pattern :=
  [pat 1 [L_ ($"app"); S_ ($"test") ($"01234"); L_ ($"le")];
   pat 2 [L_ ($"appletree")]; pat 3 [L_ ($"apple")]].
Example parser_trie_runs :
  map (trie_run parser_trie) [$"bamboo"; $"app42le"; $"appletree"; $"apple"]
  = [Ret None; Ret (Some (uid 1, [($"test", $"42")])); Ret (Some (uid 2, []));
     Ret (Some (uid 3, []))].
Proof. vm_compute. reflexivity. Qed.

Definition complex_parser_trie : list pattern :=
  [pat 1 [L_ ($"app"); S_ ($"middle") ($"01234"); L_ ($"letree"); S_ ($"end") ($"012")];
   pat 2 [L_ ($"app"); S_ ($"middle") ($"01234"); L_ ($"letree"); S_ ($"end") ($"0123")];
   pat 3 [L_ ($"bamboo")]; pat 4 [L_ ($"bamba")]].
Example complex_parser_trie_runs :
  map (trie_run complex_parser_trie) [$"app42letree123"; $"lorem ipsum"; $"bamb"]
  = [Ret (Some (uid 2, [($"end", $"123"); ($"middle", $"42")])); Ret None; Ret None].
Proof. vm_compute. reflexivity. Qed.

Example empty_trie_runs : map (trie_run []) [$"bamb"; $""] = [Ret None; Ret None].
Proof. vm_compute. reflexivity. Qed.

Example too_short_runs :
  map (trie_run [pat 1 [L_ ($"app"); S_ ($"middle") ($"01234"); L_ ($"x");
                        S_ ($"space") ($" ")]]) [$"app12x"; $"app12x "]
  = [Ret None; Ret (Some (uid 1, [($"middle", $"12"); ($"space", $" ")]))].
Proof. vm_compute. reflexivity. Qed.

Example neighbouring_parsers_run :
  trie_run [pat 1 [L_ ($"app"); S_ ($"test") ($"abcd"); Parser (PInt (int_with_name ($"test2")));
                   Parser (PGreedy (greedy_with_name ($"test3")))]] ($"appccc12le")
  = Ret (Some (uid 1, [($"test", $"ccc"); ($"test2", $"12"); ($"test3", $"le")])).
Proof. vm_compute. reflexivity. Qed.

(** ** src/matcher/suffix_array/test.rs *)

Example table_runs :
  (table_run complex_parser_trie ($"app42letree123"),
   table_run [pat 1 [Parser (PInt int_new)]; pat 2 [Parser (PInt int_new)]] ($"42"),
   table_run [pat 1 [L_ ($"app"); Parser (PInt int_new)]] ($"XYZ"),
   table_run [pat 1 [L_ ($"app")]] ($"apple"),
   table_run [pat 1 [L_ ($"app")]] ($"app"),
   table_run [tpat 1 ($"%{GREEDY}¡%{GREEDY}")] ($"micek ¡micek"))
  = (Ret (Some (uid 2, [($"end", $"123"); ($"middle", $"42")])),
     Ret (Some (uid 2, [])), Ret None, Ret None, Ret (Some (uid 1, [])),
     Ret (Some (uid 1, []))).
Proof. vm_compute. reflexivity. Qed.

(** ** src/grammar/test.rs *)

Definition compiles (s : str) : outcome bool :=
  let* r := compile s in Ret (match r with Ok _ => true | Err _ => false end).

Example grammar_names :
  map compiles [$"%{INT:test_name}"; $"%{INT:test$name}"; $"%{INT:test-name}"; $"%{INT:-";
                $"%{INT:"; $"%{INT:test}"; $"%{INT:TEST_NAME_}"; $"%{INT:_}";
                $"%{INVALID:test_name}"; $"foo %{INT:int_0 baz";
                $"Jun %{INT:day %{INT:hour}:%{INT:min}:%{INT:sec}"; $"%{INT}"]
  = map Ret [true; false; false; false; false; true; true; true; false; false; false; true].
Proof. vm_compute. reflexivity. Qed.

Definition int_ (name : str) : token := Parser (PInt (int_with_name name)).

Example grammar_pattern :
  compile ($"foo %{INT:int_0} bar %{INT:int_1}%{INT:int_2} baz")
  = Ret (Ok [L_ ($"foo "); int_ ($"int_0"); L_ ($" bar "); int_ ($"int_1"); int_ ($"int_2");
             L_ ($" baz")]).
Proof. vm_compute. reflexivity. Qed.

Example grammar_escape :
  compile ($"foo \%\{ %{INT:test_name} baz")
  = Ret (Ok [L_ ($"foo %{ "); int_ ($"test_name"); L_ ($" baz")]).
Proof. vm_compute. reflexivity. Qed.

Example grammar_set :
  compile ($"%{SET(""0123456789"",min_len=2, max_len=5):test_set}")
  = Ret (Ok [Parser (PSet (set_set_max_length (set_set_min_length
       (set_with_name ($"test_set") ($"0123456789")) (Some 2%N)) (Some 5%N)))]).
Proof. vm_compute. reflexivity. Qed.

Example grammar_int :
  compile ($"%{INT(min_len=2,max_len=5):test_int}")
  = Ret (Ok [Parser (PInt (set_set_max_length (set_set_min_length
       (int_with_name ($"test_int")) (Some 2%N)) (Some 5%N)))]).
Proof. vm_compute. reflexivity. Qed.

Example grammar_greedy :
  compile ($"foo %{INT:int_0} bar %{GREEDY:greedy} baz")
  = Ret (Ok [L_ ($"foo "); int_ ($"int_0"); L_ ($" bar ");
             Parser (PGreedy (greedy_from_str ($"greedy") ($" baz"))); L_ ($" baz")]).
Proof. vm_compute. reflexivity. Qed.

Example grammar_greedy_dotted :
  compile ($"bar %{GREEDY:.some.dotted_notation}")
  = Ret (Ok [L_ ($"bar "); Parser (PGreedy (greedy_with_name ($".some.dotted_notation")))]).
Proof. vm_compute. reflexivity. Qed.

(** ** Loading: tests/matcher/*.json as document values *)

Definition parse_uuid_ex (s : str) : option uuid :=
  if Nat.eqb (length s) 36 then Some s else None.

Definition u_pubkey := $"c11c806a-766d-4a09-9f24-7de1fe02e51e".
Definition u_disc := $"9a49c47d-29e9-4072-be84-3b76c6814743".
Definition u_pam := $"fa8bdbcb-e0fd-4da1-9fa4-15ecfec28ad2".

Definition jun := $"Jun %{INT:day} %{INT:hour}:%{INT:min}:%{INT:sec} lobotomy sshd[%{INT:pid}]: ".
Definition p_pubkey := VMap [($"uuid", VStr u_pubkey); ($"name", VStr ($"SSH_PUBKEY"));
  ($"pattern", VStr (jun ++ $"Accepted publickey for zts from %{INT:oct0}.%{INT:oct1}.%{INT:oct2}.%{INT:oct3} port %{INT:port} ssh2"))].
Definition p_disc := VMap [($"name", VStr ($"SSH_DISCONNECT")); ($"uuid", VStr u_disc);
  ($"pattern", VStr (jun ++ $"Received disconnect from %{GREEDY:ipaddr}: %{INT:dunno}: disconnected by user"))].
Definition pam_msg := $"Jun 25 14:09:41 lobotomy sshd[26478]: pam_unix(sshd:session): session closed for user zts".
Definition vstrs (l : list str) : value := VSeq (map VStr l).
Definition p_pam (tags : list str) (expected_tags : list str) (expected : list (str * value)) :=
  VMap [($"uuid", VStr u_pam);
        ($"pattern", VStr (jun ++ $"pam_unix(sshd:session): session closed for user zts"));
        ($"values", VMap [($"add1", VStr ($"v1")); ($"add2", VStr ($"v2"))]);
        ($"tags", vstrs tags);
        ($"test_messages", VSeq [VMap [($"message", VStr pam_msg); ($"values", VMap expected);
                                       ($"tags", vstrs expected_tags)]])].
Definition pam_values := [($"day", VStr ($"25")); ($"hour", VStr ($"14")); ($"min", VStr ($"09"));
  ($"sec", VStr ($"41")); ($"pid", VStr ($"26478")); ($"add1", VStr ($"v1"));
  ($"add2", VStr ($"v2"))].

Definition load (v : value) : outcome (result Trie.tree build_error) :=
  let* r := de_pattern_file parse_uuid_ex v in
  match r with
  | Err _ => Ret (Err (DeserJson []))
  | Ok ps => let* items := into_iter ps in from_source (trie_ops siphash) items
  end.
Definition load_error (v : value) : outcome (option build_error) :=
  let* r := load v in Ret (match r with Ok _ => None | Err e => Some e end).

Definition ssh_ok := VMap [($"patterns", VSeq [p_pubkey; p_disc;
  p_pam [$"foo"; $"bar"; $"baz"] [$"foo"; $"bar"; $"baz"] pam_values])].
Example load_ssh_ok : load_error ssh_ok = Ret None.
Proof. vm_compute. reflexivity. Qed.

Example load_tags_not_there :
  load_error (VMap [($"patterns", VSeq [p_pubkey; p_disc;
    p_pam [$"foo"; $"baz"] [$"foo"; $"bar"; $"baz"] pam_values])])
  = Ret (Some (TestMessageError
      (UnexpectedTags u_pam (Some [$"foo"; $"bar"; $"baz"]) (Some [$"foo"; $"baz"])))).
Proof. vm_compute. reflexivity. Qed.

Example load_value_not_found :
  load_error (VMap [($"patterns", VSeq [p_pubkey; p_disc;
    p_pam [$"foo"] [$"foo"] (($"add3", VStr ($"v3")) :: pam_values)])])
  = Ret (Some (TestMessageError (KeyNotFound u_pam ($"add3")))).
Proof. vm_compute. reflexivity. Qed.

Definition u_greedy := $"4a853792-2fad-44da-9b4b-059a0caad6e2".
Definition u_zone := $"1252c927-b0a3-4ce7-b863-da1427dc57ef".
Definition not_local := VMap [($"patterns", VSeq [
  VMap [($"pattern", VStr ($"%{GREEDY:foo}"));
        ($"test_messages", VSeq [VMap [($"message", VStr ($"named: zone coagulants.devotions.tld/IN: NS 'gateway.pecs-mikro.hu.coagulants.devotions.tld' has no address records (A or AAAA)"))]]);
        ($"uuid", VStr u_greedy)];
  VMap [($"uuid", VStr u_zone);
        ($"pattern", VStr ($"named: zone %{GREEDY:appacct.zone_name}/IN: NS '%{GREEDY:appacct.zone_ns}' has no address records (A or AAAA)"));
        ($"test_messages", VSeq [VMap [($"message", VStr ($"named: zone foo.bar.tld/IN: NS 'gateway.pecs-mikro.hu.coagulants.devotions.tld' has no address records (A or AAAA)"))]])]])].
Example load_not_local :
  match load_error not_local with
  | Ret (Some (TestMessageError (MatchedToOtherPattern e g _))) => e = u_greedy /\ g = u_zone
  | _ => False
  end.
Proof. vm_compute. split; reflexivity. Qed.
