(** * More of the repository's own tests, replayed on the model

    With Tests.v, every test of /repo that does not need the text layer of JSON
    or YAML; the documents of those that do are transcribed as values. *)
From Verif Require Import Base Utils Parsers Pattern Grammar Source Deser Siphash Tests.
From Verif Require Trie SuffixArray.

(** ** src/utils/common_prefix.rs:51-86 *)

Example common_prefix_3 :
  (has_common_prefix ($"alpha") ($"aleph"), has_common_prefix ($"alpha") ($"beta"),
   common_prefix_len ($"alpha") ($"aleph"), common_prefix_len ($"¡alpha") ($"¡beta"),
   common_prefix_len ($"®alpha") ($"¾beta")) = (Some 2, None, 2, 2, 0).
Proof. vm_compute. reflexivity. Qed.
Example rtrunc_1 :
  (rtrunc ($"alpha") 0, rtrunc ($"alpha") 2) = (Ret ($"alpha"), Ret ($"alp")).
Proof. vm_compute. reflexivity. Qed.

(** ** src/utils/sortedvec.rs:75-169 *)

Definition scmp (a b : str) : outcome comparison := Ret (str_cmp a b).
Definition greek : list str := [$"epsilon"; $"beta"; $"alpha"; $"delta"; $"zeta"].
Example sorted_push :
  ((let* sv := sv_push scmp sv_new ($"alpha") in Ret (sv_get sv 0)),
   sv_pushes scmp sv_new greek)
  = (Ret (Some ($"alpha")), Ret [$"alpha"; $"beta"; $"delta"; $"epsilon"; $"zeta"]).
Proof. vm_compute. reflexivity. Qed.
Example sorted_find :
  (let* sv := sv_pushes scmp sv_new greek in
   let* a := sv_find_pos scmp sv ($"beta") in
   let* b := sv_find_pos scmp sv ($"zeta") in
   let* c := sv_find scmp sv ($"beta") in
   let* d := sv_find scmp sv ($"zeta") in
   let* e := sv_find scmp sv ($"<3 HL3") in
   let* f := sv_binary_search_by sv (fun x => scmp x ($"iota")) in
   let* g := sv_binary_search_by sv (fun x => scmp x ($"beta")) in
   Ret (a, b, c, d, e, f, g))
  = Ret (Some 1, Some 4, Some ($"beta"), Some ($"zeta"), None, inr 4, inl 1).
Proof. vm_compute. reflexivity. Qed.
Example sorted_len :
  (let* sv := sv_pushes scmp sv_new [$"beta"; $"alpha"] in Ret (sv_len sv)) = Ret 2.
Proof. vm_compute. reflexivity. Qed.
Example sorted_nodes :
  (let* sv := sv_pushes Trie.lnode_cmp sv_new [Trie.lnode_new ($"a"); Trie.lnode_new ($"")] in
   sv_binary_search_by sv (fun probe => Trie.cmp_str (Trie.ln_literal probe) ($"a")))
  = Ret (inl 1).
Proof. vm_compute. reflexivity. Qed.

(** ** src/parsers/ *)

(** has_length_constraint.rs:28-95 *)
Definition lengths (p : set_parser) : list bool := map (is_match_length_ok p) [42; 1; 9; 10].
Example length_constraints :
  let p := set_new ($"") in
  (lengths p, lengths (set_set_min_length p (Some 10%N)), lengths (set_set_max_length p (Some 10%N)))
  = ([true; true; true; true], [true; false; false; true], [false; true; true; true]).
Proof. vm_compute. reflexivity. Qed.

(** set.rs:111-169 *)
Example set_4 :
  let p := set_with_name ($"name") ($"0123") in
  let text := $"11230almafa" in
  (set_parse p text, parser_name (PSet p),
   set_parse (set_set_min_length p (Some 7%N)) text,
   set_parse (set_set_max_length p (Some 3%N)) text,
   set_parse (set_set_max_length (set_set_min_length p (Some 3%N)) (Some 7%N)) text)
  = (Ret (Some ($"11230")), Some ($"name"), Ret None, Ret None, Ret (Some ($"11230"))).
Proof. vm_compute. reflexivity. Qed.
Example set_hashes :
  N.eqb (hash_os siphash (PSet (set_with_name ($"test") ($"0123"))))
        (hash_os siphash (PSet (set_with_name ($"test") ($"01234")))) = false.
Proof. vm_compute. reflexivity. Qed.

(** int.rs:70-97 *)
Example int_1 :
  let p := int_with_name ($"test_int_parser") in
  (map (parser_parse (PInt p)) [$""; $"asdf"; $"1234asd"], parser_name (PInt p),
   parser_parse (PInt (set_set_max_length p (Some 3%N))) ($"1234asd"))
  = ([Ret None; Ret None; Ret (Some ($"1234"))], Some ($"test_int_parser"), Ret None).
Proof. vm_compute. reflexivity. Qed.

(** ** src/matcher/result.rs:36-59 *)

Example result_names :
  let r := match_result_new (pattern_with_uuid (uid 1)) in
  let r := match_result_insert r (PInt int_new, $"a") in
  let r := match_result_insert r (PInt int_new, $"b") in
  let r := match_result_insert r (PInt (int_with_name ($"name")), $"c") in
  mr_values r = [($"name", $"c")].
Proof. vm_compute. reflexivity. Qed.

(** ** src/matcher/trie/node/ *)

(** literal.rs:153-182 *)
Example literal_leaf : Trie.lnode_is_leaf (Trie.lnode_new ($"aleph")) = true.
Proof. vm_compute. reflexivity. Qed.
Example literal_cmp :
  let cmp a b := Trie.lnode_cmp (Trie.lnode_new a) (Trie.lnode_new b) in
  (cmp ($"alpha") ($"beta"), cmp ($"alpha") ($"aleph"), cmp ($"beta") ($"alpha"),
   cmp ($"alpha") ($""), cmp ($"") ($"alpha"), cmp ($"") ($"a"),
   Trie.cmp_str ($"") ($"a"), cmp ($"a") ($""))
  = (Ret Lt, Ret Eq, Ret Gt, Ret Gt, Ret Lt, Ret Lt, Ret Lt, Ret Gt).
Proof. vm_compute. reflexivity. Qed.

(** mod.rs:572-618 *)
Example trie_leaf :
  trie_run [pat 1 [L_ ($"app"); S_ ($"test") ($"01234"); L_ ($"le")]] ($"app23le")
  = Ret (Some (uid 1, [($"test", $"23")])).
Proof. vm_compute. reflexivity. Qed.
Example trie_built :
  (let* t := trie [pat 1 [L_ ($"app"); S_ ($"test") ($"01234"); L_ ($"le")];
                   pat 2 [L_ ($"appletree")]] in
   Ret (length (Trie.literal_children t))) = Ret 1.
Proof. vm_compute. reflexivity. Qed.

(** ** src/matcher/suffix_array/test.rs *)

Example table_longest :
  (let* t := table [pat 1 [L_ ($"app")]] in
   let* r := SuffixArray.longest_common_prefix t ($"app42") in
   Ret (option_map SuffixArray.le_literal r)) = Ret (Some ($"app")).
Proof. vm_compute. reflexivity. Qed.

(** ** src/grammar/test.rs *)

Definition int_ (name : str) : token := Parser (PInt (int_with_name name)).
Example grammar_one :
  map compile [$"%{INT:test_name}"; $"foo "; $"%{INT}"; $"%{SET(""0123456789""):test_set}"]
  = [Ret (Ok [int_ ($"test_name")]); Ret (Ok [L_ ($"foo ")]);
     Ret (Ok [Parser (PInt int_new)]); Ret (Ok [S_ ($"test_set") ($"0123456789")])].
Proof. vm_compute. reflexivity. Qed.
Example grammar_newline :
  compile ($"foo %{INT:int_0} " ++ [x0a] ++ $" bar %{INT:int_1}")
  = Ret (Ok [L_ ($"foo "); int_ ($"int_0"); L_ ($" " ++ [x0a] ++ $" bar "); int_ ($"int_1")]).
Proof. vm_compute. reflexivity. Qed.
Example grammar_greedy_rest :
  match nth_error (comp ($"bar %{GREEDY:greedy}")) 1 with
  | Some (Parser p) => (parser_name p, parser_parse p ($"the quick brown fox"))
  | _ => (None, Panic)
  end = (Some ($"greedy"), Ret (Some ($"the quick brown fox"))).
Proof. vm_compute. reflexivity. Qed.
Example grammar_unfinished :
  map compiles [$"foo %{INT:int_0 baz"; $"Jun %{INT:day %{INT:hour}:%{INT:min}:%{INT:sec}"]
  = [Ret false; Ret false].
Proof. vm_compute. reflexivity. Qed.

(** ** src/matcher/pattern/test.rs *)

(** A uuid in its usual form, standing for the uuid crate's parser. *)
Definition hex_digit (b : byte) : bool :=
  bset_contains ($"0123456789abcdefABCDEF") b.
Fixpoint parse_uuid_at (i : nat) (s : str) : bool :=
  match s with
  | [] => Nat.eqb i 36
  | b :: s' =>
      (if existsb (Nat.eqb i) [8; 13; 18; 23] then byte_eqb b x2d else hex_digit b)
      && parse_uuid_at (S i) s'
  end.
Definition parse_uuid_text (s : str) : option uuid := if parse_uuid_at 0 s then Some s else None.

Definition document (v : value) : outcome (result pattern de_error) := de_pattern parse_uuid_text v.
Definition document_error (v : value) : outcome (option de_error) :=
  let* r := document v in Ret (match r with Ok _ => None | Err e => Some e end).

Definition doc_full := VMap [($"name", VStr ($"SSH_DISCONNECT"));
 ($"pattern", VStr ($"Jun %{INT:day} %{INT:hour}:%{INT:min}:%{INT:sec} lobotomy sshd[%{INT:pid}]: Received disconnect from %{GREEDY:ipaddr}: %{INT:dunno}: disconnected by user"));
 ($"uuid", VStr ($"9a49c47d-29e9-4072-be84-3b76c6814743"));
 ($"values", VMap [($"key1", VStr ($"value1"));
 ($"key2", VStr ($"value2"))]);
 ($"tags", VSeq [VStr ($"tag1");
 VStr ($"tag2")])].
Example pattern_full :
  match document doc_full with
  | Ret (Ok p) =>
      pat_name p = Some ($"SSH_DISCONNECT")
      /\ pat_uuid p = $"9a49c47d-29e9-4072-be84-3b76c6814743"
      /\ option_map (fun m => map (bmap_get m) [$"key1"; $"key2"; $"key3"]) (pat_values p)
         = Some [Some ($"value1"); Some ($"value2"); None]
      /\ pat_tags p = Some [$"tag1"; $"tag2"]
      /\ length (pat_tokens p) = 15
  | _ => False
  end.
Proof. vm_compute. repeat split. Qed.

Definition doc_short := VMap [($"uuid", VStr ($"9a49c47d-29e9-4072-be84-3b76c6814743"));
 ($"pattern", VStr ($"Jun %{INT:day} %{INT:hour}:%{INT:min}:%{INT:sec} lobotomy sshd[%{INT:pid}]: Received disconnect from %{GREEDY:ipaddr}: %{INT:dunno}: disconnected by user"))].
Example pattern_short :
  match document doc_short with Ret (Ok p) => pat_name p = None | _ => False end.
Proof. vm_compute. reflexivity. Qed.

Definition docs := [VMap [($"uuid", VStr ($"sdfsdf-12f-sdfd--23"));
 ($"pattern", VStr ($"Jun %{INT:day} %{INT:hour}:%{INT:min}:%{INT:sec} lobotomy sshd[%{INT:pid}]: Received disconnect from %{GREEDY:ipaddr}: %{INT:dunno}: disconnected by user"))]; VMap [($"uuid", VStr ($"not valid uuid"));
 ($"pattern", VStr ($"Jun %{INT:day}"))];
VMap [($"uuid", VStr ($"231231212212423424324323477343246663"));
 ($"pattern", VStr ($"Jun %{INT:day}"))];
VMap [($"uuid", VStr ($"9a49c47d-29e9-4072-be84-3b76c6814743"));
 ($"pattern", VStr ($"Jun %{INT:da"))];
VMap [($"uuid", VStr ($"9a49c47d-29e9-4072-be84-3b76c6814743"))];
VMap [($"uuid", VStr ($"b3c778e3-f476-4df9-b5a1-aaf27a3b4e21"));
 ($"pattern", VStr ($"Jun %{INT:day}"))];
VMap [($"uuid", VStr ($"9a49c47d-29e9-4072-be84-3b76c6814743"));
 ($"pattern", VStr ($"Jun %{INT:day}"));
 ($"test_messages", VSeq [VMap [($"message", VStr ($"Jun 1"));
 ($"values", VMap [($"day", VStr ($"1"))])]])]].
Example pattern_errors :
  map document_error docs
  = [Ret (Some InvalidUuid); Ret (Some InvalidUuid); Ret (Some InvalidUuid);
     Ret (Some InvalidPattern); Ret (Some (MissingField ($"pattern"))); Ret None; Ret None].
Proof. vm_compute. reflexivity. Qed.

(** ** src/matcher/pattern/testmessage/test.rs *)

Definition lame := $"lame-servers: info: unexpected RCODE (REFUSED) resolving 'ns1.example.org/AAAA/IN': 192.0.2.1#53".
Definition tm_doc := VMap [($"message", VStr ($"lame-servers: info: unexpected RCODE (REFUSED) resolving 'ns1.example.org/AAAA/IN': 192.0.2.1#53"));
 ($"values", VMap [($"dnsqry.query", VStr ($"ns1.example.org"));
 ($"dnsqry.type", VStr ($"AAAA"));
 ($"dnsqry.class", VStr ($"IN"));
 ($"dnsqry.client_ip", VStr ($"192.0.2.1"));
 ($"dnsqry.client_port", VStr ($"53"));
 ($"dnslame.reason", VStr ($"unexpected RCODE (REFUSED)"))]);
 ($"tags", VSeq [VStr ($"tag1");
 VStr ($"tag2")])].
Example message_full :
  match de_test_message tm_doc with
  | Ok m => tm_message m = lame /\ length (tm_values m) = 6
            /\ tm_tags m = Some [$"tag1"; $"tag2"]
            /\ bmap_get (tm_values m) ($"dnsqry.type") = Some ($"AAAA")
  | Err _ => False
  end.
Proof. vm_compute. repeat split. Qed.
Example message_short :
  match de_test_message (VMap [($"message", VStr lame)]) with
  | Ok m => tm_message m = lame /\ tm_values m = []
  | Err _ => False
  end.
Proof. vm_compute. split; reflexivity. Qed.
Example message_errors :
  map de_test_message
      [VMap [($"values", VMap [($"dnsqry.query", VStr ($"ns1.example.org"))])];
       VMap [($"message", VStr lame); ($"field", VStr ($"this field is not in TestMessage"))]]
  = [Err (MissingField ($"message")); Err (UnexpectedField ($"field"))].
Proof. vm_compute. reflexivity. Qed.

(** ** tests/file/mod.rs and tests/matcher/mod.rs

    The directory as seen by the program: files known by name, their content
    being the document of the same name. *)

Definition file_ssh_ok := VMap [($"patterns", VSeq [VMap [($"uuid", VStr ($"c11c806a-766d-4a09-9f24-7de1fe02e51e"));
 ($"name", VStr ($"SSH_PUBKEY"));
 ($"pattern", VStr ($"Jun %{INT:day} %{INT:hour}:%{INT:min}:%{INT:sec} lobotomy sshd[%{INT:pid}]: Accepted publickey for zts from %{INT:oct0}.%{INT:oct1}.%{INT:oct2}.%{INT:oct3} port %{INT:port} ssh2"))];
 VMap [($"name", VStr ($"SSH_DISCONNECT"));
 ($"uuid", VStr ($"9a49c47d-29e9-4072-be84-3b76c6814743"));
 ($"pattern", VStr ($"Jun %{INT:day} %{INT:hour}:%{INT:min}:%{INT:sec} lobotomy sshd[%{INT:pid}]: Received disconnect from %{GREEDY:ipaddr}: %{INT:dunno}: disconnected by user"))];
 VMap [($"uuid", VStr ($"fa8bdbcb-e0fd-4da1-9fa4-15ecfec28ad2"));
 ($"pattern", VStr ($"Jun %{INT:day} %{INT:hour}:%{INT:min}:%{INT:sec} lobotomy sshd[%{INT:pid}]: pam_unix(sshd:session): session closed for user zts"));
 ($"test_messages", VSeq [VMap [($"message", VStr ($"Jun 12 1:2:3 lobotomy sshd[2000]: pam_unix(sshd:session): session closed for user zts"));
 ($"values", VMap [($"day", VStr ($"12"));
 ($"hour", VStr ($"1"));
 ($"min", VStr ($"2"));
 ($"sec", VStr ($"3"));
 ($"pid", VStr ($"2000"))])]])]])].
Definition matcher_ssh_ok := VMap [($"patterns", VSeq [VMap [($"uuid", VStr ($"c11c806a-766d-4a09-9f24-7de1fe02e51e"));
 ($"name", VStr ($"SSH_PUBKEY"));
 ($"pattern", VStr ($"Jun %{INT:day} %{INT:hour}:%{INT:min}:%{INT:sec} lobotomy sshd[%{INT:pid}]: Accepted publickey for zts from %{INT:oct0}.%{INT:oct1}.%{INT:oct2}.%{INT:oct3} port %{INT:port} ssh2"))];
 VMap [($"name", VStr ($"SSH_DISCONNECT"));
 ($"uuid", VStr ($"9a49c47d-29e9-4072-be84-3b76c6814743"));
 ($"pattern", VStr ($"Jun %{INT:day} %{INT:hour}:%{INT:min}:%{INT:sec} lobotomy sshd[%{INT:pid}]: Received disconnect from %{GREEDY:ipaddr}: %{INT:dunno}: disconnected by user"))];
 VMap [($"uuid", VStr ($"fa8bdbcb-e0fd-4da1-9fa4-15ecfec28ad2"));
 ($"pattern", VStr ($"Jun %{INT:day} %{INT:hour}:%{INT:min}:%{INT:sec} lobotomy sshd[%{INT:pid}]: pam_unix(sshd:session): session closed for user zts"));
 ($"values", VMap [($"add1", VStr ($"v1"));
 ($"add2", VStr ($"v2"))]);
 ($"tags", VSeq [VStr ($"foo");
 VStr ($"bar");
 VStr ($"baz")]);
 ($"test_messages", VSeq [VMap [($"message", VStr ($"Jun 25 14:09:41 lobotomy sshd[26478]: pam_unix(sshd:session): session closed for user zts"));
 ($"values", VMap [($"day", VStr ($"25"));
 ($"hour", VStr ($"14"));
 ($"min", VStr ($"09"));
 ($"sec", VStr ($"41"));
 ($"pid", VStr ($"26478"));
 ($"add1", VStr ($"v1"));
 ($"add2", VStr ($"v2"))]);
 ($"tags", VSeq [VStr ($"foo");
 VStr ($"bar");
 VStr ($"baz")])]])]])].
Definition matcher_tags := VMap [($"patterns", VSeq [VMap [($"uuid", VStr ($"c11c806a-766d-4a09-9f24-7de1fe02e51e"));
 ($"name", VStr ($"SSH_PUBKEY"));
 ($"pattern", VStr ($"Jun %{INT:day} %{INT:hour}:%{INT:min}:%{INT:sec} lobotomy sshd[%{INT:pid}]: Accepted publickey for zts from %{INT:oct0}.%{INT:oct1}.%{INT:oct2}.%{INT:oct3} port %{INT:port} ssh2"))];
 VMap [($"name", VStr ($"SSH_DISCONNECT"));
 ($"uuid", VStr ($"9a49c47d-29e9-4072-be84-3b76c6814743"));
 ($"pattern", VStr ($"Jun %{INT:day} %{INT:hour}:%{INT:min}:%{INT:sec} lobotomy sshd[%{INT:pid}]: Received disconnect from %{GREEDY:ipaddr}: %{INT:dunno}: disconnected by user"))];
 VMap [($"uuid", VStr ($"fa8bdbcb-e0fd-4da1-9fa4-15ecfec28ad2"));
 ($"pattern", VStr ($"Jun %{INT:day} %{INT:hour}:%{INT:min}:%{INT:sec} lobotomy sshd[%{INT:pid}]: pam_unix(sshd:session): session closed for user zts"));
 ($"values", VMap [($"add1", VStr ($"v1"));
 ($"add2", VStr ($"v2"))]);
 ($"tags", VSeq [VStr ($"foo");
 VStr ($"baz")]);
 ($"test_messages", VSeq [VMap [($"message", VStr ($"Jun 25 14:09:41 lobotomy sshd[26478]: pam_unix(sshd:session): session closed for user zts"));
 ($"values", VMap [($"day", VStr ($"25"));
 ($"hour", VStr ($"14"));
 ($"min", VStr ($"09"));
 ($"sec", VStr ($"41"));
 ($"pid", VStr ($"26478"));
 ($"add1", VStr ($"v1"));
 ($"add2", VStr ($"v2"))]);
 ($"tags", VSeq [VStr ($"foo");
 VStr ($"bar");
 VStr ($"baz")])]])]])].
Definition matcher_no_tags := VMap [($"patterns", VSeq [VMap [($"uuid", VStr ($"c11c806a-766d-4a09-9f24-7de1fe02e51e"));
 ($"name", VStr ($"SSH_PUBKEY"));
 ($"pattern", VStr ($"Jun %{INT:day} %{INT:hour}:%{INT:min}:%{INT:sec} lobotomy sshd[%{INT:pid}]: Accepted publickey for zts from %{INT:oct0}.%{INT:oct1}.%{INT:oct2}.%{INT:oct3} port %{INT:port} ssh2"))];
 VMap [($"name", VStr ($"SSH_DISCONNECT"));
 ($"uuid", VStr ($"9a49c47d-29e9-4072-be84-3b76c6814743"));
 ($"pattern", VStr ($"Jun %{INT:day} %{INT:hour}:%{INT:min}:%{INT:sec} lobotomy sshd[%{INT:pid}]: Received disconnect from %{GREEDY:ipaddr}: %{INT:dunno}: disconnected by user"))];
 VMap [($"uuid", VStr ($"fa8bdbcb-e0fd-4da1-9fa4-15ecfec28ad2"));
 ($"pattern", VStr ($"Jun %{INT:day} %{INT:hour}:%{INT:min}:%{INT:sec} lobotomy sshd[%{INT:pid}]: pam_unix(sshd:session): session closed for user zts"));
 ($"values", VMap [($"add1", VStr ($"v1"));
 ($"add2", VStr ($"v2"))]);
 ($"tags", VSeq [VStr ($"foo");
 VStr ($"baz")]);
 ($"test_messages", VSeq [VMap [($"message", VStr ($"Jun 25 14:09:41 lobotomy sshd[26478]: pam_unix(sshd:session): session closed for user zts"));
 ($"values", VMap [($"day", VStr ($"25"));
 ($"hour", VStr ($"14"));
 ($"min", VStr ($"09"));
 ($"sec", VStr ($"41"));
 ($"pid", VStr ($"26478"));
 ($"add1", VStr ($"v1"));
 ($"add2", VStr ($"v2"))]);
 ($"tags", VSeq [VStr ($"foo");
 VStr ($"bar");
 VStr ($"baz")])]])]])].
Definition matcher_values := VMap [($"patterns", VSeq [VMap [($"uuid", VStr ($"fa8bdbcb-e0fd-4da1-9fa4-15ecfec28ad2"));
 ($"pattern", VStr ($"Jun %{INT:day} %{INT:hour}:%{INT:min}:%{INT:sec} lobotomy sshd[%{INT:pid}]: pam_unix(sshd:session): session closed for user zts"));
 ($"values", VMap [($"add2", VStr ($"v2"))]);
 ($"test_messages", VSeq [VMap [($"message", VStr ($"Jun 25 14:09:41 lobotomy sshd[26478]: pam_unix(sshd:session): session closed for user zts"));
 ($"values", VMap [($"add2", VStr ($"v2"));
 ($"day", VStr ($"25"))])]])]])].
Definition matcher_no_value := VMap [($"patterns", VSeq [VMap [($"uuid", VStr ($"fa8bdbcb-e0fd-4da1-9fa4-15ecfec28ad2"));
 ($"pattern", VStr ($"Jun %{INT:day} %{INT:hour}:%{INT:min}:%{INT:sec} lobotomy sshd[%{INT:pid}]: pam_unix(sshd:session): session closed for user zts"));
 ($"values", VMap [($"key", VStr ($"value"))]);
 ($"test_messages", VSeq [VMap [($"message", VStr ($"Jun 25 14:09:41 lobotomy sshd[26478]: pam_unix(sshd:session): session closed for user zts"));
 ($"values", VMap [($"not_there", VStr ($"v2"))])]])]])].
Definition matcher_multiline := VMap [($"patterns", VSeq [VMap [($"uuid", VStr ($"fa8bdbcb-e0fd-4da1-9fa4-15ecfec28ad2"));
 ($"pattern", VStr ($"lobotomy sshd[%{INT:pid}]:" ++ [x0a] ++ $"pam_unix(%{GREEDY:session}): session closed for user zts"));
 ($"test_messages", VSeq [VMap [($"message", VStr ($"lobotomy sshd[26478]:" ++ [x0a] ++ $"pam_unix(sshd:session): session closed for user zts"));
 ($"values", VMap [($"pid", VStr ($"26478"));
 ($"session", VStr ($"sshd:session"))])]])]])].
Definition matcher_not_local := VMap [($"patterns", VSeq [VMap [($"pattern", VStr ($"%{GREEDY:foo}"));
 ($"test_messages", VSeq [VMap [($"message", VStr ($"named: zone coagulants.devotions.tld/IN: NS 'gateway.pecs-mikro.hu.coagulants.devotions.tld' has no address records (A or AAAA)"))]]);
 ($"uuid", VStr ($"4a853792-2fad-44da-9b4b-059a0caad6e2"))];
 VMap [($"uuid", VStr ($"1252c927-b0a3-4ce7-b863-da1427dc57ef"));
 ($"pattern", VStr ($"named: zone %{GREEDY:appacct.zone_name}/IN: NS '%{GREEDY:appacct.zone_ns}' has no address records (A or AAAA)"));
 ($"test_messages", VSeq [VMap [($"message", VStr ($"named: zone foo.bar.tld/IN: NS 'gateway.pecs-mikro.hu.coagulants.devotions.tld' has no address records (A or AAAA)"))]])]])].

Definition disk : list (str * option value) :=
  [($"tests/file/ssh_ok.json", Some file_ssh_ok);
   ($"tests/file/ssh_ok.yaml", Some file_ssh_ok);
   ($"tests/file/ssh_wrong.json", None);
   ($"tests/matcher/ssh_ok.json", Some matcher_ssh_ok);
   ($"tests/matcher/ssh_wrong.json", None);
   ($"tests/matcher/ssh_only_expected_tags_are_checked.json", Some matcher_tags);
   ($"tests/matcher/ssh_tags_are_not_there.json", Some matcher_no_tags);
   ($"tests/matcher/ssh_only_expected_values_are_checked.json", Some matcher_values);
   ($"tests/matcher/ssh_when_an_expected_value_is_not_found_we_fail.json", Some matcher_no_value);
   ($"tests/matcher/ssh_we_can_parse_multiline_messages.json", Some matcher_multiline);
   ($"tests/matcher/pattern_validation_should_not_be_local.json", Some matcher_not_local)].
Definition lookup_file (path : str) : option (option value) :=
  option_map snd (find (fun f => str_eqb (fst f) path) disk).
Definition open_ (path : str) : result (str * option str) str :=
  match lookup_file path with
  | Some _ => Ok (path, None)
  | None => Err ($"No such file or directory")
  end.
(** The ssh_wrong files are no JSON (a missing brace and a trailing comma). *)
Definition from_str_ (content : str) : outcome (result (list pattern) str) :=
  match lookup_file content with
  | Some (Some v) =>
      let* r := de_pattern_file parse_uuid_text v in
      Ret (match r with Ok ps => Ok ps | Err _ => Err ($"document") end)
  | _ => Ret (Err ($"syntax"))
  end.

Definition loaded (name : str) : outcome (result nat build_error) :=
  let* r := load_file open_ from_str_ from_str_ ($"tests/file/" ++ name) in
  Ret (match r with Ok ps => Ok (length ps) | Err e => Err e end).
Example file_tests :
  map loaded [$"ssh_ok.json"; $"ssh_wrong.json"; $"ssh_non_existing.json"; $"ssh_ok.yaml";
              $"ssh_non_existing.yaml"]
  = [Ret (Ok 3); Ret (Err (DeserJson ($"syntax"))); Ret (Err (Io ($"No such file or directory")));
     Ret (Ok 3); Ret (Err (Io ($"No such file or directory")))].
Proof. vm_compute. reflexivity. Qed.

Definition built_ (name : str) : outcome (option build_error) :=
  let* r := from_file (trie_ops siphash) open_ from_str_ from_str_ ($"tests/matcher/" ++ name) in
  Ret (match r with Ok _ => None | Err e => Some e end).
Example matcher_tests_ok :
  map built_ [$"ssh_ok.json"; $"ssh_only_expected_values_are_checked.json";
              $"ssh_we_can_parse_multiline_messages.json"]
  = [Ret None; Ret None; Ret None].
Proof. vm_compute. reflexivity. Qed.
Example matcher_tests_err :
  forallb (fun name => match built_ name with Ret (Some _) => true | _ => false end)
    [$"ssh_wrong.json"; $"ssh_non_existing.json"; $"ssh_tags_are_not_there.json";
     $"ssh_only_expected_tags_are_checked.json";
     $"ssh_when_an_expected_value_is_not_found_we_fail.json";
     $"pattern_validation_should_not_be_local.json"] = true.
Proof. vm_compute. reflexivity. Qed.

(** The lines of tests/ssh_log.txt and the patterns of tests/file/ssh_ok.json:
    each line is matched by one of the patterns when it is alone, but a trie
    with the three patterns has kept only the last, all beginning with the
    literal "Jun " (see C139). *)
Definition log_uuid (line : str) : outcome (list (option uuid) * option uuid) :=
  let* r := from_str_ ($"tests/file/ssh_ok.json") in
  match r with
  | Ok ps =>
      let run ps := let* r := trie_run ps line in Ret (option_map fst r) in
      let* alone := fold_right (fun p acc => let* l := acc in
                                             let* u := run [p] in Ret (u :: l)) (Ret []) ps in
      let* together := run ps in
      Ret (alone, together)
  | Err _ => Panic
  end.
Example log_lines :
  map log_uuid
    [$"Jun 25 14:09:41 lobotomy sshd[26657]: Received disconnect from 10.30.0.35: 11: disconnected by user";
     $"Jun 25 14:09:41 lobotomy sshd[26478]: pam_unix(sshd:session): session closed for user zts";
     $"Jun 25 14:09:58 lobotomy sshd[26665]: Accepted publickey for zts from 10.30.0.35 port 40685 ssh2"]
  = [Ret ([None; Some u_disc; None], None); Ret ([None; None; Some u_pam], Some u_pam);
     Ret ([Some u_pubkey; None; None], None)].
Proof. vm_compute. reflexivity. Qed.
