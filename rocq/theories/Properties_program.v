(** * Property C153: what the option -P of the converter costs *)
From Verif Require Import Base Base_facts Parsers Pattern Siphash Spec Spec_table Source Spec_source Grammar Deser Spec_deser Errors Pdb2adb Spec_pdb
  Pdbread Spec_pdbread Spec_prefix Program_claims Document_claims Deciders Tests Properties_pdbread Properties_deser.

(** ** C153: "What the patterns converted without -P match, the ones converted with
    -P match behind the program" is wrong *)
Definition shop_db : list pdb_ruleset :=
  [PdbRuleset ($"shop") ($"s1") [$"shop"]
     [PdbRule ($"one") [$"@NUMBER:n@ items"] [PdbExample ($"3 items") (Some ($"shop")) [($"n", $"3")]] [] [];
      PdbRule ($"two") [$"@STRING:who@ left"] [PdbExample ($"ann left") (Some ($"shop")) [($"who", $"ann")]] [] []]].
Lemma shop_standard : standard shop_db.
Proof.
  constructor.
  - intros s [<-|[]]. split; discriminate.
  - cbn. constructor; [intros []|constructor].
  - cbn. constructor; [intros [E|[]]; discriminate E|constructor; [intros []|constructor]].
  - intros r [<-|[<-|[]]]; (split; [constructor|]); intros x [<-|[]]; (constructor; [intros []|constructor]).
Qed.
Theorem C153_kept_refuted :
  exists db doc doc' pats pats' m m' r,
    standard db /\ (forall s, In s db -> ps_programs s = [$"shop"]) /\
    script true false example_uuids (pdb_xml db) = Ret doc /\ de_pattern_file Some doc = Ret (Ok pats) /\
    script true true example_uuids (pdb_xml db) = Ret doc' /\ de_pattern_file Some doc' = Ret (Ok pats') /\
    from_source (trie_ops siphash) (map (fun p => Ok p) (rev pats)) = Ret (Ok m) /\
    from_source (trie_ops siphash) (map (fun p => Ok p) (rev pats')) = Ret (Ok m') /\
    mo_parse (trie_ops siphash) m ($"ann left") = Ret (Some r) /\
    mo_parse (trie_ops siphash) m' ($"shop: " ++ $"ann left") = Ret None.
Proof.
  exists shop_db. do 7 eexists. split; [exact shop_standard|]. split; [intros s [<-|[]]; reflexivity|].
  split; [vm_compute; reflexivity|]. split; [vm_compute; reflexivity|]. split; [vm_compute; reflexivity|].
  split; [vm_compute; reflexivity|]. split; [vm_compute; reflexivity|]. split; [vm_compute; reflexivity|].
  split; vm_compute; reflexivity.
Qed.
Print Assumptions C153_kept_refuted.

(** With -P, of the patterns of a program that begin with a parser only the first
    one in the file is ever reported. *)
Theorem C153_first_only_trie :
  forall examples fresh parse_uuid db doc pats sip,
    standard db -> script examples true fresh (pdb_xml db) = Ret doc -> utf8_document doc ->
    de_pattern_file parse_uuid doc = Ret (Ok pats) -> collision_free sip pats -> NoDup (map pat_uuid pats) ->
    forall i j res res' q x x' ts ts', i < j ->
      nth_error (results p2p (sources_in examples db)) i = Some res ->
      nth_error (results p2p (sources_in examples db)) j = Some res' -> nth_error pats j = Some q ->
      src_program (snd (fst res')) = src_program (snd (fst res)) ->
      plain_front (src_program (snd (fst res)) ++ $": ") -> utf8 (snd res) -> utf8 (snd res') ->
      compile (snd res) = Ret (Ok (Parser x :: ts)) -> compile (snd res') = Ret (Ok (Parser x' :: ts')) ->
      forall m text r,
        from_source (trie_ops sip) (map (fun p => Ok p) (rev pats)) = Ret (Ok m) \/
          from_source_ignore_errors (trie_ops sip) (map (fun p => Ok p) (rev pats)) = Ret m ->
        utf8 text -> mo_parse (trie_ops sip) m text = Ret (Some r) -> pat_uuid (mr_pattern r) <> pat_uuid q.
Proof. exact program_trie. Qed.
Print Assumptions C153_first_only_trie.
Theorem C153_first_only_table :
  forall examples fresh parse_uuid db doc pats sip,
    standard db -> script examples true fresh (pdb_xml db) = Ret doc -> utf8_document doc ->
    de_pattern_file parse_uuid doc = Ret (Ok pats) -> collision_free sip pats -> NoDup (map pat_uuid pats) ->
    forall i j res res' q x x' ts ts', i < j ->
      nth_error (results p2p (sources_in examples db)) i = Some res ->
      nth_error (results p2p (sources_in examples db)) j = Some res' -> nth_error pats j = Some q ->
      src_program (snd (fst res')) = src_program (snd (fst res)) ->
      plain_front (src_program (snd (fst res)) ++ $": ") -> utf8 (snd res) -> utf8 (snd res') ->
      compile (snd res) = Ret (Ok (Parser x :: ts)) -> compile (snd res') = Ret (Ok (Parser x' :: ts')) ->
      forall m text r,
        from_source (table_ops sip) (map (fun p => Ok p) (rev pats)) = Ret (Ok m) \/
          from_source_ignore_errors (table_ops sip) (map (fun p => Ok p) (rev pats)) = Ret m ->
        utf8 text -> mo_parse (table_ops sip) m text = Ret (Some r) -> pat_uuid (mr_pattern r) <> pat_uuid q.
Proof. exact program_table. Qed.
Print Assumptions C153_first_only_table.

(** The file above is such a file, in both matchers. *)
Example C153_example :
  exists doc p q a b m m',
    script true true example_uuids (pdb_xml shop_db) = Ret doc /\ utf8_document doc /\
    de_pattern_file Some doc = Ret (Ok [p; q]) /\ collision_free siphash [p; q] /\ NoDup (map pat_uuid [p; q]) /\
    results p2p (sources_in true shop_db) = [a; b] /\ src_program (snd (fst b)) = src_program (snd (fst a)) /\
    plain_front (src_program (snd (fst a)) ++ $": ") /\
    (exists x ts, compile (snd a) = Ret (Ok (Parser x :: ts))) /\ (exists x ts, compile (snd b) = Ret (Ok (Parser x :: ts))) /\
    from_source (trie_ops siphash) (map (fun p => Ok p) (rev [p; q])) = Ret (Ok m) /\
    from_source (table_ops siphash) (map (fun p => Ok p) (rev [p; q])) = Ret (Ok m') /\
    mo_parse (trie_ops siphash) m ($"shop: ann left") = Ret None /\ mo_parse (table_ops siphash) m' ($"shop: ann left") = Ret None /\
    exists r, mo_parse (trie_ops siphash) m ($"shop: 3 items") = Ret (Some r) /\ pat_uuid (mr_pattern r) = pat_uuid p.
Proof.
  do 7 eexists. split; [vm_compute; reflexivity|]. split; [apply Document_claims.ascii_doc_utf8, Document_claims.ascii_documentb_sound; vm_compute; reflexivity|].
  split; [vm_compute; reflexivity|]. split; [apply collision_freeb_sound; vm_compute; reflexivity|].
  split; [vm_compute; constructor; [intros [E|[]]; discriminate E|constructor; [intros []|constructor]]|].
  split; [vm_compute; reflexivity|]. split; [vm_compute; reflexivity|].
  split; [repeat split; [apply utf8b_sound; vm_compute; reflexivity|discriminate|intros I; vm_compute in I; intuition discriminate..]|].
  split; [do 2 eexists; vm_compute; reflexivity|]. split; [do 2 eexists; vm_compute; reflexivity|].
  split; [vm_compute; reflexivity|]. split; [vm_compute; reflexivity|]. split; [vm_compute; reflexivity|]. split; [vm_compute; reflexivity|].
  eexists. split; vm_compute; reflexivity.
Qed.
