(** * What the option -P of the converter costs *)
From Verif Require Import Base Base_facts Parsers Pattern Spec Spec_table Spec_content Source Spec_source Grammar Spec_grammar Grammar_claims
  Content_claims Deser Spec_deser Deser_claims Document_claims Pdb2adb Spec_pdb Pdbread Spec_pdbread Pdbread_claims Spec_prefix
  Prefix_claims.

Lemma file_apart parse_uuid v ps : utf8_document v -> file_value parse_uuid v ps -> Forall apart_literals ps.
Proof.
  intros H F. apply Forall_forall. intros p I. destruct (file_texts parse_uuid utf8 v ps p H F I) as (x & Hx & V).
  destruct (pattern_texts parse_uuid utf8 x p Hx V) as ((s & U & C) & _). apply (compile_shape s _ U C).
Qed.

(** A pattern that an earlier one of the file displaces is never reported. *)
Lemma displaced_silent ps i j p q (x : match_result) :
  NoDup (map pat_uuid ps) -> i < j -> nth_error ps i = Some p -> nth_error ps j = Some q ->
  displaces (pat_tokens p) (pat_tokens q) ->
  (exists before y after, ps = before ++ y :: after /\
     (forall z, In z before -> ~ displaces (pat_tokens z) (pat_tokens y)) /\ mr_pattern x = stripped (untested y)) ->
  pat_uuid (mr_pattern x) <> pat_uuid q.
Proof.
  intros ND L Hp Hq D (before & y & after & E & Hd & Ey) U. rewrite Ey in U. change (pat_uuid y = pat_uuid q) in U.
  assert (nth_error ps (length before) = Some y) as Hy by (rewrite E, nth_error_app2, Nat.sub_diag by lia; reflexivity).
  assert (length before = j) as Ej.
  { apply (proj1 (NoDup_nth_error (map pat_uuid ps)) ND).
    - rewrite map_length, E, app_length. simpl. lia.
    - rewrite !nth_error_map, Hy, Hq. simpl. congruence. }
  assert (y = q) as -> by congruence.
  apply (Hd p); [|exact D]. apply (nth_error_In before i). rewrite <- Ej in L. rewrite E in Hp. rewrite nth_error_app1 in Hp by lia. exact Hp.
Qed.

Section Program.
Variables (examples : bool) (fresh : nat -> str) (parse_uuid : str -> option uuid) (db : list pdb_ruleset) (doc : value)
  (pats : list pattern) (sip : str -> N).
Hypotheses (S : standard db) (D : script examples true fresh (pdb_xml db) = Ret doc) (U : utf8_document doc)
  (L : de_pattern_file parse_uuid doc = Ret (Ok pats)) (F : collision_free sip pats) (ND : NoDup (map pat_uuid pats)).
Variables (i j : nat) (res res' : nat * source * str) (q : pattern) (x x' : parser) (ts ts' : list token).
Hypotheses (Lt : i < j)
  (Hi : nth_error (results p2p (sources_in examples db)) i = Some res)
  (Hj : nth_error (results p2p (sources_in examples db)) j = Some res')
  (Hq : nth_error pats j = Some q)
  (Same : src_program (snd (fst res')) = src_program (snd (fst res)))
  (P : plain_front (src_program (snd (fst res)) ++ $": ")) (U1 : utf8 (snd res)) (U2 : utf8 (snd res'))
  (C1 : compile (snd res) = Ret (Ok (Parser x :: ts))) (C2 : compile (snd res') = Ret (Ok (Parser x' :: ts'))).

Lemma program_displaces : exists p, nth_error pats i = Some p /\ displaces (pat_tokens p) (pat_tokens q).
Proof.
  destruct (script_loaded _ _ _ _ _ _ _ S D L) as (E & H).
  destruct (nth_error pats i) as [p|] eqn:Hp.
  2: { apply nth_error_None in Hp. rewrite E in Hp. apply nth_error_None in Hp. congruence. }
  exists p. split; [reflexivity|].
  pose proof (bc_tokens _ _ _ _ _ _ (H i res p Hi Hp)) as B. pose proof (bc_tokens _ _ _ _ _ _ (H j res' q Hj Hq)) as B'.
  unfold prefixed in B, B'. rewrite Same in B'. rewrite app_assoc in B, B'.
  rewrite (compile_behind _ _ _ P U1 C1) in B. rewrite (compile_behind _ _ _ P U2 C2) in B'.
  injection B as <-. injection B' as <-. eexists _, _, _. split; [reflexivity|]. split; [reflexivity|]. split; discriminate.
Qed.

Theorem program_trie m text r :
  from_source (trie_ops sip) (map (fun p => Ok p) (rev pats)) = Ret (Ok m) \/
    from_source_ignore_errors (trie_ops sip) (map (fun p => Ok p) (rev pats)) = Ret m ->
  utf8 text -> mo_parse (trie_ops sip) m text = Ret (Some r) -> pat_uuid (mr_pattern r) <> pat_uuid q.
Proof.
  intros Hm Ht Hr. pose proof (proj1 (de_file_ok parse_uuid doc pats) L) as L1. destruct (file_valid parse_uuid doc pats U L1) as (V & _).
  destruct program_displaces as (p & Hp & Dp).
  destruct (trie_file_reported pats sip V F m text r (file_apart _ _ _ U L1) Hm Ht Hr) as (before & y & after & caps & E & Hd & Ey & _).
  apply (displaced_silent pats i j p q r); eauto 10.
Qed.

Theorem program_table m text r :
  from_source (table_ops sip) (map (fun p => Ok p) (rev pats)) = Ret (Ok m) \/
    from_source_ignore_errors (table_ops sip) (map (fun p => Ok p) (rev pats)) = Ret m ->
  utf8 text -> mo_parse (table_ops sip) m text = Ret (Some r) -> pat_uuid (mr_pattern r) <> pat_uuid q.
Proof.
  intros Hm Ht Hr. pose proof (proj1 (de_file_ok parse_uuid doc pats) L) as L1. destruct (file_valid parse_uuid doc pats U L1) as (V & _).
  destruct program_displaces as (p & Hp & Dp).
  destruct (table_file_reported pats sip V F m text r Hm Ht Hr) as (before & y & after & caps & E & Hd & Ey & _).
  apply (displaced_silent pats i j p q r); eauto 10.
Qed.
End Program.
