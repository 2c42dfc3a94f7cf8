(** * The JSON example of README.md *)
From Verif Require Import Base Base_facts Utils Utils_facts Parsers Pattern Spec Spec_grammar Spec_trie Spec_table Spec_source
  TrieSpec Spec_panics Spec_content Content_claims Grammar Grammar_claims Source Source_claims Siphash Deciders Tests.
From Verif Require Trie SuffixArray.

(** The two patterns, in the order of the file (README.md:31-44). *)
Definition readme_a : pattern :=
  tpat 1 ($"Jun %{INT:day} %{INT:hour}:%{INT:min}:%{INT:sec} lobotomy sshd[%{INT:pid}]: Received disconnect from %{GREEDY:ipaddr}: %{INT:dunno}: disconnected by user").
Definition readme_b : pattern :=
  tpat 2 ($"Jun %{INT:day} %{INT:hour}:%{INT:min}:%{INT:sec} lobotomy sshd[%{INT:pid}]: pam_unix(sshd:session): session closed for user zts").
Definition readme_file : list pattern := [readme_a; readme_b].
(** Messages for them. *)
Definition readme_first : str :=
  $"Jun 25 14:09:58 lobotomy sshd[26665]: Received disconnect from 1.2.3.4: 11: disconnected by user".
Definition readme_second : str :=
  $"Jun 25 14:09:58 lobotomy sshd[26665]: pam_unix(sshd:session): session closed for user zts".

Lemma readme_displaces : displaces (pat_tokens readme_a) (pat_tokens readme_b).
Proof. eexists _, _, _. split; [vm_compute; reflexivity|]. split; [vm_compute; reflexivity|]. split; discriminate. Qed.

Lemma readme_uuid : stripped (untested readme_a) <> stripped (untested readme_b).
Proof. intros E. apply (f_equal pat_uuid) in E. vm_compute in E. discriminate. Qed.

Lemma readme_valid : Forall valid_pattern readme_file.
Proof.
  assert (forall n s, ascii s = true -> match compile s with Ret (Ok _) => True | _ => False end -> valid_pattern (tpat n s)) as H.
  { intros n s Hs Hc. unfold tpat, valid_pattern. destruct (compile s) as [[ts|e]| |] eqn:E; try contradiction.
    assert (comp s = ts) as -> by (unfold comp; rewrite E; reflexivity).
    exact (compile_valid s ts (ascii_utf8 s Hs) E). }
  constructor; [|constructor; [|constructor]]; (apply H; [vm_compute; reflexivity|vm_compute; exact I]).
Qed.

Lemma readme_apart : Forall apart_literals readme_file.
Proof. vm_compute. repeat constructor. Qed.

Lemma readme_collision_free : collision_free siphash readme_file.
Proof. apply collision_freeb_sound. vm_compute. reflexivity. Qed.

Lemma readme_utf8 : utf8 readme_second.
Proof. apply ascii_utf8. vm_compute. reflexivity. Qed.

(** The second pattern alone matches its message. *)
Lemma readme_walk : exists caps, walk (pat_tokens readme_b) readme_second caps.
Proof.
  destruct (Trie.add_patterns siphash Trie.tree_new [readme_b]) as [t| |] eqn:H1; [|vm_compute in H1; discriminate..].
  destruct (Trie.parse t readme_second) as [[r|]| |] eqn:H2.
  2-4: exfalso; assert ((let* t := Trie.add_patterns siphash Trie.tree_new [readme_b] in
                         let* r := Trie.parse t readme_second in Ret (match r with Some _ => true | None => false end)) = Ret true) as X
         by (vm_compute; reflexivity); rewrite H1 in X; cbn [bind] in X; rewrite H2 in X; discriminate.
  pose proof readme_valid as V. inversion V as [|? ? _ V1]; subst.
  destruct (Trie_main.trie_sound siphash [readme_b] t readme_second r) as (p & caps & Hi & _ & W & _).
  - exact V1.
  - apply (Trie_main.collision_free_incl siphash readme_file); [|exact readme_collision_free].
    intros p Hp. right. exact Hp.
  - exact H1.
  - exact readme_utf8.
  - exact H2.
  - destruct Hi as [<-|[]]. exists caps. exact W.
Qed.

(** A file of two patterns, of which the first displaces the second. *)
Lemma second_never sip a b m :
  Forall valid_pattern [a; b] -> Forall apart_literals [a; b] -> collision_free sip [a; b] ->
  displaces (pat_tokens a) (pat_tokens b) -> stripped (untested a) <> stripped (untested b) ->
  from_source (trie_ops sip) (map (fun p => Ok p) (rev [a; b])) = Ret (Ok m) ->
  forall text r, utf8 text -> mo_parse (trie_ops sip) m text = Ret (Some r) ->
    mr_pattern r <> stripped (untested b).
Proof.
  intros V A C D N Em text r Ht Hr E.
  destruct (trie_file_reported [a; b] sip V C m text r A (or_introl Em) Ht Hr)
    as (before & p & after & caps' & Es & Hd & Ep & _).
  destruct before as [|x [|y before]].
  - inversion Es; subst p. congruence.
  - inversion Es; subst x p. apply (Hd a); [left; reflexivity|exact D].
  - inversion Es as [[E1 E2 E3]]. symmetry in E3. apply app_eq_nil in E3. destruct E3. discriminate.
Qed.

Theorem readme_never :
  exists ps p text caps,
    Forall valid_pattern ps /\ Forall apart_literals ps /\ collision_free siphash ps /\ In p ps /\
    utf8 text /\ walk (pat_tokens p) text caps /\
    exists m, from_source (trie_ops siphash) (map (fun p => Ok p) (rev ps)) = Ret (Ok m) /\
      mo_parse (trie_ops siphash) m text = Ret None /\
      forall text r, utf8 text -> mo_parse (trie_ops siphash) m text = Ret (Some r) ->
        mr_pattern r <> stripped (untested p).
Proof.
  destruct readme_walk as (caps & W).
  exists readme_file, readme_b, readme_second, caps.
  split; [exact readme_valid|]. split; [exact readme_apart|]. split; [exact readme_collision_free|].
  split; [right; left; reflexivity|]. split; [exact readme_utf8|]. split; [exact W|].
  destruct (from_source (trie_ops siphash) (map (fun p => Ok p) (rev readme_file))) as [[m|e]| |] eqn:Em;
    [|vm_compute in Em; discriminate..].
  exists m. split; [reflexivity|]. split.
  { assert ((let* x := from_source (trie_ops siphash) (map (fun p => Ok p) (rev readme_file)) in
             match x with Ok m => mo_parse (trie_ops siphash) m readme_second | Err _ => Panic end) = Ret None) as X
      by (vm_compute; reflexivity).
    rewrite Em in X. exact X. }
  exact (second_never siphash readme_a readme_b m readme_valid readme_apart readme_collision_free
           readme_displaces readme_uuid Em).
Qed.
