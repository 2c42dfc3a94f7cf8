(** * Properties C149 and C150: patterns with characters beyond ASCII *)
From Verif Require Import Base Base_facts Utils Parsers Pattern Spec Spec_trie Spec_table Spec_live Spec_panics Live_claims
  Own_claims Grammar Grammar_claims Siphash Deciders Tests.
From Verif Require Trie SuffixArray.

(** ** C149: the trie matches the messages of a pattern unless one of its
    literals begins with a character that is not ASCII *)
Theorem C149_own_messages :
  forall sip p,
    valid_pattern p -> (forall q, In (Parser q) (pat_tokens p) -> parser_ascii_set q) -> collision_free sip [p] ->
    exists t, Trie.add_patterns sip Trie.tree_new [p] = Ret t /\
      forall text caps, utf8 text -> trie_walk (pat_tokens p) text caps ->
        ((forall l, In (Literal l) (pat_tokens p) -> wide l = false) ->
           exists r, Trie.parse t text = Ret (Some r) /\ mr_pattern r = stripped p /\ reports caps (mr_values r)) /\
        ((exists l, In (Literal l) (pat_tokens p) /\ wide l = true) -> Trie.parse t text = Panic).
Proof. exact own_messages. Qed.
Print Assumptions C149_own_messages.

(** With other patterns, too, such a pattern is never reported. *)
Theorem C149_never_reported :
  forall sip ps t text r,
    Forall (fun p => exists s, utf8 s /\ compile s = Ret (Ok (pat_tokens p))) ps -> collision_free sip ps ->
    Trie.add_patterns sip Trie.tree_new ps = Ret t -> utf8 text -> Trie.parse t text = Ret (Some r) ->
    exists p, In p ps /\ mr_pattern r = stripped p /\ forall l, In (Literal l) (pat_tokens p) -> wide l = false.
Proof. exact reported_narrow. Qed.
Print Assumptions C149_never_reported.

(** Characters beyond ASCII inside of a literal do no harm, at its beginning they
    do, and with a pattern that is found the message of another still panics. *)
Definition inner := tpat 1 ($"caf%{INT:n}: é%{GREEDY:x}").
Definition outer := tpat 2 ($"%{INT:n}é").
Example C149_example :
  valid_pattern inner /\ valid_pattern outer /\ collision_free siphash [inner] /\ collision_free siphash [outer] /\
  (forall l, In (Literal l) (pat_tokens inner) -> wide l = false) /\ wide ($"é") = true /\ In (Literal ($"é")) (pat_tokens outer) /\
  trie_run [inner] ($"caf1: éé") = Ret (Some (uid 1, [($"n", $"1"); ($"x", $"é")])) /\
  trie_run [outer] ($"1é") = Panic /\
  trie_run [inner; outer] ($"caf1: éé") = Ret (Some (uid 1, [($"n", $"1"); ($"x", $"é")])) /\
  trie_run [inner; outer] ($"1é") = Panic.
Proof.
  split; [apply valid_patternb_sound; vm_compute; reflexivity|].
  split; [apply valid_patternb_sound; vm_compute; reflexivity|].
  split; [apply collision_freeb_sound; vm_compute; reflexivity|].
  split; [apply collision_freeb_sound; vm_compute; reflexivity|].
  split; [|split; [reflexivity|split; [vm_compute; auto|]]].
  - intros l I. vm_compute in I. destruct I as [I|[I|[I|[I|[]]]]]; try discriminate I; injection I as <-; reflexivity.
  - repeat split; vm_compute; reflexivity.
Qed.
Example C149_example_walk :
  exists caps, trie_walk (pat_tokens outer) ($"1é") caps.
Proof.
  set (ts := pat_tokens outer). vm_compute in ts. subst ts. eexists.
  apply (tw_parser _ _ ($"1") ($"é")); [discriminate| |apply tw_literal_last].
  apply Parsers_facts.parser_parse_some; [|vm_compute; repeat constructor|vm_compute; reflexivity].
  apply utf8b_sound. vm_compute. reflexivity.
Qed.

(** ** C150: which patterns match some message, for all UTF-8 *)
Theorem C150_trie :
  forall sip s p,
    utf8 s -> compile s = Ret (Ok (pat_tokens p)) ->
    (forall q, In (Parser q) (pat_tokens p) -> parser_ascii_set q) -> collision_free sip [p] ->
    exists t, Trie.add_patterns sip Trie.tree_new [p] = Ret t /\
      ((exists text r, utf8 text /\ Trie.parse t text = Ret (Some r)) <->
       can_match (fun _ => True) (pat_tokens p) /\ forall l, In (Literal l) (pat_tokens p) -> wide l = false).
Proof. exact trie_live_utf8. Qed.
Print Assumptions C150_trie.
Theorem C150_table :
  forall sip s p,
    utf8 s -> compile s = Ret (Ok (pat_tokens p)) ->
    (forall q, In (Parser q) (pat_tokens p) -> parser_ascii_set q) -> collision_free sip [p] ->
    exists t, SuffixArray.add_patterns sip SuffixArray.table_new [p] = Ret t /\
      ((exists text r, utf8 text /\ SuffixArray.parse t text = Ret (Some r)) <->
       can_match_loosely (fun _ => True) (pat_tokens p)).
Proof. exact table_live_utf8. Qed.
Print Assumptions C150_table.

(** The suffix table matches what the trie panics on. *)
Example C150_example :
  utf8 ($"%{INT:n}é") /\ compile ($"%{INT:n}é") = Ret (Ok (pat_tokens outer)) /\
  (forall q, In (Parser q) (pat_tokens outer) -> parser_ascii_set q) /\ collision_free siphash [outer] /\
  table_run [outer] ($"1é") = Ret (Some (uid 2, [($"n", $"1")])) /\
  can_match_loosely (fun _ => True) (pat_tokens outer).
Proof.
  assert (forall q, In (Parser q) (pat_tokens outer) -> parser_ascii_set q) as A.
  { intros q I. vm_compute in I. destruct I as [I|[I|[]]]; try discriminate I. injection I as <-.
    intros b Hb. simpl in Hb. repeat (destruct Hb as [<-|Hb]; [reflexivity|]). destruct Hb. }
  assert (utf8 ($"%{INT:n}é")) as U by (apply utf8b_sound; vm_compute; reflexivity).
  assert (compile ($"%{INT:n}é") = Ret (Ok (pat_tokens outer))) as C by (vm_compute; reflexivity).
  assert (collision_free siphash [outer]) as F by (apply collision_freeb_sound; vm_compute; reflexivity).
  split; [exact U|]. split; [exact C|]. split; [exact A|]. split; [exact F|]. split; [vm_compute; reflexivity|].
  destruct (C150_table siphash _ outer U C A F) as (t & Ht & H). apply H. exists ($"1é").
  vm_compute in Ht. injection Ht as <-. eexists. split; [apply utf8b_sound; vm_compute; reflexivity|vm_compute; reflexivity].
Qed.
