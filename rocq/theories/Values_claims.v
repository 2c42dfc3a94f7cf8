(** * What reported values look like *)
From Verif Require Import Base Base_facts Parsers Pattern Grammar Spec Spec_grammar Spec_table Spec_written Written_claims
  Live_claims Continued_claims Trie_main Table_claims Spec_values.
From Verif Require Trie SuffixArray.

Lemma named_in caps key v : named caps key v -> exists q, In (q, v) caps /\ name_of q = Some key.
Proof.
  induction 1 as [q v caps key E|q v caps key v' E H IH]; [exists q; split; [left; reflexivity|exact E]|].
  destruct IH as (q' & J & E'). exists q'. split; [right; exact J|exact E'].
Qed.
Lemma can_in ts : forall b q, tokens_can b ts -> In (Parser q) ts -> parser_can q.
Proof.
  induction ts as [|t ts IH]; intros b q C J; [destruct J|]. destruct J as [->|J]; [exact (proj1 C)|].
  destruct t; exact (IH _ q (proj2 C) J).
Qed.
Lemma greedy_end ts g e : shaped ts -> In (Parser (PGreedy g)) ts -> gp_end_string g = Some e -> e <> [].
Proof.
  induction ts as [|t ts IH]; intros S J E; [destruct J|]. destruct J as [->|J].
  - exact (proj1 (linked_greedy g ts e S E)).
  - exact (IH (shaped_tail _ _ S) J E).
Qed.
Lemma captures_looks q text v : captures q text v -> parser_can q ->
  (forall g e, q = PGreedy g -> gp_end_string g = Some e -> e <> []) -> looks_right q v.
Proof.
  destruct q as [s|s|g]; cbn [captures looks_right parser_can]; intros C K G.
  - destruct C as ((_ & F & _) & Nv & B). auto.
  - destruct C as ((_ & F & _) & Nv & B). split; [exact Nv|]. split; [|exact B]. eapply Forall_impl; [|exact F]. intros b. apply (proj2 K).
  - intros e E (a & b & Ev). unfold greedy_captures in C. rewrite E in C. destruct C as ((r & Er) & M).
    assert (length v <= length a) as L. { apply M. exists (b ++ e ++ r). rewrite Er, Ev, <- !app_assoc. reflexivity. }
    specialize (G g e eq_refl E). rewrite Ev, !app_length in L. destruct e; [congruence|simpl in L; lia].
Qed.
Lemma occurs_later v w text : occurs_in v text -> occurs_in v (w ++ text).
Proof. intros (a & b & ->). exists (w ++ a), b. apply app_assoc. Qed.

Lemma walk_values ts text caps : walk ts text caps -> forall q v, In (q, v) caps ->
  In (Parser q) ts /\ occurs_in v text /\ exists x, captures q x v.
Proof.
  induction 1 as [|l ts text caps W IH|q0 ts v0 text caps C W IH]; intros q v J.
  - destruct J.
  - destruct (IH q v J) as (A & B & D). split; [right; exact A|]. split; [apply occurs_later, B|exact D].
  - destruct J as [J|J].
    + injection J as -> ->. split; [left; reflexivity|]. split; [exists [], text; reflexivity|eauto].
    + destruct (IH q v J) as (A & B & D). split; [right; exact A|]. split; [apply occurs_later, B|exact D].
Qed.
Lemma table_walk_values ts text caps : table_walk ts text caps -> forall q v, In (q, v) caps ->
  In (Parser q) ts /\ occurs_in v text /\ exists x, captures q x v.
Proof.
  induction 1 as [l text P|q0 v0 C|l ts w text caps N0 L Nt W IH|q0 ts v0 text caps N0 C W IH]; intros q v J.
  - destruct J.
  - destruct J as [J|[]]. injection J as -> ->. split; [left; reflexivity|]. split; [exists [], []; simpl; rewrite app_nil_r; reflexivity|eauto].
  - destruct (IH q v J) as (A & B & D). split; [right; exact A|]. split; [apply occurs_later, B|exact D].
  - destruct J as [J|J].
    + injection J as -> ->. split; [left; reflexivity|]. split; [exists [], text; reflexivity|eauto].
    + destruct (IH q v J) as (A & B & D). split; [right; exact A|]. split; [apply occurs_later, B|exact D].
Qed.
Lemma values_of p s text caps m : utf8 s -> compile s = Ret (Ok (pat_tokens p)) -> reports caps m ->
  (forall q v, In (q, v) caps -> In (Parser q) (pat_tokens p) /\ occurs_in v text /\ exists x, captures q x v) -> values_right p text m.
Proof.
  intros U C (R & _) H key v J. apply R in J. destruct (named_in _ _ _ J) as (q & Jq & En). destruct (H q v Jq) as (A & B & x & D).
  exists q. split; [exact A|]. split; [exact En|]. split; [exact B|].
  destruct (proj1 (written _) (ex_intro _ s (conj U C))) as (_ & _ & _ & K).
  apply (captures_looks q x v D (can_in _ _ _ K A)). intros g e -> Eg. exact (greedy_end _ g e (proj2 (compile_shaped s _ U C)) A Eg).
Qed.

Theorem trie_values sip ps t text r :
  Forall compiled_pattern_of ps -> collision_free sip ps -> Trie.add_patterns sip Trie.tree_new ps = Ret t -> utf8 text ->
  Trie.parse t text = Ret (Some r) -> exists p, In p ps /\ mr_pattern r = stripped p /\ values_right p text (mr_values r).
Proof.
  intros V C A U E. destruct (trie_sound sip ps t _ r (compiled_valid ps V) C A U E) as (p & caps & J & Ep & W & R).
  rewrite Forall_forall in V. destruct (V p J) as (s & Us & Cs). exists p. split; [exact J|]. split; [exact Ep|].
  exact (values_of p s text caps _ Us Cs R (walk_values _ _ _ W)).
Qed.
Theorem table_values sip ps t text r :
  Forall compiled_pattern_of ps -> collision_free sip ps -> SuffixArray.add_patterns sip SuffixArray.table_new ps = Ret t -> utf8 text ->
  SuffixArray.parse t text = Ret (Some r) -> exists p, In p ps /\ mr_pattern r = stripped p /\ values_right p text (mr_values r).
Proof.
  intros V C A U E. destruct (table_sound sip ps t _ r (compiled_valid ps V) C A U E) as (p & caps & J & Ep & W & R).
  rewrite Forall_forall in V. destruct (V p J) as (s & Us & Cs). exists p. split; [exact J|]. split; [exact Ep|].
  exact (values_of p s text caps _ Us Cs R (table_walk_values _ _ _ W)).
Qed.
