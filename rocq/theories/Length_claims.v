(** * How long matched messages are *)
From Verif Require Import Base Base_facts Parsers Pattern Spec Spec_table Trie_main Table_claims Spec_length.
From Verif Require Trie SuffixArray.
Local Open Scope N_scope.

Lemma size_app a b : size (a ++ b) = size a + size b.
Proof. unfold size. rewrite app_length. lia. Qed.
Lemma size_prefix a b : prefix_of a b -> size a <= size b.
Proof. intros (r & ->). rewrite size_app. lia. Qed.

Lemma set_size s text v : set_captures (sp_character_set s) (sp_min_length s) (sp_max_length s) text v ->
  fewest (PSet s) <= size v /\ forall n, sp_max_length s = Some n -> size v <= n.
Proof.
  intros (_ & Nv & Mn & Mx). split.
  - assert (1 <= size v) as B by (unfold size; destruct v; [congruence|simpl length; lia]).
    cbn [fewest]. destruct (sp_min_length s) as [m|]; [|exact B]. cbn in Mn. fold (size v) in Mn. lia.
  - intros n E. rewrite E in Mx. exact Mx.
Qed.
Lemma captures_size q text v : captures q text v -> fewest q <= size v /\ forall n, most (Parser q) = Some n -> size v <= n.
Proof.
  destruct q as [s|s|g]; cbn [captures most]; intros C; [exact (set_size s text v C)|exact (set_size s text v C)|].
  cbn. split; [lia|discriminate].
Qed.

Lemma hold_cons t ts n : tokens_hold (t :: ts) = Some n -> exists a b, most t = Some a /\ tokens_hold ts = Some b /\ n = a + b.
Proof.
  cbn [tokens_hold]. destruct (most t) as [a|]; [|discriminate]. destruct (tokens_hold ts) as [b|]; [|discriminate].
  intros H. injection H as <-. eauto.
Qed.
Lemma walk_size ts text caps : walk ts text caps -> tokens_take ts <= size text /\ forall n, tokens_hold ts = Some n -> size text <= n.
Proof.
  induction 1 as [|l ts text caps W IH|q ts v text caps C W IH].
  - split; [cbn; lia|]. intros n H. injection H as <-. cbn. lia.
  - destruct IH as (A & B). cbn [tokens_take]. rewrite size_app. split; [lia|]. intros n H. apply hold_cons in H. destruct H as (a & b & Ha & Hb & ->).
    injection Ha as <-. specialize (B b Hb). lia.
  - destruct IH as (A & B). destruct (captures_size q _ v C) as (D & E). cbn [tokens_take]. rewrite size_app. split; [lia|].
    intros n H. apply hold_cons in H. destruct H as (a & b & Ha & Hb & ->). specialize (B b Hb). specialize (E a Ha). lia.
Qed.
Lemma table_walk_size ts text caps : table_walk ts text caps -> parsers_take ts <= size text /\ forall n, tokens_hold ts = Some n -> size text <= n.
Proof.
  induction 1 as [l text P|q v C|l ts w text caps N0 L Nt W IH|q ts v text caps N0 C W IH].
  - split; [cbn; lia|]. intros n H. apply hold_cons in H. destruct H as (a & b & Ha & Hb & ->). injection Ha as <-. injection Hb as <-.
    apply size_prefix in P. lia.
  - destruct (captures_size q _ v C) as (D & E). split; [cbn [parsers_take]; lia|].
    intros n H. apply hold_cons in H. destruct H as (a & b & Ha & Hb & ->). injection Hb as <-. specialize (E a Ha). lia.
  - destruct IH as (A & B). cbn [parsers_take]. rewrite size_app. split; [lia|]. intros n H. apply hold_cons in H. destruct H as (a & b & Ha & Hb & ->).
    injection Ha as <-. specialize (B b Hb). pose proof (size_prefix _ _ (proj1 (proj2 L))). lia.
  - destruct IH as (A & B). destruct (captures_size q _ v C) as (D & E). cbn [parsers_take]. rewrite size_app. split; [lia|].
    intros n H. apply hold_cons in H. destruct H as (a & b & Ha & Hb & ->). specialize (B b Hb). specialize (E a Ha). lia.
Qed.

Theorem trie_length sip ps t text r :
  Forall valid_pattern ps -> collision_free sip ps -> Trie.add_patterns sip Trie.tree_new ps = Ret t -> utf8 text ->
  Trie.parse t text = Ret (Some r) ->
  exists p, In p ps /\ mr_pattern r = stripped p /\ tokens_take (pat_tokens p) <= size text /\
    forall n, tokens_hold (pat_tokens p) = Some n -> size text <= n.
Proof.
  intros V C A U E. destruct (trie_sound sip ps t _ r V C A U E) as (p & caps & J & Ep & W & _).
  exists p. split; [exact J|]. split; [exact Ep|]. exact (walk_size _ _ _ W).
Qed.
Theorem table_length sip ps t text r :
  Forall valid_pattern ps -> collision_free sip ps -> SuffixArray.add_patterns sip SuffixArray.table_new ps = Ret t -> utf8 text ->
  SuffixArray.parse t text = Ret (Some r) ->
  exists p, In p ps /\ mr_pattern r = stripped p /\ parsers_take (pat_tokens p) <= size text /\
    forall n, tokens_hold (pat_tokens p) = Some n -> size text <= n.
Proof.
  intros V C A U E. destruct (table_sound sip ps t _ r V C A U E) as (p & caps & J & Ep & W & _).
  exists p. split; [exact J|]. split; [exact Ep|]. exact (table_walk_size _ _ _ W).
Qed.
Theorem trie_too_long sip ps t text o :
  Forall valid_pattern ps -> collision_free sip ps -> Trie.add_patterns sip Trie.tree_new ps = Ret t -> utf8 text ->
  (forall p, In p ps -> size text < tokens_take (pat_tokens p) \/ exists n, tokens_hold (pat_tokens p) = Some n /\ n < size text) ->
  Trie.parse t text = Ret o -> o = None.
Proof.
  intros V C A U L E. destruct o as [r|]; [|reflexivity]. destruct (trie_length sip ps t text r V C A U E) as (p & J & _ & B & H).
  destruct (L p J) as [L'|(n & En & L')]; [lia|]. specialize (H n En). lia.
Qed.
Theorem table_too_long sip ps t text o :
  Forall valid_pattern ps -> collision_free sip ps -> SuffixArray.add_patterns sip SuffixArray.table_new ps = Ret t -> utf8 text ->
  (forall p, In p ps -> size text < parsers_take (pat_tokens p) \/ exists n, tokens_hold (pat_tokens p) = Some n /\ n < size text) ->
  SuffixArray.parse t text = Ret o -> o = None.
Proof.
  intros V C A U L E. destruct o as [r|]; [|reflexivity]. destruct (table_length sip ps t text r V C A U E) as (p & J & _ & B & H).
  destruct (L p J) as [L'|(n & En & L')]; [lia|]. specialize (H n En). lia.
Qed.
