(** * Patterns that later ones replaced *)
From Verif Require Import Base Base_facts Utils Parsers Pattern Spec Spec_table Spec_order Spec_forget TrieSpec TrieSpec_facts
  TrieSpec_props TrieSpec_cases TrieSpec_order TableSpec Table_refine Table_facts Table_content Table_claims Order_claims
  Trie_main Siphash Deciders Tests Stay_claims.
From Verif Require Trie SuffixArray.

Lemma token_list_dec (a b : list token) : {a = b} + {a <> b}.
Proof. apply list_eq_dec, token_dec. Qed.

Lemma displaces_dec q p : {displaces q p} + {~ displaces q p}.
Proof.
  destruct q as [|t r]; [right; intros (? & ? & ? & E & _); discriminate|].
  destruct p as [|t' r']; [right; intros (? & ? & ? & _ & E & _); discriminate|].
  destruct (token_dec t t') as [->|N].
  - destruct r as [|a r], r' as [|a' r'].
    + left. exists t', [], []. repeat split; auto.
    + right. intros (x & y & z & E & E' & H). destruct H as (H & _). inversion E; subst. specialize (H eq_refl). subst z. discriminate.
    + right. intros (x & y & z & E & E' & H). destruct H as (_ & H). inversion E'; subst. specialize (H eq_refl). subst y. discriminate.
    + left. exists t', (a :: r), (a' :: r'). repeat split; auto; discriminate.
  - right. intros (x & y & z & E & E' & _). congruence.
Qed.

(** ** Neighbours *)
Lemma put_displaced rest rest' p q e : (rest' = [] <-> rest = []) -> put rest' q (put rest p e) = put rest' q e.
Proof.
  intros H. unfold put. destruct rest as [|a rest], rest' as [|a' rest']; try reflexivity.
  - assert (a' :: rest' = []) by (apply H; reflexivity). discriminate.
  - assert (a :: rest = []) by (apply H; reflexivity). discriminate.
Qed.

Lemma s_add_displaced L p q : displaces (pat_tokens q) (pat_tokens p) -> s_add (s_add L p) q = s_add L q.
Proof.
  intros (tok & r & r' & Eq & Ep & H). unfold s_add. rewrite Eq, Ep. destruct tok as [x|l]; cbn [s_insert lits_of pars_of].
  - f_equal.
    change (at_parser (at_parser (pars_of L) x (put r' (stripped p))) x (put r (stripped q)) = at_parser (pars_of L) x (put r (stripped q))).
    apply at_parser_compose. intros e. apply put_displaced. exact H.
  - change (enter (enter L l (put r' (stripped p))) l (put r (stripped q)) = enter L l (put r (stripped q))).
    apply enter_compose. intros e. apply put_displaced. exact H.
Qed.

Lemma t_add_displaced L p q : displaces (pat_tokens q) (pat_tokens p) -> t_add (t_add L p) q = t_add L q.
Proof.
  intros (tok & r & r' & Eq & Ep & H). unfold t_add. rewrite Eq, Ep. destruct tok as [x|l]; rewrite !t_insert_unfold; cbn [lits_of pars_of]; f_equal.
  - apply at_parser_compose. intros e. rewrite <- !put_tput. apply put_displaced. exact H.
  - apply upsert_compose. intros e. rewrite <- !put_tput. apply put_displaced. exact H.
Qed.

(** ** Parsers that have their places *)
Lemma at_parser_commute P x y f g :
  x <> y -> In x (map fst P) \/ In y (map fst P) -> at_parser (at_parser P x f) y g = at_parser (at_parser P y g) x f.
Proof.
  intros N H.
  induction P as [|(z, e) P IH]; [destruct H as [[]|[]]|]. cbn [at_parser].
  destruct (parser_eq_dec z x) as [->|Nx].
  - destruct (parser_eq_dec x y); [contradiction|]. cbn [at_parser].
    destruct (parser_eq_dec x y); [contradiction|]. destruct (parser_eq_dec x x); [reflexivity|contradiction].
  - destruct (parser_eq_dec z y) as [->|Ny]; cbn [at_parser].
    + destruct (parser_eq_dec y y); [|contradiction]. destruct (parser_eq_dec y x); [contradiction|reflexivity].
    + destruct (parser_eq_dec z y); [contradiction|]. destruct (parser_eq_dec z x); [contradiction|].
      rewrite IH; [reflexivity|]. cbn [map fst] in H. destruct H as [[E|H]|[E|H]]; auto; contradiction.
Qed.

Lemma known_s ps x : known_parser ps x <-> In x (map fst (pars_of (s_adds ps))).
Proof.
  rewrite s_adds_pars. unfold known_parser. split; intros (p & rest & H); exists p, rest; exact H.
Qed.
Lemma known_t ps x : known_parser ps x <-> In x (map fst (pars_of (t_adds ps))).
Proof. rewrite t_adds_pars. reflexivity. Qed.

(** What is not displaced can be exchanged. *)
Lemma s_add_past ps p z :
  ~ displaces (pat_tokens z) (pat_tokens p) -> no_trace_in_trie ps p z ->
  s_add (s_add (s_adds ps) p) z = s_add (s_add (s_adds ps) z) p.
Proof.
  intros N H. destruct (pat_tokens p) as [|tp rp] eqn:Ep.
  { unfold s_add. rewrite Ep. reflexivity. }
  destruct (pat_tokens z) as [|tz rz] eqn:Ez.
  { unfold s_add. rewrite Ez. reflexivity. }
  assert (tp = tz -> one_ends rp rz) as O.
  { intros ->. unfold one_ends. destruct rp as [|a rp], rz as [|b rz].
    - destruct N. exists tz, [], []. repeat split; auto.
    - left. split; [reflexivity|discriminate].
    - right. split; [discriminate|reflexivity].
    - destruct N. exists tz, (b :: rz), (a :: rp). repeat split; auto; discriminate. }
  unfold no_trace_in_trie, no_trace_in_table in H. rewrite Ep, Ez in H. destruct tp as [x|l], tz as [y|m].
  - destruct (parser_eq_dec x y) as [->|Nx].
    + apply s_add_commute; [apply s_adds_lsorted|]. unfold independent. rewrite Ep, Ez. auto.
    + destruct H as [H|H]; [contradiction|]. rewrite !known_s in H.
      unfold s_add. rewrite Ep, Ez. cbn [s_insert lits_of pars_of]. f_equal. apply at_parser_commute; assumption.
  - apply s_add_commute; [apply s_adds_lsorted|]. unfold independent. rewrite Ep, Ez. exact I.
  - apply s_add_commute; [apply s_adds_lsorted|]. unfold independent. rewrite Ep, Ez. exact I.
  - apply s_add_commute; [apply s_adds_lsorted|]. unfold independent. rewrite Ep, Ez.
    destruct (str_dec l m) as [->|Nl]; [right; auto|left]. destruct H as [H|H]; [contradiction|]. auto.
Qed.

Lemma t_add_past ps p z :
  ~ displaces (pat_tokens z) (pat_tokens p) -> no_trace_in_table ps p z ->
  t_add (t_add (t_adds ps) p) z = t_add (t_add (t_adds ps) z) p.
Proof.
  intros N H. destruct (pat_tokens p) as [|tp rp] eqn:Ep.
  { unfold t_add. rewrite Ep. reflexivity. }
  destruct (pat_tokens z) as [|tz rz] eqn:Ez.
  { unfold t_add. rewrite Ez. reflexivity. }
  assert (tp = tz -> one_ends rp rz) as O.
  { intros ->. unfold one_ends. destruct rp as [|a rp], rz as [|b rz].
    - destruct N. exists tz, [], []. repeat split; auto.
    - left. split; [reflexivity|discriminate].
    - right. split; [discriminate|reflexivity].
    - destruct N. exists tz, (b :: rz), (a :: rp). repeat split; auto; discriminate. }
  unfold no_trace_in_table in H. rewrite Ep, Ez in H. destruct tp as [x|l], tz as [y|m].
  - destruct (parser_eq_dec x y) as [->|Nx].
    + apply t_add_commute; [apply t_adds_sorted|]. unfold table_independent. rewrite Ep, Ez. auto.
    + destruct H as [H|H]; [contradiction|]. rewrite !known_t in H.
      unfold t_add. rewrite Ep, Ez, !t_insert_unfold. cbn [lits_of pars_of]. f_equal. apply at_parser_commute; assumption.
  - apply t_add_commute; [apply t_adds_sorted|]. unfold table_independent. rewrite Ep, Ez. exact I.
  - apply t_add_commute; [apply t_adds_sorted|]. unfold table_independent. rewrite Ep, Ez. exact I.
  - apply t_add_commute; [apply t_adds_sorted|]. unfold table_independent. rewrite Ep, Ez.
    destruct (str_dec l m) as [->|Nl]; [right; auto|left; exact Nl].
Qed.

(** ** Replaced patterns *)
Lemma s_adds_forget b : forall a p q,
  forgotten_in_trie a p b q ->
  s_adds (a ++ p :: b ++ [q]) = s_adds (a ++ b ++ [q]).
Proof.
  induction b as [|z b IH]; intros a p q (D & H).
  - cbn [app]. rewrite !s_adds_app. cbn [fold_left]. apply s_add_displaced. exact D.
  - destruct (displaces_dec (pat_tokens z) (pat_tokens p)) as [Dz|Dz].
    + rewrite !s_adds_app. cbn [fold_left app]. rewrite s_add_displaced by exact Dz. reflexivity.
    + transitivity (s_adds ((a ++ [z]) ++ p :: b ++ [q])).
      * rewrite !s_adds_app. cbn [fold_left app]. rewrite s_add_past; auto. specialize (H [] z b eq_refl). rewrite app_nil_r in H. exact H.
      * rewrite IH; [rewrite <- app_assoc; reflexivity|split; [exact D|]]. intros b1 y b2 ->. rewrite <- app_assoc. apply (H (z :: b1) y b2). reflexivity.
Qed.

Lemma t_adds_forget b : forall a p q,
  forgotten_in_table a p b q ->
  t_adds (a ++ p :: b ++ [q]) = t_adds (a ++ b ++ [q]).
Proof.
  induction b as [|z b IH]; intros a p q (D & H).
  - cbn [app]. rewrite !t_adds_app. cbn [fold_left]. apply t_add_displaced. exact D.
  - destruct (displaces_dec (pat_tokens z) (pat_tokens p)) as [Dz|Dz].
    + rewrite !t_adds_app. cbn [fold_left app]. rewrite t_add_displaced by exact Dz. reflexivity.
    + transitivity (t_adds ((a ++ [z]) ++ p :: b ++ [q])).
      * rewrite !t_adds_app. cbn [fold_left app]. rewrite t_add_past; auto. specialize (H [] z b eq_refl). rewrite app_nil_r in H. exact H.
      * rewrite IH; [rewrite <- app_assoc; reflexivity|split; [exact D|]]. intros b1 y b2 ->. rewrite <- app_assoc. apply (H (z :: b1) y b2). reflexivity.
Qed.

Lemma dropped_incl (a : list pattern) p b q c : incl (a ++ b ++ q :: c) (a ++ p :: b ++ q :: c).
Proof. intros x H. apply in_app_iff in H. apply in_app_iff. destruct H as [H|H]; [left; exact H|right; right; exact H]. Qed.

Theorem trie_forgets sip a p b q c t t' :
  let ps := a ++ p :: b ++ q :: c in
  Forall valid_pattern ps -> collision_free sip ps ->
  forgotten_in_trie a p b q ->
  Trie.add_patterns sip Trie.tree_new ps = Ret t -> Trie.add_patterns sip Trie.tree_new (a ++ b ++ q :: c) = Ret t' ->
  t = t'.
Proof.
  intros ps V C H. apply (trie_same_level sip); auto; [apply dropped_incl|].
  unfold ps. pose proof (s_adds_forget b a p q H) as E.
  replace (a ++ p :: b ++ q :: c) with ((a ++ p :: b ++ [q]) ++ c) by (rewrite <- !app_assoc; cbn [app]; rewrite <- !app_assoc; reflexivity).
  replace (a ++ b ++ q :: c) with ((a ++ b ++ [q]) ++ c) by (rewrite <- !app_assoc; reflexivity).
  rewrite (s_adds_app (a ++ p :: b ++ [q])), E, <- s_adds_app. reflexivity.
Qed.

Theorem table_forgets sip a p b q c :
  let ps := a ++ p :: b ++ q :: c in
  Forall valid_pattern ps -> collision_free sip ps ->
  forgotten_in_table a p b q ->
  exists t, SuffixArray.add_patterns sip SuffixArray.table_new ps = Ret t /\
            SuffixArray.add_patterns sip SuffixArray.table_new (a ++ b ++ q :: c) = Ret t.
Proof.
  intros ps V C H. apply (table_same_level sip); auto; [apply dropped_incl|].
  unfold ps. pose proof (t_adds_forget b a p q H) as E.
  replace (a ++ p :: b ++ q :: c) with ((a ++ p :: b ++ [q]) ++ c) by (rewrite <- !app_assoc; cbn [app]; rewrite <- !app_assoc; reflexivity).
  replace (a ++ b ++ q :: c) with ((a ++ b ++ [q]) ++ c) by (rewrite <- !app_assoc; reflexivity).
  rewrite (t_adds_app (a ++ p :: b ++ [q])), E, <- t_adds_app. reflexivity.
Qed.
