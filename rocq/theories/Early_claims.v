(** * Values that are known before the message ends *)
From Verif Require Import Base Base_facts Utils Parsers Parsers_facts Pattern Grammar Source Spec Spec_table Spec_source Spec_canon Spec_separate Separate_claims
  Separate_tests Single_claims Trie_main Table_claims Spec_fill Fill_claims TrieSpec_cases Live_claims Continued_claims Join_claims Spec_mix Mix_claims Spec_early.
From Verif Require Trie SuffixArray.

Lemma settled_captures q v c w : settled q v c -> captures q (v ++ c ++ w) v.
Proof.
  intros (C & H). destruct q as [s|s|x].
  - exact (captures_extend (PSet s) v c w H C).
  - exact (captures_extend (PInt s) v c w H C).
  - destruct H as (e & d & Ee & ->). pose proof (captures_admissible _ _ v _ eq_refl C) as A. cbn [captures admissible] in *.
    unfold greedy_captures in *. rewrite Ee in *. rewrite <- app_assoc. apply end_captures. exact A.
Qed.

(** Whatever follows, the values are the same. *)
Lemma begun_walk ts a vs : begun ts a vs -> forall b caps, walk ts (a ++ b) caps -> exists later, caps = vs ++ later.
Proof.
  induction 1 as [ts a|l ts a vs B IH|q v ts a vs S B IH]; intros b caps W.
  - exists caps. reflexivity.
  - rewrite <- app_assoc in W. inversion W as [|l' ts' text caps' W' El Et Ec|]; subst. apply app_inv_head in Et. subst text. exact (IH b caps W').
  - rewrite <- app_assoc in W. pose proof (settled_captures q v a b S) as C. inversion W as [| |q' ts' v' text caps' C' W' Eq Et Ec]; subst.
    rewrite Et in C'. pose proof (captures_unique _ _ _ _ C' C) as ->. apply app_inv_head in Et. subst text.
    destruct (IH b caps' W') as (later & ->). exists later. reflexivity.
Qed.

Lemma begun_table_walk ts a vs : begun ts a vs -> Forall valid_token ts -> forall b caps, table_walk ts (a ++ b) caps -> exists later, caps = vs ++ later.
Proof.
  induction 1 as [ts a|l ts a vs B IH|q v ts a vs S B IH]; intros V b caps W.
  - exists caps. reflexivity.
  - inversion V as [|? ? Vl V']; subst. rewrite <- app_assoc in W. inversion W as [l' text P El Et Ec| |l' ts' w text caps' N0 L Nt W' El Et Ec|]; subst.
    + inversion B; subst. exists []. reflexivity.
    + rewrite (common_whole l (w ++ text) w L Vl) in *; [|rewrite Et; exists (a ++ b); reflexivity].
      apply app_inv_head in Et. subst text. exact (IH V' b caps W').
  - inversion V as [|? ? Vq V']; subst. rewrite <- app_assoc in W. pose proof (settled_captures q v a b S) as C.
    inversion W as [|q' v' C' Eq Et Ec| |q' ts' v' text caps' N0 C' W' Eq Et Ec]; subst.
    + rewrite (captures_unique _ _ _ _ C' C). inversion B; subst. exists []. reflexivity.
    + rewrite Et in C'. pose proof (captures_unique _ _ _ _ C' C) as ->. apply app_inv_head in Et. subst text.
      destruct (IH V' b caps' W') as (later & ->). exists later. reflexivity.
Qed.

(** When a value is settled *)
Lemma run_hd s v rest rest' : hd_error rest = hd_error rest' ->
  set_captures (sp_character_set s) (sp_min_length s) (sp_max_length s) (v ++ rest) v -> set_captures (sp_character_set s) (sp_min_length s) (sp_max_length s) (v ++ rest') v.
Proof.
  intros H C. apply run_captures; [|rewrite <- H; exact (run_follows _ _ _ C)].
  exact (captures_admissible (PSet s) (v ++ rest) v rest eq_refl C).
Qed.
Lemma settled_prefix q v a b : captures q (v ++ a ++ b) v -> a <> [] ->
  (forall g e, q = PGreedy g -> gp_end_string g = Some e -> exists d, a = e ++ d) -> settled q v a.
Proof.
  intros C Na H. assert (hd_error (a ++ b) = hd_error a) as Eh by (destruct a; [congruence|reflexivity]).
  destruct q as [s|s|x].
  - split; [exact (run_hd s v _ _ Eh C)|exact Na].
  - split; [exact (run_hd s v _ _ Eh C)|exact Na].
  - pose proof (captures_admissible _ _ v _ eq_refl C) as A. cbn [captures admissible] in *. unfold settled. cbn [captures].
    unfold greedy_captures in *. destruct (gp_end_string x) as [e|] eqn:Ee.
    + destruct (H x e eq_refl Ee) as (d & ->). split; [apply end_captures; exact A|]. exists e, d. auto.
    + exfalso. apply (f_equal (@length byte)) in C. rewrite !app_length in C. destruct a; [congruence|simpl in C; lia].
Qed.

Lemma walk_literal_begins l ts text caps : walk (Literal l :: ts) text caps -> exists rest, text = l ++ rest.
Proof. intros W. inversion W; subst. eauto. Qed.
Lemma walk_settles ts text caps : walk ts text caps -> forall c1 q v c2, caps = c1 ++ (q, v) :: c2 -> shaped ts ->
  exists x y, text = x ++ v ++ y /\ (y = [] \/ (firstn (needed q) y <> [] /\ begun ts (x ++ v ++ firstn (needed q) y) (c1 ++ [(q, v)]))).
Proof.
  induction 1 as [|l ts text caps W IH|q0 ts v0 text caps C W IH]; intros c1 q v c2 E S.
  - destruct c1; discriminate E.
  - destruct (IH c1 q v c2 E (shaped_tail _ _ S)) as (x & y & -> & H). exists (l ++ x), y. split; [rewrite <- !app_assoc; reflexivity|].
    destruct H as [->|(Nk & B)]; [auto|right]. split; [exact Nk|]. rewrite <- app_assoc. constructor. exact B.
  - destruct c1 as [|(q1, v1) c1]; cbn [app] in E.
    + injection E as -> -> _. exists [], text. split; [reflexivity|]. destruct text as [|b text]; [auto|right].
      assert (firstn (needed q) (b :: text) <> [] /\ forall g e, q = PGreedy g -> gp_end_string g = Some e -> exists d, firstn (needed q) (b :: text) = e ++ d) as (Nk & L).
      { destruct q as [s|s|g]; cbn [needed]; [split; [discriminate|discriminate]|split; [discriminate|discriminate]|].
        destruct (gp_end_string g) as [e|] eqn:Ee.
        - destruct (linked_greedy g ts e S Ee) as (Ne & rest & ->). destruct (walk_literal_begins _ _ _ _ W) as (d & Ed); rewrite Ed.
          rewrite firstn_app, Nat.sub_diag, firstn_all. simpl. rewrite app_nil_r. split; [exact Ne|].
          intros g' e' Eg Ee'. injection Eg as <-. rewrite Ee in Ee'. injection Ee' as <-. exists []. symmetry. apply app_nil_r.
        - exfalso. cbn [captures] in C. unfold greedy_captures in C. rewrite Ee in C. apply (f_equal (@length byte)) in C. rewrite app_length in C. simpl in C. lia. }
      split; [exact Nk|]. cbn [app]. apply begun_parser; [|constructor].
      apply (settled_prefix q v _ (skipn (needed q) (b :: text))); [rewrite firstn_skipn; exact C|exact Nk|exact L].
    + injection E as -> -> E. destruct (IH c1 q v c2 E (shaped_tail _ _ S)) as (x & y & -> & H). exists (v1 ++ x), y.
      split; [rewrite <- !app_assoc; reflexivity|]. destruct H as [->|(Nk & B)]; [auto|right]. split; [exact Nk|]. rewrite <- app_assoc. cbn [app].
      apply begun_parser; [|exact B]. apply (settled_prefix q1 v1 _ (skipn (needed q) y)).
      * rewrite <- !app_assoc, firstn_skipn. exact C.
      * intros Z. apply app_eq_nil in Z. destruct Z as (_ & Z). apply app_eq_nil in Z. tauto.
      * intros g e -> Ee. destruct (linked_greedy g ts e S Ee) as (Ne & rest & ->). inversion B as [? ? E1 E2 E3|? ? a ? B' E1 E2 E3|]; subst; [destruct c1; discriminate E3|]. eauto.
Qed.

(** ** The matchers *)
Lemma named_app vs later key v : named vs key v -> named (vs ++ later) key v.
Proof. induction 1; cbn [app]; constructor; assumption. Qed.

Theorem trie_early sip ps t p a vs b r :
  Forall valid_pattern ps -> collision_free sip ps -> NoDup (map pat_uuid ps) -> Trie.add_patterns sip Trie.tree_new ps = Ret t ->
  In p ps -> begun (pat_tokens p) a vs -> utf8 (a ++ b) -> Trie.parse t (a ++ b) = Ret (Some r) -> mr_pattern r = stripped p ->
  (exists later, reports (vs ++ later) (mr_values r)) /\ forall key v, named vs key v -> maps_to (mr_values r) key v.
Proof.
  intros V C Nd A J B U E Ep. destruct (trie_sound sip ps t _ r V C A U E) as (p' & caps & J' & Ep' & W & R).
  assert (p' = p) as -> by (apply (same_pattern ps Nd); [exact J'|exact J|congruence]).
  destruct (begun_walk _ _ _ B b caps W) as (later & ->). split; [exists later; exact R|].
  intros key v K. apply (proj1 R). apply named_app. exact K.
Qed.

Theorem table_early sip ps t p a vs b r :
  Forall valid_pattern ps -> collision_free sip ps -> NoDup (map pat_uuid ps) -> SuffixArray.add_patterns sip SuffixArray.table_new ps = Ret t ->
  In p ps -> begun (pat_tokens p) a vs -> utf8 (a ++ b) -> SuffixArray.parse t (a ++ b) = Ret (Some r) -> mr_pattern r = stripped p ->
  (exists later, reports (vs ++ later) (mr_values r)) /\ forall key v, named vs key v -> maps_to (mr_values r) key v.
Proof.
  intros V C Nd A J B U E Ep. destruct (table_sound sip ps t _ r V C A U E) as (p' & caps & J' & Ep' & W & R).
  assert (p' = p) as -> by (apply (same_pattern ps Nd); [exact J'|exact J|congruence]).
  destruct (begun_table_walk _ _ _ B (proj1 (Forall_forall _ _) V p J) b caps W) as (later & ->). split; [exists later; exact R|].
  intros key v K. apply (proj1 R). apply named_app. exact K.
Qed.

Theorem trie_early_when sip ps t text r :
  Forall (fun p => exists s, utf8 s /\ compile s = Ret (Ok (pat_tokens p))) ps -> collision_free sip ps ->
  Trie.add_patterns sip Trie.tree_new ps = Ret t -> utf8 text -> Trie.parse t text = Ret (Some r) ->
  exists p caps, In p ps /\ mr_pattern r = stripped p /\ reports caps (mr_values r) /\
    forall c1 q v c2, caps = c1 ++ (q, v) :: c2 ->
      exists x y, text = x ++ v ++ y /\ (y = [] \/ begun (pat_tokens p) (x ++ v ++ firstn (needed q) y) (c1 ++ [(q, v)])).
Proof.
  intros Cp C A U E. destruct (trie_sound sip ps t _ r (compiled_valid ps Cp) C A U E) as (p & caps & J & Ep & W & R).
  exists p, caps. split; [exact J|]. split; [exact Ep|]. split; [exact R|]. intros c1 q v c2 Ec.
  destruct (proj1 (Forall_forall _ _) Cp p J) as (s & Us & Cs).
  destruct (walk_settles _ _ _ W c1 q v c2 Ec (proj2 (compile_shaped s _ Us Cs))) as (x & y & Et & H).
  exists x, y. split; [exact Et|]. destruct H as [H|(_ & H)]; auto.
Qed.
