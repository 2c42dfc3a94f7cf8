(** * Mixing the values of two messages *)
From Verif Require Import Base Base_facts Utils Parsers Pattern Grammar Source Spec Spec_table Spec_source Spec_canon Spec_separate Separate_claims
  Separate_tests Single_claims Trie_main Spec_fill Fill_claims TrieSpec_cases Live_claims Continued_claims Join_claims Spec_mix.
From Verif Require Trie SuffixArray.

(** What SET and INT capture depends on the value and the next character only. *)
Lemma run_follows s v rest : set_captures (sp_character_set s) (sp_min_length s) (sp_max_length s) (v ++ rest) v ->
  match hd_error rest with Some b => ~ In b (sp_character_set s) | None => True end.
Proof.
  intros ((_ & F & Mx) & _). destruct rest as [|b rest]; [exact I|]. cbn. intros J.
  specialize (Mx (v ++ [b])). rewrite app_length in Mx. simpl in Mx. enough (length v + 1 <= length v) by lia. apply Mx.
  - exists rest. rewrite <- app_assoc. reflexivity.
  - apply Forall_app. split; [exact F|constructor; [exact J|constructor]].
Qed.
Lemma run_captures s v rest : admissible_set s v -> match hd_error rest with Some b => ~ In b (sp_character_set s) | None => True end ->
  set_captures (sp_character_set s) (sp_min_length s) (sp_max_length s) (v ++ rest) v.
Proof. intros A H. apply admissible_captures; [exact A|]. destruct rest; exact H. Qed.
Lemma end_captures v e rest : (forall a b, v ++ e = a ++ e ++ b -> b = []) -> before_first e (v ++ e ++ rest) v.
Proof.
  intros H. split; [exists rest; rewrite <- app_assoc; reflexivity|]. intros w (r & E). rewrite <- app_assoc in E.
  destruct (Nat.le_gt_cases (length v) (length w)) as [L|L]; [exact L|exfalso].
  assert (exists b, v ++ e = (w ++ e) ++ b) as (b & Eb).
  { assert (prefix_of (w ++ e) (v ++ e)) as (b & Eb).
    { apply (prefix_shorten _ _ rest); [exists r; rewrite <- !app_assoc; exact E|rewrite !app_length; lia]. }
    exists b. exact Eb. }
  rewrite <- app_assoc in Eb. rewrite (H w b Eb) in Eb. apply (f_equal (@length byte)) in Eb. rewrite !app_length in Eb. simpl in Eb. lia.
Qed.

Lemma literal_begins l ts text caps : trie_walk (Literal l :: ts) text caps -> exists rest, text = l ++ rest.
Proof. intros W. inversion W; subst; [exists []; symmetry; apply app_nil_r|eauto]. Qed.

(** The values of two readings may be mixed. *)
Lemma mixed_walk ts t1 vs1 : trie_walk ts t1 vs1 -> forall t2 vs2 vs, trie_walk ts t2 vs2 -> shaped ts -> mixed vs1 vs2 vs ->
  exists text, trie_walk ts text vs /\ (hd_error text = hd_error t1 \/ hd_error text = hd_error t2).
Proof.
  induction 1 as [l|q v1 C1|l ts t1 vs1 N0 Nl Nt1 W1 IH|q ts v1 t1 vs1 N0 C1 W1 IH]; intros t2 vs2 vs W2 S M.
  - inversion W2; subst; [|congruence]. inversion M; subst. eexists. split; [constructor|auto].
  - inversion W2 as [|? v2 C2| |]; subst; [|congruence]. inversion M as [|x y z a b c Hz M']; subst. inversion M'; subst.
    destruct Hz as [->| ->]; [exists v1|exists t2]; (split; [constructor; assumption|auto]).
  - inversion W2 as [| |? ? t2' ? _ _ Nt2 W2'|]; subst; [congruence|].
    destruct (IH t2' vs2 vs W2' (shaped_tail _ _ S) M) as (text & W & H). exists (l ++ text). split.
    + constructor; try assumption. intros ->. destruct t1, t2'; cbn in H; try congruence. destruct H; discriminate.
    + left. destruct l; [congruence|reflexivity].
  - inversion W2 as [| | |? ? v2 t2' vs2' _ C2 W2']; subst; [congruence|]. inversion M as [|x y z a b vs' Hz M']; subst.
    destruct (IH t2' vs2' vs' W2' (shaped_tail _ _ S) M') as (text & W & H).
    assert (exists v, z = (q, v) /\ (v = v1 \/ v = v2)) as (v & -> & Hv) by (destruct Hz as [->| ->]; eauto).
    exists (v ++ text).
    pose proof (captures_admissible q (v1 ++ t1) v1 t1 eq_refl C1) as A1. pose proof (captures_admissible q (v2 ++ t2') v2 t2' eq_refl C2) as A2.
    assert (admissible q v) as A by (destruct Hv as [->| ->]; assumption).
    assert (forall s, q = PSet s \/ q = PInt s -> captures q (v ++ text) v /\ v <> []) as Zs.
    { intros s Eq. assert (captures q = set_captures (sp_character_set s) (sp_min_length s) (sp_max_length s)) as Ec by (destruct Eq as [-> | ->]; reflexivity).
      assert (admissible_set s v) as As by (destruct Eq as [-> | ->]; exact A). rewrite Ec in C1, C2 |- *. split; [|exact (proj1 As)].
      apply run_captures; [exact As|]. destruct H as [-> | ->]; [exact (run_follows _ _ _ C1)|exact (run_follows _ _ _ C2)]. }
    assert (forall g, q = PGreedy g -> captures q (v ++ text) v /\ (hd_error text = hd_error t1 /\ hd_error text = hd_error t2')) as Zg.
    { intros g ->. cbn [captures] in *. unfold greedy_captures in *. cbn [admissible] in A. destruct (gp_end_string g) as [e|] eqn:Eg.
      - destruct (linked_greedy g ts e S Eg) as (Ne & rest & ->).
        destruct (literal_begins _ _ _ _ W1) as (x1 & ->). destruct (literal_begins _ _ _ _ W2') as (x2 & ->). destruct (literal_begins _ _ _ _ W) as (x & ->).
        split; [apply end_captures; exact A|]. destruct e; [congruence|split; reflexivity].
      - assert (t1 = []) as -> by (apply (f_equal (@length byte)) in C1; rewrite app_length in C1; destruct t1; [reflexivity|simpl in C1; lia]).
        assert (t2' = []) as -> by (apply (f_equal (@length byte)) in C2; rewrite app_length in C2; destruct t2'; [reflexivity|simpl in C2; lia]).
        assert (text = []) as -> by (destruct text; [reflexivity|destruct H; discriminate]).
        split; [symmetry; apply app_nil_r|split; reflexivity]. }
    assert (captures q (v ++ text) v) as C by (destruct q as [s|s|g]; [exact (proj1 (Zs s (or_introl eq_refl)))|exact (proj1 (Zs s (or_intror eq_refl)))|exact (proj1 (Zg g eq_refl))]).
    split; [constructor; assumption|].
    destruct v as [|b v].
    + destruct q as [s|s|g]; [destruct (proj2 (Zs s (or_introl eq_refl)) eq_refl)|destruct (proj2 (Zs s (or_intror eq_refl)) eq_refl)|].
      destruct (Zg g eq_refl) as (_ & H1 & H2). destruct Hv as [<-|<-]; [left|right]; assumption.
    + destruct Hv as [<-|<-]; [left|right]; reflexivity.
Qed.

Lemma mixed_forall (P : parser * str -> Prop) a b c : mixed a b c -> Forall P a -> Forall P b -> Forall P c.
Proof.
  induction 1 as [|x y z a b c Hz M IH]; intros A B; [constructor|]. inversion A; subst. inversion B; subst.
  constructor; [destruct Hz as [->| ->]; assumption|auto].
Qed.

(** The texts are UTF-8. *)
Lemma walk_values_utf8 ts text caps : trie_walk ts text caps -> Forall valid_token ts ->
  (forall q, In (Parser q) ts -> parser_ascii_set q) -> utf8 text -> Forall (fun x => utf8 (snd x)) caps.
Proof.
  induction 1 as [l|q v C|l ts text caps N0 Nl Nt W IH|q ts v text caps N0 C W IH]; intros V As U; [constructor| | |].
  - constructor; [exact U|constructor].
  - inversion V as [|? ? Vl V']; subst. apply IH; [exact V'|intros q J; apply As; right; exact J|exact (utf8_app_inv_r _ _ Vl U)].
  - inversion V as [|? ? Vq V']; subst. assert (utf8 v) as Uv.
    { apply (captures_ascii_utf8 q (v ++ text) v U); [|apply As; left; reflexivity|exact C]. destruct q; cbn in Vq |- *; tauto. }
    constructor; [exact Uv|]. apply IH; [exact V'|intros x J; apply As; right; exact J|exact (utf8_app_inv_r _ _ Uv U)].
Qed.
Lemma filled_utf8 ts vs text : filled ts vs text -> Forall valid_token ts -> Forall (fun x => utf8 (snd x)) vs -> utf8 text.
Proof.
  induction 1 as [|l ts vs text C F IH|q v ts vs text F IH]; intros V U; [constructor| |].
  - inversion V; subst. apply utf8_app; [assumption|auto].
  - inversion V; subst. inversion U; subst. apply utf8_app; [assumption|auto].
Qed.

Lemma mixed_message ts t1 t2 vs1 vs2 vs : shaped ts -> Forall valid_token ts -> (forall q, In (Parser q) ts -> parser_ascii_set q) ->
  utf8 t1 -> utf8 t2 -> trie_walk ts t1 vs1 -> trie_walk ts t2 vs2 -> mixed vs1 vs2 vs ->
  exists text, trie_walk ts text vs /\ filled ts vs text /\ utf8 text.
Proof.
  intros S V As U1 U2 W1 W2 M. destruct (mixed_walk ts t1 vs1 W1 t2 vs2 vs W2 S M) as (text & W & _).
  pose proof (proj1 (walk_filled _ _ _ W)) as F. exists text. split; [exact W|]. split; [exact F|].
  apply (filled_utf8 _ _ _ F V). exact (mixed_forall _ _ _ _ M (walk_values_utf8 _ _ _ W1 V As U1) (walk_values_utf8 _ _ _ W2 V As U2)).
Qed.

(** ** The matchers *)
Theorem trie_mix sip p s t t1 t2 r1 r2 :
  utf8 s -> compile s = Ret (Ok (pat_tokens p)) -> (forall q, parser_in [p] q -> parser_ascii_set q) -> collision_free sip [p] ->
  Trie.add_patterns sip Trie.tree_new [p] = Ret t -> utf8 t1 -> utf8 t2 ->
  Trie.parse t t1 = Ret (Some r1) -> Trie.parse t t2 = Ret (Some r2) ->
  exists vs1 vs2, filled (pat_tokens p) vs1 t1 /\ reports vs1 (mr_values r1) /\ filled (pat_tokens p) vs2 t2 /\ reports vs2 (mr_values r2) /\
    forall vs, mixed vs1 vs2 vs -> exists text, filled (pat_tokens p) vs text /\ utf8 text /\
      forall o, Trie.parse t text = Ret o -> exists r, o = Some r /\ mr_pattern r = stripped p /\ reports vs (mr_values r).
Proof.
  intros Us Cs As C A U1 U2 E1 E2. destruct (compile_shaped s _ Us Cs) as (_ & S).
  assert (valid_pattern p) as V by (pose proof (compiled_valid [p] (Forall_cons _ (ex_intro _ s (conj Us Cs)) (Forall_nil _))) as Z; inversion Z; assumption).
  destruct (trie_one sip p t t1 (Some r1) V C A U1 E1) as (_ & vs1 & W1 & R1).
  destruct (trie_one sip p t t2 (Some r2) V C A U2 E2) as (_ & vs2 & W2 & R2).
  exists vs1, vs2. split; [exact (proj1 (walk_filled _ _ _ W1))|]. split; [exact R1|].
  split; [exact (proj1 (walk_filled _ _ _ W2))|]. split; [exact R2|]. intros vs M.
  destruct (mixed_message (pat_tokens p) t1 t2 vs1 vs2 vs S V) as (text & W & F & U); try assumption.
  { intros q J. apply As. exists p. split; [left; reflexivity|exact J]. }
  exists text. split; [exact F|]. split; [exact U|]. intros o E.
  pose proof (trie_one sip p t text o V C A U E) as Q. destruct o as [r|]; [|destruct (Q _ W)].
  destruct Q as (Ep & caps & W' & R). rewrite (trie_walk_unique _ _ _ W' _ W) in R. eauto.
Qed.

Lemma same_pattern ps : NoDup (map pat_uuid ps) -> forall p p', In p ps -> In p' ps -> stripped p = stripped p' -> p = p'.
Proof.
  induction ps as [|x ps IH]; intros Nd p p' J J' E; [destruct J|]. inversion Nd as [|? ? H Nd']; subst.
  assert (pat_uuid p = pat_uuid p') as Eu by exact (f_equal pat_uuid E).
  destruct J as [<-|J], J' as [<-|J']; [reflexivity| | |exact (IH Nd' p p' J J' E)]; exfalso; apply H.
  - rewrite Eu. apply in_map, J'.
  - rewrite <- Eu. apply in_map, J.
Qed.
Theorem separate_mix sip ps t t1 t2 r1 r2 :
  Forall (fun p => exists s, utf8 s /\ compile s = Ret (Ok (pat_tokens p))) ps -> (forall q, parser_in ps q -> parser_ascii_set q) ->
  separate ps -> NoDup (map pat_uuid ps) ->
  Trie.add_patterns sip Trie.tree_new ps = Ret t -> utf8 t1 -> utf8 t2 ->
  Trie.parse t t1 = Ret (Some r1) -> Trie.parse t t2 = Ret (Some r2) -> mr_pattern r1 = mr_pattern r2 ->
  exists p vs1 vs2, In p ps /\ mr_pattern r1 = stripped p /\
    filled (pat_tokens p) vs1 t1 /\ reports vs1 (mr_values r1) /\ filled (pat_tokens p) vs2 t2 /\ reports vs2 (mr_values r2) /\
    forall vs, mixed vs1 vs2 vs -> exists text, filled (pat_tokens p) vs text /\ utf8 text /\
      (forall o, Trie.parse t text = Ret o -> exists r, o = Some r /\ mr_pattern r = stripped p /\ reports vs (mr_values r)) /\
      forall sip' t', SuffixArray.add_patterns sip' SuffixArray.table_new ps = Ret t' ->
        exists r, SuffixArray.parse t' text = Ret (Some r) /\ mr_pattern r = stripped p /\ reports vs (mr_values r).
Proof.
  intros Cp As S Nd A U1 U2 E1 E2 Er. pose proof (compiled_valid ps Cp) as V. pose proof (same_pattern ps Nd) as Same.
  destruct (separate_answers sip ps t t1 (Some r1) V S A U1 E1) as (p & vs1 & (J & W1 & _) & Ep & R1).
  destruct (separate_answers sip ps t t2 (Some r2) V S A U2 E2) as (p2 & vs2 & (J2 & W2 & _) & Ep2 & R2).
  assert (p2 = p) as -> by (apply Same; [exact J2|exact J|congruence]).
  assert (shaped (pat_tokens p)) as Sh by (destruct (proj1 (Forall_forall _ _) Cp p J) as (s & Us & Cs); exact (proj2 (compile_shaped s _ Us Cs))).
  exists p, vs1, vs2. split; [exact J|]. split; [exact Ep|]. split; [exact (proj1 (walk_filled _ _ _ W1))|]. split; [exact R1|].
  split; [exact (proj1 (walk_filled _ _ _ W2))|]. split; [exact R2|]. intros vs M.
  destruct (mixed_message (pat_tokens p) t1 t2 vs1 vs2 vs Sh) as (text & W & F & U); try assumption.
  { exact (proj1 (Forall_forall _ _) V p J). }
  { intros q Jq. apply As. exists p. split; [exact J|exact Jq]. }
  exists text. split; [exact F|]. split; [exact U|]. split.
  - intros o E. pose proof (separate_answers sip ps t text o V S A U E) as Q. destruct o as [r|]; [|destruct (Q _ _ J W)].
    destruct Q as (p3 & caps & (_ & _ & One) & Ep3 & R). destruct (One _ _ J W) as (-> & ->). eauto.
  - intros sip' t' At. exact (separate_table sip' ps t' text p vs V As S At U J W).
Qed.
