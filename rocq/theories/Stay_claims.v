(** * Test messages that stay valid in the suffix table *)
From Coq Require Import Sorted.
From Verif Require Import Base Base_facts Utils Utils_facts Parsers Pattern Spec Spec_table Spec_stay SuffixArray
  TrieSpec TrieSpec_facts TrieSpec_props TrieSpec_cases TableSpec Table_refine Table_facts Table_content Table_claims
  Source Spec_source Source_claims Loading_claims Deciders.
From Verif Require Trie Trie_total Trie_main Trie_claims.

(** ** The nearest key stays the nearest when others are dropped *)
Definition near (S : list str) (text k : str) : Prop :=
  (str_cmp k text <> Gt /\ (forall x, In x S -> str_cmp x text <> Gt -> str_cmp x k <> Gt) /\
   (forall x, In x S -> common_prefix_len x text <= common_prefix_len k text)) \/
  (str_cmp k text = Gt /\ (forall x, In x S -> str_cmp x text = Gt -> str_cmp k x <> Gt) /\
   (forall x, In x S -> str_cmp x text <> Gt -> common_prefix_len x text < common_prefix_len k text)).

Lemma notgtb_spec c : notgtb c = true <-> c <> Gt.
Proof. destruct c; simpl; split; congruence. Qed.

Lemma nearest_near {A} (K : list (str * A)) text k e :
  ksorted K -> (forall x, In x K -> utf8 (fst x)) -> utf8 text -> nearest K text = Some (k, e) -> near (keys K) text k.
Proof.
  intros HS HU Hu H. pose proof (nearest_max K text k e HS HU Hu H) as M. unfold nearest in H.
  set (K1 := filter (fun x => notgtb (str_cmp (fst x) text)) K) in *.
  set (K2 := filter (fun x => negb (notgtb (str_cmp (fst x) text))) K) in *.
  assert (ksorted K1) as S1 by (apply ksorted_filter; exact HS).
  assert (ksorted K2) as S2 by (apply ksorted_filter; exact HS).
  assert (forall x, In x K1 <-> In x K /\ str_cmp (fst x) text <> Gt) as I1.
  { intros x. unfold K1. rewrite filter_In, notgtb_spec. reflexivity. }
  assert (forall x, In x K2 <-> In x K /\ str_cmp (fst x) text = Gt) as I2.
  { intros x. unfold K2. rewrite filter_In. destruct (str_cmp (fst x) text); simpl; split; intros (? & ?); split; congruence. }
  assert (forall a, last_opt K1 = Some a ->
    str_cmp (fst a) text <> Gt /\ forall x, In x (keys K) -> str_cmp x text <> Gt ->
      str_cmp x (fst a) <> Gt /\ common_prefix_len x text <= common_prefix_len (fst a) text) as L.
  { intros a Ha. pose proof (last_opt_in _ _ Ha) as Ia. apply I1 in Ia. destruct Ia as (Ia & Ca). split; [exact Ca|].
    intros x Hx Cx. unfold keys in Hx. apply in_map_iff in Hx. destruct Hx as (y & <- & Hy).
    pose proof (sorted_last K1 a S1 Ha y (proj2 (I1 y) (conj Hy Cx))) as Q. split; [exact Q|].
    apply cpl_between_up; auto. }
  assert (forall x, In x (keys K) -> common_prefix_len x text <= common_prefix_len k text) as M'.
  { intros x Hx. unfold keys in Hx. apply in_map_iff in Hx. destruct Hx as (y & <- & Hy). auto. }
  assert (forall b, hd_error K2 = Some b -> 
    str_cmp (fst b) text = Gt /\ forall x, In x (keys K) -> str_cmp x text = Gt -> str_cmp (fst b) x <> Gt) as R.
  { intros b Hb. pose proof (hd_error_in _ _ Hb) as Ib. apply I2 in Ib. destruct Ib as (Ib & Cb). split; [exact Cb|].
    intros x Hx Cx. unfold keys in Hx. apply in_map_iff in Hx. destruct Hx as (y & <- & Hy).
    apply (sorted_first K2 b S2 Hb y). apply I2. auto. }
  destruct (last_opt K1) as [a|] eqn:Ea.
  - destruct (L a eq_refl) as (La & Lx). destruct (hd_error K2) as [b|] eqn:Eb.
    + destruct (R b eq_refl) as (Rb & Rx).
      destruct (Nat.leb_spec (common_prefix_len (fst b) text) (common_prefix_len (fst a) text)) as [Q|Q].
      * injection H as ->. left. split; [exact La|]. split; [|exact M']. intros x Hx Cx. apply (Lx x Hx Cx).
      * injection H as ->. right. split; [exact Rb|]. split; [exact Rx|]. intros x Hx Cx.
        destruct (Lx x Hx Cx) as (_ & Q'). cbn [fst] in *. lia.
    + injection H as ->. left. split; [exact La|]. split; [|exact M']. intros x Hx Cx. apply (Lx x Hx Cx).
  - destruct (R (k, e) H) as (Rb & Rx). right. split; [exact Rb|]. split; [exact Rx|]. intros x Hx Cx.
    apply last_opt_none in Ea. unfold keys in Hx. apply in_map_iff in Hx. destruct Hx as (y & <- & Hy).
    assert (In y K1) as Hy1 by (apply I1; auto). rewrite Ea in Hy1. destruct Hy1.
Qed.

Lemma near_unique S text k k' : In k S -> In k' S -> near S text k -> near S text k' -> k = k'.
Proof.
  assert (forall a b, str_cmp a b <> Gt -> str_cmp b a <> Gt -> a = b) as AS.
  { intros a b H1 H2. apply str_cmp_eq. rewrite str_cmp_antisym in H2. destruct (str_cmp a b); simpl in *; congruence. }
  intros I I' [(C & O & M)|(C & O & M)] [(C' & O' & M')|(C' & O' & M')].
  - apply AS; auto.
  - specialize (M' k I C). specialize (M k' I'). lia.
  - specialize (M k' I' C'). specialize (M' k I). lia.
  - apply AS; auto.
Qed.

Lemma near_sub S S' text k : incl S' S -> near S text k -> near S' text k.
Proof.
  intros Hi [(C & O & M)|(C & O & M)]; [left|right]; (split; [exact C|]); split; auto.
Qed.

Lemma ksorted_fun {A} (K : list (str * A)) k e e' : ksorted K -> In (k, e) K -> In (k, e') K -> e = e'.
Proof.
  unfold ksorted. induction K as [|(y, d) K IH]; intros HS H H'; [destruct H|].
  cbn [keys map fst] in HS. inversion HS as [|? ? S1 S2]; subst. rewrite Forall_forall in S2.
  assert (forall z, ~ In (y, z) K) as N.
  { intros z Hz. specialize (S2 y (in_map fst _ _ Hz)). unfold str_lt in S2. rewrite str_cmp_refl in S2. discriminate. }
  destruct H as [E|H], H' as [E'|H'].
  - congruence.
  - injection E as -> ->. destruct (N _ H').
  - injection E' as -> ->. destruct (N _ H).
  - apply (IH S1 H H').
Qed.

Lemma nearest_sub {A} (K K' : list (str * A)) text k e :
  ksorted K -> ksorted K' -> (forall x, In x K -> utf8 (fst x)) -> utf8 text ->
  incl (keys K') (keys K) -> nearest K text = Some (k, e) -> In (k, e) K' -> nearest K' text = Some (k, e).
Proof.
  intros HS HS' HU Hu Hsub H Hk.
  assert (forall x, In x K' -> utf8 (fst x)) as HU'.
  { intros x Hx. specialize (Hsub (fst x) (in_map fst _ _ Hx)). unfold keys in Hsub. apply in_map_iff in Hsub.
    destruct Hsub as (y & <- & Hy). auto. }
  destruct (nearest K' text) as [(k', e')|] eqn:E'; [|apply nearest_none in E'; rewrite E' in Hk; destruct Hk].
  pose proof (nearest_in _ _ _ _ E') as Hk'.
  assert (k' = k) as ->.
  { apply (near_unique (keys K') text).
    - apply (in_map fst _ _ Hk').
    - apply (in_map fst _ _ Hk).
    - apply (nearest_near K' text k' e' HS' HU' Hu E').
    - apply (near_sub (keys K)); [exact Hsub|]. apply (nearest_near K text k e HS HU Hu H). }
  rewrite (ksorted_fun K' k e' e HS' Hk' Hk). reflexivity.
Qed.

(** ** Patterns that do not matter *)
Lemma last_such_without {A} (f : pattern -> option A) D ps ps' :
  without D ps ps' -> (forall p a, In p ps -> D p -> f p <> Some a) -> last_such f ps' = last_such f ps.
Proof.
  intros W. unfold last_such. generalize (@None A). induction W as [|p ps ps' W IH|p ps ps' Dp W IH]; intros acc H; [reflexivity| |].
  - cbn [fold_left]. apply IH. intros q a Hq. apply H. right. exact Hq.
  - cbn [fold_left]. destruct (f p) as [a|] eqn:F; [destruct (H p a (or_introl eq_refl) Dp F)|].
    apply IH. intros q a Hq. apply H. right. exact Hq.
Qed.

Lemma without_incl D ps ps' : without D ps ps' -> incl ps' ps.
Proof.
  intros W. induction W as [|p ps ps' W IH|p ps ps' Dp W IH]; intros x Hx; [exact Hx| |right; auto].
  destruct Hx as [->|Hx]; [left; reflexivity|right; auto].
Qed.

Lemma without_in D ps ps' p : without D ps ps' -> In p ps -> ~ D p -> In p ps'.
Proof.
  intros W. induction W as [|q ps ps' W IH|q ps ps' Dp W IH]; intros Hp N; [exact Hp| |].
  - destruct Hp as [->|Hp]; [left; reflexivity|right; auto].
  - destruct Hp as [->|Hp]; [contradiction|auto].
Qed.

Lemma without_some D ps ps' : without D ps ps' -> ps' = ps \/ exists q, In q ps /\ D q.
Proof.
  intros W. induction W as [|q ps ps' W IH|q ps ps' Dp W IH]; [left; reflexivity| |].
  - destruct IH as [->|(q' & Hq & Dq)]; [left; reflexivity|right; exists q'; split; [right; exact Hq|exact Dq]].
  - right. exists q. split; [left; reflexivity|exact Dp].
Qed.

Lemma t_parse_far ps ps' text :
  Forall valid_pattern ps -> utf8 text -> without (outdone text ps) ps ps' ->
  t_parse (t_adds ps') text = t_parse (t_adds ps) text.
Proof.
  intros V Hu W. pose proof (without_incl _ _ _ W) as Hi.
  destruct (without_some _ _ _ W) as [->|(q0 & Hq0 & p0 & Hp0 & l0 & w0 & Hl0 & _)]; [reflexivity|].
  assert (forall p l, In p ps -> starts_with p l -> exists e, In (l, e) (lits_of (t_adds ps))) as HK.
  { intros p l Hp Hl. eexists. apply t_adds_lits. split; [|reflexivity]. eauto. }
  destruct (nearest (lits_of (t_adds ps)) text) as [(k, e)|] eqn:En.
  2: { apply nearest_none in En. destruct (HK p0 l0 Hp0 Hl0) as (e & He). rewrite En in He. destruct He. }
  pose proof (t_adds_sorted ps) as S1. pose proof (t_adds_sorted ps') as S2.
  pose proof (incl_Forall Hi V) as V2.
  pose proof (nearest_in _ _ _ _ En) as Hk. apply t_adds_lits in Hk. destruct Hk as ((p & Hp & Hs) & Ee).
  assert (forall q, In q ps -> starts_with q k -> ~ outdone text ps q) as Kept.
  { intros q Hq Hqk (p' & Hp' & l & w & Hl & Hw & [N|(l' & w' & Hl' & Hw' & L)]).
    - exact (N k Hqk).
    - assert (l' = k) as -> by (destruct Hl' as (? & E1), Hqk as (? & E2); congruence).
      destruct (HK p' l Hp' Hl) as (e' & He').
      pose proof (nearest_max _ text k e S1 (t_adds_keys_utf8 ps V) Hu En (l, e') He') as M. cbn [fst] in M.
      destruct (cpl_longest k text (starts_utf8 ps q k V Hq Hqk) Hu) as (v' & Ev' & Hv').
      destruct (cpl_longest l text (starts_utf8 ps p' l V Hp' Hl) Hu) as (v & Ev & Hv).
      rewrite (longest_common_chars_unique _ _ _ _ Hw Hv), (longest_common_chars_unique _ _ _ _ Hw' Hv') in L. lia. }
  assert (In (k, e) (lits_of (t_adds ps'))) as Hk2.
  { apply t_adds_lits. split.
    - exists p. split; [|exact Hs]. apply (without_in _ _ _ _ W Hp). apply (Kept p Hp Hs).
    - rewrite Ee. rewrite !(last_such_without _ _ _ _ W); [reflexivity| |].
      + intros q a Hq Dq Ha. apply (Kept q Hq); [|exact Dq]. unfold longer in Ha. destruct (pat_tokens q) as [|t1 [|t2 rr]] eqn:Et; try discriminate.
        destruct (token_dec t1 (Literal k)) as [->|]; [|discriminate]. eexists. exact Et.
      + intros q a Hq Dq Ha. apply (Kept q Hq); [|exact Dq]. unfold single in Ha. destruct (pat_tokens q) as [|t1 [|t2 rr]] eqn:Et; try discriminate.
        destruct (token_dec t1 (Literal k)) as [->|]; [|discriminate]. eexists. exact Et. }
  assert (nearest (lits_of (t_adds ps')) text = Some (k, e)) as En2.
  { apply (nearest_sub (lits_of (t_adds ps))); auto.
    - apply t_adds_keys_utf8. exact V.
    - intros x Hx. unfold keys in Hx. apply in_map_iff in Hx. destruct Hx as ((x', ex) & <- & Hx). apply t_adds_lits in Hx.
      destruct Hx as ((q & Hq & Hqx) & _). destruct (HK q x' (Hi q Hq) Hqx) as (e' & He').
      apply (in_map fst _ _ He'). }
  destruct (t_adds ps) as [K P], (t_adds ps') as [K2 P2]. cbn [lits_of] in *.
  rewrite !t_parse_unfold, En, En2. reflexivity.
Qed.

Theorem table_far sip ps ps' t t' text r r' :
  Forall valid_pattern ps -> collision_free sip ps ->
  without (outdone text ps) ps ps' ->
  add_patterns sip table_new ps = Ret t -> add_patterns sip table_new ps' = Ret t' ->
  utf8 text -> parse t text = Ret r -> parse t' text = Ret r' -> r = r'.
Proof.
  intros V C W Ha Ha' Hu. apply (table_same sip ps ps' t t' text r r'); auto; [apply (without_incl _ _ _ W)|].
  symmetry. apply t_parse_far; assumption.
Qed.

(** ** Patterns that keep a match *)
Lemma t_adds_pars ps x :
  In x (map fst (pars_of (t_adds ps))) <-> exists p rest, In p ps /\ pat_tokens p = Parser x :: rest.
Proof.
  split.
  - intros H. apply in_map_iff in H. destruct H as ((y, e) & <- & H). cbn [fst]. apply in_pars in H; [|apply t_adds_pnodup].
    rewrite t_adds_entry in H. destruct (existsb (first_is (Parser y)) ps) eqn:Ex; [|discriminate].
    apply existsb_exists in Ex. destruct Ex as (p & Hp & Hf). unfold first_is in Hf.
    destruct (pat_tokens p) as [|t rest] eqn:Et; [discriminate|]. destruct (token_dec t (Parser y)) as [->|]; [|discriminate].
    exists p, rest. auto.
  - intros (p & rest & Hp & Et).
    assert (existsb (first_is (Parser x)) ps = true) as Ex.
    { apply existsb_exists. exists p. split; [exact Hp|]. unfold first_is. rewrite Et. destruct (token_dec (Parser x) (Parser x)); congruence. }
    pose proof (t_adds_entry ps (Parser x)) as H. rewrite Ex in H. apply in_pars in H; [|apply t_adds_pnodup].
    apply (in_map fst) in H. exact H.
Qed.

Lemma t_adds_new_parsers ps qs :
  (forall q, In q qs -> new_parser_first ps q) ->
  lits_of (t_adds (ps ++ qs)) = lits_of (t_adds ps) /\
  exists Q, pars_of (t_adds (ps ++ qs)) = pars_of (t_adds ps) ++ Q.
Proof.
  induction qs as [|q qs IH] using rev_ind; intros H.
  - rewrite app_nil_r. split; [reflexivity|]. exists []. rewrite app_nil_r. reflexivity.
  - destruct IH as (EL & Q & EQ). { intros x Hx. apply H. apply in_app_iff. auto. }
    destruct (H q) as (x & rest & Et & N); [apply in_app_iff; right; left; reflexivity|].
    rewrite app_assoc, t_adds_snoc. unfold t_add. rewrite Et, t_insert_unfold. cbn [lits_of pars_of]. split; [exact EL|].
    rewrite EQ.
    assert (~ In x (map fst (pars_of (t_adds ps)))) as Nx.
    { rewrite t_adds_pars. intros (p & rest' & Hp & Ep). apply (N p rest' Hp Ep). }
    revert Nx. generalize (pars_of (t_adds ps)) as P. intros P Nx. eexists.
    induction P as [|(y, e) P IHP].
    + cbn [app]. reflexivity.
    + cbn [app at_parser]. destruct (parser_eq_dec y x) as [->|_]; [destruct Nx; left; reflexivity|].
      f_equal. apply IHP. intros I. apply Nx. right. exact I.
Qed.

Lemma try_parsers_more f P Q text r :
  try_parsers f P text = Some r -> try_parsers f (P ++ Q) text = Some r.
Proof.
  induction P as [|(x, e) P IH]; cbn [try_parsers app]; [discriminate|].
  destruct (try_parser f x e text); auto.
Qed.

Lemma t_parse_keeps ps qs text r :
  Forall valid_pattern (ps ++ qs) -> utf8 text ->
  (forall q, In q qs -> outdone text ps q \/ new_parser_first ps q) ->
  t_parse (t_adds ps) text = Some r -> t_parse (t_adds (ps ++ qs)) text = Some r.
Proof.
  intros V Hu H E. destruct (existsb literal_first ps) eqn:El.
  - rewrite <- E. symmetry. apply t_parse_far; [exact V|exact Hu|].
    apply existsb_exists in El. destruct El as (p0 & Hp0 & Hl0).
    assert (forall q, In q qs -> outdone text (ps ++ qs) q) as HD.
    { intros q Hq. destruct (H q Hq) as [(p & Hp & F)|(x & rest & Et & _)].
      - exists p. split; [apply in_app_iff; auto|exact F].
      - unfold literal_first in Hl0. destruct (pat_tokens p0) as [|[y|l] rest0] eqn:E0; try discriminate.
        exists p0. split; [apply in_app_iff; auto|].
        assert (utf8 l) as Ul.
        { apply (starts_utf8 (ps ++ qs) p0 l V); [apply in_app_iff; auto|]. exists rest0. exact E0. }
        destruct (cpl_longest l text Ul Hu) as (w & _ & Hw). exists l, w. split; [exists rest0; exact E0|]. split; [exact Hw|].
        left. intros l' (rest' & E'). congruence. }
    generalize dependent (outdone text (ps ++ qs)). intros D HD. clear - HD. induction ps as [|p ps IH].
    + cbn [app]. induction qs as [|q qs IH]; [constructor|]. apply without_drop; [apply HD; left; reflexivity|].
      apply IH. intros x Hx. apply HD. right. exact Hx.
    + cbn [app]. apply without_keep. exact IH.
  - destruct (t_adds_new_parsers ps qs) as (EL & Q & EQ).
    { intros q Hq. destruct (H q Hq) as [(p & Hp & l & w & (rest & Es) & _)|N]; [|exact N]. exfalso.
      assert (existsb literal_first ps = true) as X; [|congruence]. apply existsb_exists. exists p. split; [exact Hp|].
      unfold literal_first. rewrite Es. reflexivity. }
    destruct (t_adds ps) as [K P], (t_adds (ps ++ qs)) as [K' P']. cbn [lits_of pars_of] in *. subst K' P'.
    rewrite t_parse_unfold in *. destruct (nearest K text) as [(k, e)|]; [exact E|].
    apply try_parsers_more. exact E.
Qed.

Theorem table_keeps sip ps qs t t' text r r' :
  Forall valid_pattern (ps ++ qs) -> collision_free sip (ps ++ qs) ->
  (forall q, In q qs -> outdone text ps q \/ new_parser_first ps q) ->
  add_patterns sip table_new ps = Ret t -> add_patterns sip table_new (ps ++ qs) = Ret t' ->
  utf8 text -> parse t text = Ret (Some r) -> parse t' text = Ret r' -> r' = Some r.
Proof.
  intros V C H Ha Ha' Hu Hp Hp'.
  assert (incl ps (ps ++ qs)) as Hi by (apply incl_appl, incl_refl).
  apply (table_refines sip (ps ++ qs) t' text r' V C Ha' Hu) in Hp'.
  apply (table_refines sip ps t text _ (incl_Forall Hi V) (Trie_main.collision_free_incl _ _ _ Hi C) Ha Hu) in Hp.
  rewrite Hp'. apply t_parse_keeps; auto.
Qed.

(** ** Test messages *)
Theorem table_tests_or_panic sip before p after m t :
  let ps := patterns_of (before ++ Ok p :: after) in
  Forall valid_pattern ps -> collision_free sip ps -> utf8_tests ps ->
  from_source (table_ops sip) (before ++ Ok p :: after) = Ret (Ok m) ->
  In t (tests p) ->
  (forall q, In (Ok q) after ->
     outdone (tm_message t) (patterns_of before ++ [p]) q \/ new_parser_first (patterns_of before ++ [p]) q) ->
  passes (table_ops sip) m p t \/ mo_parse (table_ops sip) m (tm_message t) = Panic.
Proof.
  intros ps V C T H Ht N. apply from_source_ok in H.
  pose proof (loads_adds _ _ _ _ H) as (_ & Am). rewrite table_adds in Am. fold ps in Am. cbn [table_ops mo_new] in Am.
  apply loads_split in H. destruct H as (m1 & m2 & L1 & A2 & P & L2).
  destruct (P t Ht) as (r & E & Eu & S).
  pose proof (loads_adds _ _ _ _ L1) as (_ & A1). rewrite table_adds in A1.
  set (qs := map untested (patterns_of before ++ [p])).
  assert (SuffixArray.add_patterns sip SuffixArray.table_new qs = Ret m2) as Aq.
  { unfold qs. rewrite <- (table_adds sip), map_app, adds_app, table_adds. cbn [table_ops mo_new] in A1. rewrite A1. cbn [bind map adds].
    rewrite A2. reflexivity. }
  assert (map untested ps = qs ++ map untested (patterns_of after)) as Eps.
  { unfold ps, qs. rewrite patterns_of_app. cbn [patterns_of]. rewrite !map_app. cbn [map]. rewrite <- app_assoc. reflexivity. }
  pose proof (untested_valid ps V) as V'. pose proof (untested_collision_free sip ps C) as C'.
  assert (utf8 (tm_message t)) as Ut.
  { apply (T p t); [|exact Ht]. unfold ps. rewrite patterns_of_app. apply in_app_iff. right. left. reflexivity. }
  cbn [table_ops mo_parse] in *.
  destruct (SuffixArray.parse m (tm_message t)) as [r1| |] eqn:E1; [left|right; reflexivity|destruct (Table_refine.parse_terminates _ _ E1)].
  exists r. split; [cbn [table_ops mo_parse]; rewrite E1; f_equal|auto].
  rewrite Eps in V', C', Am.
  apply (table_keeps sip qs (map untested (patterns_of after)) m2 m (tm_message t) r r1); auto.
  intros q Hq. apply in_map_iff in Hq. destruct Hq as (q' & <- & Hq).
  assert (In (Ok q') after) as Hq'.
  { clear - Hq. induction after as [|[x|e] after IH]; cbn [patterns_of] in Hq; [destruct Hq| |right; auto].
    destruct Hq as [->|Hq]; [left; reflexivity|right; auto]. }
  destruct (N q' Hq') as [(p' & Hp' & F)|(x & rest & Et & Nx)]; [left|right].
  - exists (untested p'). split; [apply in_map; exact Hp'|]. exact F.
  - exists x, rest. split; [exact Et|]. intros y rest' Hy. apply in_map_iff in Hy. destruct Hy as (y' & <- & Hy).
    apply (Nx y' rest' Hy).
Qed.

Theorem table_tests_stay sip before p after m t :
  let ps := patterns_of (before ++ Ok p :: after) in
  Forall valid_pattern ps -> (forall q, parser_in ps q -> parser_ascii_set q) -> collision_free sip ps -> utf8_tests ps ->
  from_source (table_ops sip) (before ++ Ok p :: after) = Ret (Ok m) ->
  In t (tests p) ->
  (forall q, In (Ok q) after ->
     outdone (tm_message t) (patterns_of before ++ [p]) q \/ new_parser_first (patterns_of before ++ [p]) q) ->
  passes (table_ops sip) m p t.
Proof.
  intros ps V A C T H Ht N. destruct (table_tests_or_panic sip before p after m t V C T H Ht N) as [K|K]; [exact K|exfalso].
  apply from_source_ok in H. pose proof (loads_adds _ _ _ _ H) as (_ & Am). rewrite table_adds in Am. fold ps in Am.
  destruct (Table_claims.table_total sip (map untested ps) (untested_valid ps V)) as (m' & Am' & Pm).
  { intros q Hq. apply A. apply untested_parsers. exact Hq. }
  cbn [table_ops mo_new mo_parse] in *. rewrite Am in Am'. injection Am' as <-.
  destruct (Pm (tm_message t)) as (r1 & E1); [|congruence].
  apply (T p t); [|exact Ht]. unfold ps. rewrite patterns_of_app. apply in_app_iff. right. left. reflexivity.
Qed.

(** ** The trie *)
Lemma s_adds_new_parsers ps qs :
  (forall q, In q qs -> new_parser_first ps q) ->
  lits_of (s_adds (ps ++ qs)) = lits_of (s_adds ps) /\
  exists Q, pars_of (s_adds (ps ++ qs)) = pars_of (s_adds ps) ++ Q.
Proof.
  induction qs as [|q qs IH] using rev_ind; intros H.
  - rewrite app_nil_r. split; [reflexivity|]. exists []. rewrite app_nil_r. reflexivity.
  - destruct IH as (EL & Q & EQ). { intros x Hx. apply H. apply in_app_iff. auto. }
    destruct (H q) as (x & rest & Et & N); [apply in_app_iff; right; left; reflexivity|].
    rewrite app_assoc, s_adds_snoc. unfold s_add. rewrite Et. cbn [s_insert lits_of pars_of]. split; [exact EL|].
    rewrite EQ.
    assert (~ In x (map fst (pars_of (s_adds ps)))) as Nx.
    { rewrite s_adds_pars. intros (p & rest' & Hp & Ep). apply (N p rest' Hp Ep). }
    revert Nx. generalize (pars_of (s_adds ps)) as P. intros P Nx. eexists.
    induction P as [|(y, e) P IHP].
    + cbn [app]. reflexivity.
    + cbn [app at_parser]. destruct (parser_eq_dec y x) as [->|_]; [destruct Nx; left; reflexivity|].
      f_equal. apply IHP. intros I. apply Nx. right. exact I.
Qed.

Lemma s_parse_keeps ps qs text r :
  (forall q, In q qs -> may_concern text q = false \/ new_parser_first ps q) ->
  s_parse (s_adds ps) text = Some r -> s_parse (s_adds (ps ++ qs)) text = Some r.
Proof.
  intros H E. rewrite s_parse_concern, filter_app. rewrite s_parse_concern in E.
  destruct (s_adds_new_parsers (filter (may_concern text) ps) (filter (may_concern text) qs)) as (EL & Q & EQ).
  { intros q Hq. apply filter_In in Hq. destruct Hq as (Hq & Mq). destruct (H q Hq) as [M|(x & rest & Et & N)]; [congruence|].
    exists x, rest. split; [exact Et|]. intros p rest' Hp. apply filter_In in Hp. apply N. apply Hp. }
  destruct (s_adds (filter (may_concern text) ps)) as [K P], (s_adds (filter (may_concern text) ps ++ filter (may_concern text) qs)) as [K' P'].
  cbn [lits_of pars_of] in *. subst K' P'. rewrite s_parse_unfold in *.
  destruct (try_literals s_parse (keys K) K text); [exact E|].
  destruct (lookup text K); [exact E|]. destruct (blocked (keys K) text); [discriminate|].
  apply try_parsers_more. exact E.
Qed.

Theorem trie_keeps sip ps qs t t' text r r' :
  Forall valid_pattern (ps ++ qs) -> collision_free sip (ps ++ qs) ->
  (forall q, In q qs -> may_concern text q = false \/ new_parser_first ps q) ->
  Trie.add_patterns sip Trie.tree_new ps = Ret t -> Trie.add_patterns sip Trie.tree_new (ps ++ qs) = Ret t' ->
  utf8 text -> Trie.parse t text = Ret (Some r) -> Trie.parse t' text = Ret r' -> r' = Some r.
Proof.
  intros V C H Ha Ha' Hu Hp Hp'.
  assert (incl ps (ps ++ qs)) as Hi by (apply incl_appl, incl_refl).
  apply (Trie_main.trie_refines sip (ps ++ qs) t' text r' V C Ha' Hu) in Hp'.
  apply (Trie_main.trie_refines sip ps t text _ (incl_Forall Hi V) (Trie_main.collision_free_incl _ _ _ Hi C) Ha Hu) in Hp.
  rewrite Hp'. apply s_parse_keeps; auto.
Qed.

Theorem trie_tests_or_panic sip before p after m t :
  let ps := patterns_of (before ++ Ok p :: after) in
  Forall valid_pattern ps -> collision_free sip ps -> utf8_tests ps ->
  from_source (trie_ops sip) (before ++ Ok p :: after) = Ret (Ok m) ->
  In t (tests p) ->
  (forall q, In (Ok q) after ->
     may_concern (tm_message t) q = false \/ new_parser_first (patterns_of before ++ [p]) q) ->
  passes (trie_ops sip) m p t \/ mo_parse (trie_ops sip) m (tm_message t) = Panic.
Proof.
  intros ps V C T H Ht N. apply from_source_ok in H.
  pose proof (loads_adds _ _ _ _ H) as (_ & Am). rewrite trie_adds in Am. fold ps in Am. cbn [trie_ops mo_new] in Am.
  apply loads_split in H. destruct H as (m1 & m2 & L1 & A2 & P & L2).
  destruct (P t Ht) as (r & E & Eu & S).
  pose proof (loads_adds _ _ _ _ L1) as (_ & A1). rewrite trie_adds in A1.
  set (qs := map untested (patterns_of before ++ [p])).
  assert (Trie.add_patterns sip Trie.tree_new qs = Ret m2) as Aq.
  { unfold qs. rewrite <- (trie_adds sip), map_app, adds_app, trie_adds. cbn [trie_ops mo_new] in A1. rewrite A1. cbn [bind map adds].
    rewrite A2. reflexivity. }
  assert (map untested ps = qs ++ map untested (patterns_of after)) as Eps.
  { unfold ps, qs. rewrite patterns_of_app. cbn [patterns_of]. rewrite !map_app. cbn [map]. rewrite <- app_assoc. reflexivity. }
  pose proof (untested_valid ps V) as V'. pose proof (untested_collision_free sip ps C) as C'.
  assert (utf8 (tm_message t)) as At.
  { apply (T p t); [|exact Ht]. unfold ps. rewrite patterns_of_app. apply in_app_iff. right. left. reflexivity. }
  cbn [trie_ops mo_parse] in *.
  destruct (Trie.parse m (tm_message t)) as [r1| |] eqn:E1; [left|right; reflexivity|destruct (Trie_total.parse_terminates _ _ E1)].
  exists r. split; [cbn [trie_ops mo_parse]; rewrite E1; f_equal|auto].
  rewrite Eps in V', C', Am.
  apply (trie_keeps sip qs (map untested (patterns_of after)) m2 m (tm_message t) r r1); auto.
  intros q Hq. apply in_map_iff in Hq. destruct Hq as (q' & <- & Hq).
  assert (In (Ok q') after) as Hq'.
  { clear - Hq. induction after as [|[x|e] after IH]; cbn [patterns_of] in Hq; [destruct Hq| |right; auto].
    destruct Hq as [->|Hq]; [left; reflexivity|right; auto]. }
  destruct (N q' Hq') as [F|(x & rest & Et & Nx)]; [left|right].
  - exact F.
  - exists x, rest. split; [exact Et|]. intros y rest' Hy. apply in_map_iff in Hy. destruct Hy as (y' & <- & Hy).
    apply (Nx y' rest' Hy).
Qed.

Theorem trie_tests_stay_more sip before p after m t :
  let ps := patterns_of (before ++ Ok p :: after) in
  Forall valid_pattern ps -> Forall ascii_pattern ps -> collision_free sip ps -> ascii_tests ps ->
  from_source (trie_ops sip) (before ++ Ok p :: after) = Ret (Ok m) ->
  In t (tests p) ->
  (forall q, In (Ok q) after ->
     may_concern (tm_message t) q = false \/ new_parser_first (patterns_of before ++ [p]) q) ->
  passes (trie_ops sip) m p t.
Proof.
  intros ps V A C T H Ht N.
  assert (utf8_tests ps) as U by (intros p' t' Hp' Ht'; apply ascii_utf8; apply (T p' t'); assumption).
  destruct (trie_tests_or_panic sip before p after m t V C U H Ht N) as [K|K]; [exact K|exfalso].
  apply from_source_ok in H. pose proof (loads_adds _ _ _ _ H) as (_ & Am). rewrite trie_adds in Am. fold ps in Am.
  destruct (Trie_main.trie_total sip (map untested ps) (untested_valid ps V) (untested_ascii ps A)) as (m' & Am' & Pm).
  cbn [trie_ops mo_new mo_parse] in *. rewrite Am in Am'. injection Am' as <-.
  destruct (Pm (tm_message t)) as (r1 & E1); [|congruence].
  apply (T p t); [|exact Ht]. unfold ps. rewrite patterns_of_app. apply in_app_iff. right. left. reflexivity.
Qed.

(** ** Deciding [farther] *)
Lemma farther_counted text p q l l' :
  utf8b text = true -> utf8b l = true -> utf8b l' = true ->
  (exists rest, pat_tokens p = Literal l :: rest) -> (exists rest, pat_tokens q = Literal l' :: rest) ->
  common_prefix_len l' text < common_prefix_len l text -> farther text p q.
Proof.
  intros U Ul Ul' Hp Hq L. apply utf8b_sound in U, Ul, Ul'.
  destruct (cpl_longest l text Ul U) as (w & Ew & Hw), (cpl_longest l' text Ul' U) as (w' & Ew' & Hw').
  exists l, w. split; [exact Hp|]. split; [exact Hw|]. right. exists l', w'. split; [exact Hq|]. split; [exact Hw'|]. lia.
Qed.
