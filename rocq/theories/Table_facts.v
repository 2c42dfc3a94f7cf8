(** * What the abstract table of TableSpec.v does *)
From Coq Require Import Sorted.
From Verif Require Import Base Base_facts Utils Utils_facts Parsers Parsers_facts Pattern Spec
  Spec_table SuffixArray TrieSpec TrieSpec_facts TrieSpec_props TrieSpec_cases TableSpec Table_refine.
From Verif Require Trie_refine.

(** ** The nearest key shares most *)
Lemma between_prefix w : forall a b c,
  str_cmp a b <> Gt -> str_cmp b c <> Gt -> prefix_of w a -> prefix_of w c -> prefix_of w b.
Proof.
  induction w as [|x w IH]; intros a b c Hab Hbc (ra & ->) (rc & ->).
  - exists b. reflexivity.
  - destruct b as [|y b]; simpl in *; [congruence|].
    destruct (byte_cmp x y) eqn:E1; [|destruct (byte_cmp y x) eqn:E2|congruence].
    + apply byte_cmp_eq in E1. subst y. rewrite byte_cmp_refl in Hbc.
      destruct (IH (w ++ ra) b (w ++ rc)) as (r & ->); auto; [exists ra; reflexivity|exists rc; reflexivity|].
      exists r. reflexivity.
    + apply byte_cmp_eq in E2. subst y. rewrite byte_cmp_refl in E1. discriminate.
    + rewrite byte_cmp_antisym, E1 in E2. discriminate.
    + congruence.
Qed.

Lemma cpl_between_up a b v :
  utf8 a -> utf8 b -> utf8 v -> str_cmp a b <> Gt -> str_cmp b v <> Gt ->
  common_prefix_len a v <= common_prefix_len b v.
Proof.
  intros Ha Hb Hv H1 H2.
  destruct (cpl_longest a v Ha Hv) as (w & <- & Hw & Pa & Pv & _).
  destruct (cpl_longest b v Hb Hv) as (w' & <- & _ & _ & _ & M).
  apply M; [exact Hw| |exact Pv]. apply (between_prefix w a b v); assumption.
Qed.

Lemma cpl_between_down a b v :
  utf8 a -> utf8 b -> utf8 v -> str_cmp v b <> Gt -> str_cmp b a <> Gt ->
  common_prefix_len a v <= common_prefix_len b v.
Proof.
  intros Ha Hb Hv H1 H2.
  destruct (cpl_longest a v Ha Hv) as (w & <- & Hw & Pa & Pv & _).
  destruct (cpl_longest b v Hb Hv) as (w' & <- & _ & _ & _ & M).
  apply M; [exact Hw| |exact Pv]. apply (between_prefix w v b a); assumption.
Qed.

Definition ksorted {A} (K : list (str * A)) : Prop := StronglySorted str_lt (keys K).

Lemma last_opt_in {A} (l : list A) x : last_opt l = Some x -> In x l.
Proof.
  induction l as [|y l IH]; simpl; [discriminate|]. destruct l as [|z l].
  - intros H. inversion H. auto.
  - intros H. right. apply IH. exact H.
Qed.

Lemma hd_error_in {A} (l : list A) x : hd_error l = Some x -> In x l.
Proof. destruct l; simpl; [discriminate|]. intros H. inversion H. auto. Qed.

Lemma last_opt_none {A} (l : list A) : last_opt l = None -> l = [].
Proof.
  induction l as [|y l IH]; [reflexivity|]. simpl. destruct l; [discriminate|].
  intros H. apply IH in H. discriminate.
Qed.

Lemma nearest_in {A} (K : list (str * A)) text k e : nearest K text = Some (k, e) -> In (k, e) K.
Proof.
  unfold nearest. destruct (last_opt _) as [a|] eqn:Ea, (hd_error _) as [b|] eqn:Eb;
    try destruct (Nat.leb _ _); intros H; inversion H; subst;
    repeat match goal with
    | H : last_opt _ = Some _ |- _ => apply last_opt_in in H; apply filter_In in H
    | H : hd_error _ = Some _ |- _ => apply hd_error_in in H; apply filter_In in H
    end; tauto.
Qed.

Lemma nearest_none {A} (K : list (str * A)) text : nearest K text = None <-> K = [].
Proof.
  split; [|intros ->; reflexivity].
  unfold nearest. destruct (last_opt _) as [a|] eqn:Ea, (hd_error _) as [b|] eqn:Eb;
    try destruct (Nat.leb _ _); try discriminate.
  intros _. apply last_opt_none in Ea. destruct K as [|x K]; [reflexivity|]. exfalso. simpl in *.
  destruct (notgtb (str_cmp (fst x) text)); simpl in *; discriminate.
Qed.

Lemma sorted_last {A} (K : list (str * A)) a :
  ksorted K -> last_opt K = Some a -> forall x, In x K -> str_cmp (fst x) (fst a) <> Gt.
Proof.
  induction K as [|y K IH]; simpl; intros HS H x Hx; [destruct Hx|].
  inversion HS as [|? ? S1 S2]; subst. destruct K as [|z K].
  - inversion H; subst. destruct Hx as [<-|[]]. rewrite str_cmp_refl. discriminate.
  - destruct Hx as [<-|Hx]; [|apply (IH S1 H x Hx)].
    apply last_opt_in in H. rewrite Forall_forall in S2. specialize (S2 (fst a) (in_map fst _ _ H)).
    unfold str_lt in S2. rewrite S2. discriminate.
Qed.

Lemma sorted_first {A} (K : list (str * A)) a :
  ksorted K -> hd_error K = Some a -> forall x, In x K -> str_cmp (fst a) (fst x) <> Gt.
Proof.
  destruct K as [|y K]; simpl; intros HS H x Hx; [destruct Hx|]. inversion H; subst.
  inversion HS as [|? ? S1 S2]; subst. destruct Hx as [<-|Hx].
  - rewrite str_cmp_refl. discriminate.
  - rewrite Forall_forall in S2. specialize (S2 (fst x) (in_map fst _ _ Hx)). unfold str_lt in S2.
    rewrite S2. discriminate.
Qed.

Lemma ksorted_filter {A} (p : str * A -> bool) K : ksorted K -> ksorted (filter p K).
Proof.
  unfold ksorted. induction K as [|x K IH]; simpl; intros HS; [constructor|].
  inversion HS as [|? ? S1 S2]; subst. destruct (p x); [|apply IH; exact S1]. simpl.
  constructor; [apply IH; exact S1|]. rewrite Forall_forall in *. intros k Hk. apply S2.
  unfold keys in *. apply in_map_iff in Hk. destruct Hk as (y & <- & Hy). apply filter_In in Hy.
  apply in_map. apply Hy.
Qed.

Lemma nearest_max {A} (K : list (str * A)) text k e :
  ksorted K -> (forall x, In x K -> utf8 (fst x)) -> utf8 text -> nearest K text = Some (k, e) ->
  forall x, In x K -> common_prefix_len (fst x) text <= common_prefix_len k text.
Proof.
  intros HS HU Hu H x Hx. unfold nearest in H.
  set (K1 := filter (fun x => notgtb (str_cmp (fst x) text)) K) in *.
  set (K2 := filter (fun x => negb (notgtb (str_cmp (fst x) text))) K) in *.
  assert (forall y, In y K1 -> In y K /\ str_cmp (fst y) text <> Gt) as H1.
  { intros y Hy. apply filter_In in Hy. destruct Hy as (Hy & Hc). split; [exact Hy|].
    destruct (str_cmp (fst y) text); discriminate. }
  assert (forall y, In y K2 -> In y K /\ str_cmp text (fst y) <> Gt) as H2.
  { intros y Hy. apply filter_In in Hy. destruct Hy as (Hy & Hc). split; [exact Hy|].
    rewrite str_cmp_antisym. destruct (str_cmp (fst y) text); discriminate. }
  assert (forall a, last_opt K1 = Some a -> In x K1 ->
            common_prefix_len (fst x) text <= common_prefix_len (fst a) text) as L1.
  { intros a Ha HxK. pose proof (last_opt_in _ _ Ha) as Hi.
    apply cpl_between_up; try apply HU; try apply H1; auto.
    apply (sorted_last K1); auto. apply ksorted_filter. exact HS. }
  assert (forall b, hd_error K2 = Some b -> In x K2 ->
            common_prefix_len (fst x) text <= common_prefix_len (fst b) text) as L2.
  { intros b Hb HxK. pose proof (hd_error_in _ _ Hb) as Hi.
    apply cpl_between_down; try apply HU; try apply H2; auto.
    apply (sorted_first K2); auto. apply ksorted_filter. exact HS. }
  assert (In x K1 \/ In x K2) as HxK.
  { destruct (notgtb (str_cmp (fst x) text)) eqn:E; [left|right]; apply filter_In; split; auto.
    rewrite E. reflexivity. }
  destruct (last_opt K1) as [a|] eqn:Ea, (hd_error K2) as [b|] eqn:Eb.
  - specialize (L1 a eq_refl). specialize (L2 b eq_refl).
    destruct (Nat.leb_spec (common_prefix_len (fst b) text) (common_prefix_len (fst a) text));
      inversion H; subst; simpl in *; destruct HxK as [HxK|HxK];
      [apply L1 in HxK|apply L2 in HxK|apply L1 in HxK|apply L2 in HxK]; lia.
  - specialize (L1 a eq_refl). inversion H; subst. simpl in *. destruct HxK as [HxK|HxK]; [auto|].
    destruct K2; [destruct HxK|discriminate].
  - specialize (L2 b eq_refl). inversion H; subst. simpl in *. destruct HxK as [HxK|HxK]; [|auto].
    apply last_opt_none in Ea. rewrite Ea in HxK. destruct HxK.
  - discriminate.
Qed.

(** ** Soundness *)
Inductive tstored : level -> list token -> pattern -> Prop :=
| ts_literal k co K P q : In (k, (Some q, co)) K -> tstored (Level K P) [Literal k] q
| ts_below_literal k po c K P path q :
    In (k, (po, Some c)) K -> tstored c path q -> tstored (Level K P) (Literal k :: path) q
| ts_parser x co K P q : In (x, (Some q, co)) P -> tstored (Level K P) [Parser x] q
| ts_below_parser x po c K P path q :
    In (x, (po, Some c)) P -> tstored c path q -> tstored (Level K P) (Parser x :: path) q.

Lemma tstored_nonempty L path q : tstored L path q -> path <> [].
Proof. intros H. inversion H; discriminate. Qed.

(** Every key is UTF-8, every level sorted. *)
Inductive lwf : level -> Prop :=
| lwf_level K P :
    ksorted K -> (forall k e, In (k, e) K -> utf8 k) ->
    (forall k po c, In (k, (po, Some c)) K -> lwf c) ->
    (forall x po c, In (x, (po, Some c)) P -> lwf c) ->
    (forall x e, In (x, e) P -> parser_utf8 x) ->
    lwf (Level K P).

Lemma tabs_lwf (okp : parser -> Prop) t :
  (forall p, okp p -> parser_utf8 p) -> twf okp t -> lwf (tabs t).
Proof.
  intros HP. induction 1 as [les pes HS Hl Hlw IH Hp Hpw IHp]. rewrite tabs_unfold. constructor.
  - unfold ksorted, keys. rewrite map_map. exact HS.
  - intros k e H. apply in_map_iff in H. destruct H as (x & E & Hx). inversion E; subst. apply Hl. exact Hx.
  - intros k po c H. apply in_map_iff in H. destruct H as (x & E & Hx). inversion E as [[E1 E2 E3]].
    destruct (le_child x) as [c'|] eqn:Ec; [|discriminate]. simpl in E3. inversion E3; subst c.
    apply (IH x c'); assumption.
  - intros k po c H. apply in_map_iff in H. destruct H as (x & E & Hx). inversion E as [[E1 E2 E3]].
    destruct (pe_child x) as [c'|] eqn:Ec; [|discriminate]. simpl in E3. inversion E3; subst c.
    apply (IHp x c'); assumption.
  - intros k e H. apply in_map_iff in H. destruct H as (x & E & Hx). inversion E; subst. apply HP, Hp. exact Hx.
Qed.

Lemma try_parsers_some {f P text r} :
  try_parsers f P text = Some r -> exists x e, In (x, e) P /\ try_parser f x e text = Some r.
Proof.
  induction P as [|(x, e) P IH]; cbn [try_parsers]; intros H; [discriminate|].
  destruct (try_parser f x e text) as [r'|] eqn:E.
  - inversion H; subst. exists x, e. split; [left; reflexivity|exact E].
  - destruct (IH H) as (x' & e' & Hi & He). exists x', e'. split; [right; exact Hi|exact He].
Qed.

Lemma capture_utf8 x text v : capture x text = Some v -> utf8 text -> parser_utf8 x -> utf8 v.
Proof.
  unfold capture. intros H Hu Hx. destruct (parser_parse x text) as [o| |] eqn:E; try discriminate.
  subst o. apply parser_parse_some in E; auto. apply E.
Qed.

Lemma t_parse_sound L : lwf L -> forall text r, utf8 text ->
  t_parse L text = Some r ->
  exists toks caps, tstored L toks (mr_pattern r) /\ table_walk toks text caps /\
    good_values caps (mr_values r).
Proof.
  induction 1 as [K P HS HU Hw IH Hpw IHp Hpu]. intros text r Hu H.
  rewrite t_parse_unfold in H. destruct (nearest K text) as [(k, (po, co))|] eqn:En.
  - apply nearest_in in En. cbv zeta in H. cbn [fst snd] in H.
    destruct (cpl_longest k text (HU _ _ En) Hu) as (w & Ew & Hl). rewrite <- Ew in H.
    pose proof Hl as (Uw & Pk & (r0 & ->) & M). rewrite app_length in H.
    destruct (Nat.eqb_spec (length w) (length w + length r0)) as [E|E].
    + destruct r0; [|simpl in E; lia]. rewrite app_nil_r in *.
      destruct po as [p|]; [|discriminate]. inversion H; subst r. exists [Literal k], [].
      split; [apply (ts_literal k co); exact En|]. split; [constructor; exact Pk|apply good_nil].
    + destruct co as [c|]; [|discriminate]. rewrite skipn_app, skipn_all, Nat.sub_diag in H. simpl in H.
      apply (IH k po c En) in H; [|apply (utf8_app_inv_r w r0 Uw Hu)].
      destruct H as (toks & caps & H1 & H2 & H3). exists (Literal k :: toks), caps.
      split; [apply (ts_below_literal k po c); assumption|]. split; [|exact H3].
      constructor; auto; [apply (tstored_nonempty c toks _ H1)|].
      intros ->. simpl in E. lia.
  - destruct (try_parsers_some H) as (x & (po, co) & Hi & Ht).
    unfold try_parser in Ht. destruct (capture x text) as [v|] eqn:Ec; [|discriminate].
    pose proof (capture_utf8 x text v Ec Hu (Hpu _ _ Hi)) as Hv.
    pose proof (capture_prefix _ _ _ Ec) as Ep. pose proof (capture_sound _ _ _ Ec) as Hc.
    set (tl := skipn (length v) text) in *. clearbody tl. subst text. cbn [fst snd] in Ht.
    destruct co as [c|].
    + destruct (t_parse c tl) as [r'|] eqn:Er; [|discriminate]. simpl in Ht. inversion Ht; subst r.
      apply (IHp x po c Hi) in Er; [|apply (utf8_app_inv_r v tl Hv Hu)].
      destruct Er as (toks & caps & H1 & H2 & H3). rewrite match_result_insert_pattern.
      exists (Parser x :: toks), ((x, v) :: caps).
      split; [apply (ts_below_parser x po c); assumption|]. split; [|apply good_insert; exact H3].
      constructor; auto. apply (tstored_nonempty c toks _ H1).
    + destruct tl; [|discriminate]. simpl in Ht. destruct po as [p|]; [|discriminate].
      simpl in Ht. inversion Ht; subst r. rewrite match_result_insert_pattern. rewrite app_nil_r in *.
      exists [Parser x], [(x, v)]. split; [apply (ts_parser x None); exact Hi|].
      split; [constructor; exact Hc|]. apply good_insert. apply good_nil.
Qed.

