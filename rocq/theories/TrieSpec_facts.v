(** * Facts about the abstract matcher of TrieSpec.v *)
From Coq Require Import Sorted.
From Verif Require Import Base Base_facts Utils Utils_facts Parsers Pattern Spec TrieSpec.

(** ** Comparing first bytes *)
Definition head_cmp (a b : str) : comparison :=
  match a, b with
  | [], [] => Eq
  | [], _ :: _ => Lt
  | _ :: _, [] => Gt
  | x :: _, y :: _ => byte_cmp x y
  end.

Lemma head_cmp_order : total_order head_cmp.
Proof.
  split.
  - intros [|x a] [|y b]; simpl; try reflexivity. apply byte_cmp_antisym.
  - intros [|x a] [|y b] [|z c]; simpl; try congruence.
    unfold byte_cmp. rewrite !N.compare_gt_iff. intros H1 H2 H3. lia.
Qed.

Lemma head_cmp_eq (a b : str) :
  head_cmp a b = Eq <->
  (a = [] /\ b = []) \/ exists x a' b', a = x :: a' /\ b = x :: b'.
Proof.
  destruct a as [|x a], b as [|y b]; simpl.
  - split; auto.
  - split; [discriminate|]. intros [[_ H]|(? & ? & ? & H & _)]; discriminate.
  - split; [discriminate|]. intros [[H _]|(? & ? & ? & _ & H)]; discriminate.
  - rewrite byte_cmp_eq. split.
    + intros ->. right. eauto.
    + intros [[H _]|(? & ? & ? & H1 & H2)]; congruence.
Qed.

Lemma head_cmp_lt_str a b : head_cmp a b = Lt -> str_cmp a b = Lt.
Proof. destruct a, b; simpl; try congruence. intros ->. reflexivity. Qed.

Lemma head_cmp_gt_str a b : head_cmp a b = Gt -> str_cmp a b = Gt.
Proof. destruct a, b; simpl; try congruence. intros ->. reflexivity. Qed.

Lemma head_cmp_app lit k l : lit <> [] -> head_cmp (lit ++ k) l = head_cmp lit l.
Proof. destruct lit; [congruence|]. intros _. destruct l; reflexivity. Qed.

Lemma head_neq_sym a b : head_cmp a b <> Eq -> head_cmp b a <> Eq.
Proof. rewrite (to_antisym _ head_cmp_order a b). destruct (head_cmp a b); simpl; congruence. Qed.

(** All keys of a list start with another byte than [l]. *)
Definition off (ks : list str) (l : str) : Prop := Forall (fun k => head_cmp k l <> Eq) ks.

(** ** Prefixes *)
Lemma proper_prefixb_spec a b :
  proper_prefixb a b = true <-> exists r, b = a ++ r /\ r <> [].
Proof.
  unfold proper_prefixb. rewrite andb_true_iff, prefixb_app, Nat.ltb_lt. split.
  - intros ((r & ->) & L). exists r. split; [reflexivity|]. intros ->.
    rewrite app_nil_r in L. lia.
  - intros (r & -> & H). split; [eauto|]. rewrite app_length. destruct r; [congruence|simpl; lia].
Qed.

Lemma proper_prefixb_head a b : a <> [] -> proper_prefixb a b = true -> head_cmp a b = Eq.
Proof.
  intros H P. apply proper_prefixb_spec in P. destruct P as (r & -> & _).
  destruct a; [congruence|]. simpl. apply byte_cmp_refl.
Qed.

Lemma prefixb_head a b : a <> [] -> prefixb a b = true -> head_cmp a b = Eq.
Proof.
  intros H P. apply prefixb_app in P. destruct P as (r & ->).
  destruct a; [congruence|]. simpl. apply byte_cmp_refl.
Qed.

Lemma prefixb_app_same lit k l : prefixb (lit ++ k) (lit ++ l) = prefixb k l.
Proof. induction lit; simpl; [reflexivity|]. rewrite byte_eqb_refl. simpl. exact IHlit. Qed.

Lemma proper_prefixb_app_same lit k l :
  proper_prefixb (lit ++ k) (lit ++ l) = proper_prefixb k l.
Proof.
  unfold proper_prefixb. rewrite prefixb_app_same, !app_length. f_equal.
  destruct (Nat.ltb_spec (length k) (length l)), (Nat.ltb_spec (length lit + length k) (length lit + length l));
    try reflexivity; lia.
Qed.

(** ** blcp *)
Lemma blcp_app lit a b : blcp (lit ++ a) (lit ++ b) = lit ++ blcp a b.
Proof. induction lit; simpl; [reflexivity|]. rewrite byte_eqb_refl. congruence. Qed.

Lemma blcp_prefix_l a b : exists r, a = blcp a b ++ r.
Proof.
  revert b. induction a as [|x a IH]; intros [|y b]; simpl; eauto.
  destruct (byte_eqb x y); [|exists (x :: a); reflexivity]. destruct (IH b) as (r & E). exists r. simpl. congruence.
Qed.

Lemma blcp_prefix_r a b : exists r, b = blcp a b ++ r.
Proof.
  revert b. induction a as [|x a IH]; intros [|y b]; simpl; eauto.
  destruct (byte_eqb x y) eqn:E; [|exists (y :: b); reflexivity]. apply byte_eqb_eq in E. subst.
  destruct (IH b) as (r & E). exists r. simpl. congruence.
Qed.

Lemma blcp_nil_head a b : head_cmp a b <> Eq -> blcp a b = [].
Proof.
  destruct a as [|x a], b as [|y b]; simpl; try reflexivity.
  destruct (byte_eqb x y) eqn:E; [|reflexivity]. apply byte_eqb_eq in E. subst.
  rewrite byte_cmp_refl. congruence.
Qed.

(** ** routes *)
Lemma routes_spec ks k l :
  routes ks k l = true <->
  k <> [] /\ (exists r, l = k ++ r /\ r <> []) /\
  (forall k', In k' ks -> proper_prefixb k k' = false).
Proof.
  unfold routes. rewrite !andb_true_iff, negb_true_iff, proper_prefixb_spec, negb_true_iff.
  rewrite is_empty_false. split.
  - intros ((H1 & H2) & H3). split; [exact H1|]. split; [exact H2|].
    intros k' Hk. destruct (proper_prefixb k k') eqn:E; [|reflexivity].
    assert (existsb (proper_prefixb k) ks = true) as X; [|congruence].
    apply existsb_exists. eauto.
  - intros (H1 & H2 & H3). split; [auto|].
    destruct (existsb (proper_prefixb k) ks) eqn:E; [|reflexivity].
    apply existsb_exists in E. destruct E as (k' & Hk & E). rewrite (H3 k' Hk) in E. discriminate.
Qed.

Lemma routes_off ks k l : head_cmp k l <> Eq -> routes ks k l = false.
Proof.
  intros H. destruct (routes ks k l) eqn:E; [|reflexivity].
  apply routes_spec in E. destruct E as (H1 & (r & -> & _) & _). exfalso. apply H.
  destruct k; [congruence|]. simpl. apply byte_cmp_refl.
Qed.

Lemma routes_focus kA kB kC k l :
  off kA l -> off kC l -> routes (kA ++ kB ++ kC) k l = routes kB k l.
Proof.
  intros HA HC. unfold off in *. rewrite Forall_forall in HA, HC.
  destruct (routes kB k l) eqn:E.
  - apply routes_spec in E. destruct E as (H1 & (r & -> & Hr) & H3).
    apply routes_spec. split; [exact H1|]. split; [eauto|].
    assert (Hd : forall k', head_cmp k' (k ++ r) <> Eq -> proper_prefixb k k' = false).
    { intros k' Hk. destruct (proper_prefixb k k') eqn:E; [|reflexivity].
      apply proper_prefixb_head in E; [|exact H1]. exfalso. apply head_neq_sym in Hk.
      rewrite head_cmp_app in Hk by exact H1. congruence. }
    intros k' Hk. rewrite !in_app_iff in Hk. destruct Hk as [Hk|[Hk|Hk]]; auto.
  - destruct (routes (kA ++ kB ++ kC) k l) eqn:E'; [|reflexivity].
    apply routes_spec in E'. destruct E' as (H1 & H2 & H3).
    assert (routes kB k l = true); [|congruence]. apply routes_spec.
    split; [exact H1|]. split; [exact H2|]. intros k' Hk. apply H3. rewrite !in_app_iff. auto.
Qed.

Lemma routes_prepend lit ks k l :
  (exists k0, In k0 ks /\ k0 <> []) ->
  routes (map (app lit) ks) (lit ++ k) (lit ++ l) = routes ks k l.
Proof.
  intros (k0 & Hk0 & Hne). unfold routes. rewrite proper_prefixb_app_same.
  destruct k as [|x k].
  - (* an extension exists *)
    cbn [is_empty negb andb]. rewrite app_nil_r.
    assert (existsb (proper_prefixb lit) (map (app lit) ks) = true) as ->.
    { apply existsb_exists. exists (lit ++ k0). split; [apply in_map; exact Hk0|].
      apply proper_prefixb_spec. eauto. }
    rewrite andb_false_r. reflexivity.
  - assert (is_empty (lit ++ x :: k) = false) as -> by (destruct lit; reflexivity).
    cbn [is_empty]. f_equal. f_equal.
    induction ks as [|k1 ks IH] in |- *; [reflexivity|]. simpl. rewrite proper_prefixb_app_same.
    f_equal. exact IH.
Qed.

(** ** try_literals and enter_literals *)
Definition prepend {A : Type} (lit : str) (x : str * A) : str * A := (lit ++ fst x, snd x).

Lemma keys_app {A} (X Y : list (str * A)) : keys (X ++ Y) = keys X ++ keys Y.
Proof. apply map_app. Qed.

Lemma keys_prepend {A} lit (X : list (str * A)) : keys (map (prepend lit) X) = map (app lit) (keys X).
Proof. unfold keys. rewrite !map_map. reflexivity. Qed.

Section TryLiterals.
  Variable parse : level -> str -> option match_result.

  Lemma try_literals_app ks X Y l :
    try_literals parse ks (X ++ Y) l =
    match try_literals parse ks X l with
    | Some r => Some r
    | None => try_literals parse ks Y l
    end.
  Proof.
    induction X as [|(k, (po, [c|])) X IH]; simpl; [reflexivity| |exact IH].
    destruct (routes ks k l); [reflexivity|exact IH].
  Qed.

  Lemma try_literals_none ks X l :
    (forall k, In k (keys X) -> routes ks k l = false) -> try_literals parse ks X l = None.
  Proof.
    induction X as [|(k, (po, [c|])) X IH]; simpl; intros H; [reflexivity| |].
    - rewrite (H k) by auto. apply IH. auto.
    - apply IH. auto.
  Qed.

  Lemma try_literals_ext ks ks' X l :
    (forall k, routes ks k l = routes ks' k l) ->
    try_literals parse ks X l = try_literals parse ks' X l.
  Proof.
    intros H. induction X as [|(k, (po, [c|])) X IH]; simpl; [reflexivity| |exact IH].
    rewrite H, IH. reflexivity.
  Qed.

  Lemma try_literals_focus A B C l :
    off (keys A) l -> off (keys C) l ->
    try_literals parse (keys (A ++ B ++ C)) (A ++ B ++ C) l = try_literals parse (keys B) B l.
  Proof.
    intros HA HC. rewrite !keys_app.
    rewrite (try_literals_ext _ (keys B)) by (intros k; apply routes_focus; assumption).
    unfold off in *. rewrite Forall_forall in HA, HC.
    rewrite try_literals_app, (try_literals_none _ A).
    - rewrite try_literals_app. destruct (try_literals parse (keys B) B l); [reflexivity|].
      apply try_literals_none. intros k Hk. apply routes_off. auto.
    - intros k Hk. apply routes_off. auto.
  Qed.

  Lemma try_literals_prepend lit X l :
    (exists k0, In k0 (keys X) /\ k0 <> []) ->
    try_literals parse (keys (map (prepend lit) X)) (map (prepend lit) X) (lit ++ l) =
    try_literals parse (keys X) X l.
  Proof.
    intros H. rewrite keys_prepend. remember (keys X) as ks eqn:E. clear E.
    induction X as [|(k, (po, [c|])) X IH]; simpl; [reflexivity| |exact IH].
    rewrite routes_prepend by exact H. destruct (routes ks k l); [|exact IH].
    rewrite app_length. f_equal. f_equal.
    rewrite skipn_app. rewrite (skipn_all2 lit) by lia. simpl. f_equal. lia.
  Qed.
End TryLiterals.

Section EnterLiterals.
  Variable enter0 : level -> str -> (entry -> entry) -> level.

  Lemma enter_literals_app ks X Y l f :
    enter_literals enter0 ks (X ++ Y) l f =
    match enter_literals enter0 ks X l f with
    | Some X' => Some (X' ++ Y)
    | None => option_map (app X) (enter_literals enter0 ks Y l f)
    end.
  Proof.
    induction X as [|(k, (po, [c|])) X IH]; simpl.
    - destruct (enter_literals enter0 ks Y l f); reflexivity.
    - destruct (routes ks k l); [reflexivity|]. rewrite IH.
      destruct (enter_literals enter0 ks X l f); simpl; [reflexivity|].
      destruct (enter_literals enter0 ks Y l f); reflexivity.
    - rewrite IH.
      destruct (enter_literals enter0 ks X l f); simpl; [reflexivity|].
      destruct (enter_literals enter0 ks Y l f); reflexivity.
  Qed.

  Lemma enter_literals_none ks X l f :
    (forall k, In k (keys X) -> routes ks k l = false) -> enter_literals enter0 ks X l f = None.
  Proof.
    induction X as [|(k, (po, [c|])) X IH]; simpl; intros H; [reflexivity| |].
    - rewrite (H k) by auto. rewrite IH by auto. reflexivity.
    - rewrite IH by auto. reflexivity.
  Qed.

  Lemma enter_literals_ext ks ks' X l f :
    (forall k, routes ks k l = routes ks' k l) ->
    enter_literals enter0 ks X l f = enter_literals enter0 ks' X l f.
  Proof.
    intros H. induction X as [|(k, (po, [c|])) X IH]; simpl; [reflexivity| |].
    - rewrite H, IH. reflexivity.
    - rewrite IH. reflexivity.
  Qed.

  Lemma enter_literals_focus A B C l f :
    off (keys A) l -> off (keys C) l ->
    enter_literals enter0 (keys (A ++ B ++ C)) (A ++ B ++ C) l f =
    option_map (fun B' => A ++ B' ++ C) (enter_literals enter0 (keys B) B l f).
  Proof.
    intros HA HC. rewrite !keys_app.
    rewrite (enter_literals_ext _ (keys B)) by (intros k; apply routes_focus; assumption).
    unfold off in *. rewrite Forall_forall in HA, HC.
    rewrite enter_literals_app, (enter_literals_none _ A).
    - rewrite enter_literals_app. destruct (enter_literals enter0 (keys B) B l f); [reflexivity|].
      rewrite (enter_literals_none _ C); [reflexivity|].
      intros k Hk. apply routes_off. auto.
    - intros k Hk. apply routes_off. auto.
  Qed.

  Lemma enter_literals_prepend lit X l f :
    (exists k0, In k0 (keys X) /\ k0 <> []) ->
    enter_literals enter0 (keys (map (prepend lit) X)) (map (prepend lit) X) (lit ++ l) f =
    option_map (map (prepend lit)) (enter_literals enter0 (keys X) X l f).
  Proof.
    intros H. rewrite keys_prepend. remember (keys X) as ks eqn:E. clear E.
    induction X as [|(k, (po, [c|])) X IH]; simpl; [reflexivity| |].
    - rewrite routes_prepend by exact H. destruct (routes ks k l); simpl.
      + unfold prepend at 1. simpl. rewrite app_length.
        rewrite skipn_app. rewrite (skipn_all2 lit) by lia.
        replace (length lit + length k - length lit) with (length k) by lia. reflexivity.
      + rewrite IH. destruct (enter_literals enter0 ks X l f); reflexivity.
    - rewrite IH. destruct (enter_literals enter0 ks X l f); reflexivity.
  Qed.
End EnterLiterals.

(** ** lookup and upsert *)
Lemma lookup_app {A} k (X Y : list (str * A)) :
  lookup k (X ++ Y) = match lookup k X with Some e => Some e | None => lookup k Y end.
Proof.
  induction X as [|(k', e) X IH]; simpl; [reflexivity|].
  destruct (str_eqb k k'); [reflexivity|exact IH].
Qed.

Lemma lookup_none {A} k (X : list (str * A)) : ~ In k (keys X) -> lookup k X = None.
Proof.
  induction X as [|(k', e) X IH]; simpl; intros H; [reflexivity|].
  destruct (str_eqb k k') eqn:E; [|apply IH; tauto].
  apply str_eqb_eq in E. subst. tauto.
Qed.

Lemma off_not_in ks l : off ks l -> ~ In l ks.
Proof.
  unfold off. rewrite Forall_forall. intros H Hl. apply (H l Hl).
  apply (to_refl _ head_cmp_order).
Qed.

Lemma lookup_focus {A} (X Y Z : list (str * A)) l :
  off (keys X) l -> off (keys Z) l -> lookup l (X ++ Y ++ Z) = lookup l Y.
Proof.
  intros HX HZ. rewrite !lookup_app.
  rewrite (lookup_none l X) by (apply off_not_in; exact HX).
  rewrite (lookup_none l Z) by (apply off_not_in; exact HZ).
  destruct (lookup l Y); reflexivity.
Qed.

Lemma lookup_prepend {A} lit l (X : list (str * A)) :
  lookup (lit ++ l) (map (prepend lit) X) = lookup l X.
Proof.
  induction X as [|(k', e) X IH]; simpl; [reflexivity|].
  assert (str_eqb (lit ++ l) (lit ++ k') = str_eqb l k') as ->.
  { clear. induction lit; simpl; [reflexivity|]. rewrite byte_eqb_refl. exact IHlit. }
  destruct (str_eqb l k'); [reflexivity|exact IH].
Qed.

Lemma upsert_app_l l f A X :
  Forall (fun k => str_cmp l k = Gt) (keys A) -> upsert l f (A ++ X) = A ++ upsert l f X.
Proof.
  induction A as [|(k, e) A IH]; simpl; intros H; [reflexivity|].
  inversion H as [|? ? H1 H2]; subst. rewrite H1, IH by exact H2. reflexivity.
Qed.

Lemma upsert_app_r l f B C :
  Forall (fun k => str_cmp l k = Lt) (keys C) -> upsert l f (B ++ C) = upsert l f B ++ C.
Proof.
  intros H. induction B as [|(k, e) B IH]; simpl.
  - destruct C as [|(k, e) C]; [reflexivity|]. simpl in *.
    inversion H as [|? ? H1 _]; subst. rewrite H1. reflexivity.
  - destruct (str_cmp l k); try reflexivity. rewrite IH. reflexivity.
Qed.

Lemma str_cmp_app_same lit a b : str_cmp (lit ++ a) (lit ++ b) = str_cmp a b.
Proof. induction lit; simpl; [reflexivity|]. rewrite byte_cmp_refl. exact IHlit. Qed.

Lemma upsert_prepend lit l f X :
  upsert (lit ++ l) f (map (prepend lit) X) = map (prepend lit) (upsert l f X).
Proof.
  induction X as [|(k, e) X IH]; simpl; [reflexivity|].
  rewrite str_cmp_app_same. destruct (str_cmp l k); simpl; [reflexivity|reflexivity|].
  rewrite IH. reflexivity.
Qed.

(** ** blocked *)
Lemma blocked_spec ks text :
  blocked ks text = true <->
  exists k1 k2 r, In k1 ks /\ In k2 ks /\ k1 <> k2 /\ blcp k1 k2 <> [] /\ text = blcp k1 k2 ++ r.
Proof.
  unfold blocked. rewrite existsb_exists. split.
  - intros (k1 & H1 & H). apply existsb_exists in H. destruct H as (k2 & H2 & H).
    rewrite !andb_true_iff, !negb_true_iff, str_eqb_neq, is_empty_false, prefixb_app in H.
    destruct H as ((Hn & Hb) & r & E). exists k1, k2, r. auto.
  - intros (k1 & k2 & r & H1 & H2 & Hn & Hb & E). exists k1. split; [exact H1|].
    apply existsb_exists. exists k2. split; [exact H2|].
    rewrite !andb_true_iff, !negb_true_iff, str_eqb_neq, is_empty_false, prefixb_app. eauto.
Qed.

Lemma blcp_head_l a b r : blcp a b <> [] -> head_cmp a (blcp a b ++ r) = Eq.
Proof.
  intros H. destruct (blcp_prefix_l a b) as (q & E). rewrite E at 1.
  destruct (blcp a b); [congruence|]. simpl. apply byte_cmp_refl.
Qed.

Lemma blcp_head_r a b r : blcp a b <> [] -> head_cmp b (blcp a b ++ r) = Eq.
Proof.
  intros H. destruct (blcp_prefix_r a b) as (q & E). rewrite E at 1.
  destruct (blcp a b); [congruence|]. simpl. apply byte_cmp_refl.
Qed.

Lemma blocked_focus kA kB kC l :
  off kA l -> off kC l -> blocked (kA ++ kB ++ kC) l = blocked kB l.
Proof.
  intros HA HC. unfold off in *. rewrite Forall_forall in HA, HC.
  destruct (blocked kB l) eqn:E.
  - apply blocked_spec in E. destruct E as (k1 & k2 & r & H1 & H2 & H).
    apply blocked_spec. exists k1, k2, r. rewrite !in_app_iff. tauto.
  - destruct (blocked (kA ++ kB ++ kC) l) eqn:E'; [|reflexivity].
    apply blocked_spec in E'. destruct E' as (k1 & k2 & r & H1 & H2 & Hn & Hb & ->).
    assert (blocked kB (blcp k1 k2 ++ r) = true); [|congruence]. apply blocked_spec.
    exists k1, k2, r. rewrite !in_app_iff in H1, H2.
    assert (In k1 kB) as I1.
    { destruct H1 as [H1|[H1|H1]]; [|exact H1|]; exfalso.
      - apply (HA k1 H1). apply blcp_head_l. exact Hb.
      - apply (HC k1 H1). apply blcp_head_l. exact Hb. }
    assert (In k2 kB) as I2.
    { destruct H2 as [H2|[H2|H2]]; [|exact H2|]; exfalso.
      - apply (HA k2 H2). apply blcp_head_r. exact Hb.
      - apply (HC k2 H2). apply blcp_head_r. exact Hb. }
    auto.
Qed.

(** Two keys of [ks] part at once. *)
Definition branching (ks : list str) : Prop :=
  exists k1 k2, In k1 ks /\ In k2 ks /\ k1 <> k2 /\ blcp k1 k2 = [].

Lemma branching_nonempty ks : branching ks -> exists k0, In k0 ks /\ k0 <> [].
Proof.
  intros (k1 & k2 & H1 & H2 & Hn & _). destruct k1 as [|x k1].
  - exists k2. split; [exact H2|congruence].
  - exists (x :: k1). split; [exact H1|discriminate].
Qed.

Lemma blocked_prepend lit ks l :
  lit <> [] -> branching ks -> blocked (map (app lit) ks) (lit ++ l) = true.
Proof.
  intros Hl (k1 & k2 & H1 & H2 & Hn & Hb). apply blocked_spec.
  exists (lit ++ k1), (lit ++ k2), l.
  split; [apply in_map; exact H1|]. split; [apply in_map; exact H2|].
  rewrite blcp_app, Hb, app_nil_r. split; [|auto].
  intros E. apply app_inv_head in E. contradiction.
Qed.

(** ** Levels *)
Lemma s_parse_unfold K P text :
  s_parse (Level K P) text =
  match try_literals s_parse (keys K) K text with
  | Some r => r
  | None =>
      match lookup text K with
      | Some e => option_map match_result_new (fst e)
      | None => if blocked (keys K) text then None else try_parsers s_parse P text
      end
  end.
Proof. reflexivity. Qed.

Lemma enter_unfold K P l f :
  enter (Level K P) l f =
  match enter_literals enter (keys K) K l f with
  | Some K' => Level K' P
  | None => Level (upsert l f K) P
  end.
Proof. reflexivity. Qed.

(** Keys starting with another byte do not matter. *)
Lemma s_parse_focus A B C P l :
  off (keys A) l -> off (keys C) l ->
  s_parse (Level (A ++ B ++ C) P) l = s_parse (Level B P) l.
Proof.
  intros HA HC. rewrite !s_parse_unfold, try_literals_focus, lookup_focus by assumption.
  rewrite !keys_app, blocked_focus by assumption. reflexivity.
Qed.

(** Below a common prefix of several keys. *)
Lemma s_parse_prepend lit K P l :
  lit <> [] -> branching (keys K) ->
  s_parse (Level (map (prepend lit) K) P) (lit ++ l) = s_parse (Level K []) l.
Proof.
  intros Hl HB. rewrite !s_parse_unfold.
  rewrite try_literals_prepend by (apply branching_nonempty; exact HB).
  rewrite lookup_prepend, keys_prepend, blocked_prepend by assumption.
  destruct (try_literals s_parse (keys K) K l); [reflexivity|].
  destruct (lookup l K); [reflexivity|]. simpl. destruct (blocked (keys K) l); reflexivity.
Qed.

(** A prefix common to all keys that the text does not have. *)
Lemma s_parse_not_prefix lit K P l :
  prefixb lit l = false ->
  s_parse (Level (map (prepend lit) K) P) l = try_parsers s_parse P l.
Proof.
  intros Hl. rewrite s_parse_unfold, try_literals_none, lookup_none.
  - destruct (blocked (keys (map (prepend lit) K)) l) eqn:E; [|reflexivity].
    exfalso. rewrite keys_prepend in E. apply blocked_spec in E.
    destruct E as (k1 & k2 & r & H1 & H2 & _ & _ & E).
    apply in_map_iff in H1. destruct H1 as (k1' & <- & _).
    apply in_map_iff in H2. destruct H2 as (k2' & <- & _).
    rewrite blcp_app, <- app_assoc in E.
    assert (prefixb lit l = true); [|congruence]. apply prefixb_app. eauto.
  - rewrite keys_prepend. intros H. apply in_map_iff in H. destruct H as (k & <- & _).
    assert (prefixb lit (lit ++ k) = true) by (apply prefixb_app; eauto). congruence.
  - intros k Hk. rewrite keys_prepend in Hk |- *. apply in_map_iff in Hk. destruct Hk as (k' & <- & _).
    destruct (routes _ (lit ++ k') l) eqn:E; [|reflexivity].
    apply routes_spec in E. destruct E as (_ & (r & -> & _) & _).
    assert (prefixb lit ((lit ++ k') ++ r) = true); [|congruence].
    apply prefixb_app. rewrite <- app_assoc. eauto.
Qed.

(** A single key without a following level. *)
Lemma s_parse_single_leaf k po P l :
  k <> l -> s_parse (Level [(k, (po, None))] P) l = try_parsers s_parse P l.
Proof.
  intros Hk. rewrite s_parse_unfold. simpl.
  assert (str_eqb l k = false) as -> by (apply str_eqb_neq; congruence).
  destruct (blocked [k] l) eqn:E; [|reflexivity].
  exfalso. apply blocked_spec in E. destruct E as (k1 & k2 & r & [->|[]] & [->|[]] & Hn & _). congruence.
Qed.

Lemma s_parse_single_found k po co P :
  s_parse (Level [(k, (po, co))] P) k = option_map match_result_new po.
Proof.
  assert (routes [k] k k = false) as R.
  { destruct (routes [k] k k) eqn:E; [|reflexivity]. apply routes_spec in E.
    destruct E as (_ & (r & E & Hr) & _). rewrite <- (app_nil_r k) in E at 1.
    apply app_inv_head in E. congruence. }
  rewrite s_parse_unfold. simpl. destruct co; rewrite ?R, str_eqb_refl; reflexivity.
Qed.

Lemma s_parse_single_down k po c P r :
  k <> [] -> r <> [] -> s_parse (Level [(k, (po, Some c))] P) (k ++ r) = s_parse c r.
Proof.
  intros Hk Hr. rewrite s_parse_unfold. change (keys [(k, (po, Some c))]) with [k].
  cbn [try_literals].
  assert (routes [k] k (k ++ r) = true) as ->.
  { apply routes_spec. split; [exact Hk|]. split; [eauto|]. intros k' [<-|[]].
    destruct (proper_prefixb k k) eqn:E; [|reflexivity]. apply proper_prefixb_spec in E.
    destruct E as (q & E & Hq). rewrite <- (app_nil_r k) in E at 1. apply app_inv_head in E. congruence. }
  rewrite skipn_app, skipn_all, Nat.sub_diag. reflexivity.
Qed.

(** The same for [enter]. *)
Lemma enter_focus A B C P l f :
  Forall (fun k => head_cmp k l = Lt) (keys A) -> Forall (fun k => head_cmp k l = Gt) (keys C) ->
  enter (Level (A ++ B ++ C) P) l f = Level (A ++ lits_of (enter (Level B P) l f) ++ C) P.
Proof.
  intros HA HC.
  assert (off (keys A) l) as OA by (eapply Forall_impl; [|exact HA]; simpl; congruence).
  assert (off (keys C) l) as OC by (eapply Forall_impl; [|exact HC]; simpl; congruence).
  rewrite !enter_unfold, enter_literals_focus by assumption.
  destruct (enter_literals enter (keys B) B l f) as [B'|]; simpl; [reflexivity|].
  rewrite upsert_app_l, upsert_app_r; [reflexivity| |].
  - eapply Forall_impl; [|exact HC]. simpl. intros k Hk. apply head_cmp_gt_str in Hk.
    rewrite str_cmp_antisym, Hk. reflexivity.
  - eapply Forall_impl; [|exact HA]. simpl. intros k Hk. apply head_cmp_lt_str in Hk.
    rewrite str_cmp_antisym, Hk. reflexivity.
Qed.

Lemma enter_pars L l f : pars_of (enter L l f) = pars_of L.
Proof.
  destruct L as [K P]. rewrite enter_unfold.
  destruct (enter_literals enter (keys K) K l f); reflexivity.
Qed.

Lemma enter_pars_irrelevant K P P' l f :
  lits_of (enter (Level K P) l f) = lits_of (enter (Level K P') l f).
Proof.
  rewrite !enter_unfold. destruct (enter_literals enter (keys K) K l f); reflexivity.
Qed.

Lemma enter_prepend lit K P l f :
  (exists k0, In k0 (keys K) /\ k0 <> []) ->
  lits_of (enter (Level (map (prepend lit) K) P) (lit ++ l) f) =
  map (prepend lit) (lits_of (enter (Level K P) l f)).
Proof.
  intros H. rewrite !enter_unfold, enter_literals_prepend by exact H.
  destruct (enter_literals enter (keys K) K l f); simpl; [reflexivity|].
  apply upsert_prepend.
Qed.

Lemma enter_not_prefix lit K P l f :
  prefixb lit l = false ->
  enter (Level (map (prepend lit) K) P) l f = Level (upsert l f (map (prepend lit) K)) P.
Proof.
  intros Hl. rewrite enter_unfold, enter_literals_none; [reflexivity|].
  intros k Hk. rewrite keys_prepend in Hk |- *. apply in_map_iff in Hk. destruct Hk as (k' & <- & _).
  destruct (routes _ (lit ++ k') l) eqn:E; [|reflexivity].
  apply routes_spec in E. destruct E as (_ & (r & -> & _) & _).
  assert (prefixb lit ((lit ++ k') ++ r) = true); [|congruence].
  apply prefixb_app. rewrite <- app_assoc. eauto.
Qed.

Lemma enter_single_leaf k po P l f :
  enter (Level [(k, (po, None))] P) l f = Level (upsert l f [(k, (po, None))]) P.
Proof. reflexivity. Qed.

Lemma enter_single_found k po co P f :
  enter (Level [(k, (po, co))] P) k f = Level [(k, f (po, co))] P.
Proof.
  assert (routes [k] k k = false) as R.
  { destruct (routes [k] k k) eqn:E; [|reflexivity]. apply routes_spec in E.
    destruct E as (_ & (r & E & Hr) & _). rewrite <- (app_nil_r k) in E at 1.
    apply app_inv_head in E. congruence. }
  rewrite enter_unfold. simpl. destruct co; simpl; rewrite ?R; simpl; rewrite str_cmp_refl; reflexivity.
Qed.

Lemma enter_single_down k po c P r f :
  k <> [] -> r <> [] ->
  enter (Level [(k, (po, Some c))] P) (k ++ r) f = Level [(k, (po, Some (enter c r f)))] P.
Proof.
  intros Hk Hr. rewrite enter_unfold. change (keys [(k, (po, Some c))]) with [k].
  cbn [enter_literals].
  assert (routes [k] k (k ++ r) = true) as ->.
  { apply routes_spec. split; [exact Hk|]. split; [eauto|]. intros k' [<-|[]].
    destruct (proper_prefixb k k) eqn:E; [|reflexivity]. apply proper_prefixb_spec in E.
    destruct E as (q & E & Hq). rewrite <- (app_nil_r k) in E at 1. apply app_inv_head in E. congruence. }
  rewrite skipn_app, skipn_all, Nat.sub_diag. reflexivity.
Qed.
