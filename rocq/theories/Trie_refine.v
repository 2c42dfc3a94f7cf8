(** * The trie behaves like the abstract matcher of TrieSpec.v *)
From Coq Require Import Sorted.
From Verif Require Import Base Base_facts Utils Utils_facts Parsers Parsers_facts Pattern Spec
  Trie TrieSpec TrieSpec_facts.

Lemma app_len_inj {A} (a b c d : list A) :
  a ++ b = c ++ d -> length a = length c -> a = c /\ b = d.
Proof.
  revert c. induction a as [|x a IH]; intros [|y c] E L; simpl in *; try lia; [auto|].
  inversion E; subst. destruct (IH c H1) as (-> & ->); [lia|]. auto.
Qed.

(** ** Abstraction *)

(** Inner nodes made by [split] carry no value: their literal is a common prefix
    of several keys. *)
Fixpoint abs (t : tree) : level :=
  match t with
  | Tree lcs pcs =>
      Level
        (flat_map (fun n =>
           match n with
           | LNode lit hv po co =>
               if hv then [(lit, (po, option_map abs co))]
               else match co with
                    | Some c => map (prepend lit) (lits_of (abs c))
                    | None => []
                    end
           end) lcs)
        (map (fun n => match n with PNode q po co => (q, (po, option_map abs co)) end) pcs)
  end.

Definition node_entries (n : lnode tree) : list (str * entry) :=
  match n with
  | LNode lit hv po co =>
      if hv then [(lit, (po, option_map abs co))]
      else match co with
           | Some c => map (prepend lit) (lits_of (abs c))
           | None => []
           end
  end.
Definition entries (lcs : list (lnode tree)) : list (str * entry) := flat_map node_entries lcs.
Definition parser_entry (n : pnode tree) : parser * entry :=
  match n with PNode q po co => (q, (po, option_map abs co)) end.

Lemma abs_unfold lcs pcs : abs (Tree lcs pcs) = Level (entries lcs) (map parser_entry pcs).
Proof. reflexivity. Qed.

Lemma entries_app a b : entries (a ++ b) = entries a ++ entries b.
Proof. apply flat_map_app. Qed.

Lemma entries_cons n b : entries (n :: b) = node_entries n ++ entries b.
Proof. reflexivity. Qed.

(** ** Well-formed tries *)
Section Wf.
  Variable okp : parser -> Prop.
  Hypothesis okp_utf8 : forall p, okp p -> parser_utf8 p.
  (** The literals that may occur: all of UTF-8, or just ASCII. *)
  Variable okl : str -> Prop.
  Hypothesis okl_utf8 : forall l, okl l -> utf8 l.
  Hypothesis okl_cut : forall a b, okl (a ++ b) -> utf8 a -> okl a /\ okl b.

  Definition lnode_ok (n : lnode tree) : Prop :=
    okl (ln_literal n) /\
    (ln_has_value n = false ->
     ln_literal n <> [] /\
     exists c, ln_node n = Some c /\ parser_children c = [] /\ 2 <= length (literal_children c) /\
               ln_pattern n = None).

  Definition pnode_ok (n : pnode tree) : Prop :=
    okp (pn_parser n) /\ (pn_node n = None -> pn_pattern n <> None).

  Definition head_lt (a b : lnode tree) : Prop := head_cmp (ln_literal a) (ln_literal b) = Lt.

  Inductive wf : tree -> Prop :=
  | wf_tree lcs pcs :
      StronglySorted head_lt lcs ->
      (forall n, In n lcs -> lnode_ok n) ->
      (forall n c, In n lcs -> ln_node n = Some c -> wf c) ->
      (forall n, In n pcs -> pnode_ok n) ->
      (forall n c, In n pcs -> pn_node n = Some c -> wf c) ->
      wf (Tree lcs pcs).

  Lemma wf_new : wf tree_new.
  Proof. constructor; [constructor|intros ? []|intros ? ? []|intros ? []|intros ? ? []]. Qed.

  (** *** Keys of nodes *)
  Lemma node_keys n k :
    In k (keys (node_entries n)) -> exists r, k = ln_literal n ++ r.
  Proof.
    destruct n as [lit hv po co]; simpl. destruct hv; simpl.
    - intros [<-|[]]. exists []. rewrite app_nil_r. reflexivity.
    - destruct co as [c|]; [|intros []]. rewrite keys_prepend, in_map_iff.
      intros (k' & <- & _). eauto.
  Qed.

  Lemma node_key_head n k l :
    lnode_ok n -> In k (keys (node_entries n)) -> head_cmp k l = head_cmp (ln_literal n) l.
  Proof.
    destruct n as [lit hv po co]; intros (_ & H); simpl in *. destruct hv; simpl.
    - intros [<-|[]]. reflexivity.
    - destruct (H eq_refl) as (Hl & _). destruct co as [c|]; [|intros []].
      rewrite keys_prepend, in_map_iff. intros (k' & <- & _). apply head_cmp_app. exact Hl.
  Qed.

  Lemma entries_keys lcs k :
    In k (keys (entries lcs)) <-> exists n, In n lcs /\ In k (keys (node_entries n)).
  Proof.
    unfold entries, keys. rewrite in_map_iff. setoid_rewrite in_flat_map. split.
    - intros (e & <- & n & Hn & He). exists n. split; [exact Hn|]. apply in_map. exact He.
    - intros (n & Hn & Hk). apply in_map_iff in Hk. destruct Hk as (e & <- & He). eauto.
  Qed.

  Lemma node_has_key t : wf t ->
    forall n, In n (literal_children t) -> exists k, In k (keys (node_entries n)).
  Proof.
    induction 1 as [lcs pcs HS Hok Hw IH Hpok Hpw IHp]. simpl. intros n Hn.
    destruct (Hok n Hn) as (_ & H). specialize (IH n). destruct n as [lit hv po co]; simpl in *.
    destruct hv; simpl.
    - exists lit. auto.
    - destruct (H eq_refl) as (Hl & c & -> & _ & L & _). rewrite keys_prepend.
      specialize (IH c Hn eq_refl). destruct c as [[|n0 lcs'] pcs']; simpl in L; [lia|].
      destruct (IH n0) as (k & Hk); [left; reflexivity|].
      exists (lit ++ k). apply in_map. change (In k (keys (entries (n0 :: lcs')))).
      apply entries_keys. exists n0. split; [left; reflexivity|exact Hk].
  Qed.

  (** Two literal children have keys that differ in the first byte. *)
  Lemma wf_branching c :
    wf c -> 2 <= length (literal_children c) -> branching (keys (lits_of (abs c))).
  Proof.
    intros W L. pose proof (node_has_key c W) as HK.
    inversion W as [lcs pcs HS Hok _ _ _ E]; subst. simpl in L, HK.
    destruct lcs as [|n1 [|n2 lcs]]; simpl in L; [lia|lia|].
    destruct (HK n1) as (k1 & H1); [left; reflexivity|].
    destruct (HK n2) as (k2 & H2); [right; left; reflexivity|].
    assert (head_cmp k1 k2 <> Eq) as Hd.
    { rewrite (node_key_head n1 k1 k2); [|apply Hok; left; reflexivity|exact H1].
      apply head_neq_sym.
      rewrite (node_key_head n2 k2); [|apply Hok; right; left; reflexivity|exact H2].
      apply head_neq_sym. inversion HS as [|? ? _ F]; subst.
      inversion F as [|? ? F1 _]; subst. unfold head_lt in F1. rewrite F1. discriminate. }
    exists k1, k2. rewrite abs_unfold. cbn [lits_of]. rewrite !entries_keys.
    split; [exists n1; split; [left; reflexivity|exact H1]|].
    split; [exists n2; split; [right; left; reflexivity|exact H2]|].
    split.
    - intros ->. apply Hd. apply (to_refl _ head_cmp_order).
    - apply blcp_nil_head. exact Hd.
  Qed.

  (** *** Splitting the children around a literal *)
  Lemma cmp_str_ret a b c :
    cmp_str a b = Ret c ->
    c = head_cmp a b /\
    (a <> [] -> b <> [] -> is_char_boundary a 1 = true /\ is_char_boundary b 1 = true).
  Proof.
    unfold cmp_str. destruct a as [|x a], b as [|y b]; simpl.
    - intros H. inversion H; subst. split; [reflexivity|congruence].
    - intros H. inversion H; subst. split; [reflexivity|congruence].
    - intros H. inversion H; subst. split; [reflexivity|congruence].
    - unfold slice. cbn [Nat.leb].
      change (is_char_boundary (x :: a) 0) with true. change (is_char_boundary (y :: b) 0) with true.
      destruct (is_char_boundary (x :: a) 1) eqn:Ea; [|discriminate].
      destruct (is_char_boundary (y :: b) 1) eqn:Eb; [|discriminate].
      simpl. intros H. inversion H; subst. split; [|auto].
      destruct (byte_cmp x y); reflexivity.
  Qed.

  Lemma sorted_split (lcs : list (lnode tree)) l :
    StronglySorted head_lt lcs ->
    exists A B C, lcs = A ++ B ++ C /\
      Forall (fun n => head_cmp (ln_literal n) l = Lt) A /\
      (B = [] \/ exists n, B = [n] /\ head_cmp (ln_literal n) l = Eq) /\
      Forall (fun n => head_cmp (ln_literal n) l = Gt) C.
  Proof.
    induction 1 as [|n lcs HS IH HF].
    - exists [], [], []. split; [reflexivity|]. split; [constructor|]. split; [auto|constructor].
    - destruct (head_cmp (ln_literal n) l) eqn:E.
      + exists [], [n], lcs. split; [reflexivity|]. split; [constructor|]. split; [eauto|].
        eapply Forall_impl; [|exact HF]. unfold head_lt. intros m Hm.
        apply (to_lt_gt _ head_cmp_order). rewrite <- (to_eq_l _ head_cmp_order _ _ _ E). exact Hm.
      + destruct IH as (A & B & C & -> & HA & HB & HC). exists (n :: A), B, C.
        split; [reflexivity|]. split; [constructor; assumption|]. auto.
      + exists [], [], (n :: lcs). split; [reflexivity|]. split; [constructor|]. split; [auto|].
        constructor; [exact E|]. eapply Forall_impl; [|exact HF]. unfold head_lt. intros m Hm.
        apply (to_lt_gt _ head_cmp_order). apply (to_lt_gt _ head_cmp_order) in E.
        apply (to_lt_trans _ head_cmp_order _ _ _ E). congruence.
  Qed.

  Lemma children_search lcs l r :
    StronglySorted head_lt lcs ->
    sv_binary_search_by lcs (fun probe => cmp_str (ln_literal probe) l) = Ret r ->
    (exists A n C, lcs = A ++ n :: C /\ r = inl (length A) /\
       Forall (fun n => head_cmp (ln_literal n) l = Lt) A /\
       head_cmp (ln_literal n) l = Eq /\
       Forall (fun n => head_cmp (ln_literal n) l = Gt) C) \/
    (exists A C, lcs = A ++ C /\ r = inr (length A) /\
       Forall (fun n => head_cmp (ln_literal n) l = Lt) A /\
       Forall (fun n => head_cmp (ln_literal n) l = Gt) C).
  Proof.
    intros HS H. destruct (sorted_split lcs l HS) as (A & B & C & -> & HA & HB & HC).
    unfold sv_binary_search_by in H.
    rewrite Forall_forall in HA, HC.
    apply (binary_search_by_ret _ A B C) in H.
    - destruct HB as [->|(n & -> & HB)].
      + right. exists A, C. split; [reflexivity|]. destruct r as [i|i]; simpl in H; [lia|].
        destruct H as (_ & ->). split; [reflexivity|]. rewrite !Forall_forall. auto.
      + left. exists A, n, C. split; [reflexivity|]. destruct r as [i|i]; simpl in H.
        * replace i with (length A) by lia. split; [reflexivity|]. rewrite !Forall_forall. auto.
        * destruct H as (H & _). discriminate.
    - intros x k Hx Hk. apply cmp_str_ret in Hk. destruct Hk as (-> & _). auto.
    - intros x k Hx Hk. apply cmp_str_ret in Hk. destruct Hk as (-> & _).
      destruct HB as [->|(n & -> & HB)]; [destruct Hx|]. destruct Hx as [<-|[]]. exact HB.
    - intros x k Hx Hk. apply cmp_str_ret in Hk. destruct Hk as (-> & _). auto.
  Qed.

  Lemma entries_heads A l c :
    (forall n, In n A -> lnode_ok n) ->
    Forall (fun n => head_cmp (ln_literal n) l = c) A ->
    Forall (fun k => head_cmp k l = c) (keys (entries A)).
  Proof.
    intros Hok H. rewrite Forall_forall in *. intros k Hk. apply entries_keys in Hk.
    destruct Hk as (n & Hn & Hk). rewrite (node_key_head n k l (Hok n Hn) Hk). auto.
  Qed.

  Lemma entries_off A l c :
    (forall n, In n A -> lnode_ok n) -> c <> Eq ->
    Forall (fun n => head_cmp (ln_literal n) l = c) A -> off (keys (entries A)) l.
  Proof.
    intros Hok Hc H. unfold off. eapply Forall_impl; [|apply (entries_heads A l c Hok H)].
    simpl. congruence.
  Qed.

  (** *** Literal lookup, with the inner loop replaced by [nth_error] *)
  Lemma lookup_literal_unfold lcs pcs l :
    lookup_literal (Tree lcs pcs) l =
    let* r := search (Tree lcs pcs) l in
    match r with
    | Found pos => Ret (inl (Tree lcs pcs, pos))
    | NotFound => Ret (inr (Tree lcs pcs, length l))
    | GoDown pos truncated =>
        match nth_error lcs pos with
        | Some (LNode _ _ _ (Some c)) => lookup_literal c truncated
        | _ => Panic
        end
    end.
  Proof.
    cbn [lookup_literal]. destruct (search (Tree lcs pcs) l) as [[pos| |pos rest]| |];
      try reflexivity. unfold bind. generalize lcs. clear.
    induction pos as [|pos IH]; intros [|n lcs]; simpl; try reflexivity. apply IH.
  Qed.

  Definition descend_mut (truncated : str) (k : tree -> nat + nat -> outcome tree) (n : lnode tree)
    : outcome (lnode tree) :=
    match n with
    | LNode lit hv p (Some c) =>
        let* c' := lookup_literal_mut c truncated k in Ret (LNode lit hv p (Some c'))
    | LNode _ _ _ None => Panic
    end.

  Lemma lookup_literal_mut_unfold lcs pcs l k :
    lookup_literal_mut (Tree lcs pcs) l k =
    let* r := search (Tree lcs pcs) l in
    match r with
    | Found pos => k (Tree lcs pcs) (inl pos)
    | NotFound => k (Tree lcs pcs) (inr (length l))
    | GoDown pos truncated =>
        let* lcs' := update_nth lcs pos (descend_mut truncated k) in
        Ret (Tree lcs' pcs)
    end.
  Proof.
    cbn [lookup_literal_mut]. destruct (search (Tree lcs pcs) l) as [[pos| |pos rest]| |];
      try reflexivity. unfold bind at 1 3. 
    match goal with |- bind ?X _ = _ => assert (X = update_nth lcs pos (descend_mut rest k)) as ->; [|reflexivity] end.
    generalize lcs. clear.
    induction pos as [|pos IH]; intros [|n lcs]; simpl; try reflexivity.
    - destruct n as [lit hv po [c|]]; simpl; [|reflexivity].
      destruct (lookup_literal_mut c rest k); reflexivity.
    - rewrite IH. reflexivity.
  Qed.

  (** *** What a search finds *)
  Lemma cpl_prefix a b : utf8 a -> utf8 b -> prefixb a b = true -> common_prefix_len a b = length a.
  Proof.
    intros Ha Hb H. destruct (cpl_longest a b Ha Hb) as (w & <- & Hw & Pa & Pb & M).
    apply prefixb_app in H. destruct H as (r & ->).
    assert (length a <= length w) by (apply M; [exact Ha|exists []; rewrite app_nil_r; reflexivity|exists r; reflexivity]).
    apply prefix_of_length in Pa. lia.
  Qed.

  Lemma cpl_not_prefix a b :
    utf8 a -> utf8 b -> prefixb a b = false -> common_prefix_len a b < length a.
  Proof.
    intros Ha Hb H. destruct (cpl_longest a b Ha Hb) as (w & <- & Hw & Pa & Pb & M).
    destruct (Nat.eq_dec (length w) (length a)) as [E|].
    - exfalso. destruct Pa as (r & Ea). rewrite Ea, app_length in E.
      destruct r; [|simpl in E; lia]. rewrite app_nil_r in Ea. subst.
      assert (prefixb w b = true); [|congruence]. apply prefixb_app. exact Pb.
    - apply prefix_of_length in Pa. lia.
  Qed.

  (** The five ways a search can end. *)
  Inductive search_spec (lcs : list (lnode tree)) (l : str) : literal_lookup_result -> Prop :=
  | ss_none A C :
      lcs = A ++ C ->
      Forall (fun n => head_cmp (ln_literal n) l = Lt) A ->
      Forall (fun n => head_cmp (ln_literal n) l = Gt) C ->
      search_spec lcs l NotFound
  | ss_leaf A n C :
      lcs = A ++ n :: C ->
      Forall (fun n => head_cmp (ln_literal n) l = Lt) A ->
      head_cmp (ln_literal n) l = Eq ->
      Forall (fun n => head_cmp (ln_literal n) l = Gt) C ->
      ln_node n = None -> ln_literal n <> l ->
      search_spec lcs l NotFound
  | ss_not_prefix A n C c :
      lcs = A ++ n :: C ->
      Forall (fun n => head_cmp (ln_literal n) l = Lt) A ->
      head_cmp (ln_literal n) l = Eq ->
      Forall (fun n => head_cmp (ln_literal n) l = Gt) C ->
      ln_node n = Some c -> prefixb (ln_literal n) l = false ->
      search_spec lcs l NotFound
  | ss_found A n C :
      lcs = A ++ n :: C ->
      Forall (fun n => head_cmp (ln_literal n) l = Lt) A ->
      Forall (fun n => head_cmp (ln_literal n) l = Gt) C ->
      ln_literal n = l -> ln_has_value n = true ->
      search_spec lcs l (Found (length A))
  | ss_down A n C c r :
      lcs = A ++ n :: C ->
      Forall (fun n => head_cmp (ln_literal n) l = Lt) A ->
      Forall (fun n => head_cmp (ln_literal n) l = Gt) C ->
      ln_literal n <> [] -> l = ln_literal n ++ r -> utf8 r ->
      ln_node n = Some c -> (ln_has_value n = true -> r <> []) ->
      search_spec lcs l (GoDown (length A) r).

  Lemma search_ret lcs pcs l r :
    wf (Tree lcs pcs) -> utf8 l -> search (Tree lcs pcs) l = Ret r -> search_spec lcs l r.
  Proof.
    intros W Hl H. inversion W as [? ? HS Hok _ _ _]; subst.
    unfold search in H. simpl in H. unbind H as r0 E0.
    destruct (children_search lcs l _ HS E0) as
      [(A & n & C & El & -> & HA & HE & HC)|(A & C & El & -> & HA & HC)].
    - unfold search_prefix_is_found in H. rewrite El in H.
      unfold get_unwrap in H. rewrite nth_error_app_mid in H. cbn [bind] in H.
      assert (lnode_ok n) as (Hu & Hv) by (apply Hok; rewrite El; apply in_elt).
      apply okl_utf8 in Hu.
      unfold lnode_is_leaf in H. destruct (ln_node n) as [c|] eqn:En.
      + unfold search_not_leaf in H.
        destruct (prefixb (ln_literal n) l) eqn:Ep.
        * rewrite (cpl_prefix _ _ Hu Hl Ep) in H.
          destruct (Nat.ltb_spec (length (ln_literal n)) (length (ln_literal n))); [lia|].
          apply prefixb_app in Ep. destruct Ep as (q & Ep).
          destruct (ln_has_value n && (is_empty l || Nat.eqb (length (ln_literal n)) (length l)))%bool eqn:Ev.
          -- inversion H; subst r. apply andb_true_iff in Ev. destruct Ev as (Ev & Ee).
             apply (ss_found _ _ A n C); auto.
             apply orb_true_iff in Ee. destruct Ee as [Ee|Ee].
             ++ apply is_empty_true in Ee. subst l.
                destruct (ln_literal n); [reflexivity|discriminate].
             ++ apply Nat.eqb_eq in Ee. rewrite Ep, app_length in Ee.
                destruct q; [|simpl in Ee; lia]. rewrite app_nil_r in Ep. congruence.
          -- rewrite En in H. unbind H as r1 E1. inversion H; subst r.
             apply ltrunc_ret in E1. destruct E1 as (pre & E & L & _).
             rewrite Ep in E. apply app_len_inj in E; [|auto]. destruct E as (<- & <-).
             apply (ss_down _ _ A n C c q); auto.
             ++ intros Z. rewrite Z in *. simpl in Ep. subst l. 
                apply head_cmp_eq in HE. destruct HE as [(_ & ->)|(? & ? & ? & HE & _)]; [|discriminate].
                destruct (ln_has_value n) eqn:Eh; [discriminate|].
                destruct (Hv eq_refl) as (Hne & _). congruence.
             ++ rewrite Ep in Hl. apply (utf8_app_inv_r _ _ Hu Hl).
             ++ intros Eh ->. rewrite Eh, Ep, app_nil_r, Nat.eqb_refl, orb_true_r in Ev. discriminate.
        * pose proof (cpl_not_prefix _ _ Hu Hl Ep) as L. apply Nat.ltb_lt in L. rewrite L in H.
          inversion H; subst r. apply (ss_not_prefix _ _ A n C c); auto.
      + unfold search_leaf in H. destruct (str_eqb (ln_literal n) l) eqn:E; inversion H; subst r.
        * apply str_eqb_eq in E. apply (ss_found _ _ A n C); auto.
          destruct (ln_has_value n) eqn:Eh; [reflexivity|].
          destruct (Hv eq_refl) as (_ & c & Hc & _). congruence.
        * apply str_eqb_neq in E. apply (ss_leaf _ _ A n C); auto.
    - inversion H; subst r. apply (ss_none _ _ A C); auto.
  Qed.

  (** ** Parsing *)

  (** Focus on the node with the head of [l]. *)
  Lemma s_parse_node A n C P l :
    (forall m, In m (A ++ n :: C) -> lnode_ok m) ->
    Forall (fun n => head_cmp (ln_literal n) l = Lt) A ->
    Forall (fun n => head_cmp (ln_literal n) l = Gt) C ->
    s_parse (Level (entries (A ++ n :: C)) P) l = s_parse (Level (node_entries n) P) l.
  Proof.
    intros Hok HA HC. rewrite entries_app, entries_cons. apply s_parse_focus.
    - apply (entries_off A l Lt); [|discriminate|exact HA]. intros m Hm. apply Hok.
      apply in_or_app. auto.
    - apply (entries_off C l Gt); [|discriminate|exact HC]. intros m Hm. apply Hok.
      apply in_or_app. right. right. exact Hm.
  Qed.

  Lemma node_entries_single n :
    ln_has_value n = true ->
    node_entries n = [(ln_literal n, (ln_pattern n, option_map abs (ln_node n)))].
  Proof. destruct n as [lit hv po co]; simpl. intros ->. reflexivity. Qed.

  Lemma node_entries_inner n c :
    ln_has_value n = false -> ln_node n = Some c ->
    node_entries n = map (prepend (ln_literal n)) (lits_of (abs c)).
  Proof. destruct n as [lit hv po co]; simpl. intros -> ->. reflexivity. Qed.

  Definition lookup_spec (t : tree) (l : str) (r : (tree * nat) + (tree * nat)) : Prop :=
    match r with
    | inl (node, pos) =>
        exists n, nth_error (literal_children node) pos = Some n /\
          s_parse (abs t) l = option_map match_result_new (ln_pattern n)
    | inr (node, len) =>
        wf node /\ height node <= height t /\
        exists pre l', l = pre ++ l' /\ length l' = len /\ utf8 l' /\
          s_parse (abs t) l = try_parsers s_parse (pars_of (abs node)) l'
    end.

  Lemma list_max_by_le {A} (f : A -> nat) l x : In x l -> f x <= list_max_by f l.
  Proof.
    induction l as [|y l IH]; intros []; simpl; [subst; lia|]. pose proof (IH H). lia.
  Qed.

  Lemma height_literal lcs pcs n c :
    In n lcs -> ln_node n = Some c -> height c < height (Tree lcs pcs).
  Proof.
    intros Hn Hc. simpl.
    pose proof (list_max_by_le (fun n => match ln_node n with Some c => height c | None => 0 end) lcs n Hn) as L.
    simpl in L. rewrite Hc in L. lia.
  Qed.

  Lemma height_parser lcs pcs n c :
    In n pcs -> pn_node n = Some c -> height c < height (Tree lcs pcs).
  Proof.
    intros Hn Hc. simpl.
    pose proof (list_max_by_le (fun n => match pn_node n with Some c => height c | None => 0 end) pcs n Hn) as L.
    simpl in L. rewrite Hc in L. lia.
  Qed.

  Lemma lookup_literal_ret t : wf t -> forall l r,
    utf8 l -> lookup_literal t l = Ret r -> lookup_spec t l r.
  Proof.
    induction 1 as [lcs pcs HS Hok Hw IH Hpok Hpw IHp]. intros l r Hl H.
    assert (wf (Tree lcs pcs)) as W by (constructor; assumption).
    rewrite lookup_literal_unfold in H. unbind H as sr Es.
    apply (search_ret lcs pcs l sr W Hl) in Es.
    destruct Es as [A C E HA HC|A n C E HA HE HC Hn Hne|A n C c E HA HE HC Hn Hp
                   |A n C E HA HC Hlit Hv|A n C c r0 E HA HC Hne Hlr Hr Hn Hv].
    - inversion H; subst r. simpl. split; [exact W|]. split; [lia|].
      exists [], l. split; [reflexivity|]. split; [reflexivity|]. split; [exact Hl|].
      fold abs. change (s_parse (Level (entries lcs) (map parser_entry pcs)) l =
                        try_parsers s_parse (map parser_entry pcs) l).
      rewrite E, entries_app. rewrite <- (app_nil_l (entries C)).
      rewrite s_parse_focus; [reflexivity| |].
      + apply (entries_off A l Lt); [|discriminate|exact HA]. intros m Hm. apply Hok. subst. apply in_or_app. auto.
      + apply (entries_off C l Gt); [|discriminate|exact HC]. intros m Hm. apply Hok. subst. apply in_or_app. auto.
    - inversion H; subst r. simpl. split; [exact W|]. split; [lia|].
      exists [], l. split; [reflexivity|]. split; [reflexivity|]. split; [exact Hl|].
      change (s_parse (Level (entries lcs) (map parser_entry pcs)) l =
              try_parsers s_parse (map parser_entry pcs) l).
      assert (lnode_ok n) as (_ & Hv) by (apply Hok; subst; apply in_elt).
      rewrite E in Hok |- *. rewrite s_parse_node by assumption.
      destruct (ln_has_value n) eqn:Eh.
      + rewrite node_entries_single, Hn by exact Eh. apply s_parse_single_leaf. exact Hne.
      + destruct (Hv eq_refl) as (_ & c & Hc & _). congruence.
    - inversion H; subst r. simpl. split; [exact W|]. split; [lia|].
      exists [], l. split; [reflexivity|]. split; [reflexivity|]. split; [exact Hl|].
      change (s_parse (Level (entries lcs) (map parser_entry pcs)) l =
              try_parsers s_parse (map parser_entry pcs) l).
      rewrite E in Hok |- *. rewrite s_parse_node by assumption.
      destruct (ln_has_value n) eqn:Eh.
      + rewrite node_entries_single by exact Eh.
        rewrite <- (app_nil_r (ln_literal n)).
        change [(ln_literal n ++ [], (ln_pattern n, option_map abs (ln_node n)))]
          with (map (prepend (ln_literal n)) [([] : str, (ln_pattern n, option_map abs (ln_node n)))]).
        apply s_parse_not_prefix. exact Hp.
      + rewrite (node_entries_inner n c Eh Hn). apply s_parse_not_prefix. exact Hp.
    - inversion H; subst r. simpl. exists n. rewrite E, nth_error_app_mid. split; [reflexivity|].
      rewrite <- E. change (s_parse (Level (entries lcs) (map parser_entry pcs)) l =
              option_map match_result_new (ln_pattern n)).
      rewrite E in Hok |- *. rewrite s_parse_node by assumption.
      rewrite node_entries_single, Hlit by exact Hv. apply s_parse_single_found.
    - rewrite E, nth_error_app_mid in H.
      assert (In n lcs) as In_n by (rewrite E; apply in_elt).
      assert (lookup_literal c r0 = Ret r) as Hc.
      { destruct n as [lit hv po co]; simpl in *. subst co. exact H. }
      apply (IH n c In_n Hn) in Hc; [|exact Hr].
      assert (s_parse (abs (Tree lcs pcs)) l = s_parse (abs c) r0) as EP.
      { change (s_parse (Level (entries lcs) (map parser_entry pcs)) l = s_parse (abs c) r0).
        destruct (Hok n In_n) as (_ & Hint).
        pose proof (Hw n c In_n Hn) as Wc. rewrite E in Hok |- *. rewrite s_parse_node by assumption.
        rewrite Hlr. destruct (ln_has_value n) eqn:Eh.
        - rewrite node_entries_single, Hn by exact Eh. apply s_parse_single_down; auto.
        - destruct (Hint eq_refl) as (_ & c' & Hc' & Hpc & L & _). rewrite Hn in Hc'. inversion Hc'; subst c'.
          rewrite (node_entries_inner n c Eh Hn).
          rewrite s_parse_prepend; [|exact Hne|apply wf_branching; assumption].
          destruct c as [lcs' pcs']. simpl in Hpc. subst pcs'. reflexivity. }
      pose proof (height_literal lcs pcs n c In_n Hn) as HH.
      destruct r as [(node, pos)|(node, len)]; unfold lookup_spec in *.
      + destruct Hc as (m & Hm & Hs). exists m. split; [exact Hm|]. congruence.
      + destruct Hc as (Wn & Hh & pre & l' & -> & HL & HU & Hs). split; [exact Wn|]. split; [lia|].
        exists (ln_literal n ++ pre), l'. split; [rewrite <- app_assoc; exact Hlr|].
        split; [exact HL|]. split; [exact HU|]. congruence.
  Qed.

  Lemma pnode_parse_ret fuel n text r :
    (forall t text r, wf t -> utf8 text -> parse_fuel fuel t text = Ret r -> r = s_parse (abs t) text) ->
    pnode_ok n -> (forall c, pn_node n = Some c -> wf c) -> utf8 text ->
    pnode_parse (parse_fuel fuel) n text = Ret r ->
    r = try_parser s_parse (fst (parser_entry n)) (snd (parser_entry n)) text.
  Proof.
    intros IH Hok Hw Hu H. unfold pnode_parse in H. unbind H as o Eo.
    destruct n as [q po co]; simpl in *. destruct Hok as (Hq & Hleaf). simpl in Hq, Hleaf.
    unfold try_parser, capture. rewrite Eo. destruct o as [v|]; [|congruence].
    unbind H as text' Et. apply ltrunc_ret in Et. destruct Et as (v' & E & L & _).
    assert (captures q text v /\ utf8 v) as (Hc & Huv).
    { apply parser_parse_some; auto. }
    apply captures_prefix in Hc. destruct Hc as (r' & Ev).
    assert (v' ++ text' = v ++ r') as Es by congruence. apply app_len_inj in Es; [|exact L].
    destruct Es as (-> & ->).
    assert (skipn (length v) text = r') as -> by (rewrite Ev, skipn_app, skipn_all, Nat.sub_diag; reflexivity).
    destruct co as [c|]; simpl.
    - unfold parse_then_push_kvpair in H. unbind H as r0 Er.
      apply IH in Er; [|auto|rewrite Ev in Hu; apply (utf8_app_inv_r v r' Huv Hu)].
      rewrite <- Er. destruct r0; simpl; congruence.
    - unfold push_last_kvpair in H. simpl in H. destruct (is_empty r'); simpl; [|congruence].
      destruct po; simpl; [congruence|discriminate].
  Qed.

  Lemma parse_with_parsers_ret fuel pcs text r :
    (forall t text r, wf t -> utf8 text -> parse_fuel fuel t text = Ret r -> r = s_parse (abs t) text) ->
    (forall n, In n pcs -> pnode_ok n) ->
    (forall n c, In n pcs -> pn_node n = Some c -> wf c) -> utf8 text ->
    parse_with_parsers (parse_fuel fuel) pcs text = Ret r ->
    r = try_parsers s_parse (map parser_entry pcs) text.
  Proof.
    intros IH. induction pcs as [|n pcs IHp]; intros Hok Hw Hu H; simpl in H.
    - inversion H. reflexivity.
    - unbind H as o Eo.
      apply (pnode_parse_ret fuel n text o IH) in Eo;
        [|apply Hok; left; reflexivity|intros c; apply Hw; left; reflexivity|exact Hu].
      cbn [map try_parsers]. destruct (parser_entry n) as (q, e). simpl in Eo. rewrite <- Eo.
      destruct o; [congruence|]. apply IHp; auto.
      + intros m Hm. apply Hok. right. exact Hm.
      + intros m c Hm. apply Hw. right. exact Hm.
  Qed.

  Lemma parse_fuel_ret fuel : forall t text r,
    wf t -> utf8 text -> parse_fuel fuel t text = Ret r -> r = s_parse (abs t) text.
  Proof.
    induction fuel as [|fuel IH]; intros t text r W Hu H; [discriminate|].
    cbn [parse_fuel] in H. unbind H as lr El. apply (lookup_literal_ret t W) in El; [|exact Hu].
    destruct lr as [(node, pos)|(node, len)]; simpl in El.
    - destruct El as (n & Hn & Hs). unfold get_unwrap in H. rewrite Hn in H. simpl in H.
      inversion H. rewrite Hs. unfold create_match_result_if_child_is_leaf.
      destruct (ln_pattern n); reflexivity.
    - destruct El as (Wn & _ & pre & l' & -> & <- & Hu' & Hs). rewrite Hs.
      unbind H as d Ed. unbind H as text' Et. unfold usub in Ed. rewrite app_length in Ed.
      destruct (Nat.leb_spec (length l') (length pre + length l')); [|lia].
      inversion Ed; subst d. apply ltrunc_ret in Et. destruct Et as (a & E & L & _).
      apply app_len_inj in E; [|lia]. destruct E as (<- & <-).
      inversion Wn as [lcs pcs HS Hok Hw Hpok Hpw]; subst. simpl in H.
      apply (parse_with_parsers_ret fuel pcs l' r IH Hpok Hpw Hu' H).
  Qed.

  Lemma parse_ret t text r :
    wf t -> utf8 text -> parse t text = Ret r -> r = s_parse (abs t) text.
  Proof. apply parse_fuel_ret. Qed.

  (** ** Insertion *)

  (** [t'] is [t] with the entry of literal [l] updated by [f]. *)
  Definition ins_ok (t t' : tree) (l : str) (f : entry -> entry) : Prop :=
    wf t' /\ abs t' = enter (abs t) l f /\
    parser_children t' = parser_children t /\
    length (literal_children t) <= length (literal_children t').

  Definition lnode_entry (n : lnode tree) : entry := (ln_pattern n, option_map abs (ln_node n)).
  Definition children_wf (n : lnode tree) : Prop := forall c, ln_node n = Some c -> wf c.

  (** [k] updates the entry of a literal node by [f]. *)
  Definition lkspec (k : lnode tree -> outcome (lnode tree)) (f : entry -> entry) : Prop :=
    forall n n', ln_has_value n = true -> children_wf n -> k n = Ret n' ->
      ln_literal n' = ln_literal n /\ ln_has_value n' = true /\ children_wf n' /\
      lnode_entry n' = f (lnode_entry n).

  Lemma wf_replace A n C n' pcs :
    wf (Tree (A ++ n :: C) pcs) -> lnode_ok n' -> children_wf n' ->
    head_cmp (ln_literal n') (ln_literal n) = Eq -> wf (Tree (A ++ n' :: C) pcs).
  Proof.
    intros W Hn' Hc' He. inversion W as [? ? HS Hok Hw Hpok Hpw]; subst.
    assert (forall m, In m (A ++ n' :: C) -> m = n' \/ In m (A ++ n :: C)) as Hin.
    { intros m Hm. apply in_elt_inv in Hm. destruct Hm as [<-|Hm]; [auto|]. right.
      apply in_app_or in Hm. apply in_or_app. destruct Hm; [auto|right; right; assumption]. }
    constructor; auto.
    - apply StronglySorted_app in HS. destruct HS as (S1 & S2 & S3).
      inversion S2 as [|? ? S4 S5]; subst. apply StronglySorted_app. split; [exact S1|].
      split.
      + constructor; [exact S4|]. eapply Forall_impl; [|exact S5]. unfold head_lt. intros m Hm.
        rewrite (to_eq_l _ head_cmp_order _ _ _ He). exact Hm.
      + intros x y Hx [<-|Hy].
        * unfold head_lt. rewrite (to_eq_r _ head_cmp_order _ _ _ He). apply S3; [exact Hx|left; reflexivity].
        * apply S3; [exact Hx|right; exact Hy].
    - intros m Hm. apply Hin in Hm. destruct Hm as [->|Hm]; auto.
    - intros m c Hm. apply Hin in Hm. destruct Hm as [->|Hm]; [apply Hc'|apply Hw; exact Hm].
  Qed.

  (** Replacing the node that holds [l]. *)
  Lemma enter_node A n C P l f K' :
    (forall m, In m (A ++ n :: C) -> lnode_ok m) ->
    Forall (fun n => head_cmp (ln_literal n) l = Lt) A ->
    Forall (fun n => head_cmp (ln_literal n) l = Gt) C ->
    lits_of (enter (Level (node_entries n) P) l f) = K' ->
    enter (Level (entries (A ++ n :: C)) P) l f = Level (entries A ++ K' ++ entries C) P.
  Proof.
    intros Hok HA HC <-. rewrite entries_app, entries_cons. apply enter_focus.
    - apply entries_heads; [|exact HA]. intros m Hm. apply Hok. apply in_or_app. auto.
    - apply entries_heads; [|exact HC]. intros m Hm. apply Hok. apply in_or_app. right. right. exact Hm.
  Qed.

  Lemma in_mid {T} (A : list T) n C : In n (A ++ n :: C).
  Proof. apply in_elt. Qed.

  Lemma update_literal_child_ret A n C pcs k t' :
    update_literal_child (Tree (A ++ n :: C) pcs) (length A) k = Ret t' ->
    exists n', k n = Ret n' /\ t' = Tree (A ++ n' :: C) pcs.
  Proof.
    unfold update_literal_child. simpl. intros H. unbind H as lcs E. inversion H; subst t'.
    apply update_nth_ret in E. destruct E as (x & y & a & b & E & L & Hk & ->).
    apply app_len_inj in E; [|auto]. destruct E as (<- & E). inversion E; subst. eauto.
  Qed.

  Lemma update_found_ret A n C pcs k f t' :
    lkspec k f -> wf (Tree (A ++ n :: C) pcs) ->
    Forall (fun m => head_cmp (ln_literal m) (ln_literal n) = Lt) A ->
    Forall (fun m => head_cmp (ln_literal m) (ln_literal n) = Gt) C ->
    ln_has_value n = true ->
    update_literal_child (Tree (A ++ n :: C) pcs) (length A) k = Ret t' ->
    ins_ok (Tree (A ++ n :: C) pcs) t' (ln_literal n) f.
  Proof.
    intros Hk W HA HC Hv H. apply update_literal_child_ret in H. destruct H as (n' & Hn' & ->).
    inversion W as [? ? HS Hok Hw Hpok Hpw]; subst.
    destruct (Hok n (in_mid A n C)) as (Hu & _).
    apply Hk in Hn'; [|exact Hv|intros c; apply Hw; apply in_mid].
    destruct Hn' as (El & Hv' & Hc' & Ee). unfold ins_ok. split.
    - apply (wf_replace A n C n' pcs W).
      + split; [rewrite El; exact Hu|]. rewrite Hv'. discriminate.
      + exact Hc'.
      + rewrite El. apply (to_refl _ head_cmp_order).
    - rewrite !abs_unfold. split.
      + rewrite (enter_node A n C _ _ _ (node_entries n')); [| auto | exact HA | exact HC |].
        * rewrite entries_app, entries_cons. reflexivity.
        * rewrite !node_entries_single, enter_single_found by assumption. simpl.
          change (ln_pattern n', option_map abs (ln_node n')) with (lnode_entry n').
          rewrite El, Ee. reflexivity.
      + simpl. split; [reflexivity|]. rewrite !app_length. simpl. lia.
  Qed.

  (** Following the literal down, whatever is done at the end. *)
  Lemma lookup_mut_ret (g : tree -> nat + nat -> outcome tree) (f : entry -> entry) (Q : str -> Prop) :
    (forall a b, Q (a ++ b) -> utf8 a -> Q b) ->
    (forall A n C pcs t', wf (Tree (A ++ n :: C) pcs) ->
       Forall (fun m => head_cmp (ln_literal m) (ln_literal n) = Lt) A ->
       Forall (fun m => head_cmp (ln_literal m) (ln_literal n) = Gt) C ->
       ln_has_value n = true ->
       g (Tree (A ++ n :: C) pcs) (inl (length A)) = Ret t' ->
       ins_ok (Tree (A ++ n :: C) pcs) t' (ln_literal n) f) ->
    (forall lcs pcs l t', wf (Tree lcs pcs) -> utf8 l -> Q l -> search_spec lcs l NotFound ->
       g (Tree lcs pcs) (inr (length l)) = Ret t' -> ins_ok (Tree lcs pcs) t' l f) ->
    forall t, wf t -> forall l t', utf8 l -> Q l ->
      lookup_literal_mut t l g = Ret t' -> ins_ok t t' l f.
  Proof.
    intros HQ Hfound Hnot.
    induction 1 as [lcs pcs HS Hok Hw IH Hpok Hpw IHp]. intros l t' Hl Ql H.
    assert (wf (Tree lcs pcs)) as W by (constructor; assumption).
    rewrite lookup_literal_mut_unfold in H. unbind H as sr Es.
    apply (search_ret lcs pcs l sr W Hl) in Es. inversion Es; subst sr.
    - apply Hnot; auto.
    - apply Hnot; auto.
    - apply Hnot; auto.
    - subst. apply Hfound; auto.
    - rename H0 into E, H1 into HA, H2 into HC, H3 into Hne, H4 into El, H5 into Hr, H6 into Hn, H7 into Hv.
      assert (In n lcs) as In_n by (rewrite E; apply in_mid).
      unbind H as lcs' Eu. inversion H; subst t'. rewrite E in Eu.
      apply update_nth_ret in Eu. destruct Eu as (x & n' & a & b & Ex & L & Hk & ->).
      apply app_len_inj in Ex; [|auto]. destruct Ex as (<- & Ex). inversion Ex; subst x b. clear Ex.
      destruct (Hok n In_n) as (Hu & Hint). pose proof (okl_utf8 _ Hu) as Hu8.
      assert (exists c', lookup_literal_mut c r g = Ret c' /\
                n' = LNode (ln_literal n) (ln_has_value n) (ln_pattern n) (Some c')) as (c' & Hc' & En').
      { destruct n as [lit hv po co]; simpl in *. subst co. unbind Hk as c' Ec. inversion Hk; subst. eauto. }
      rewrite El in Ql. apply (HQ _ _) in Ql; [|exact Hu8].
      apply (IH n c In_n Hn) in Hc'; [|exact Hr|exact Ql]. destruct Hc' as (Wc' & Ea & Ep & Hlen).
      assert (lnode_ok n') as Hok'.
      { rewrite En'. split; [exact Hu|]. simpl. intros Hhv. destruct (Hint Hhv) as (H1 & c0 & H2 & H3 & H4 & H5).
        rewrite Hn in H2. inversion H2; subst c0. split; [exact H1|]. exists c'.
        split; [reflexivity|]. split; [congruence|]. split; [lia|exact H5]. }
      subst lcs. unfold ins_ok. split; [|split; [|split]].
      + apply (wf_replace A n C n' pcs W Hok').
        * rewrite En'. intros c0 H0. inversion H0; subst. exact Wc'.
        * rewrite En'. apply (to_refl _ head_cmp_order).
      + rewrite !abs_unfold.
        rewrite (enter_node A n C _ _ _ (node_entries n')); [|exact Hok|exact HA|exact HC|].
        * rewrite entries_app, entries_cons. reflexivity.
        * rewrite El. destruct (ln_has_value n) eqn:Eh.
          -- rewrite (node_entries_single n Eh), Hn. simpl option_map.
             rewrite enter_single_down by auto. rewrite En'. simpl. rewrite Ea. reflexivity.
          -- rewrite (node_entries_inner n c Eh Hn).
             destruct (Hint eq_refl) as (_ & c0 & Hc0 & Hpc & Hlc & _).
             rewrite Hn in Hc0. inversion Hc0; subst c0.
             rewrite enter_prepend.
             ++ rewrite En'. simpl. f_equal. rewrite Ea. destruct c as [lc pc].
                rewrite abs_unfold. apply enter_pars_irrelevant.
             ++ apply branching_nonempty. apply wf_branching; [apply (Hw n c In_n Hn)|exact Hlc].
      + reflexivity.
      + simpl. rewrite !app_length. simpl. lia.
  Qed.

  (** Pushing a new literal node. *)
  Lemma split_unique {T} (P : T -> Prop) (A C lo hi : list T) :
    A ++ C = lo ++ hi -> Forall P A -> Forall (fun x => ~ P x) C ->
    Forall P lo -> Forall (fun x => ~ P x) hi -> A = lo /\ C = hi.
  Proof.
    revert lo. induction A as [|x A IH]; intros [|y lo] E HA HC Hlo Hhi; simpl in E.
    - auto.
    - subst C. inversion HC; inversion Hlo; subst. contradiction.
    - subst hi. inversion HA; inversion Hhi; subst. contradiction.
    - inversion E; subst. inversion HA; inversion Hlo; subst.
      destruct (IH lo H1) as (-> & ->); auto.
  Qed.

  Definition lnode_head_cmp (a b : lnode tree) : comparison := head_cmp (ln_literal a) (ln_literal b).

  Lemma lnode_head_order : total_order lnode_head_cmp.
  Proof.
    split; unfold lnode_head_cmp; intros.
    - apply (to_antisym _ head_cmp_order).
    - eapply (to_trans _ head_cmp_order); eassumption.
  Qed.

  Lemma push_literal_ret A C pcs n t' :
    StronglySorted head_lt (A ++ C) ->
    Forall (fun m => head_cmp (ln_literal m) (ln_literal n) = Lt) A ->
    Forall (fun m => head_cmp (ln_literal m) (ln_literal n) = Gt) C ->
    add_literal_node (Tree (A ++ C) pcs) n = Ret t' ->
    t' = Tree (A ++ n :: C) pcs.
  Proof.
    intros HS HA HC H. unfold add_literal_node in H. simpl in H. unbind H as lcs E.
    inversion H; subst t'.
    apply (sv_push_ret lnode_head_cmp lnode_head_order lnode_cmp) in E.
    - destruct E as (lo & hi & E & -> & Hlo & Hhi).
      destruct (split_unique (fun m => head_cmp (ln_literal m) (ln_literal n) <> Gt) A C lo hi E)
        as (-> & ->); [| | | |reflexivity].
      + eapply Forall_impl; [|exact HA]. simpl. congruence.
      + eapply Forall_impl; [|exact HC]. simpl. congruence.
      + exact Hlo.
      + eapply Forall_impl; [|exact Hhi]. unfold lnode_head_cmp. simpl. intros m Hm X.
        apply X. apply (to_lt_gt _ head_cmp_order). exact Hm.
    - intros x y k Hk. apply cmp_str_ret in Hk. apply Hk.
    - clear -HS. induction HS; constructor; auto. eapply Forall_impl; [|exact H].
      unfold head_lt, sle, lnode_head_cmp. congruence.
  Qed.

  Lemma wf_insert A C n pcs :
    wf (Tree (A ++ C) pcs) -> lnode_ok n -> children_wf n ->
    Forall (fun m => head_cmp (ln_literal m) (ln_literal n) = Lt) A ->
    Forall (fun m => head_cmp (ln_literal m) (ln_literal n) = Gt) C ->
    wf (Tree (A ++ n :: C) pcs).
  Proof.
    intros W Hn Hc HA HC. inversion W as [? ? HS Hok Hw Hpok Hpw]; subst.
    assert (forall m, In m (A ++ n :: C) -> m = n \/ In m (A ++ C)) as Hin.
    { intros m Hm. apply in_elt_inv in Hm. destruct Hm as [<-|Hm]; auto. }
    constructor; auto.
    - apply StronglySorted_app in HS. destruct HS as (S1 & S2 & S3). apply StronglySorted_app.
      rewrite Forall_forall in HA, HC. split; [exact S1|]. split.
      + constructor; [exact S2|]. apply Forall_forall. intros m Hm.
        apply (to_lt_gt _ head_cmp_order). apply HC. exact Hm.
      + intros x y Hx [<-|Hy]; [apply HA; exact Hx|apply S3; assumption].
    - intros m Hm. apply Hin in Hm. destruct Hm as [->|Hm]; auto.
    - intros m c Hm. apply Hin in Hm. destruct Hm as [->|Hm]; [apply Hc|apply Hw; exact Hm].
  Qed.

  (** The node [split] makes. *)
  Definition split_left (a : str) : lnode tree := LNode a true None None.
  Definition split_right (n : lnode tree) (b : str) : lnode tree :=
    LNode b (ln_has_value n) (ln_pattern n) (ln_node n).

  Lemma two_children_ret x y t' :
    ( let* s := add_literal_node tree_new x in add_literal_node s y) = Ret t' ->
    cmp_str (ln_literal y) (ln_literal x) = Ret (head_cmp (ln_literal y) (ln_literal x)) /\
    t' = Tree (match head_cmp (ln_literal y) (ln_literal x) with Lt => [y; x] | _ => [x; y] end) [].
  Proof.
    intros H. unbind H as s Es. simpl in Es. inversion Es; subst s.
    unfold add_literal_node in H. simpl in H. unbind H as lcs El. inversion H; subst t'.
    cbv [sv_push sort app sort_loop sort_insert] in El. unbind El as l1 E1. inversion E1; subst l1.
    unbind El as l2 E2. unbind E2 as c Ec. unfold lnode_cmp in Ec.
    pose proof (proj1 (cmp_str_ret _ _ _ Ec)) as Hc. rewrite <- Hc. split; [exact Ec|].
    destruct c; cbv [bind] in E2; inversion E2; subst l2; inversion El; reflexivity.
  Qed.

  Lemma split_ret n cpl l hit :
    utf8 (ln_literal n) -> utf8 l -> ln_literal n <> l ->
    has_common_prefix (ln_literal n) l = Some cpl ->
    split n cpl l = Ret hit ->
    exists w a b, l = w ++ a /\ ln_literal n = w ++ b /\ w <> [] /\ length w = cpl /\
      utf8 w /\ utf8 a /\ utf8 b /\
      ((head_cmp b a = Lt /\
        hit = LNode w false None (Some (Tree [split_right n b; split_left a] []))) \/
       (head_cmp b a = Gt /\
        hit = LNode w false None (Some (Tree [split_left a; split_right n b] [])))).
  Proof.
    intros Hn Hl Hne Hp H.
    destruct (cpl_longest (ln_literal n) l Hn Hl) as (w & Lw & Hw & (b & Eb) & (a & Ea) & M).
    unfold has_common_prefix in Hp. rewrite <- Lw in Hp.
    destruct (Nat.ltb_spec 0 (length w)) as [Lpos|]; [|discriminate]. inversion Hp; subst cpl. clear Hp.
    assert (utf8 a) as Ha by (rewrite Ea in Hl; apply (utf8_app_inv_r w a Hw Hl)).
    assert (utf8 b) as Hb by (rewrite Eb in Hn; apply (utf8_app_inv_r w b Hw Hn)).
    exists w, a, b. split; [exact Ea|]. split; [exact Eb|]. split; [intros ->; simpl in Lpos; lia|].
    split; [reflexivity|]. split; [exact Hw|]. split; [exact Ha|]. split; [exact Hb|].
    unfold split in H. unbind H as d Ed. unbind H as cp Ecp. unbind H as lb Elb. unbind H as rb Erb.
    unfold usub in Ed. destruct (Nat.leb_spec (length w) (length l)) as [Hle|]; [|discriminate].
    inversion Ed; subst d. clear Ed.
    apply rtrunc_ret in Ecp. destruct Ecp as (q & Eq1 & Lq & _).
    assert (cp = w /\ q = a) as (-> & ->).
    { assert (length l = length cp + length q) by (rewrite Eq1, app_length; reflexivity).
      assert (cp ++ q = w ++ a) as E by congruence. apply app_len_inj in E; [exact E|]. lia. }
    apply ltrunc_ret in Elb. destruct Elb as (pre & Eq2 & L2 & _).
    rewrite Ea in Eq2. apply app_len_inj in Eq2; [|auto]. destruct Eq2 as (<- & <-).
    apply ltrunc_ret in Erb. destruct Erb as (pre & Eq3 & L3 & _).
    rewrite Eb in Eq3. apply app_len_inj in Eq3; [|auto]. destruct Eq3 as (<- & <-).
    assert (lnode_set_has_value (lnode_new a) true = split_left a) as El by reflexivity.
    rewrite El in H.
    match type of H with
    | context [add_literal_node tree_new _] => idtac
    end.
    assert (match ln_pattern n with
            | Some p => lnode_set_pattern (lnode_set_has_value (lnode_set_node (lnode_new b) (ln_node n)) (ln_has_value n)) (Some p)
            | None => lnode_set_has_value (lnode_set_node (lnode_new b) (ln_node n)) (ln_has_value n)
            end = split_right n b) as Er.
    { unfold split_right. destruct (ln_pattern n); reflexivity. }
    rewrite Er in H. unbind H as nn1 En1. unbind H as nn2 En2. inversion H; subst hit. clear H.
    assert ((let* s := add_literal_node tree_new (split_left a) in add_literal_node s (split_right n b)) = Ret nn2)
      as H2 by (rewrite En1; exact En2).
    apply two_children_ret in H2. simpl in H2. destruct H2 as (Hcmp & ->).
    assert (head_cmp b a <> Eq) as Hd.
    { intros He. apply head_cmp_eq in He. destruct He as [(-> & ->)|(x & b' & a' & -> & ->)].
      - apply Hne. congruence.
      - apply cmp_str_ret in Hcmp. destruct Hcmp as (_ & Hbd).
        destruct (Hbd ltac:(discriminate) ltac:(discriminate)) as (B1 & B2).
        assert (utf8 [x]) as Hx.
        { apply (proj1 (utf8_cut [x] a' Ha
            (proj1 (boundary_app [x] a') B2))). }
        assert (length (w ++ [x]) <= length w) as L.
        { apply M.
          - apply utf8_app; assumption.
          - exists b'. rewrite <- app_assoc. exact Eb.
          - exists a'. rewrite <- app_assoc. exact Ea. }
        rewrite app_length in L. simpl in L. lia. }
    destruct (head_cmp b a) eqn:Ec; [congruence|left|right]; split; reflexivity.
  Qed.

  (** The new inner node before its left branch is filled in. *)
  Lemma split_node_wf n a b (lcs : list (lnode tree)) :
    lnode_ok n -> children_wf n -> okl a -> okl b -> (ln_has_value n = false -> b <> []) ->
    (head_cmp b a = Lt /\ lcs = [split_right n b; split_left a]) \/
    (head_cmp b a = Gt /\ lcs = [split_left a; split_right n b]) ->
    wf (Tree lcs []).
  Proof.
    intros (_ & Hok) Hc Ha Hb Hbne Hlcs.
    assert (forall m, In m lcs -> m = split_left a \/ m = split_right n b) as Hin.
    { intros m Hm. destruct Hlcs as [(_ & ->)|(_ & ->)]; destruct Hm as [<-|[<-|[]]]; auto. }
    constructor.
    - destruct Hlcs as [(Hd & ->)|(Hd & ->)]; repeat constructor; unfold head_lt; simpl.
      + exact Hd.
      + apply (to_lt_gt _ head_cmp_order). exact Hd.
    - intros m Hm. apply Hin in Hm. destruct Hm as [->| ->].
      + split; [exact Ha|discriminate].
      + split; [exact Hb|]. simpl. intros Hv. split; [auto|]. apply Hok. exact Hv.
    - intros m c Hm Ec. apply Hin in Hm. destruct Hm as [->| ->]; [discriminate|]. apply Hc. exact Ec.
    - intros ? [].
    - intros ? ? [].
  Qed.

  Lemma node_entries_split n w b :
    ln_literal n = w ++ b ->
    node_entries n = map (prepend w) (node_entries (split_right n b)).
  Proof.
    destruct n as [lit hv po co]; simpl. intros ->. destruct hv; [reflexivity|].
    destruct co as [c|]; [|reflexivity]. rewrite map_map. apply map_ext.
    intros (k, e). unfold prepend. simpl. rewrite app_assoc. reflexivity.
  Qed.

  Lemma fresh_ret k f t a t' :
    lkspec k f -> wf t -> utf8 a ->
    lookup_freshly_inserted_literal t a k = Ret t' -> ins_ok t t' a f.
  Proof.
    intros Hk W Ha H. unfold lookup_freshly_inserted_literal in H.
    refine (lookup_mut_ret _ f (fun _ => True) _ _ _ t W a t' Ha I H).
    - auto.
    - intros A n C pcs t0 W0 HA HC Hv H0. apply (update_found_ret A n C pcs k f t0); assumption.
    - intros. discriminate.
  Qed.

  Lemma insert_literal_tail_ret k f lcs pcs l t' :
    lkspec k f -> wf (Tree lcs pcs) -> okl l -> search_spec lcs l NotFound ->
    insert_literal_tail (Tree lcs pcs) l k = Ret t' ->
    ins_ok (Tree lcs pcs) t' l f.
  Proof.
    intros Hk W Hl Hs H. inversion W as [? ? HS Hok Hw Hpok Hpw]; subst.
    unfold insert_literal_tail in H. simpl in H. unbind H as r Er.
    destruct (children_search lcs l r HS Er) as
      [(A & n & C & El & -> & HA & HE & HC)|(A & C & El & -> & HA & HC)]; subst lcs.
    - (* a node with a common prefix is split *)
      assert ((ln_node n = None /\ ln_literal n <> l) \/
              (prefixb (ln_literal n) l = false)) as Hcase.
      { assert (forall A' n' C', A ++ n :: C = A' ++ n' :: C' ->
                 Forall (fun m => head_cmp (ln_literal m) l = Lt) A' -> head_cmp (ln_literal n') l = Eq ->
                 n' = n) as Huniq.
        { intros A' n' C' E HA' HE'.
          destruct (split_unique (fun m => head_cmp (ln_literal m) l = Lt)
                     A [n] A' [n']) as (_ & E'); [| | | | |congruence]; auto.
          - clear -E HA HA' HE HE'. revert A' E HA'.
            induction A as [|x A IH]; intros [|y A'] E HA'; simpl in *.
            + congruence.
            + inversion E; subst. inversion HA'; subst. congruence.
            + inversion E; subst. inversion HA; subst. congruence.
            + inversion E; subst. inversion HA; inversion HA'; subst. f_equal. apply IH; auto.
          - constructor; [|constructor]. congruence.
          - constructor; [|constructor]. congruence. }
        inversion Hs as [A' C' E HA' HC'|A' n' C' E HA' HE' HC' Hn' Hne'|A' n' C' c' E HA' HE' HC' Hn' Hp'| |].
        - exfalso. assert (In n (A' ++ C')) as Hin by (rewrite <- E; apply in_mid).
          rewrite Forall_forall in HA', HC'. apply in_app_or in Hin.
          destruct Hin as [Hin|Hin]; [apply HA' in Hin|apply HC' in Hin]; congruence.
        - left. rewrite <- (Huniq A' n' C' E HA' HE'). auto.
        - right. rewrite <- (Huniq A' n' C' E HA' HE'). auto. }
      unfold get_unwrap in H. rewrite nth_error_app_mid in H. cbn [bind] in H.
      destruct (has_common_prefix (ln_literal n) l) as [cpl|] eqn:Ecp; [|discriminate].
      apply update_literal_child_ret in H. destruct H as (n' & Hn' & ->).
      unbind Hn' as hit Ehit. unbind Hn' as suffix Esuf.
      pose proof (Hok n (in_mid A n C)) as Hokn. destruct Hokn as (Hu & Hint).
      assert (ln_literal n <> l) as Hne.
      { destruct Hcase as [(_ & Hc)|Hc]; [exact Hc|]. intros E. rewrite E, prefixb_refl in Hc. discriminate. }
      destruct (split_ret n cpl l hit (okl_utf8 _ Hu) (okl_utf8 _ Hl) Hne Ecp Ehit)
        as (w & a & b & Ea & Eb & Hwne & Lw & Hw8 & Ha8 & Hb8 & Hhit).
      assert (okl w /\ okl a) as (Hwl & Ha) by (apply okl_cut; [rewrite <- Ea; exact Hl|exact Hw8]).
      assert (okl b) as Hb by (apply (okl_cut w b); [rewrite <- Eb; exact Hu|exact Hw8]).
      apply ltrunc_ret in Esuf. destruct Esuf as (pre & Es & Ls & _).
      rewrite Ea in Es. apply app_len_inj in Es; [|lia]. destruct Es as (<- & <-).
      assert (ln_has_value n = false -> b <> []) as Hbne.
      { intros Hv ->. destruct (Hint Hv) as (_ & c & Hc & _).
        destruct Hcase as [(Hnone & _)|Hp]; [congruence|].
        assert (prefixb (ln_literal n) l = true); [|congruence]. apply prefixb_app.
        exists a. rewrite Eb, app_nil_r. exact Ea. }
      assert (exists lcs', hit = LNode w false None (Some (Tree lcs' [])) /\
                ((head_cmp b a = Lt /\ lcs' = [split_right n b; split_left a]) \/
                 (head_cmp b a = Gt /\ lcs' = [split_left a; split_right n b])))
        as (lcs' & Ehit' & Hlcs').
      { destruct Hhit as [(Hd & ->)|(Hd & ->)]; eexists; split; [reflexivity|auto|reflexivity|auto]. }
      assert (children_wf n) as Hcw by (intros c; apply Hw; apply in_mid).
      assert (wf (Tree lcs' [])) as Wn.
      { apply (split_node_wf n a b lcs'); auto. split; assumption. }
      rewrite Ehit' in Hn'. simpl in Hn'. unbind Hn' as node' Enode.
      apply (fresh_ret k f) in Enode; [|exact Hk|exact Wn|exact Ha8].
      destruct Enode as (Wn' & Eabs & Epc & Hlen).
      inversion Hn'; subst n'. clear Hn'. unfold lnode_set_node; simpl.
      assert (2 <= length lcs') as L2 by (destruct Hlcs' as [(_ & ->)|(_ & ->)]; simpl; lia).
      set (n' := LNode w false None (Some node')).
      assert (lnode_ok n') as Hokn'.
      { split; [exact Hwl|]. intros _. split; [exact Hwne|]. exists node'. simpl.
        split; [reflexivity|]. split; [exact Epc|]. simpl in Hlen. split; [lia|reflexivity]. }
      unfold ins_ok. split; [|split; [|split]].
      + apply (wf_replace A n C n' pcs W Hokn').
        * intros c Ec. inversion Ec; subst. exact Wn'.
        * simpl. rewrite Eb. apply (to_eq_sym _ head_cmp_order).
          rewrite head_cmp_app by exact Hwne. apply (to_refl _ head_cmp_order).
      + rewrite !abs_unfold.
        rewrite (enter_node A n C _ _ _ (node_entries n')); [|exact Hok|exact HA|exact HC|].
        * rewrite entries_app, entries_cons. reflexivity.
        * assert (enter (Level (node_entries n) (map parser_entry pcs)) l f =
                  Level (upsert l f (node_entries n)) (map parser_entry pcs)) as ->.
          { destruct Hcase as [(Hnone & _)|Hp].
            - destruct (ln_has_value n) eqn:Ev.
              + rewrite (node_entries_single n Ev), Hnone. apply enter_single_leaf.
              + destruct (Hint eq_refl) as (_ & c & Hc & _). congruence.
            - rewrite (node_entries_split n (ln_literal n) []) by (rewrite app_nil_r; reflexivity).
              apply enter_not_prefix. exact Hp. }
          simpl lits_of at 1. rewrite (node_entries_split n w b Eb), Ea, upsert_prepend.
          unfold n'. cbn [node_entries]. rewrite Eabs, abs_unfold. f_equal.
          assert (forall c, head_cmp b a = c ->
                   Forall (fun k => head_cmp k a = c) (keys (node_entries (split_right n b)))) as Hkeys.
          { intros c Hc. apply Forall_forall. intros k0 Hk0.
            rewrite (node_key_head (split_right n b) k0 a); [exact Hc| |exact Hk0].
            split; [exact Hb|]. simpl. intros Hv. split; [auto|]. apply Hint. exact Hv. }
          destruct Hlcs' as [(Hd & ->)|(Hd & ->)].
          -- (* the old part is smaller *)
             assert (entries [split_right n b; split_left a] =
                     node_entries (split_right n b) ++ [(a, (None, None))] ++ []) as -> by reflexivity.
             pose proof (Hkeys Lt Hd) as HF.
             rewrite (enter_focus (node_entries (split_right n b)) [(a, (None, None))] [] _ a f HF) by constructor.
             rewrite enter_single_found. simpl. rewrite <- (app_nil_r (node_entries (split_right n b))) at 1.
             rewrite upsert_app_l; [reflexivity|].
             eapply Forall_impl; [|exact HF]. simpl. intros k0 Hk0. apply head_cmp_lt_str in Hk0.
             rewrite str_cmp_antisym, Hk0. reflexivity.
          -- assert (entries [split_left a; split_right n b] =
                     [] ++ [(a, (None, None))] ++ node_entries (split_right n b)) as ->.
             { rewrite !entries_cons. change (entries []) with (@nil (str * entry)).
               rewrite app_nil_r. reflexivity. }
             pose proof (Hkeys Gt Hd) as HF.
             rewrite (enter_focus [] [(a, (None, None))] (node_entries (split_right n b)) _ a f) by (exact HF || constructor).
             rewrite enter_single_found.
             apply (upsert_app_r a f [] (node_entries (split_right n b))).
             eapply Forall_impl; [|exact HF]. simpl. intros k0 Hk0. apply head_cmp_gt_str in Hk0.
             rewrite str_cmp_antisym, Hk0. reflexivity.
      + reflexivity.
      + simpl. rewrite !app_length. simpl. lia.
    - (* a new node *)
      set (n := lnode_set_has_value (lnode_new l) true) in *.
      unbind H as t1 Et1.
      apply push_literal_ret in Et1; [|exact HS|exact HA|exact HC]. subst t1.
      assert (wf (Tree (A ++ n :: C) pcs)) as W1.
      { apply wf_insert; auto.
        - split; [exact Hl|]. simpl. discriminate.
        - intros c Ec. discriminate. }
      apply (update_found_ret A n C pcs k f t' Hk W1 HA HC eq_refl) in H.
      destruct H as (W' & Eabs & Epc & Hlen). unfold ins_ok. split; [exact W'|]. split; [|split].
      + rewrite Eabs, !abs_unfold. simpl ln_literal.
        rewrite (enter_node A n C _ l f [(l, f (None, None))]).
        * rewrite entries_app. change (entries C) with ([] ++ entries C) at 2.
          rewrite enter_focus; [reflexivity| |].
          -- apply entries_heads; [|exact HA]. intros m Hm. apply Hok. apply in_or_app. auto.
          -- apply entries_heads; [|exact HC]. intros m Hm. apply Hok. apply in_or_app. auto.
        * inversion W1; auto.
        * exact HA.
        * exact HC.
        * rewrite (node_entries_single n eq_refl). simpl ln_literal. rewrite enter_single_found. reflexivity.
      + exact Epc.
      + simpl in Hlen |- *. rewrite !app_length in *. simpl in Hlen. lia.
  Qed.

  Lemma insert_literal_ret k f t l t' :
    lkspec k f -> wf t -> okl l -> insert_literal t l k = Ret t' -> ins_ok t t' l f.
  Proof.
    intros Hk W Hl H. unfold insert_literal in H.
    refine (lookup_mut_ret _ f (fun l' => okl l' /\ exists pre, l = pre ++ l') _ _ _ t W l t'
              (okl_utf8 _ Hl) _ H).
    - intros a b (Ho & pre & E) Ha. split; [apply (okl_cut a b Ho Ha)|].
      exists (pre ++ a). rewrite <- app_assoc. exact E.
    - intros A n C pcs t0 W0 HA HC Hv H0. apply (update_found_ret A n C pcs k f t0); assumption.
    - intros lcs pcs l' t0 W0 Hl8' (Hl' & pre & E) Hs H0. cbn beta iota in H0.
      unbind H0 as d Ed. unbind H0 as tail Et.
      unfold usub in Ed. destruct (Nat.leb_spec (length l') (length l)); [|discriminate].
      inversion Ed; subst d. apply ltrunc_ret in Et. destruct Et as (a & Ea & La & _).
      rewrite E in Ea, La. rewrite app_length in La. apply app_len_inj in Ea; [|lia].
      destruct Ea as (_ & <-). apply (insert_literal_tail_ret k f lcs pcs l' t0); assumption.
    - split; [exact Hl|]. exists []. reflexivity.
  Qed.

  (** *** Parsers *)
  Variable sip : list byte -> N.
  Hypothesis okp_inj : forall p q, okp p -> okp q -> hash_os sip p = hash_os sip q -> p = q.

  Definition pnode_entry (n : pnode tree) : entry := (pn_pattern n, option_map abs (pn_node n)).

  Definition pkspec (k : pnode tree -> outcome (pnode tree)) (f : entry -> entry) : Prop :=
    forall n n', okp (pn_parser n) -> (forall c, pn_node n = Some c -> wf c) -> k n = Ret n' ->
      pn_parser n' = pn_parser n /\ pnode_ok n' /\ (forall c, pn_node n' = Some c -> wf c) /\
      pnode_entry n' = f (pnode_entry n).

  Lemma position_some {A} (g : A -> bool) l i :
    position g l = Some i ->
    exists a x b, l = a ++ x :: b /\ length a = i /\ g x = true /\ Forall (fun y => g y = false) a.
  Proof.
    revert i. induction l as [|y l IH]; intros i H; simpl in H; [discriminate|].
    destruct (g y) eqn:E.
    - inversion H; subst. exists [], y, l. auto.
    - destruct (position g l) as [j|]; [|discriminate]. inversion H; subst.
      destruct (IH j eq_refl) as (a & x & b & -> & <- & Hx & Ha). exists (y :: a), x, b.
      split; [reflexivity|]. split; [reflexivity|]. auto.
  Qed.

  Lemma position_none {A} (g : A -> bool) l :
    position g l = None -> Forall (fun y => g y = false) l.
  Proof.
    induction l as [|y l IH]; intros H; simpl in H; [constructor|].
    destruct (g y) eqn:E; [discriminate|]. destruct (position g l); [discriminate|]. auto.
  Qed.

  Lemma at_parser_app A P q f :
    Forall (fun x => fst x <> q) A -> at_parser (A ++ P) q f = A ++ at_parser P q f.
  Proof.
    induction A as [|(q', e) A IH]; intros H; simpl; [reflexivity|].
    inversion H as [|? ? H1 H2]; subst. simpl in H1.
    destruct (parser_eq_dec q' q); [congruence|]. rewrite IH by exact H2. reflexivity.
  Qed.

  Lemma insert_parser_ret k f t q t' :
    pkspec k f -> wf t -> okp q -> insert_parser sip t q k = Ret t' ->
    wf t' /\ abs t' = Level (lits_of (abs t)) (at_parser (pars_of (abs t)) q f).
  Proof.
    intros Hk W Hq H. inversion W as [lcs pcs HS Hok Hw Hpok Hpw]; subst.
    assert (forall A, (forall n, In n A -> pnode_ok n) ->
              Forall (fun x => N.eqb (hash_os sip (pn_parser x)) (hash_os sip q) = false) A ->
              Forall (fun x => fst x <> q) (map parser_entry A)) as Hneq.
    { intros A HokA HF. apply Forall_forall. intros e He. apply in_map_iff in He.
      destruct He as ([q' po co] & <- & Hn). rewrite Forall_forall in HF. apply HF in Hn.
      simpl in *. intros ->. rewrite N.eqb_refl in Hn. discriminate. }
    unfold insert_parser in H. destruct (lookup_parser sip (Tree lcs pcs) q) as [i|] eqn:El;
      unfold lookup_parser in El; simpl in El.
    - apply position_some in El. destruct El as (A & n & C & -> & <- & Hn & HA).
      unbind H as pcs' Ep. inversion H; subst t'. simpl in Ep.
      apply update_nth_ret in Ep. destruct Ep as (x & n' & a & b & E & L & Hkn & ->).
      apply app_len_inj in E; [|auto]. destruct E as (<- & E). inversion E; subst x b. clear E.
      pose proof (Hpok n (in_mid A n C)) as (Hnq & Hnl).
      apply N.eqb_eq in Hn. apply okp_inj in Hn; [|exact Hnq|exact Hq].
      apply Hk in Hkn; [|exact Hnq|intros c; apply Hpw; apply in_mid].
      destruct Hkn as (E1 & E2 & E3 & E4).
      assert (forall m, In m (A ++ n' :: C) -> m = n' \/ In m (A ++ n :: C)) as Hin.
      { intros m Hm. apply in_elt_inv in Hm. destruct Hm as [<-|Hm]; [auto|]. right.
        apply in_app_or in Hm. apply in_or_app. destruct Hm; [auto|right; right; assumption]. }
      split.
      + constructor; auto.
        * intros m Hm. apply Hin in Hm. destruct Hm as [->|Hm]; auto.
        * intros m c Hm. apply Hin in Hm. destruct Hm as [->|Hm]; [apply E3|apply Hpw; exact Hm].
      + rewrite !abs_unfold. cbn [lits_of pars_of]. f_equal. rewrite !map_app.
        rewrite at_parser_app.
        * simpl map. f_equal. destruct n as [nq npo nco], n' as [nq' npo' nco'].
          simpl in *. unfold pnode_entry in E4. simpl in E4.
          destruct (parser_eq_dec nq q) as [_|Hx]; [|contradiction].
          rewrite <- E4, E1. reflexivity.
        * apply Hneq; [|exact HA]. intros m Hm. apply Hpok. apply in_or_app. auto.
    - apply position_none in El. unbind H as n' En'. inversion H; subst t'. simpl.
      apply Hk in En'; [|exact Hq|intros c Hc; discriminate]. destruct En' as (E1 & E2 & E3 & E4).
      split.
      + constructor; auto.
        * intros m Hm. apply in_app_or in Hm. destruct Hm as [Hm|[<-|[]]]; auto.
        * intros m c Hm. apply in_app_or in Hm. destruct Hm as [Hm|[<-|[]]]; [apply Hpw; exact Hm|apply E3].
      + fold entries. rewrite map_app.
        change (map (fun n => match n with PNode q po co => (q, (po, option_map abs co)) end) pcs)
          with (map parser_entry pcs).
        rewrite <- (app_nil_r (map parser_entry pcs)) at 2.
        rewrite at_parser_app by (apply Hneq; assumption). f_equal. f_equal. simpl.
        destruct n' as [nq' npo' nco']. simpl in *. unfold pnode_entry in E4. simpl in E4.
        rewrite E1, <- E4. reflexivity.
  Qed.

  (** *** Patterns *)
  Definition token_ok (tok : token) : Prop :=
    match tok with Literal l => okl l | Parser q => okp q end.

  Lemma stripped_set_tokens p toks : stripped (set_pattern_tokens p toks) = stripped p.
  Proof. reflexivity. Qed.

  Lemma insert_tokens_ret toks : forall t p t',
    Forall token_ok toks -> wf t -> insert_tokens sip toks t p = Ret t' ->
    wf t' /\ abs t' = s_insert toks (abs t) (stripped p).
  Proof.
    induction toks as [|tok rest IH]; intros t p t' Hok W H; simpl in H.
    - inversion H; subst. auto.
    - inversion Hok as [|? ? Htok Hrest]; subst.
      set (p' := set_pattern_tokens p rest) in *.
      set (f := fun e : entry => if is_empty rest then (Some (stripped p), snd e)
                 else (fst e, Some (s_insert rest level_empty (stripped p)))).
      destruct tok as [q|l]; cbn [token_ok] in Htok.
      + apply (insert_parser_ret _ f) in H; [exact H| |exact W|exact Htok].
        intros n n' Hq Hc Hk. unfold f, pnode_entry. destruct (is_empty rest) eqn:Er.
        * inversion Hk; subst n'. simpl. split; [reflexivity|].
          split; [split; [exact Hq|simpl; discriminate]|].
          split; [exact Hc|]. apply is_empty_true in Er. subst rest. reflexivity.
        * unbind Hk as c Ec. inversion Hk; subst n'. simpl. split; [reflexivity|].
          split; [split; [exact Hq|simpl; discriminate]|].
          apply IH in Ec; [|exact Hrest|apply wf_new]. destruct Ec as (Wc & Ec).
          split; [intros c' Ec'; inversion Ec'; subst; exact Wc|]. rewrite Ec. reflexivity.
      + apply (insert_literal_ret _ f) in H; [| |exact W|exact Htok].
        * destruct H as (W' & E & _). split; [exact W'|]. exact E.
        * intros n n' Hv Hc Hk. unfold f, lnode_entry. destruct (is_empty rest) eqn:Er.
          -- inversion Hk; subst n'. simpl. split; [reflexivity|]. split; [exact Hv|].
             split; [exact Hc|]. apply is_empty_true in Er. subst rest. reflexivity.
          -- unbind Hk as c Ec. inversion Hk; subst n'. simpl. split; [reflexivity|]. split; [exact Hv|].
             apply IH in Ec; [|exact Hrest|apply wf_new]. destruct Ec as (Wc & Ec).
             split; [intros c' Ec'; inversion Ec'; subst; exact Wc|]. rewrite Ec. reflexivity.
  Qed.

  Lemma add_pattern_ret t p t' :
    Forall token_ok (pat_tokens p) -> wf t -> add_pattern sip t p = Ret t' ->
    wf t' /\ abs t' = s_add (abs t) p.
  Proof. apply insert_tokens_ret. Qed.

  Lemma add_patterns_ret ps : forall t t',
    Forall (fun p => Forall token_ok (pat_tokens p)) ps -> wf t -> add_patterns sip t ps = Ret t' ->
    wf t' /\ abs t' = fold_left s_add ps (abs t).
  Proof.
    induction ps as [|p ps IH]; intros t t' Hok W H; simpl in H.
    - inversion H; subst. auto.
    - inversion Hok as [|? ? H1 H2]; subst. unbind H as t1 Et.
      apply add_pattern_ret in Et; [|exact H1|exact W]. destruct Et as (W1 & E1).
      simpl. rewrite <- E1. apply IH; assumption.
  Qed.

  (** Well-formedness alone does not depend on the hash function. *)
  Lemma insert_parser_wf k f t q t' :
    pkspec k f -> wf t -> okp q -> insert_parser sip t q k = Ret t' -> wf t'.
  Proof.
    intros Hk W Hq H. inversion W as [lcs pcs HS Hok Hw Hpok Hpw]; subst.
    unfold insert_parser in H. destruct (lookup_parser sip (Tree lcs pcs) q) as [i|] eqn:El.
    - unbind H as pcs' Ep. inversion H; subst t'. simpl in Ep.
      apply update_nth_ret in Ep. destruct Ep as (n & n' & A & C & -> & _ & Hkn & ->).
      apply Hk in Hkn; [|apply (Hpok n (in_mid A n C))|intros c; apply Hpw; apply in_mid].
      destruct Hkn as (E1 & E2 & E3 & E4).
      assert (forall m, In m (A ++ n' :: C) -> m = n' \/ In m (A ++ n :: C)) as Hin.
      { intros m Hm. apply in_elt_inv in Hm. destruct Hm as [<-|Hm]; [auto|]. right.
        apply in_app_or in Hm. apply in_or_app. destruct Hm; [auto|right; right; assumption]. }
      constructor; auto.
      + intros m Hm. apply Hin in Hm. destruct Hm as [->|Hm]; auto.
      + intros m c Hm. apply Hin in Hm. destruct Hm as [->|Hm]; [apply E3|apply Hpw; exact Hm].
    - unbind H as n' En'. inversion H; subst t'. simpl.
      apply Hk in En'; [|exact Hq|intros c Hc; discriminate]. destruct En' as (E1 & E2 & E3 & E4).
      constructor; auto.
      + intros m Hm. apply in_app_or in Hm. destruct Hm as [Hm|[<-|[]]]; auto.
      + intros m c Hm. apply in_app_or in Hm. destruct Hm as [Hm|[<-|[]]]; [apply Hpw; exact Hm|apply E3].
  Qed.

  Lemma insert_tokens_wf toks : forall t p t',
    Forall token_ok toks -> wf t -> insert_tokens sip toks t p = Ret t' -> wf t'.
  Proof.
    induction toks as [|tok rest IH]; intros t p t' Hok W H; simpl in H.
    - inversion H; subst. auto.
    - inversion Hok as [|? ? Htok Hrest]; subst.
      set (p' := set_pattern_tokens p rest) in *.
      set (f := fun e : entry => if is_empty rest then (Some p', snd e)
                 else (fst e, match insert_tokens sip rest tree_new p' with
                              | Ret c => Some (abs c) | _ => None end)).
      destruct tok as [q|l]; cbn [token_ok] in Htok.
      + apply (insert_parser_wf _ f) in H; [exact H| |exact W|exact Htok].
        intros n n' Hq Hc Hk. unfold f, pnode_entry. destruct (is_empty rest) eqn:Er.
        * inversion Hk; subst n'. simpl. split; [reflexivity|].
          split; [split; [exact Hq|simpl; discriminate]|]. split; [exact Hc|]. reflexivity.
        * unbind Hk as c Ec. inversion Hk; subst n'. simpl. split; [reflexivity|].
          split; [split; [exact Hq|simpl; discriminate]|]. rewrite Ec.
          apply IH in Ec; [|exact Hrest|apply wf_new].
          split; [intros c' Ec'; inversion Ec'; subst; exact Ec|]. reflexivity.
      + apply (insert_literal_ret _ f) in H; [apply H| |exact W|exact Htok].
        intros n n' Hv Hc Hk. unfold f, lnode_entry. destruct (is_empty rest) eqn:Er.
        * inversion Hk; subst n'. simpl. split; [reflexivity|]. split; [exact Hv|].
          split; [exact Hc|]. reflexivity.
        * unbind Hk as c Ec. inversion Hk; subst n'. simpl. split; [reflexivity|]. split; [exact Hv|].
          rewrite Ec. apply IH in Ec; [|exact Hrest|apply wf_new].
          split; [intros c' Ec'; inversion Ec'; subst; exact Ec|]. reflexivity.
  Qed.
End Wf.
