(** * The suffix table behaves like the abstract one of TableSpec.v and never
      panics on UTF-8 data *)
From Coq Require Import Sorted.
From Verif Require Import Base Base_facts Utils Utils_facts Parsers Parsers_facts Pattern Spec
  Hash_facts SuffixArray TrieSpec TrieSpec_facts TrieSpec_props TableSpec.
From Verif Require Trie Trie_refine Trie_total.

(** ** Abstraction *)
Fixpoint tabs (t : table) : level :=
  match t with
  | Table les pes =>
      Level (map (fun e => (le_literal e, (le_pattern e, option_map tabs (le_child e)))) les)
            (map (fun e => (pe_parser e, (pe_pattern e, option_map tabs (pe_child e)))) pes)
  end.

Definition lentry (e : literal_e table) : entry := (le_pattern e, option_map tabs (le_child e)).
Definition pentry (e : parser_e table) : entry := (pe_pattern e, option_map tabs (pe_child e)).
Definition lpair (e : literal_e table) : str * entry := (le_literal e, lentry e).
Definition ppair (e : parser_e table) : parser * entry := (pe_parser e, pentry e).

Lemma tabs_unfold les pes : tabs (Table les pes) = Level (map lpair les) (map ppair pes).
Proof. reflexivity. Qed.

(** ** Heights *)
Lemma height_lit les pes e c :
  In e les -> le_child e = Some c -> height c < height (Table les pes).
Proof.
  intros H E. cbn [height]. pose proof (Trie_refine.list_max_by_le
    (fun e => match le_child e with Some c => height c | None => 0 end) les e H) as L.
  cbv beta in L. rewrite E in L. lia.
Qed.

Lemma height_par les pes e c :
  In e pes -> pe_child e = Some c -> height c < height (Table les pes).
Proof.
  intros H E. cbn [height]. pose proof (Trie_refine.list_max_by_le
    (fun e => match pe_child e with Some c => height c | None => 0 end) pes e H) as L.
  cbv beta in L. rewrite E in L. lia.
Qed.

(** ** Splitting a sorted list of entries at a string *)
Definition les_sorted (les : list (literal_e table)) : Prop :=
  StronglySorted str_lt (map le_literal les).

Lemma split_at les l :
  les_sorted les ->
  exists A B C, les = A ++ B ++ C /\
    Forall (fun e => str_cmp (le_literal e) l = Lt) A /\
    (B = [] \/ exists e, B = [e] /\ le_literal e = l) /\
    Forall (fun e => str_cmp (le_literal e) l = Gt) C.
Proof.
  unfold les_sorted. induction les as [|e les IH]; simpl; intros HS.
  - exists [], [], []. repeat split; auto.
  - inversion HS as [|? ? S1 S2]; subst. rewrite Forall_map, Forall_forall in S2.
    destruct (str_cmp (le_literal e) l) eqn:E.
    + apply str_cmp_eq in E. exists [], [e], les. repeat split; eauto.
      apply Forall_forall. intros x Hx. apply S2 in Hx. unfold str_lt in Hx.
      rewrite str_cmp_antisym, <- E, Hx. reflexivity.
    + destruct (IH S1) as (A & B & C & -> & HA & HB & HC). exists (e :: A), B, C. auto.
    + exists [], [], (e :: les). repeat split; auto. constructor; [exact E|].
      apply Forall_forall. intros x Hx. apply S2 in Hx. unfold str_lt in Hx.
      assert (str_cmp l (le_literal e) = Lt) by (rewrite str_cmp_antisym, E; reflexivity).
      rewrite str_cmp_antisym, (str_cmp_lt_trans _ _ _ H Hx). reflexivity.
Qed.

Lemma search_split A B C l :
  Forall (fun e : literal_e table => str_cmp (le_literal e) l = Lt) A ->
  (B = [] \/ exists e, B = [e] /\ le_literal e = l) ->
  Forall (fun e => str_cmp (le_literal e) l = Gt) C ->
  binary_search_by (A ++ B ++ C) (fun probe => Ret (str_cmp (le_literal probe) l)) =
  Ret (match B with [] => inr (length A) | _ => inl (length A) end).
Proof.
  intros HA HB HC.
  destruct (binary_search_by_total (A ++ B ++ C) (fun probe => Ret (str_cmp (le_literal probe) l)))
    as (r & E); [eauto|]. rewrite E. f_equal.
  rewrite Forall_forall in HA, HC.
  apply binary_search_by_ret in E; [| | |].
  - destruct HB as [->|(e & -> & _)]; destruct r as [i|i]; simpl in E.
    + lia.
    + destruct E as (_ & ->). reflexivity.
    + f_equal. lia.
    + destruct E as (E & _). discriminate.
  - intros x k Hx H. apply HA in Hx. congruence.
  - intros x k Hx H. destruct HB as [->|(e & -> & He)]; [destruct Hx|].
    destruct Hx as [<-|[]]. rewrite He, str_cmp_refl in H. congruence.
  - intros x k Hx H. apply HC in Hx. congruence.
Qed.

(** ** The nearest entry *)
Lemma last_opt_app {A} (l : list A) x : last_opt (l ++ [x]) = Some x.
Proof.
  induction l as [|y l IH]; [reflexivity|]. simpl. rewrite IH. destruct l; reflexivity.
Qed.

Lemma last_opt_map {A B} (g : A -> B) l : last_opt (map g l) = option_map g (last_opt l).
Proof.
  induction l as [|y l IH]; [reflexivity|]. simpl. rewrite IH. destruct l; reflexivity.
Qed.

Lemma hd_error_map {A B} (g : A -> B) l : hd_error (map g l) = option_map g (hd_error l).
Proof. destruct l; reflexivity. Qed.

Lemma filter_map_comm {A B} (g : A -> B) (p : B -> bool) l :
  filter p (map g l) = map g (filter (fun x => p (g x)) l).
Proof.
  induction l as [|x l IH]; [reflexivity|]. simpl. rewrite IH. destruct (p (g x)); reflexivity.
Qed.

Lemma nearest_map {A B} (g : str * A -> str * B) K text :
  (forall x, fst (g x) = fst x) -> nearest (map g K) text = option_map g (nearest K text).
Proof.
  intros Hg. unfold nearest. rewrite !filter_map_comm, last_opt_map, hd_error_map.
  rewrite (filter_ext (fun x => notgtb (str_cmp (fst (g x)) text))
                      (fun x => notgtb (str_cmp (fst x) text)))
    by (intros x; rewrite Hg; reflexivity).
  rewrite (filter_ext (fun x => negb (notgtb (str_cmp (fst (g x)) text)))
                      (fun x => negb (notgtb (str_cmp (fst x) text))))
    by (intros x; rewrite Hg; reflexivity).
  destruct (last_opt _) as [a|], (hd_error _) as [b|]; simpl; try reflexivity.
  rewrite !Hg. destruct (Nat.leb _ _); reflexivity.
Qed.

Lemma t_parse_unfold K P text :
  t_parse (Level K P) text =
  match nearest K text with
  | Some (k, e) =>
      let n := common_prefix_len k text in
      if Nat.eqb n (length text) then option_map match_result_new (fst e)
      else match snd e with
           | Some c => t_parse c (skipn n text)
           | None => None
           end
  | None => try_parsers t_parse P text
  end.
Proof.
  cbn [t_parse]. rewrite nearest_map.
  - destruct (nearest K text) as [(k, (po, [c|]))|]; reflexivity.
  - intros (k, (po, [c|])); reflexivity.
Qed.

Lemma filter_all {A} (p : A -> bool) l : Forall (fun x => p x = true) l -> filter p l = l.
Proof.
  induction 1 as [|x l H HF IH]; simpl; [reflexivity|]. rewrite H, IH. reflexivity.
Qed.

Lemma filter_none {A} (p : A -> bool) l : Forall (fun x => p x = false) l -> filter p l = [].
Proof. induction 1 as [|x l H HF IH]; simpl; [reflexivity|]. rewrite H, IH. reflexivity. Qed.

Lemma nearest_split {A} (K1 K2 : list (str * A)) text :
  Forall (fun x => notgtb (str_cmp (fst x) text) = true) K1 ->
  Forall (fun x => notgtb (str_cmp (fst x) text) = false) K2 ->
  nearest (K1 ++ K2) text =
  match last_opt K1, hd_error K2 with
  | Some a, Some b =>
      if Nat.leb (common_prefix_len (fst b) text) (common_prefix_len (fst a) text)
      then Some a else Some b
  | Some a, None => Some a
  | None, o => o
  end.
Proof.
  intros H1 H2. unfold nearest. rewrite !filter_app.
  rewrite (filter_all _ K1) by exact H1. rewrite (filter_none _ K2) by exact H2.
  rewrite (filter_none (fun x => negb (notgtb (str_cmp (fst x) text))) K1).
  - rewrite (filter_all (fun x => negb (notgtb (str_cmp (fst x) text))) K2).
    + rewrite app_nil_r. reflexivity.
    + apply (Forall_impl _ (P := fun x => notgtb (str_cmp (fst x) text) = false)); [|exact H2].
      intros x ->. reflexivity.
  - apply (Forall_impl _ (P := fun x => notgtb (str_cmp (fst x) text) = true)); [|exact H1].
    intros x ->. reflexivity.
Qed.

Lemma cpl_le_r a b : common_prefix_len a b <= length b.
Proof.
  destruct (cpl_common a b) as (c & a' & b' & _ & -> & ->). rewrite app_length. lia.
Qed.

Lemma cpl_le_l a b : common_prefix_len a b <= length a.
Proof.
  destruct (cpl_common a b) as (c & a' & b' & -> & _ & ->). rewrite app_length. lia.
Qed.

Lemma cpl_self a : utf8 a -> common_prefix_len a a = length a.
Proof.
  intros H. apply Trie_refine.cpl_prefix; auto. apply prefixb_app. exists []. rewrite app_nil_r. reflexivity.
Qed.

(** [longest_common_prefix] finds the nearest entry. *)
Lemma lcp_ret les pes text :
  les_sorted les -> utf8 text ->
  exists o, longest_common_prefix (Table les pes) text = Ret o /\
    (forall e, o = Some e -> In e les) /\
    option_map lpair o = nearest (map lpair les) text.
Proof.
  intros HS Hu. destruct (split_at les text HS) as (A & B & C & -> & HA & HB & HC).
  unfold longest_common_prefix. cbn [literal_entries]. rewrite search_split by assumption. cbn [bind].
  assert (Forall (fun x => notgtb (str_cmp (fst x) text) = true) (map lpair A)) as FA.
  { rewrite Forall_map. revert HA. apply Forall_impl. intros x Hx. simpl. rewrite Hx. reflexivity. }
  assert (Forall (fun x => notgtb (str_cmp (fst x) text) = false) (map lpair C)) as FC.
  { rewrite Forall_map. revert HC. apply Forall_impl. intros x Hx. simpl. rewrite Hx. reflexivity. }
  destruct HB as [->|(e & -> & He)].
  - simpl app. eexists. split; [reflexivity|].
    assert (forall o, o = lcp_around_pos (A ++ C) text (length A) ->
      (forall e, o = Some e -> In e (A ++ C)) /\
      option_map lpair o = nearest (map lpair (A ++ C)) text) as HH; [|apply HH; reflexivity].
    intros o ->. rewrite map_app, nearest_split by assumption.
    rewrite last_opt_map, hd_error_map. unfold lcp_around_pos, lcp_between_consecutive_entries.
    destruct (Nat.eqb_spec (length A) 0) as [E|E].
    + destruct A; [|discriminate]. simpl. split.
      * intros e. destruct C; simpl; [discriminate|]. intros H. inversion H. auto.
      * destruct C; reflexivity.
    + destruct (exists_last (l := A)) as (A' & a & ->); [destruct A; [contradiction|discriminate]|].
      rewrite last_opt_app, app_length. simpl length.
      replace (length A' + 1 - 1) with (length A') by lia.
      rewrite <- app_assoc. simpl app. rewrite nth_error_app_mid.
      replace (length A' + 1) with (length (A' ++ [a])) by (rewrite app_length; reflexivity).
      replace (A' ++ a :: C) with ((A' ++ [a]) ++ C) by (rewrite <- app_assoc; reflexivity). rewrite nth_error_app2, Nat.sub_diag by lia.
      destruct C as [|c C]; simpl.
      * split; [|reflexivity]. intros e H. inversion H; subst. rewrite app_nil_r. apply in_or_app. right. left. reflexivity.
      * destruct (Nat.leb _ _); (split; [|reflexivity]); intros e H; inversion H; subst.
        -- rewrite <- app_assoc. apply Trie_refine.in_mid.
        -- apply Trie_refine.in_mid.
  - simpl app. rewrite nth_error_app_mid. eexists. split; [reflexivity|]. split.
    + intros e' H. inversion H; subst. apply Trie_refine.in_mid.
    + replace (A ++ e :: C) with ((A ++ [e]) ++ C) by (rewrite <- app_assoc; reflexivity).
      rewrite map_app, nearest_split; [| |exact FC].
      * rewrite map_app. simpl map. rewrite last_opt_app, hd_error_map.
        destruct C as [|c C]; [reflexivity|]. simpl. rewrite He.
        rewrite (cpl_self text Hu). destruct (Nat.leb_spec (common_prefix_len (le_literal c) text) (length text)); [reflexivity|].
        pose proof (cpl_le_r (le_literal c) text). lia.
      * rewrite map_app. apply Forall_app. split; [exact FA|]. constructor; [|constructor].
        simpl. rewrite He, str_cmp_refl. reflexivity.
Qed.

(** ** Well-formed tables *)
Section Wf.
  Variable okp : parser -> Prop.
  Hypothesis okp_utf8 : forall p, okp p -> parser_utf8 p.

  Inductive twf : table -> Prop :=
  | twf_table les pes :
      les_sorted les ->
      (forall e, In e les -> utf8 (le_literal e)) ->
      (forall e c, In e les -> le_child e = Some c -> twf c) ->
      (forall e, In e pes -> okp (pe_parser e)) ->
      (forall e c, In e pes -> pe_child e = Some c -> twf c) ->
      twf (Table les pes).

  Lemma twf_new : twf table_new.
  Proof. constructor; try (intros e []; fail); try (intros e c []; fail). constructor. Qed.

  (** ** Parsing *)
  Lemma cut_text e text (c : literal_e table) :
    utf8 (le_literal e) -> utf8 text -> c = e ->
    ltrunc text (common_prefix_len (le_literal e) text) =
      Ret (skipn (common_prefix_len (le_literal e) text) text) /\
    utf8 (skipn (common_prefix_len (le_literal e) text) text).
  Proof.
    intros He Hu _. destruct (cpl_longest _ _ He Hu) as (w & <- & Hw & Pa & (r & ->) & M).
    rewrite skipn_app, skipn_all, Nat.sub_diag. simpl. split.
    - apply ltrunc_ok; assumption.
    - apply (utf8_app_inv_r w r Hw Hu).
  Qed.

  Definition parse_ok (f : table -> str -> outcome (option match_result)) (n : nat) : Prop :=
    forall t text r, twf t -> height t <= n -> utf8 text ->
      f t text = Ret r -> r = t_parse (tabs t) text.

  Lemma parser_e_parse_ret f n e text r :
    parse_ok f n -> okp (pe_parser e) -> (forall c, pe_child e = Some c -> twf c /\ height c <= n) ->
    utf8 text -> parser_e_parse f e text = Ret r ->
    r = try_parser t_parse (pe_parser e) (pentry e) text.
  Proof.
    intros Hf Hok Hw Hu H. unfold parser_e_parse in H. unbind H as o Eo.
    unfold try_parser, capture. rewrite Eo. destruct o as [v|]; [|congruence].
    unbind H as text' Et. apply ltrunc_ret in Et. destruct Et as (v' & E & L & _).
    assert (captures (pe_parser e) text v /\ utf8 v) as (Hc & Huv).
    { apply parser_parse_some; auto. }
    apply captures_prefix in Hc. destruct Hc as (r' & Ev).
    assert (v' ++ text' = v ++ r') as Es by congruence. apply Trie_refine.app_len_inj in Es; [|exact L].
    destruct Es as (-> & ->).
    assert (skipn (length v) text = r') as -> by (rewrite Ev, skipn_app, skipn_all, Nat.sub_diag; reflexivity).
    unfold pentry. cbn [fst snd]. destruct (pe_child e) as [c|]; cbn [option_map].
    - unbind H as r0 Er. destruct (Hw c eq_refl) as (Wc & Hh).
      apply Hf in Er; [|assumption|assumption|rewrite Ev in Hu; apply (utf8_app_inv_r v r' Huv Hu)].
      rewrite <- Er. destruct r0; simpl; congruence.
    - destruct (is_empty r'); simpl; [|congruence]. unfold create_match_result in H.
      destruct (pe_pattern e); simpl; congruence.
  Qed.

  Lemma parse_with_parsers_ret f n pes text r :
    parse_ok f n -> (forall e, In e pes -> okp (pe_parser e)) ->
    (forall e c, In e pes -> pe_child e = Some c -> twf c /\ height c <= n) ->
    utf8 text -> parse_with_parsers f pes text = Ret r ->
    r = try_parsers t_parse (map ppair pes) text.
  Proof.
    intros Hf. induction pes as [|e pes IH]; intros Hok Hw Hu H; cbn [parse_with_parsers] in H.
    - inversion H. reflexivity.
    - unbind H as o Eo.
      apply (parser_e_parse_ret f n) in Eo;
        [|exact Hf|apply Hok; left; reflexivity|intros c; apply Hw; left; reflexivity|exact Hu].
      cbn [map try_parsers ppair]. rewrite <- Eo. destruct o; [congruence|].
      apply IH; auto.
      + intros e' He. apply Hok. right. exact He.
      + intros e' c He. apply Hw. right. exact He.
  Qed.

  Lemma parse_fuel_ret fuel : parse_ok (parse_fuel fuel) fuel.
  Proof.
    induction fuel as [|fuel IH]; intros t text r W Hh Hu H; [discriminate|].
    inversion W as [les pes HS Hl Hlw Hp Hpw]; subst.
    cbn [parse_fuel] in H. destruct (lcp_ret les pes text HS Hu) as (o & Eo & Hin & Hn).
    rewrite Eo in H. cbn [bind] in H. rewrite tabs_unfold, t_parse_unfold, <- Hn.
    destruct o as [e|]; cbn [option_map lpair lentry fst snd].
    - specialize (Hin e eq_refl). cbv zeta in *.
      destruct (Nat.eqb_spec (common_prefix_len (le_literal e) text) (length text)) as [E|E].
      + inversion H. destruct (le_pattern e); reflexivity.
      + pose proof (cpl_le_r (le_literal e) text) as L.
        destruct (Nat.ltb_spec (common_prefix_len (le_literal e) text) (length text)); [|lia].
        destruct (cut_text e text e (Hl e Hin) Hu eq_refl) as (Ec & Hu'). rewrite Ec in H. cbn [bind] in H.
        destruct (le_child e) as [c|] eqn:Ecc; cbn [option_map].
        * apply IH in H; [exact H|apply (Hlw e); assumption| |exact Hu'].
          pose proof (height_lit les pes e c Hin Ecc). lia.
        * congruence.
    - apply (parse_with_parsers_ret _ fuel) in H; auto.
      intros e c He Hc. split; [apply (Hpw e); assumption|].
      pose proof (height_par les pes e c He Hc). lia.
  Qed.

  Lemma parse_ret t text r :
    twf t -> utf8 text -> parse t text = Ret r -> r = t_parse (tabs t) text.
  Proof. intros W Hu. apply (parse_fuel_ret (height t)); auto. Qed.

  (** *** No panic *)
  Section Ascii.
    Hypothesis okp_ascii : forall p, okp p -> parser_ascii_set p.

    Definition total_on (f : table -> str -> outcome (option match_result)) (n : nat) : Prop :=
      forall t text, twf t -> height t <= n -> utf8 text -> exists r, f t text = Ret r.

    Lemma parse_with_parsers_total f n pes text :
      total_on f n -> (forall e, In e pes -> okp (pe_parser e)) ->
      (forall e c, In e pes -> pe_child e = Some c -> twf c /\ height c <= n) ->
      utf8 text -> exists r, parse_with_parsers f pes text = Ret r.
    Proof.
      intros Hf. induction pes as [|e pes IH]; intros Hok Hw Hu; cbn [parse_with_parsers]; [eauto|].
      assert (exists r, parser_e_parse f e text = Ret r) as (r & ->).
      { unfold parser_e_parse. pose proof (Hok e (or_introl eq_refl)) as Hq.
        destruct (parser_parse_total (pe_parser e) text Hu (okp_utf8 _ Hq) (okp_ascii _ Hq)) as (o & Eo).
        rewrite Eo. cbn [bind]. destruct o as [v|]; [|eauto].
        apply parser_parse_some in Eo; [|exact Hu|apply okp_utf8; exact Hq].
        destruct Eo as (Hc & Hv). apply captures_prefix in Hc. destruct Hc as (rest & ->).
        rewrite ltrunc_ok by assumption. cbn [bind].
        destruct (pe_child e) as [c|] eqn:En.
        - destruct (Hw e c (or_introl eq_refl) En) as (Wc & Hh).
          destruct (Hf c rest Wc Hh (utf8_app_inv_r v rest Hv Hu)) as (r & ->).
          cbn [bind]. destruct r; eauto.
        - destruct (is_empty rest); eauto. }
      cbn [bind]. destruct r; [eauto|]. apply IH; auto.
      - intros e' He. apply Hok. right. exact He.
      - intros e' c He. apply Hw. right. exact He.
    Qed.

    Lemma parse_fuel_total fuel : total_on (parse_fuel fuel) fuel.
    Proof.
      induction fuel as [|fuel IH]; intros t text W Hh Hu.
      { destruct t; cbn [height] in Hh; lia. }
      inversion W as [les pes HS Hl Hlw Hp Hpw]; subst.
      cbn [parse_fuel]. destruct (lcp_ret les pes text HS Hu) as (o & Eo & Hin & Hn).
      rewrite Eo. cbn [bind]. destruct o as [e|].
      - specialize (Hin e eq_refl). cbv zeta. destruct (Nat.eqb _ _); [eauto|].
        destruct (Nat.ltb _ _); [|eauto].
        destruct (cut_text e text e (Hl e Hin) Hu eq_refl) as (Ec & Hu'). rewrite Ec. cbn [bind].
        destruct (le_child e) as [c|] eqn:Ecc; [|eauto].
        apply IH; [apply (Hlw e); assumption| |exact Hu'].
        pose proof (height_lit les pes e c Hin Ecc). lia.
      - apply (parse_with_parsers_total _ fuel); auto.
        intros e c He Hc. split; [apply (Hpw e); assumption|].
        pose proof (height_par les pes e c He Hc). lia.
    Qed.

    Lemma parse_total t text : twf t -> utf8 text -> exists r, parse t text = Ret r.
    Proof. intros W Hu. apply parse_fuel_total; auto. Qed.
  End Ascii.

  (** ** Insertion *)
  Variable sip : list byte -> N.

  (** The hash function tells the admissible parsers apart. *)
  Definition okp_inj : Prop :=
    forall p q, okp p -> okp q -> hash_os sip p = hash_os sip q -> p = q.

  Lemma upsert_at A l f X :
    Forall (fun e : literal_e table => str_cmp (le_literal e) l = Lt) A ->
    upsert l f (map lpair A ++ X) = map lpair A ++ upsert l f X.
  Proof.
    intros H. apply upsert_app_l. unfold keys. rewrite !Forall_map. revert H. apply Forall_impl.
    intros e He. simpl. rewrite str_cmp_antisym, He. reflexivity.
  Qed.

  Lemma upsert_new l f C :
    Forall (fun e : literal_e table => str_cmp (le_literal e) l = Gt) C ->
    upsert l f (map lpair C) = (l, f (None, None)) :: map lpair C.
  Proof.
    intros H. destruct C as [|c C]; [reflexivity|]. inversion H; subst. simpl.
    rewrite str_cmp_antisym, H2. reflexivity.
  Qed.

  Lemma sorted_change A x y C :
    le_literal x = le_literal y -> les_sorted (A ++ x :: C) -> les_sorted (A ++ y :: C).
  Proof. unfold les_sorted. intros E. rewrite !map_app. simpl. rewrite E. auto. Qed.

  Lemma sorted_insert A x C :
    Forall (fun e => str_cmp (le_literal e) (le_literal x) = Lt) A ->
    Forall (fun e => str_cmp (le_literal e) (le_literal x) = Gt) C ->
    les_sorted (A ++ C) -> les_sorted (A ++ x :: C).
  Proof.
    unfold les_sorted. intros HA HC. induction A as [|a A IH]; simpl; intros HS.
    - constructor; [exact HS|]. rewrite Forall_map. revert HC. apply Forall_impl. intros e He.
      unfold str_lt. rewrite str_cmp_antisym, He. reflexivity.
    - inversion HA as [|? ? H1 H2]; subst. inversion HS as [|? ? S1 S2]; subst.
      constructor; [apply IH; assumption|]. rewrite map_app in *. apply Forall_app in S2.
      destruct S2 as (S2 & S3). apply Forall_app. split; [exact S2|]. simpl. constructor; assumption.
  Qed.

  Definition lkspec (l : str) (k : literal_e table -> outcome (literal_e table))
             (f : entry -> entry) : Prop :=
    forall e, le_literal e = l -> (forall c, le_child e = Some c -> twf c) ->
      exists e', k e = Ret e' /\ le_literal e' = l /\ (forall c, le_child e' = Some c -> twf c) /\
        (okp_inj -> lentry e' = f (lentry e)).

  Lemma in_changed {A} (a : list A) x y c m : In m (a ++ y :: c) -> m = y \/ In m (a ++ x :: c).
  Proof.
    intros Hm. apply in_elt_inv in Hm. destruct Hm as [<-|Hm]; [auto|]. right.
    apply in_app_or in Hm. apply in_or_app. destruct Hm; [auto|right; right; assumption].
  Qed.

  Lemma insert_literal_ok t l k f :
    twf t -> utf8 l -> lkspec l k f ->
    exists t', insert_literal t l k = Ret t' /\ twf t' /\
      (okp_inj -> tabs t' = Level (upsert l f (lits_of (tabs t))) (pars_of (tabs t))).
  Proof.
    intros W Hu Hk. inversion W as [les pes HS Hl Hlw Hp Hpw]; subst.
    destruct (split_at les l HS) as (A & B & C & -> & HA & HB & HC).
    unfold insert_literal. cbn [literal_entries parser_entries]. rewrite search_split by assumption.
    cbn [bind]. destruct HB as [->|(e & -> & He)].
    - simpl app in *. unfold vec_insert. rewrite app_length.
      destruct (Nat.leb_spec (length A) (length A + length C)); [|lia]. cbn [bind].
      rewrite firstn_app, firstn_all, Nat.sub_diag, skipn_app, skipn_all, Nat.sub_diag. simpl firstn. simpl skipn.
      rewrite app_nil_r. simpl app.
      destruct (Hk (literal_e_new l) eq_refl) as (e' & E1 & E2 & E3 & E4); [discriminate|].
      assert (update_nth (A ++ literal_e_new l :: C) (length A) k = Ret (A ++ e' :: C)) as ->.
      { apply update_nth_ret. exists (literal_e_new l), e', A, C. auto. }
      cbn [bind]. eexists. split; [reflexivity|]. split.
      + constructor; auto.
        * apply sorted_insert; rewrite ?E2; assumption.
        * intros m Hm. apply in_elt_inv in Hm. destruct Hm as [<-|Hm]; [rewrite E2; exact Hu|auto].
        * intros m c Hm. apply in_elt_inv in Hm. destruct Hm as [<-|Hm]; [apply E3|apply Hlw; exact Hm].
      + intros I. rewrite !tabs_unfold. cbn [lits_of pars_of]. rewrite !map_app. simpl map.
        rewrite upsert_at, upsert_new by assumption. unfold lpair at 2. rewrite (E4 I), E2. reflexivity.
    - simpl app in *. destruct (Hk e He) as (e' & E1 & E2 & E3 & E4).
      { intros c. apply Hlw. apply Trie_refine.in_mid. }
      assert (update_nth (A ++ e :: C) (length A) k = Ret (A ++ e' :: C)) as ->.
      { apply update_nth_ret. exists e, e', A, C. auto. }
      cbn [bind]. eexists. split; [reflexivity|]. split.
      + constructor; auto.
        * apply (sorted_change A e); [congruence|exact HS].
        * intros m Hm. apply (in_changed A e) in Hm. destruct Hm as [->|Hm]; [rewrite E2; exact Hu|auto].
        * intros m c Hm. apply (in_changed A e) in Hm. destruct Hm as [->|Hm]; [apply E3|apply Hlw; exact Hm].
      + intros I. rewrite !tabs_unfold. cbn [lits_of pars_of]. rewrite !map_app. simpl map.
        rewrite upsert_at by assumption. cbn [upsert lpair]. rewrite He, str_cmp_refl.
        unfold lpair at 2. rewrite (E4 I), E2. reflexivity.
  Qed.

  Definition pkspec (k : parser_e table -> outcome (parser_e table)) (f : entry -> entry) : Prop :=
    forall e, (forall c, pe_child e = Some c -> twf c) ->
      exists e', k e = Ret e' /\ pe_parser e' = pe_parser e /\
        (forall c, pe_child e' = Some c -> twf c) /\ (okp_inj -> pentry e' = f (pentry e)).

  Lemma insert_parser_ok t q k f :
    twf t -> okp q -> pkspec k f ->
    exists t', insert_parser sip t q k = Ret t' /\ twf t' /\
      (okp_inj -> tabs t' = Level (lits_of (tabs t)) (at_parser (pars_of (tabs t)) q f)).
  Proof.
    intros W Hq Hk. inversion W as [les pes HS Hl Hlw Hp Hpw]; subst.
    assert (forall A, Forall (fun x => N.eqb (hash_os sip (pe_parser x)) (hash_os sip q) = false) A ->
              Forall (fun x => fst x <> q) (map ppair A)) as Hneq.
    { intros A HF. rewrite Forall_map. revert HF. apply Forall_impl. intros e He. simpl.
      intros E. rewrite E, N.eqb_refl in He. discriminate. }
    unfold insert_parser. cbn [literal_entries parser_entries].
    destruct (Trie.position _ pes) as [i|] eqn:E.
    - apply Trie_refine.position_some in E. destruct E as (A & e & C & -> & <- & He & HA).
      destruct (Hk e) as (e' & E1 & E2 & E3 & E4).
      { intros c. apply Hpw. apply Trie_refine.in_mid. }
      assert (update_nth (A ++ e :: C) (length A) k = Ret (A ++ e' :: C)) as ->.
      { apply update_nth_ret. exists e, e', A, C. auto. }
      cbn [bind]. eexists. split; [reflexivity|]. pose proof (Hp e (Trie_refine.in_mid A e C)) as He'. split.
      + constructor; auto.
        * intros m Hm. apply (in_changed A e) in Hm. destruct Hm as [->|Hm]; [rewrite E2; exact He'|auto].
        * intros m c Hm. apply (in_changed A e) in Hm. destruct Hm as [->|Hm]; [apply E3|apply Hpw; exact Hm].
      + intros I. apply N.eqb_eq in He. apply I in He; [|exact He'|exact Hq].
        rewrite !tabs_unfold. cbn [lits_of pars_of]. rewrite !map_app. simpl map.
        rewrite Trie_refine.at_parser_app by (apply Hneq; exact HA). cbn [at_parser ppair].
        destruct (parser_eq_dec (pe_parser e) q) as [_|N]; [|contradiction].
        unfold ppair at 2. rewrite (E4 I), E2. reflexivity.
    - apply Trie_refine.position_none in E.
      destruct (Hk (parser_e_new q)) as (e' & E1 & E2 & E3 & E4); [discriminate|]. rewrite E1. cbn [bind].
      eexists. split; [reflexivity|]. split.
      + constructor; auto.
        * intros m Hm. apply in_app_or in Hm. destruct Hm as [Hm|[<-|[]]]; [auto|rewrite E2; exact Hq].
        * intros m c Hm. apply in_app_or in Hm. destruct Hm as [Hm|[<-|[]]]; [apply Hpw; exact Hm|apply E3].
      + intros I. rewrite !tabs_unfold. cbn [lits_of pars_of]. rewrite !map_app. simpl map.
        rewrite <- (app_nil_r (map ppair pes)) at 2.
        rewrite Trie_refine.at_parser_app by (apply Hneq; exact E). cbn [at_parser].
        unfold ppair at 2. rewrite (E4 I), E2. reflexivity.
  Qed.

  Definition tok_ok (tok : token) : Prop :=
    match tok with Literal l => utf8 l | Parser q => okp q end.

  Lemma set_tokens_stripped p : set_pattern_tokens p [] = stripped p.
  Proof. reflexivity. Qed.

  Lemma insert_tokens_ok toks : forall t p,
    Forall tok_ok toks -> twf t ->
    exists t', insert_tokens sip toks t p = Ret t' /\ twf t' /\
      (okp_inj -> tabs t' = t_insert toks (tabs t) (stripped p)).
  Proof.
    induction toks as [|tok rest IH]; intros t p Hok W; cbn [insert_tokens t_insert]; [eauto|].
    inversion Hok as [|? ? Htok Hrest]; subst. cbv zeta.
    destruct (IH table_new (set_pattern_tokens p rest) Hrest twf_new) as (t0 & E & W0 & R).
    destruct tok as [q|l]; simpl in Htok.
    - apply insert_parser_ok; [exact W|exact Htok|]. intros e Hc. destruct rest as [|tok rest]; cbn [is_empty].
      + eexists. split; [reflexivity|]. split; [reflexivity|]. split; [exact Hc|reflexivity].
      + rewrite E. cbn [bind]. eexists. split; [reflexivity|]. split; [reflexivity|]. split.
        * intros c H. inversion H; subst. exact W0.
        * intros I. unfold pentry. cbn. rewrite (R I). reflexivity.
    - apply insert_literal_ok; [exact W|exact Htok|]. intros e He Hc. destruct rest as [|tok rest]; cbn [is_empty].
      + eexists. split; [reflexivity|]. split; [exact He|]. split; [exact Hc|reflexivity].
      + rewrite E. cbn [bind]. eexists. split; [reflexivity|]. split; [exact He|]. split.
        * intros c H. inversion H; subst. exact W0.
        * intros I. unfold lentry. cbn. rewrite (R I). reflexivity.
  Qed.

  Lemma add_patterns_ok ps : forall t,
    Forall (fun p => Forall tok_ok (pat_tokens p)) ps -> twf t ->
    exists t', add_patterns sip t ps = Ret t' /\ twf t' /\
      (okp_inj -> tabs t' = fold_left t_add ps (tabs t)).
  Proof.
    induction ps as [|p ps IH]; intros t Hok W; cbn [add_patterns]; [simpl; eauto|].
    inversion Hok as [|? ? H1 H2]; subst. unfold add_pattern.
    destruct (insert_tokens_ok (pat_tokens p) t p H1 W) as (t1 & -> & W1 & R1). cbn [bind].
    destruct (IH t1 H2 W1) as (t2 & -> & W2 & R2). eexists. split; [reflexivity|]. split; [exact W2|].
    intros I. rewrite (R2 I), (R1 I). reflexivity.
  Qed.
End Wf.

(** ** Termination, for every table and every text *)
Lemma lcp_fuel t text : longest_common_prefix t text <> OutOfFuel.
Proof.
  unfold longest_common_prefix. apply Trie_total.bind_fuel.
  - apply Trie_total.bsearch_loop_fuel; [discriminate|lia].
  - intros [pos|pos] _; discriminate.
Qed.

Lemma lcp_in t text e : longest_common_prefix t text = Ret (Some e) -> In e (literal_entries t).
Proof.
  unfold longest_common_prefix. intros H. unbind H as r Er. destruct r as [pos|pos].
  - inversion H as [H1]. apply nth_error_In in H1. exact H1.
  - inversion H as [H1]. unfold lcp_around_pos, lcp_between_consecutive_entries in H1.
    destruct (Nat.eqb pos 0); [apply nth_error_In in H1; exact H1|].
    destruct (nth_error _ (pos - 1)) as [a|] eqn:Ea, (nth_error _ (pos - 1 + 1)) as [b|] eqn:Eb;
      try destruct (Nat.leb _ _); inversion H1; subst; eapply nth_error_In; eassumption.
Qed.

Lemma parse_with_parsers_fuel (f : table -> str -> outcome (option match_result)) pes text :
  (forall e c text, In e pes -> pe_child e = Some c -> f c text <> OutOfFuel) ->
  parse_with_parsers f pes text <> OutOfFuel.
Proof.
  induction pes as [|e pes IH]; intros H; cbn [parse_with_parsers]; [discriminate|].
  apply Trie_total.bind_fuel.
  - unfold parser_e_parse. apply Trie_total.bind_fuel; [apply Trie_total.parser_parse_fuel|].
    intros [v|] _; [|discriminate].
    apply Trie_total.bind_fuel; [apply Trie_total.slice_from_fuel|]. intros text' _.
    destruct (pe_child e) as [c|] eqn:E.
    + apply Trie_total.bind_fuel; [apply (H e c); [left; reflexivity|exact E]|].
      intros [r|] _; discriminate.
    + destruct (is_empty text'); discriminate.
  - intros [r|] _; [discriminate|]. apply IH. intros m c text' Hm. apply H. right. exact Hm.
Qed.

Lemma parse_fuel_enough fuel : forall t text,
  height t <= fuel -> parse_fuel fuel t text <> OutOfFuel.
Proof.
  induction fuel as [|fuel IH]; intros t text L; [destruct t; cbn [height] in L; lia|].
  cbn [parse_fuel]. apply Trie_total.bind_fuel; [apply lcp_fuel|]. intros [e|] E.
  - apply lcp_in in E. cbv zeta. destruct (Nat.eqb _ _); [discriminate|].
    destruct (Nat.ltb _ _); [|discriminate].
    apply Trie_total.bind_fuel; [apply Trie_total.slice_from_fuel|]. intros text' _.
    destruct (le_child e) as [c|] eqn:Ec; [|discriminate]. apply IH.
    destruct t as [les pes]. pose proof (height_lit les pes e c E Ec). lia.
  - apply parse_with_parsers_fuel. intros e c text' Hn Hc. apply IH.
    destruct t as [les pes]. pose proof (height_par les pes e c Hn Hc). lia.
Qed.

Lemma parse_terminates t text : parse t text <> OutOfFuel.
Proof. apply parse_fuel_enough. lia. Qed.
