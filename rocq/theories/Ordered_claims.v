(** * Changing the characters without changing their order *)
From Verif Require Import Base Base_facts Utils Parsers Parsers_facts Hash_facts Pattern Spec Rename_claims Label_facts Spec_bytes Bytes_claims Spec_ordered.
From Verif Require Import SuffixArray.
From Verif Require Trie Table_refine Table_panics.

(** ** Outcomes *)
Definition outrel {A B} (R : A -> B -> Prop) (o : outcome A) (o' : outcome B) : Prop :=
  match o, o' with
  | Ret a, Ret b => R a b
  | Panic, Panic => True
  | OutOfFuel, OutOfFuel => True
  | _, _ => False
  end.
Lemma outrel_bind {A B C D} (R : A -> B -> Prop) (S : C -> D -> Prop) o o' (k : A -> outcome C) (k' : B -> outcome D) :
  outrel R o o' -> (forall a b, R a b -> outrel S (k a) (k' b)) -> outrel S (bind o k) (bind o' k').
Proof. destruct o, o'; simpl; intros H Hk; try contradiction; auto. Qed.

Lemma forall2_nth {A B} (R : A -> B -> Prop) l l' i : Forall2 R l l' -> orel R (nth_error l i) (nth_error l' i).
Proof. intros F. revert i. induction F as [|a b l l' E F IH]; intros [|i]; cbn; try constructor; [exact E|apply IH]. Qed.
Lemma forall2_update {A B} (R : A -> B -> Prop) l l' k k' : Forall2 R l l' -> (forall a b, R a b -> outrel R (k a) (k' b)) ->
  forall i, outrel (Forall2 R) (update_nth l i k) (update_nth l' i k').
Proof.
  intros F Hk. induction F as [|a b l l' E F IH]; intros [|i]; cbn [update_nth]; try exact I.
  - apply (outrel_bind R); [apply Hk; exact E|]. intros. constructor; assumption.
  - apply (outrel_bind (Forall2 R)); [apply IH|]. intros. constructor; assumption.
Qed.
Lemma forall2_vec_insert {A B} (R : A -> B -> Prop) l l' i a b : Forall2 R l l' -> R a b ->
  outrel (Forall2 R) (vec_insert l i a) (vec_insert l' i b).
Proof.
  intros F E. unfold vec_insert. rewrite (forall2_len _ _ _ F). destruct (Nat.leb i (length l')); [|exact I].
  assert (forall j, Forall2 R (firstn j l) (firstn j l') /\ Forall2 R (skipn j l) (skipn j l')) as Z.
  { clear E. induction F as [|x y l l' E F IH]; intros [|j]; cbn; try (split; constructor; auto; fail).
    destruct (IH j). split; [constructor; assumption|assumption]. }
  destruct (Z i). apply Forall2_app; [assumption|constructor; assumption].
Qed.
Lemma forall2_bsearch {A B} (R : A -> B -> Prop) l l' h h' : Forall2 R l l' -> (forall a b, R a b -> h a = h' b) ->
  binary_search_by l h = binary_search_by l' h'.
Proof.
  intros F E. unfold binary_search_by. rewrite (forall2_len _ _ _ F). generalize (length l') at 2 4. generalize 0. generalize (length l').
  intros fuel. induction fuel as [|fuel IH]; intros base [|lim]; try reflexivity. cbn [bsearch_loop]. unfold get_unwrap.
  set (i := base + Nat.div2 (S lim)). destruct (forall2_nth R l l' i F) as [|a b Rab]; [reflexivity|]. cbn [bind]. rewrite (E a b Rab).
  destruct (h' b) as [[]| |]; cbn [bind]; try reflexivity; apply IH.
Qed.
Lemma forall2_position {A B} (R : A -> B -> Prop) l l' h h' : Forall2 R l l' -> (forall a b, R a b -> h a = h' b) ->
  Trie.position h l = Trie.position h' l'.
Proof. intros F E. induction F as [|a b l l' Rab F IH]; [reflexivity|]. cbn [Trie.position]. rewrite (E a b Rab), IH. reflexivity. Qed.

Section Ordered.
Variables (f g : byte -> byte) (K : byte -> Prop).
Hypothesis X : exchange f g.
Hypothesis O : keeps_order f K.
Notation ch := (map f).

Lemma byte_cmp_kept a b : K a -> K b -> byte_cmp (f a) (f b) = byte_cmp a b.
Proof.
  intros Ka Kb. unfold byte_cmp. destruct (N.compare_spec (Byte.to_N a) (Byte.to_N b)) as [E|L|L].
  - assert (a = b) as ->. { pose proof (Byte.of_to_N a) as A. rewrite E, Byte.of_to_N in A. congruence. } apply N.compare_refl.
  - apply N.compare_lt_iff. apply O; assumption.
  - apply N.compare_gt_iff. apply O; assumption.
Qed.
Lemma str_cmp_kept a : forall b, Forall K a -> Forall K b -> str_cmp (ch a) (ch b) = str_cmp a b.
Proof.
  induction a as [|x a IH]; intros [|y b] A B; try reflexivity. inversion A; inversion B; subst. cbn [map str_cmp].
  rewrite byte_cmp_kept by assumption. destruct (byte_cmp x y); [apply IH; assumption|reflexivity|reflexivity].
Qed.
Lemma cpl_kept s : forall a b i last, cpl_loop (ch s) (ch a) (ch b) i last = cpl_loop s a b i last.
Proof.
  intros a. induction a as [|x a IH]; intros [|y b] i last; try reflexivity. cbn [map cpl_loop].
  rewrite (f_eqb f g X), (ch_boundary f g X). destruct (byte_eqb x y); [apply IH|reflexivity].
Qed.
Lemma common_kept a b : common_prefix_len (ch a) (ch b) = common_prefix_len a b.
Proof. apply cpl_kept. Qed.

(** ** Tables *)
Variable R : pattern -> pattern -> Prop.
Variable T : parser -> parser -> Prop.
Hypothesis HT : forall q q', T q q' -> exchanged_parser f q q'.

Inductive trel : table -> table -> Prop :=
| trel_table les les' pes pes' :
    Forall2 (fun e e' => le_literal e' = ch (le_literal e) /\ Forall K (le_literal e) /\
                         orel R (le_pattern e) (le_pattern e') /\ orel trel (le_child e) (le_child e')) les les' ->
    Forall2 (fun e e' => T (pe_parser e) (pe_parser e') /\
                         orel R (pe_pattern e) (pe_pattern e') /\ orel trel (pe_child e) (pe_child e')) pes pes' ->
    trel (Table les pes) (Table les' pes').
Definition lerel (e e' : literal_e table) : Prop :=
  le_literal e' = ch (le_literal e) /\ Forall K (le_literal e) /\
  orel R (le_pattern e) (le_pattern e') /\ orel trel (le_child e) (le_child e').
Definition perel (e e' : parser_e table) : Prop :=
  T (pe_parser e) (pe_parser e') /\ orel R (pe_pattern e) (pe_pattern e') /\ orel trel (pe_child e) (pe_child e').
Lemma trel_entries t t' : trel t t' <-> Forall2 lerel (literal_entries t) (literal_entries t') /\ Forall2 perel (parser_entries t) (parser_entries t').
Proof.
  split; [intros [les les' pes pes' A B]; split; assumption|]. destruct t, t'. cbn. intros (A & B). constructor; assumption.
Qed.
Lemma trel_new : trel table_new table_new.
Proof. constructor; constructor. Qed.

Lemma kept_insert_literal t t' l k k' : trel t t' -> Forall K l -> (forall e e', lerel e e' -> outrel lerel (k e) (k' e')) ->
  outrel trel (insert_literal t l k) (insert_literal t' (ch l) k').
Proof.
  intros H Kl Hk. apply trel_entries in H. destruct H as (HL & HP). unfold insert_literal.
  rewrite (forall2_bsearch lerel _ _ (fun p => Ret (str_cmp (le_literal p) l)) (fun p => Ret (str_cmp (le_literal p) (ch l))) HL).
  2:{ intros e e' (E & Ke & _). rewrite E, str_cmp_kept by assumption. reflexivity. }
  destruct (binary_search_by _ _) as [[pos|pos]| |]; cbn [bind]; try exact I.
  - apply (outrel_bind (Forall2 lerel)); [apply forall2_update; assumption|]. intros. apply trel_entries. split; assumption.
  - apply (outrel_bind (Forall2 lerel)).
    + apply forall2_vec_insert; [exact HL|]. split; [reflexivity|]. split; [exact Kl|]. split; constructor.
    + intros l1 l2 F. apply (outrel_bind (Forall2 lerel)); [apply forall2_update; assumption|]. intros. apply trel_entries. split; assumption.
Qed.

Variables sip sip' : list byte -> N.
Hypothesis HH : forall q q' r r', T q q' -> T r r' ->
  N.eqb (hash_os sip q) (hash_os sip r) = N.eqb (hash_os sip' q') (hash_os sip' r').

Lemma kept_insert_parser t t' q q' k k' : trel t t' -> T q q' -> (forall e e', perel e e' -> outrel perel (k e) (k' e')) ->
  outrel trel (insert_parser sip t q k) (insert_parser sip' t' q' k').
Proof.
  intros H Tq Hk. apply trel_entries in H. destruct H as (HL & HP). unfold insert_parser.
  rewrite (forall2_position perel _ _ _ (fun x => N.eqb (hash_os sip' (pe_parser x)) (hash_os sip' q')) HP).
  2:{ intros e e' (Te & _). apply HH; assumption. }
  destruct (Trie.position _ _) as [pos|].
  - apply (outrel_bind (Forall2 perel)); [apply forall2_update; assumption|]. intros. apply trel_entries. split; assumption.
  - apply (outrel_bind perel); [apply Hk; split; [exact Tq|split; constructor]|].
    intros e e' Re. apply trel_entries. split; [exact HL|]. apply Forall2_app; [exact HP|constructor; [exact Re|constructor]].
Qed.

Definition toks_rel (ts ts' : list token) : Prop :=
  Forall2 (fun t t' => match t, t' with Literal l, Literal l' => l' = ch l /\ Forall K l | Parser q, Parser q' => T q q' | _, _ => False end) ts ts'.

Lemma kept_insert ts : forall ts' t t' p p', toks_rel ts ts' -> trel t t' -> R (stripped p) (stripped p') ->
  outrel trel (insert_tokens sip ts t p) (insert_tokens sip' ts' t' p').
Proof.
  induction ts as [|tok ts IH]; intros ts' t t' p p' F Ht Rp; inversion F as [|? tok' ? ts2 Rt F2]; subst; [exact Ht|]. cbn [insert_tokens].
  assert (is_empty ts2 = is_empty ts) as EE by (inversion F2; reflexivity).
  assert (ts = [] -> set_pattern_tokens p ts = stripped p /\ set_pattern_tokens p' ts2 = stripped p') as ES by (intros ->; inversion F2; split; reflexivity).
  assert (outrel trel (insert_tokens sip ts table_new (set_pattern_tokens p ts)) (insert_tokens sip' ts2 table_new (set_pattern_tokens p' ts2))) as IC
    by (apply IH; [exact F2|exact trel_new|exact Rp]).
  rewrite EE. destruct tok as [q|l], tok' as [q'|l']; try contradiction.
  - apply kept_insert_parser; [exact Ht|exact Rt|]. intros e e' (E1 & E2 & E3). destruct ts as [|t0 ts]; cbn [is_empty].
    + destruct (ES eq_refl) as (-> & ->). split; [exact E1|]. split; [constructor; exact Rp|exact E3].
    + apply (outrel_bind trel); [exact IC|]. intros c c' Rc. split; [exact E1|]. split; [exact E2|constructor; exact Rc].
  - destruct Rt as (-> & Kl). apply kept_insert_literal; [exact Ht|exact Kl|]. intros e e' (E1 & E2 & E3 & E4). destruct ts as [|t0 ts]; cbn [is_empty].
    + destruct (ES eq_refl) as (-> & ->). split; [exact E1|]. split; [exact E2|]. split; [constructor; exact Rp|exact E4].
    + apply (outrel_bind trel); [exact IC|]. intros c c' Rc. split; [exact E1|]. split; [exact E2|]. split; [exact E3|constructor; exact Rc].
Qed.

Lemma kept_adds ps : forall ps' t t', Forall2 (fun p p' => toks_rel (pat_tokens p) (pat_tokens p') /\ R (stripped p) (stripped p')) ps ps' ->
  trel t t' -> outrel trel (add_patterns sip t ps) (add_patterns sip' t' ps').
Proof.
  induction ps as [|p ps IH]; intros ps' t t' F Ht; inversion F as [|? p' ? ps2 (E1 & E2) F2]; subst; [exact Ht|]. cbn [add_patterns].
  apply (outrel_bind trel); [apply kept_insert; assumption|]. intros t1 t1' H1. apply IH; assumption.
Qed.

(** ** Parsing *)
Lemma kept_height t : forall t', trel t t' -> height t' = height t.
Proof.
  induction t as [les pes Hl Hp] using table_nested. intros [les' pes'] H. apply trel_entries in H. cbn [literal_entries parser_entries] in H.
  destruct H as (A & B). cbn [height]. f_equal. f_equal.
  - revert Hl. induction A as [|e e' les les' (_ & _ & _ & Ec) A IH]; intros Hl; [reflexivity|]. inversion Hl; subst.
    unfold Trie.list_max_by in *. cbn [fold_right]. rewrite IH by assumption. f_equal. destruct Ec as [|c c' Rc]; [reflexivity|]. auto.
  - revert Hp. induction B as [|e e' pes pes' (_ & _ & Ec) B IH]; intros Hp; [reflexivity|]. inversion Hp; subst.
    unfold Trie.list_max_by in *. cbn [fold_right]. rewrite IH by assumption. f_equal. destruct Ec as [|c c' Rc]; [reflexivity|]. auto.
Qed.

Lemma kept_lcp t t' v : trel t t' -> Forall K v -> outrel (orel lerel) (longest_common_prefix t v) (longest_common_prefix t' (ch v)).
Proof.
  intros H Kv. apply trel_entries in H. destruct H as (HL & _). unfold longest_common_prefix.
  rewrite (forall2_bsearch lerel _ _ (fun p => Ret (str_cmp (le_literal p) v)) (fun p => Ret (str_cmp (le_literal p) (ch v))) HL).
  2:{ intros e e' (E & Ke & _). rewrite E, str_cmp_kept by assumption. reflexivity. }
  destruct (binary_search_by _ _) as [[pos|pos]| |]; cbn [bind outrel]; try exact I; [apply forall2_nth; exact HL|].
  unfold lcp_around_pos, lcp_between_consecutive_entries. destruct (Nat.eqb pos 0); [apply forall2_nth; exact HL|].
  pose proof (forall2_nth lerel _ _ (pos - 1) HL) as N1. pose proof (forall2_nth lerel _ _ (pos - 1 + 1) HL) as N2.
  destruct N1 as [|a a' Ra]; [exact N2|]. destruct N2 as [|b b' Rb]; [constructor; exact Ra|].
  rewrite (proj1 Ra), (proj1 Rb), !common_kept. destruct (Nat.leb _ _); constructor; assumption.
Qed.
Lemma kept_ltrunc v n : Forall K v -> outrel (fun a b => b = ch a /\ Forall K a) (ltrunc v n) (ltrunc (ch v) n).
Proof.
  intros Kv. unfold ltrunc, slice_from. rewrite (ch_boundary f g X). destruct (is_char_boundary v n); [|exact I].
  split; [apply skipn_map|]. rewrite <- (firstn_skipn n v) in Kv. apply Forall_app in Kv. apply Kv.
Qed.

Lemma kept_parse fuel : forall t t' v, trel t t' -> Forall K v -> outrel (orel (rrel f R)) (parse_fuel fuel t v) (parse_fuel fuel t' (ch v)).
Proof.
  induction fuel as [|fuel IH]; intros t t' v Ht Kv; [exact I|]. cbn [parse_fuel].
  apply (outrel_bind (orel lerel)); [apply kept_lcp; assumption|]. intros _ _ [|e e' (E1 & E2 & E3 & E4)].
  - apply trel_entries in Ht. destruct Ht as (_ & HP). induction HP as [|e e' l l' (E1 & E2 & E3) HP IHl]; [constructor|]. cbn [parse_with_parsers].
    apply (outrel_bind (orel (rrel f R))).
    + unfold parser_e_parse. rewrite (ch_parse f g X _ _ v (HT _ _ E1)). destruct (parser_parse (pe_parser e) v) as [[w|]| |]; cbn [bind option_map outrel]; try exact I; [|constructor].
      rewrite map_length. apply (outrel_bind (fun a b => b = ch a /\ Forall K a)); [apply kept_ltrunc; exact Kv|]. intros v1 v1' (-> & Kv1).
      destruct E3 as [|c c' Rc].
      * replace (is_empty (ch v1)) with (is_empty v1) by (destruct v1; reflexivity). destruct (is_empty v1); [|constructor].
        unfold create_match_result. destruct E2 as [|p p' Rp]; constructor. apply (rrel_insert f R); [split; [exact Rp|reflexivity]|apply HT; exact E1].
      * apply (outrel_bind (orel (rrel f R))); [apply IH; assumption|]. intros _ _ [|r r' Rr]; constructor. apply (rrel_insert f R); [exact Rr|apply HT; exact E1].
    + intros _ _ [|r r' Rr]; [exact IHl|constructor; exact Rr].
  - rewrite E1, common_kept, map_length. destruct (Nat.eqb _ _).
    + destruct E3 as [|p p' Rp]; constructor. split; [exact Rp|reflexivity].
    + destruct (Nat.ltb _ _); [|constructor]. apply (outrel_bind (fun a b => b = ch a /\ Forall K a)); [apply kept_ltrunc; exact Kv|].
      intros v1 v1' (-> & Kv1). destruct E4 as [|c c' Rc]; [constructor|apply IH; assumption].
Qed.
End Ordered.

(** ** Built tables *)
Theorem table_exchanged f g K sip sip' ps ps' :
  exchange f g -> keeps_order f K -> Forall2 (exchanged f) ps ps' -> Forall (literals_in K) ps ->
  Forall valid_pattern ps -> Forall valid_pattern ps' -> collision_free sip ps -> collision_free sip' ps' ->
  exists t t', add_patterns sip table_new ps = Ret t /\ add_patterns sip' table_new ps' = Ret t' /\
    forall text, Forall K text -> answers_exchanged f ps ps' (parse t text) (parse t' (map f text)).
Proof.
  intros X O F L V V' C C'.
  set (T := fun q q' => twin f q q' /\ parser_in ps q /\ parser_in ps' q').
  assert (forall q q', T q q' -> exchanged_parser f q q') as HT by (intros q q' ((E & _) & _); exact E).
  assert (forall qs q r, Forall valid_pattern qs -> parser_in qs q -> parser_in qs r -> hash_stream q = hash_stream r -> q = r) as HI.
  { intros qs q r VV (p & I1 & J1) (p2 & I2 & J2) E. rewrite Forall_forall in VV. pose proof (VV _ I1) as W1. pose proof (VV _ I2) as W2.
    unfold valid_pattern in W1, W2. rewrite Forall_forall in W1, W2. specialize (W1 _ J1). specialize (W2 _ J2).
    apply hash_stream_inj; assumption. }
  assert (forall q q' r r', T q q' -> T r r' -> N.eqb (hash_os sip q) (hash_os sip r) = N.eqb (hash_os sip' q') (hash_os sip' r')) as HH.
  { intros q q' r r' (Tq & Pq & Pq') (Tr & Pr & Pr'). unfold hash_os. apply eq_true_iff_eq. rewrite !N.eqb_eq. split; intros E.
    - apply C in E; [|assumption|assumption]. apply (HI ps) in E; [|assumption..]. apply (twin_same f g X q q' r r' Tq Tr) in E. subst. reflexivity.
    - apply C' in E; [|assumption|assumption]. apply (HI ps') in E; [|assumption..]. apply (twin_same f g X q q' r r' Tq Tr) in E. subst. reflexivity. }
  assert (Forall2 (fun p p' => toks_rel f K T (pat_tokens p) (pat_tokens p') /\ same_place ps ps' (stripped p) (stripped p')) ps ps') as FF.
  { pose proof (same_places ps ps' (forall2_len _ _ _ F)) as SP. revert SP. generalize (same_place ps ps'). intros SR SP.
    assert (forall qs qs', Forall2 (exchanged f) qs qs' -> Forall2 (fun p p' => SR (stripped p) (stripped p')) qs qs' -> incl qs ps -> incl qs' ps' ->
      Forall2 (fun p p' => toks_rel f K T (pat_tokens p) (pat_tokens p') /\ SR (stripped p) (stripped p')) qs qs') as Z.
    { clear SP. intros qs qs' FE. induction FE as [|p p' qs qs' E FE IH]; intros SP I1 I2; [constructor|]. inversion SP; subst.
      constructor; [|apply IH; [assumption|intros x Hx; apply I1; right; exact Hx|intros x Hx; apply I2; right; exact Hx]]. split; [|assumption].
      rewrite Forall_forall in L, V, V'. assert (In p ps) as J1 by (apply I1; left; reflexivity). assert (In p' ps') as J2 by (apply I2; left; reflexivity).
      pose proof (L _ J1) as Lp. pose proof (tokens_twin f p p' E (V _ J1) (V' _ J2)) as TT. unfold literals_in in Lp.
      assert (forall q, In (Parser q) (pat_tokens p) -> parser_in ps q) as Q1 by (intros q Hq; exists p; auto).
      assert (forall q, In (Parser q) (pat_tokens p') -> parser_in ps' q) as Q2 by (intros q Hq; exists p'; auto).
      clear -TT Lp Q1 Q2. unfold tokens_rel, toks_rel in *. revert Lp Q1 Q2. induction TT as [|t t' ts ts' Ht TT IH]; intros Lp Q1 Q2; constructor.
      - destruct t as [q|l], t' as [q'|l']; try contradiction.
        + split; [exact Ht|]. split; [apply Q1|apply Q2]; left; reflexivity.
        + split; [exact Ht|]. apply Lp. left. reflexivity.
      - apply IH; intros x Hx; [apply Lp|apply Q1|apply Q2]; right; exact Hx. }
    apply Z; [exact F|exact SP|intros x Hx; exact Hx|intros x Hx; exact Hx]. }
  pose proof (kept_adds f K O (same_place ps ps') T sip sip' HH ps ps' table_new table_new FF (trel_new f K _ T)) as A.
  destruct (Table_panics.table_matching_panics sip ps V C) as (t & E & _), (Table_panics.table_matching_panics sip' ps' V' C') as (t' & E' & _).
  rewrite E, E' in A. cbn [outrel] in A. exists t, t'. split; [exact E|]. split; [exact E'|].
  intros text Kt. unfold parse. rewrite (kept_height f K _ _ t t' A).
  pose proof (kept_parse f g K X O (same_place ps ps') T HT (height t) t t' text A Kt) as Z.
  pose proof (Table_refine.parse_terminates t text) as NT. unfold parse in NT.
  destruct (parse_fuel (height t) t text) as [o| |], (parse_fuel (height t) t' (map f text)) as [o'| |]; cbn [outrel] in Z; try contradiction; try exact I.
  destruct Z as [|r r' (Z1 & Z2)]; [exact I|]. split; assumption.
Qed.
