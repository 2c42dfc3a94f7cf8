(** * Proofs of the statements in Properties_api.v *)
From Coq Require Import Sorted Permutation.
From Verif Require Import Base Base_facts Utils Utils_facts Parsers Parsers_facts Pattern Spec
  Spec_source Parsers_claims Spec_api.

(** ** SortedVec *)
Lemma sorted_app_drop {A} (R : A -> A -> Prop) a x b :
  StronglySorted R (a ++ x :: b) -> StronglySorted R (a ++ b).
Proof.
  induction a as [|y a IH]; simpl; intros H; inversion H as [|? ? H1 H2]; subst; [exact H1|].
  constructor; [apply IH; exact H1|].
  rewrite Forall_app in *. destruct H2 as [H2 H3]. inversion H3; subst. auto.
Qed.

Lemma sv_remove_spec (A : Type) (R : A -> A -> Prop) (l : list A) i :
  StronglySorted R l ->
  match sv_remove l i with
  | Ret (r, x) => exists a b, l = a ++ x :: b /\ length a = i /\ r = a ++ b /\ StronglySorted R r
  | Panic => length l <= i
  | OutOfFuel => False
  end.
Proof.
  intros H. unfold sv_remove. destruct (nth_error l i) as [x|] eqn:E.
  - destruct (nth_error_split l i E) as (a & b & -> & <-). exists a, b.
    assert (firstn (length a) (a ++ x :: b) ++ skipn (S (length a)) (a ++ x :: b) = a ++ b) as ->.
    { f_equal; [rewrite firstn_app, Nat.sub_diag, firstn_all; simpl; apply app_nil_r|].
      replace (S (length a)) with (length (a ++ [x])) by (rewrite app_length; simpl; lia).
      replace (a ++ x :: b) with ((a ++ [x]) ++ b) by (rewrite <- app_assoc; reflexivity).
      rewrite skipn_app, skipn_all, Nat.sub_diag. reflexivity. }
    split; [reflexivity|]. split; [reflexivity|]. split; [reflexivity|].
    apply (sorted_app_drop _ _ _ _ H).
  - apply nth_error_None in E. exact E.
Qed.

Lemma sv_queries (A : Type) (l : list A) :
  (forall i x, sv_get l i = Some x <-> exists a b, l = a ++ x :: b /\ length a = i) /\
  (forall i, sv_get l i = None <-> sv_len l <= i) /\
  (sv_is_empty l = true <-> sv_len l = 0).
Proof.
  split; [|split].
  - intros i x. unfold sv_get. split.
    + intros H. destruct (nth_error_split l i H) as (a & b & H1 & H2). eauto.
    + intros (a & b & -> & <-). rewrite nth_error_app2, Nat.sub_diag; [reflexivity|lia].
  - intros i. apply nth_error_None.
  - destruct l; simpl; split; congruence.
Qed.

Lemma before_split (A : Type) (f : A -> comparison) (l : list A) :
  StronglySorted (fun x y => before (f x) (f y)) l ->
  exists a b c, l = a ++ b ++ c /\ Forall (fun x => f x = Lt) a /\
    Forall (fun x => f x = Eq) b /\ Forall (fun x => f x = Gt) c.
Proof.
  induction l as [|x l IH]; intros H; [exists [], [], []; auto|].
  inversion H as [|? ? H1 H2]; subst. destruct (IH H1) as (a & b & c & -> & Ha & Hb & Hc).
  destruct (f x) eqn:E.
  - destruct a as [|y a]; [exists [], (x :: b), c; auto|]. inversion H2; subst. inversion Ha; subst.
    unfold before in *. rewrite ?H5, ?H6 in *. tauto.
  - exists (x :: a), b, c. auto.
  - destruct a as [|y a].
    + destruct b as [|y b]; [exists [], [], (x :: c); auto|].
      inversion H2 as [|? ? K]; subst. inversion Hb as [|? ? K']; subst. rewrite K' in K. destruct K.
    + inversion H2 as [|? ? K]; subst. inversion Ha as [|? ? K']; subst. rewrite K' in K. destruct K.
Qed.

Lemma sv_binary_search_by_spec (A : Type) (f : A -> comparison) (l : list A) :
  StronglySorted (fun x y => before (f x) (f y)) l ->
  match sv_binary_search_by l (fun x => Ret (f x)) with
  | Ret (inl i) => exists a x b, l = a ++ x :: b /\ length a = i /\ f x = Eq
  | Ret (inr i) => exists a b, l = a ++ b /\ length a = i /\
                     Forall (fun x => f x = Lt) a /\ Forall (fun x => f x = Gt) b
  | _ => False
  end.
Proof.
  intros H. destruct (before_split A f l H) as (a & b & c & -> & Ha & Hb & Hc).
  unfold sv_binary_search_by.
  destruct (binary_search_by_total (a ++ b ++ c) (fun x => Ret (f x))) as (r & E); [eauto|]. rewrite E.
  rewrite Forall_forall in Ha, Hb, Hc.
  apply (binary_search_by_ret (fun x => Ret (f x)) a b c) in E;
    [|intros x k Hx Hk; injection Hk as <-; auto..].
  destruct r as [i|i]; simpl in E.
  - destruct (nth_error b (i - length a)) as [x|] eqn:N; [|apply nth_error_None in N; lia].
    pose proof (nth_error_In _ _ N) as I. apply nth_error_split in N. destruct N as (b1 & b2 & -> & L).
    exists (a ++ b1), x, (b2 ++ c). split; [rewrite <- !app_assoc; reflexivity|].
    split; [rewrite app_length; lia|auto].
  - destruct E as (-> & ->). exists a, c. rewrite !Forall_forall. auto.
Qed.

(** ** Prefixes and truncation *)
Lemma has_common_prefix_spec a b :
  utf8 a -> utf8 b ->
  match has_common_prefix a b with
  | Some n => exists w, longest_common_chars a b w /\ length w = n /\ w <> []
  | None => longest_common_chars a b []
  end.
Proof.
  intros Ha Hb. destruct (cpl_longest a b Ha Hb) as (w & L & Hw).
  unfold has_common_prefix. rewrite <- L. destruct w as [|x w]; simpl; [exact Hw|].
  exists (x :: w). split; [exact Hw|]. split; [reflexivity|discriminate].
Qed.

Lemma ltrunc_exact a n :
  utf8 a ->
  match ltrunc a n with
  | Ret r => exists w, a = w ++ r /\ length w = n /\ utf8 w
  | Panic => forall w r, a = w ++ r -> length w = n -> ~ utf8 w
  | OutOfFuel => False
  end.
Proof.
  intros Ha. destruct (ltrunc a n) as [r| |] eqn:E.
  - apply ltrunc_ret in E. destruct E as (w & -> & L & C). exists w. split; [reflexivity|].
    split; [exact L|]. apply (proj1 (utf8_cut_iff _ _ Ha) C).
  - intros w r -> <- U. rewrite (ltrunc_ok w r Ha U) in E. discriminate.
  - unfold ltrunc, slice_from in E. destruct (is_char_boundary a n); discriminate.
Qed.

Lemma rtrunc_exact a n :
  utf8 a ->
  match rtrunc a n with
  | Ret w => exists r, a = w ++ r /\ length r = n /\ utf8 w
  | Panic => forall w r, a = w ++ r -> length r = n -> ~ utf8 w
  | OutOfFuel => False
  end.
Proof.
  intros Ha. destruct (rtrunc a n) as [w| |] eqn:E.
  - apply rtrunc_ret in E. destruct E as (r & -> & L & C). exists r. split; [reflexivity|].
    split; [exact L|]. apply (proj1 (utf8_cut_iff _ _ Ha) C).
  - intros w r -> <- U. rewrite (rtrunc_ok w r Ha U) in E. discriminate.
  - unfold rtrunc, usub, slice_to in E. destruct (Nat.leb n (length a)); simpl in E; [|discriminate].
    destruct (is_char_boundary a (length a - n)); discriminate.
Qed.

Lemma flatten_vec_split (A : Type) (a b : list (list A)) v :
  flatten_vec (a ++ v :: b) = flatten_vec a ++ v ++ flatten_vec b /\ flatten_vec (@nil (list A)) = [].
Proof. rewrite !flatten_vec_concat, concat_app. split; reflexivity. Qed.

(** ** Parsers *)
Lemma configure_configured ss : forall set name mn mx,
  configure (configured set name mn mx) ss =
  configured (last_of asks_chars ss set) (last_of asks_name ss name)
             (last_of asks_min ss mn) (last_of asks_max ss mx).
Proof.
  unfold configure. induction ss as [|s ss IH]; intros set name mn mx; [reflexivity|].
  destruct s; simpl; rewrite <- IH; reflexivity.
Qed.

Lemma set_configured set name ss v :
  utf8 v ->
  let p := configure (match name with Some n => set_with_name n set | None => set_new set end) ss in
  parser_name (PSet p) = last_of asks_name ss name /\
  let captures := set_captures (last_of asks_chars ss set) (last_of asks_min ss None) (last_of asks_max ss None) v in
  match parser_parse (PSet p) v with
  | Ret (Some w) => captures w /\ utf8 w
  | Ret None => forall w, ~ captures w
  | Panic => exists w, captures w /\ ~ utf8 w
  | OutOfFuel => False
  end.
Proof.
  intros Hv.
  assert (match name with Some n => set_with_name n set | None => set_new set end =
          configured set name None None) as -> by (destruct name; reflexivity).
  rewrite configure_configured. split; [reflexivity|]. apply set_exact. exact Hv.
Qed.

Lemma no_chars_last ss d : (forall s, In s ss -> asks_chars s = None) -> last_of asks_chars ss d = d.
Proof.
  induction ss as [|s ss IH]; intros H; simpl; [reflexivity|]. rewrite (H s) by (left; reflexivity).
  apply IH. intros s' Hs. apply H. right. exact Hs.
Qed.

Lemma int_configured name ss v :
  utf8 v -> (forall s, In s ss -> asks_chars s = None) ->
  let p := PInt (configure (match name with Some n => int_with_name n | None => int_new end) ss) in
  parser_name p = last_of asks_name ss name /\
  match parser_parse p v with
  | Ret (Some w) => longest_prefix_in is_digit v w /\ w <> [] /\
                    above_min (last_of asks_min ss None) (length w) /\ below_max (last_of asks_max ss None) (length w)
  | Ret None => forall w, longest_prefix_in is_digit v w ->
                  w = [] \/ ~ above_min (last_of asks_min ss None) (length w) \/
                  ~ below_max (last_of asks_max ss None) (length w)
  | _ => False
  end.
Proof.
  intros Hv H.
  assert (match name with Some n => int_with_name n | None => int_new end =
          configured digits name None None) as -> by (destruct name; reflexivity).
  rewrite configure_configured, no_chars_last by exact H. split; [reflexivity|].
  apply int_exact. exact Hv.
Qed.

Lemma greedy_configure_eq ss : forall n e,
  greedy_configure {| gp_name := n; gp_end_string := e |} ss =
  {| gp_name := last_of greedy_asks_name ss n; gp_end_string := last_of greedy_asks_end ss e |}.
Proof.
  unfold greedy_configure. induction ss as [|s ss IH]; intros n e; [reflexivity|].
  destruct s; simpl; rewrite <- IH; reflexivity.
Qed.

Lemma greedy_constructed n e :
  greedy_new = {| gp_name := None; gp_end_string := None |} /\
  greedy_with_name n = {| gp_name := Some n; gp_end_string := None |} /\
  greedy_from_str n e = {| gp_name := Some n; gp_end_string := Some e |}.
Proof. repeat split. Qed.

Lemma greedy_configured name end_string ss v :
  let p := PGreedy (greedy_configure
    (match name, end_string with
     | Some n, Some e => greedy_from_str n e
     | Some n, None => greedy_with_name n
     | None, Some e => greedy_set_end_string greedy_new (Some e)
     | None, None => greedy_new end) ss) in
  parser_name p = last_of greedy_asks_name ss name /\
  (utf8 v -> (forall e, last_of greedy_asks_end ss end_string = Some e -> utf8 e) ->
   match parser_parse p v with
   | Ret r => up_to (last_of greedy_asks_end ss end_string) v r
   | _ => False
   end).
Proof.
  assert (match name, end_string with
     | Some n, Some e => greedy_from_str n e
     | Some n, None => greedy_with_name n
     | None, Some e => greedy_set_end_string greedy_new (Some e)
     | None, None => greedy_new end = {| gp_name := name; gp_end_string := end_string |}) as ->
    by (destruct name, end_string; reflexivity).
  rewrite greedy_configure_eq. split; [reflexivity|]. intros Hv He.
  set (n := last_of greedy_asks_name ss name). set (e := last_of greedy_asks_end ss end_string) in *.
  assert (opt_utf8 e) as U by (destruct e; [apply He; reflexivity|exact I]).
  pose proof (greedy_exact n e v Hv U) as H. cbn [parser_parse]. unfold up_to.
  destruct (greedy_parse {| gp_name := n; gp_end_string := e |} v) as [[w|]| |], e; try contradiction; auto; congruence.
Qed.

Lemma set_name_only p n :
  parser_name (parser_set_name p n) = n /\ forall v, parser_parse (parser_set_name p n) v = parser_parse p v.
Proof. destruct p; split; reflexivity. Qed.

Lemma param_none k : param k None None.
Proof. intros l v H. discriminate. Qed.

Definition asks_param (k : str) (o : optional_parameter) : option (option N) :=
  match o with OptInt k' v => if str_eqb k' k then Some (Some v) else None end.

Lemma params_last k l : forall d,
  last_of (asks_param k) l d = match last_of (asks_param k) l None with Some v => Some v | None => d end.
Proof.
  induction l as [|[k' v] l IH]; intros d; simpl; [reflexivity|].
  rewrite IH. destruct (str_eqb k' k).
  - symmetry. rewrite IH. destruct (last_of (asks_param k) l None); reflexivity.
  - reflexivity.
Qed.

Lemma params_param k l :
  param k (Some l) (last_of (asks_param k) l None).
Proof.
  induction l as [|[k' v] l IH]; simpl.
  - intros l v H I. injection H as <-. destruct I.
  - rewrite params_last. destruct (last_of _ l None) as [x|] eqn:E.
    + destruct IH as (l0 & a & b & H & -> & N). injection H as ->.
      exists (OptInt k' v :: a ++ OptInt k x :: b), (OptInt k' v :: a), b. auto.
    + destruct (str_eqb k' k) eqn:K.
      * apply str_eqb_eq in K. subst k'. exists (OptInt k v :: l), [], l. split; [reflexivity|]. split; [reflexivity|].
        intros v' I. exact (IH l v' eq_refl I).
      * intros l0 v0 H I. injection H as <-. destruct I as [I|I].
        { injection I as -> ->. rewrite str_eqb_refl in K. discriminate. }
        exact (IH l v0 eq_refl I).
Qed.

Lemma optional_params_eq l : forall p,
  fold_left set_optional_param l p =
  {| sp_name := sp_name p; sp_character_set := sp_character_set p;
     sp_min_length := last_of (asks_param ($"min_len")) l (sp_min_length p);
     sp_max_length := last_of (asks_param ($"max_len")) l (sp_max_length p) |}.
Proof.
  induction l as [|[k v] l IH]; intros p; [destruct p; reflexivity|].
  cbn [fold_left last_of set_optional_param asks_param]. rewrite IH.
  destruct (str_eqb k ($"min_len")) eqn:E1.
  - apply str_eqb_eq in E1. subst k. reflexivity.
  - destruct (str_eqb k ($"max_len")) eqn:E2; reflexivity.
Qed.

Lemma set_optional_params_spec p o :
  sp_min_length p = None -> sp_max_length p = None ->
  let q := set_optional_params p o in
  sp_name q = sp_name p /\ sp_character_set q = sp_character_set p /\
  param ($"min_len") o (sp_min_length q) /\ param ($"max_len") o (sp_max_length q).
Proof.
  intros H1 H2. destruct o as [l|]; cbn [set_optional_params].
  - rewrite optional_params_eq, H1, H2. cbn [sp_name sp_character_set sp_min_length sp_max_length].
    split; [reflexivity|]. split; [reflexivity|]. split; apply params_param.
  - cbv zeta. rewrite H1, H2. split; [reflexivity|]. split; [reflexivity|]. split; apply param_none.
Qed.

Lemma factory_set set name o :
  exists p, new_set set name o = PSet p /\ sp_name p = name /\
    StronglySorted byte_lt (sp_character_set p) /\ (forall b, In b (sp_character_set p) <-> In b set) /\
    param ($"min_len") o (sp_min_length p) /\ param ($"max_len") o (sp_max_length p).
Proof.
  eexists. split; [reflexivity|]. 
  destruct (set_optional_params_spec (set_new set) o eq_refl eq_refl) as (_ & C & P1 & P2).
  unfold set_set_name. cbn [sp_name sp_character_set sp_min_length sp_max_length]. rewrite C.
  split; [reflexivity|]. split; [apply bset_from_iter_sorted|]. split; [intros b; apply bset_from_iter_in|]. auto.
Qed.

Lemma factory_int name o :
  exists p, new_int name o = PInt p /\ sp_name p = name /\
    StronglySorted byte_lt (sp_character_set p) /\ (forall b, In b (sp_character_set p) <-> is_digit b) /\
    param ($"min_len") o (sp_min_length p) /\ param ($"max_len") o (sp_max_length p).
Proof.
  eexists. split; [reflexivity|].
  destruct (set_optional_params_spec int_new o eq_refl eq_refl) as (_ & C & P1 & P2).
  unfold set_set_name. cbn [sp_name sp_character_set sp_min_length sp_max_length]. rewrite C.
  split; [reflexivity|]. split; [apply bset_from_iter_sorted|]. split; [|auto].
  intros b. unfold int_new, set_new. cbn [sp_character_set]. unfold create_set_from_str.
  rewrite bset_from_iter_in. unfold is_digit. split.
  - intros H. vm_compute in H. repeat (destruct H as [<-|H]; [split; vm_compute; discriminate|]). destruct H.
  - intros [A B]. destruct b; vm_compute in A, B;
      try (exfalso; apply A; reflexivity); try (exfalso; apply B; reflexivity); vm_compute; tauto.
Qed.

(** ** Patterns *)
Lemma first_token_popped p :
  (pop_first_token p = None <-> pat_tokens p = []) /\
  forall t p', pop_first_token p = Some (t, p') <->
    pat_tokens p = t :: pat_tokens p' /\ stripped p' = stripped p.
Proof.
  unfold pop_first_token. destruct p as [n u ts vs tg tm]. cbn [pat_tokens]. destruct ts as [|t0 ts]; split.
  - tauto.
  - intros t p'. split; [discriminate|]. intros [H _]. discriminate.
  - split; discriminate.
  - intros t [n' u' ts' vs' tg' tm']. unfold set_pattern_tokens, stripped. cbn. split.
    + intros H. injection H as <- <- <- <- <- <- <-. auto.
    + intros [H K]. injection H as <- <-. injection K as -> -> -> -> ->. reflexivity.
Qed.

Lemma test_message_popped p :
  (pop_test_message p = None <-> tests p = []) /\
  forall m p', pop_test_message p = Some (m, p') <->
    tests p = tests p' ++ [m] /\ pat_test_messages p' <> None /\ untested p' = untested p.
Proof.
  unfold pop_test_message, tests. destruct p as [n u ts vs tg tm]. cbn [pat_test_messages].
  destruct tm as [l|]; cbn [vec_pop].
  2: { split; [tauto|]. intros m p'. split; [discriminate|].
       intros (H & _). destruct (match pat_test_messages p' with Some l => l | None => [] end); discriminate. }
  unfold vec_pop. destruct (rev l) as [|m0 r] eqn:E.
  - assert (l = []) as -> by (rewrite <- (rev_involutive l), E; reflexivity).
    split; [tauto|]. intros m p'. split; [discriminate|].
    intros (H & _). destruct (match pat_test_messages p' with Some l => l | None => [] end); discriminate.
  - assert (l = rev r ++ [m0]) as -> by (rewrite <- (rev_involutive l), E; reflexivity).
    split; [split; [discriminate|]; intros H; destruct (rev r); discriminate|].
    intros m [n' u' ts' vs' tg' tm']. unfold set_test_messages, untested. cbn. split.
    + intros H. injection H as <- <- <- <- <- <- <-. split; [reflexivity|]. split; [discriminate|reflexivity].
    + intros (H & N & K). destruct tm' as [l'|]; [|congruence]. injection K as -> -> -> -> ->.
      apply app_inj_tail in H. destruct H as [-> ->]. reflexivity.
Qed.

Lemma with_uuid_blank u :
  let p := pattern_with_uuid u in
  pat_uuid p = u /\ pat_name p = None /\ pat_tokens p = [] /\ tests p = [] /\ pat_values p = None /\ pat_tags p = None.
Proof. repeat split. Qed.

(** ** Match results *)
Lemma inserted_snoc kvs q v k w :
  inserted (kvs ++ [(q, v)]) k w <->
  (name_of q = Some k /\ w = v) \/ (name_of q <> Some k /\ inserted kvs k w).
Proof.
  split.
  - intros (a & q0 & b & E & N & L). destruct (exists_last (l := (q0, w) :: b)) as (b' & [q1 v1] & E1); [discriminate|].
    rewrite E1, app_assoc in E. apply app_inj_tail in E. destruct E as [-> E]. injection E as -> ->.
    destruct b' as [|[q2 v2] b'].
    + simpl in E1. injection E1 as -> -> ->. left. auto.
    + simpl in E1. injection E1 as -> -> ->. right. split.
      * apply (L q1 v1). apply in_or_app. right. left. reflexivity.
      * exists a, q2, b'. split; [reflexivity|]. split; [exact N|].
        intros q' v' I. apply (L q' v'). apply in_or_app. left. exact I.
  - intros [[N ->]|[N (a & q0 & b & -> & N0 & L)]].
    + exists kvs, q, []. split; [reflexivity|]. split; [exact N|]. intros q' v' [].
    + exists a, q0, (b ++ [(q, v)]). split; [rewrite <- app_assoc; reflexivity|]. split; [exact N0|].
      intros q' v' I. apply in_app_or in I. destruct I as [I|[I|[]]]; [apply (L q' v' I)|].
      injection I as <- <-. exact N.
Qed.

Lemma results_inserted p kvs :
  let r := fold_left match_result_insert kvs (match_result_new p) in
  mr_pattern r = p /\ StronglySorted (fun a b => str_lt (fst a) (fst b)) (mr_values r) /\
  forall k v, maps_to (mr_values r) k v <-> inserted kvs k v.
Proof.
  induction kvs as [|[q v] kvs IH] using rev_ind.
  - split; [reflexivity|]. split; [constructor|]. intros k v. split; [intros []|].
    intros (a & q & b & E & _). destruct a; discriminate.
  - cbv zeta in *. rewrite fold_left_app. cbn [fold_left].
    destruct (fold_left match_result_insert kvs (match_result_new p)) as [p0 m] eqn:E.
    destruct IH as (IP & IS & IH). cbn [mr_pattern mr_values] in *. subst p0.
    unfold match_result_insert. cbn [fst snd mr_pattern mr_values].
    change (parser_name q) with (name_of q). destruct (name_of q) as [n|] eqn:N.
    + cbn [mr_pattern mr_values]. split; [reflexivity|]. split; [apply bmap_insert_sorted; exact IS|].
      intros k w. rewrite inserted_snoc, N. unfold maps_to in *.
      rewrite <- bmap_get_in by (apply bmap_insert_sorted; exact IS).
      rewrite bmap_get_insert by exact IS. destruct (str_eqb k n) eqn:K.
      * apply str_eqb_eq in K. subst k. split; [intros H; injection H as ->; auto|].
        intros [[_ ->]|[H _]]; congruence.
      * rewrite bmap_get_in by exact IS. rewrite IH. split.
        { intros H. right. split; [|exact H]. intros F. injection F as ->. rewrite str_eqb_refl in K. discriminate. }
        intros [[F _]|[_ H]]; [|exact H]. injection F as ->. rewrite str_eqb_refl in K. discriminate.
    + cbn [mr_pattern mr_values]. split; [reflexivity|]. split; [exact IS|].
      intros k w. rewrite inserted_snoc, IH, N. split; [intros H; right; split; [discriminate|exact H]|].
      intros [[H _]|[_ H]]; [discriminate|exact H].
Qed.
