(** * The recogniser of Peg.v and the concrete syntax of Spec_grammar.v *)
From Coq Require Import Sorted.
From Verif Require Import Base Base_facts Utils Utils_facts Parsers Parsers_facts Pattern Spec Grammar Peg
  Grammar_refine Spec_grammar.

(** ** Terminals *)
Lemma p_str_match m s u r : p_str m s = PMatch u r <-> s = m ++ r.
Proof.
  unfold p_str. rewrite <- strip_some. destruct u. destruct (strip m s) as [r'|]; split; intros H; inversion H; reflexivity.
Qed.
Lemma p_str_app m r : p_str m (m ++ r) = PMatch tt r.
Proof. apply p_str_match. reflexivity. Qed.
Lemma p_str_fail m s : p_str m s = PFail <-> prefixb m s = false.
Proof. unfold p_str. rewrite <- strip_none. destruct (strip m s); split; intros H; inversion H; reflexivity. Qed.
Lemma p_str_nopanic m s : p_str m s <> PPanic.
Proof. unfold p_str. destruct (strip m s); discriminate. Qed.
Lemma p_keyword_match m s u r : p_keyword m s = PMatch u r <-> s = m ++ r /\ u = m.
Proof.
  unfold p_keyword. destruct (p_str m s) as [v t| |] eqn:E; cbn [pbind].
  - apply p_str_match in E. subst. split.
    + intros H. inversion H; subst. auto.
    + intros (H & ->). apply app_inv_head in H. subst. reflexivity.
  - split; [discriminate|]. intros (-> & _). rewrite p_str_app in E. discriminate.
  - split; [discriminate|]. intros (-> & _). rewrite p_str_app in E. discriminate.
Qed.
Lemma p_keyword_app m r : p_keyword m (m ++ r) = PMatch m r.
Proof. apply p_keyword_match. auto. Qed.
Lemma p_keyword_nopanic m s : p_keyword m s <> PPanic.
Proof. unfold p_keyword. pose proof (p_str_nopanic m s). destruct (p_str m s); simpl; congruence. Qed.

Lemma pbind_match {A B} (p : pres A) (k : A -> str -> pres B) v r :
  pbind p k = PMatch v r <-> exists w t, p = PMatch w t /\ k w t = PMatch v r.
Proof.
  destruct p as [w t| |]; simpl; split.
  - eauto.
  - intros (w' & t' & H & K). inversion H; subst. exact K.
  - discriminate.
  - intros (w & t & H & _). discriminate.
  - discriminate.
  - intros (w & t & H & _). discriminate.
Qed.
Lemma pbind_panic {A B} (p : pres A) (k : A -> str -> pres B) :
  pbind p k = PPanic <-> p = PPanic \/ exists w t, p = PMatch w t /\ k w t = PPanic.
Proof.
  destruct p as [w t| |]; simpl; split.
  - eauto.
  - intros [H|(w' & t' & H & K)]; [discriminate|]. inversion H; subst. exact K.
  - discriminate.
  - intros [H|(w' & t' & H & K)]; discriminate.
  - auto.
  - auto.
Qed.

(** ** Character classes *)
Lemma ident_first_spec b : ident_first [b] = true <-> name_start b.
Proof.
  unfold ident_first, name_start, letter. repeat rewrite orb_true_iff. repeat rewrite in_rng_spec.
  repeat rewrite byte_eqb_eq. tauto.
Qed.
Lemma ident_next_spec b : ident_next [b] = true <-> name_char b \/ b = x2d.
Proof.
  unfold ident_next, name_char, name_start, letter, digit. repeat rewrite orb_true_iff. repeat rewrite in_rng_spec.
  repeat rewrite byte_eqb_eq. tauto.
Qed.
Lemma is_digit_spec b : is_digit [b] = true <-> digit b.
Proof. unfold is_digit, digit. apply in_rng_spec. Qed.
Lemma name_char_not_hyphen b : name_char b -> b <> x2d.
Proof.
  unfold name_char, name_start, letter, digit. intros H ->. cbn in H.
  destruct H as [[[H|H]|[H|H]]|H]; try lia; discriminate.
Qed.

(** ** Names *)
Lemma ident_tail_shape s a r : ident_tail s = (a, r) ->
  match a with
  | [] => True
  | d :: a' => (name_char d \/ d = x2d) /\ Forall name_char a' /\ hyphen_first (a' ++ r) = false
  end.
Proof.
  revert a r. induction s as [|b s IH]; intros a r H; cbn [ident_tail] in H.
  - inversion H. exact I.
  - destruct (ident_next [b] && negb (hyphen_first s))%bool eqn:E; [|inversion H; exact I].
    apply andb_true_iff in E. destruct E as (E1 & E2). apply ident_next_spec in E1. apply negb_true_iff in E2.
    pose proof (ident_tail_app s) as T. destruct (ident_tail s) as (a', r'). inversion H; subst.
    split; [exact E1|]. split; [|exact E2]. specialize (IH a' r eq_refl).
    destruct a' as [|d a']; [constructor|]. destruct IH as (I1 & I2 & _).
    constructor; [|exact I2]. destruct I1 as [I1|I1]; [exact I1|]. subst d. discriminate.
Qed.

Lemma p_ident_sound s n r : p_ident s = PMatch n r -> s = n ++ r /\ name n.
Proof.
  destruct s as [|b s]; [discriminate|]. cbn [p_ident]. destruct (ident_first [b]) eqn:E; [|discriminate].
  apply ident_first_spec in E. pose proof (ident_tail_app s) as T. pose proof (ident_tail_shape s) as Sh.
  destruct (ident_tail s) as (a, r'). specialize (Sh a r' eq_refl). intros H. inversion H; subst.
  split; [reflexivity|]. destruct a as [|d a]; [apply name_one; exact E|].
  apply name_more; tauto.
Qed.

(** What cannot continue a name. *)
Definition name_stop (r : str) : Prop :=
  match r with [] => True | b :: _ => ident_next [b] = false end.

Lemma name_stop_hyphen r : name_stop r -> hyphen_first r = false.
Proof.
  destruct r as [|b r]; [reflexivity|]. simpl. intros H. apply byte_eqb_neq. intros ->. discriminate.
Qed.

Lemma ident_tail_chars a r : Forall name_char a -> name_stop r -> ident_tail (a ++ r) = (a, r).
Proof.
  intros H S. induction H as [|b a Hb Ha IH]; cbn [app].
  - destruct r as [|b r]; [reflexivity|]. cbn [ident_tail]. rewrite S. reflexivity.
  - cbn [ident_tail]. assert (ident_next [b] = true) as -> by (apply ident_next_spec; auto).
    assert (hyphen_first (a ++ r) = false) as ->.
    { destruct Ha as [|c a Hc Ha]; cbn [app]; [apply name_stop_hyphen; exact S|].
      simpl. apply byte_eqb_neq. apply name_char_not_hyphen. exact Hc. }
    cbn [andb negb]. rewrite IH. reflexivity.
Qed.

Lemma p_ident_complete n r : name n -> name_stop r -> p_ident (n ++ r) = PMatch n r.
Proof.
  intros [c Hc|c d s Hc Hd Hs] S; cbn [app p_ident].
  - apply ident_first_spec in Hc. rewrite Hc. rewrite (ident_tail_chars [] r (Forall_nil _) S : ident_tail r = _).
    reflexivity.
  - apply ident_first_spec in Hc. rewrite Hc. cbn [ident_tail].
    assert (ident_next [d] = true) as -> by (apply ident_next_spec; exact Hd).
    assert (hyphen_first (s ++ r) = false) as ->.
    { destruct Hs as [|e s He Hs]; cbn [app]; [apply name_stop_hyphen; exact S|].
      simpl. apply byte_eqb_neq. apply name_char_not_hyphen. exact He. }
    cbn [andb negb]. rewrite (ident_tail_chars s r Hs S). reflexivity.
Qed.

Lemma p_name_sound s n r : p_name s = PMatch n r -> s = $":" ++ n ++ r /\ name n.
Proof.
  unfold p_name. rewrite pbind_match. intros (u & t & H & K). apply p_str_match in H. subst s.
  apply p_ident_sound in K. destruct K as (-> & K). auto.
Qed.
Lemma p_ident_nopanic s : p_ident s <> PPanic.
Proof. destruct s as [|b s]; cbn [p_ident]; [discriminate|]. destruct (ident_first [b]); [|discriminate]. destruct (ident_tail s). discriminate. Qed.
Lemma p_name_nopanic s : p_name s <> PPanic.
Proof.
  unfold p_name. rewrite pbind_panic. intros [H|(u & t & _ & K)]; [apply (p_str_nopanic _ _ H)|apply (p_ident_nopanic _ K)].
Qed.

Lemma p_opt_name_sound s o r : p_opt (p_name s) s = PMatch o r -> exists t, s = t ++ r /\ name_text t o.
Proof.
  destruct (p_name s) as [n t| |] eqn:E; cbn [p_opt]; intros H; inversion H; subst.
  - apply p_name_sound in E. destruct E as (-> & E). exists ($":" ++ n). rewrite <- app_assoc.
    split; [reflexivity|constructor; exact E].
  - exists []. split; [reflexivity|constructor].
Qed.
Lemma p_opt_name_complete t o r : name_text t o -> p_opt (p_name (t ++ $"}" ++ r)) (t ++ $"}" ++ r) = PMatch o ($"}" ++ r).
Proof.
  intros [|n Hn].
  - reflexivity.
  - rewrite <- app_assoc. unfold p_name. rewrite p_str_app. cbn [pbind].
    rewrite p_ident_complete; [reflexivity|exact Hn|reflexivity].
Qed.
Lemma p_opt_nopanic {A} (p : pres A) s : p <> PPanic -> p_opt p s <> PPanic.
Proof. destruct p; simpl; congruence. Qed.

(** ** Text up to a delimiter *)
Definition follow (m r : str) : Prop := r = [] \/ prefixb m r = true.

Lemma until_sound m s a r : m <> [] -> until m s = (a, r) -> ~ occurs_in m a /\ follow m r.
Proof.
  intros Nm. revert a r. induction s as [|b s IH]; intros a r; cbn [until]; destruct (prefixb m _) eqn:P.
  - intros H. inversion H; subst. split; [|auto using or_intror]. { intros (x & y & E). symmetry in E. apply app_eq_nil in E. destruct E as (_ & E). apply app_eq_nil in E. destruct E as (E & _). congruence. } right. exact P.
  - intros H. inversion H; subst. split; [|left; reflexivity]. intros (x & y & E). symmetry in E. apply app_eq_nil in E. destruct E as (_ & E). apply app_eq_nil in E. destruct E as (E & _). congruence.
  - intros H. inversion H; subst. split; [|right; exact P]. intros (x & y & E). symmetry in E. apply app_eq_nil in E. destruct E as (_ & E). apply app_eq_nil in E. destruct E as (E & _). congruence.
  - pose proof (until_app m s) as T. destruct (until m s) as (a', r'). specialize (IH a' r' eq_refl).
    intros H. inversion H; subst. destruct IH as (I1 & I2). split; [|exact I2].
    intros (x & y & E). destruct x as [|x0 x]; cbn [app] in E.
    + assert (prefixb m (b :: a' ++ r) = true); [|congruence]. apply prefixb_app. exists (y ++ r).
      change (b :: a' ++ r) with ((b :: a') ++ r). rewrite E, app_assoc. reflexivity.
    + inversion E; subst. apply I1. exists x, y. reflexivity.
Qed.

(** A delimiter that no proper suffix of itself starts is found where it is. *)
Definition borderless (m : str) : Prop :=
  forall q s, q <> [] -> prefixb m (q ++ m ++ s) = true -> occurs_in m q.

Lemma until_complete m a r : m <> [] -> borderless m -> ~ occurs_in m a ->
  (r = [] \/ exists r', r = m ++ r') -> until m (a ++ r) = (a, r).
Proof.
  intros Nm Bm Na F. induction a as [|b a IH]; cbn [app].
  - destruct F as [->|(r' & ->)].
    + destruct m; [congruence|reflexivity].
    + assert (prefixb m (m ++ r') = true) as P by (apply prefixb_app; eauto).
      destruct (m ++ r'); cbn [until]; rewrite P; reflexivity.
  - cbn [until]. destruct (prefixb m (b :: a ++ r)) eqn:P.
    + exfalso. apply Na. destruct F as [->|(r' & ->)].
      * rewrite app_nil_r in P. apply prefixb_app in P. destruct P as (y & P). exists [], y. exact P.
      * apply (Bm (b :: a) r'); [discriminate|exact P].
    + rewrite IH; [reflexivity|]. intros (x & y & E). apply Na. exists (b :: x), y. rewrite E. reflexivity.
Qed.

Lemma begin_borderless : borderless parser_begin.
Proof.
  intros q s Nq P. destruct q as [|a q]; [congruence|].
  change parser_begin with [x25; x7b] in *. cbn [app prefixb] in P. apply andb_true_iff in P. destruct P as (P1 & P2).
  apply byte_eqb_eq in P1. subst a. destruct q as [|b q].
  - cbn [app prefixb] in P2. discriminate.
  - cbn [app prefixb] in P2. rewrite andb_true_r in P2. apply byte_eqb_eq in P2. subst b. exists [], q. reflexivity.
Qed.

Lemma escape_borderless : borderless escaped_begin.
Proof.
  intros q s Nq P. change escaped_begin with [x5c; x25; x5c; x7b] in *.
  destruct q as [|a [|b [|c [|d q]]]]; [congruence|..]; cbn [app prefixb] in P;
    repeat rewrite andb_true_iff in P; repeat rewrite byte_eqb_eq in P.
  - destruct P as (_ & P & _). discriminate.
  - destruct P as (_ & _ & _ & P & _). discriminate.
  - destruct P as (_ & _ & _ & P & _). discriminate.
  - destruct P as (<- & <- & <- & <- & _). exists [], q. reflexivity.
Qed.

Lemma quote_borderless : borderless quotation_mark.
Proof.
  intros q s Nq P. destruct q as [|a q]; [congruence|].
  change quotation_mark with [x22] in *. cbn [app prefixb] in P. rewrite andb_true_r in P.
  apply byte_eqb_eq in P. subst a. exists [], q. reflexivity.
Qed.

Lemma quote_occurs s : occurs_in quotation_mark s <-> In x22 s.
Proof.
  change quotation_mark with [x22]. split.
  - intros (a & b & ->). apply in_or_app. right. left. reflexivity.
  - intros H. apply in_split in H. destruct H as (a & b & ->). exists a, b. reflexivity.
Qed.

Lemma p_until_sound m s a r : m <> [] -> p_until m s = PMatch a r ->
  s = a ++ r /\ a <> [] /\ ~ occurs_in m a /\ follow m r.
Proof.
  intros Nm. unfold p_until. pose proof (until_app m s) as T. pose proof (until_sound m s) as S.
  destruct (until m s) as (a', r'). specialize (S a' r' Nm eq_refl). destruct a' as [|x a']; [discriminate|].
  simpl. intros H. inversion H; subst. split; [reflexivity|]. split; [discriminate|exact S].
Qed.
Lemma p_until_nopanic m s : p_until m s <> PPanic.
Proof. unfold p_until. destruct (until m s) as (a, r). destruct (is_empty a); discriminate. Qed.
Lemma p_until_complete m a r : m <> [] -> borderless m -> a <> [] -> ~ occurs_in m a ->
  (r = [] \/ exists r', r = m ++ r') -> p_until m (a ++ r) = PMatch a r.
Proof.
  intros Nm Bm N O F. unfold p_until. rewrite (until_complete m a r Nm Bm O F). destruct a; [congruence|reflexivity].
Qed.

Lemma follow_app m r : follow m r <-> r = [] \/ exists r', r = m ++ r'.
Proof. unfold follow. rewrite prefixb_app. tauto. Qed.

Lemma p_string_sound s v r : p_string s = PMatch v r ->
  s = $"""" ++ v ++ $"""" ++ r /\ v <> [] /\ ~ In x22 v.
Proof.
  unfold p_string. rewrite pbind_match. intros (u & t & H & K). apply p_str_match in H. subst s.
  rewrite pbind_match in K. destruct K as (v' & t' & H & K). apply p_until_sound in H; [|discriminate].
  destruct H as (-> & N & O & _). rewrite pbind_match in K. destruct K as (u' & t'' & H & K).
  apply p_str_match in H. inversion K; subst. split; [reflexivity|]. split; [exact N|].
  rewrite <- quote_occurs. exact O.
Qed.
Lemma p_string_complete v r : v <> [] -> ~ In x22 v -> p_string ($"""" ++ v ++ $"""" ++ r) = PMatch v r.
Proof.
  intros N O. unfold p_string. change ($"""") with quotation_mark. rewrite p_str_app. cbn [pbind].
  rewrite p_until_complete; [|discriminate|exact quote_borderless|exact N| |].
  - cbn [pbind]. rewrite p_str_app. reflexivity.
  - rewrite quote_occurs. exact O.
  - right. eauto.
Qed.
Lemma p_string_nopanic s : p_string s <> PPanic.
Proof.
  unfold p_string. rewrite pbind_panic. intros [H|(u & t & _ & H)]; [apply (p_str_nopanic _ _ H)|].
  rewrite pbind_panic in H. destruct H as [H|(v & t' & _ & H)]; [apply (p_until_nopanic _ _ H)|].
  rewrite pbind_panic in H. destruct H as [H|(u' & t'' & _ & H)]; [apply (p_str_nopanic _ _ H)|discriminate].
Qed.

(** ** Commas and numbers *)
Lemma span_sound f s a r : span f s = (a, r) -> s = a ++ r /\ Forall (fun b => f b = true) a /\
  match r with b :: _ => f b = false | [] => True end.
Proof.
  revert a r. induction s as [|b s IH]; intros a r H; cbn [span] in H.
  - inversion H. auto.
  - destruct (f b) eqn:E.
    + destruct (span f s) as (a', r'). inversion H; subst. destruct (IH a' r eq_refl) as (-> & H1 & H2). auto.
    + inversion H; subst. auto.
Qed.
Lemma span_complete f a r : Forall (fun b => f b = true) a -> match r with b :: _ => f b = false | [] => True end ->
  span f (a ++ r) = (a, r).
Proof.
  intros H F. induction H as [|b a Hb Ha IH]; cbn [app].
  - destruct r as [|b r]; [reflexivity|]. cbn [span]. rewrite F. reflexivity.
  - cbn [span]. rewrite Hb, IH. reflexivity.
Qed.

Lemma p_comma_sound s u r : p_comma s = PMatch u r ->
  exists c, s = c ++ r /\ comma_text c /\ match r with b :: _ => b <> x20 | [] => True end.
Proof.
  unfold p_comma. rewrite pbind_match. intros (v & t & H & K). apply p_str_match in H. subst s.
  pose proof (span_sound (fun b => byte_eqb b x20) t) as S. destruct (span _ t) as (a, r'). cbn [snd] in K.
  inversion K; subst r'. destruct (S a r eq_refl) as (-> & H1 & H2). exists ($"," ++ a). rewrite <- app_assoc.
  split; [reflexivity|]. split.
  - assert (a = repeat x20 (length a)) as ->; [|constructor]. clear -H1.
    induction H1 as [|b a Hb Ha IH]; [reflexivity|]. apply byte_eqb_eq in Hb. simpl. congruence.
  - destruct r; [exact I|]. apply byte_eqb_neq. exact H2.
Qed.
Lemma p_comma_complete c r : comma_text c -> match r with b :: _ => b <> x20 | [] => True end ->
  p_comma (c ++ r) = PMatch tt r.
Proof.
  intros [n] F. unfold p_comma. rewrite <- app_assoc, p_str_app. cbn [pbind].
  rewrite span_complete; [reflexivity| |].
  - induction n; constructor; auto.
  - destruct r; [exact I|]. apply byte_eqb_neq. exact F.
Qed.
Lemma p_comma_nopanic s : p_comma s <> PPanic.
Proof.
  unfold p_comma. rewrite pbind_panic. intros [H|(u & t & _ & H)]; [apply (p_str_nopanic _ _ H)|discriminate].
Qed.

(** [usize::from_str] computes the value of the digits. *)
Definition decimal_from (acc : N) (d : str) : N :=
  fold_left (fun acc b => acc * 10 + (Byte.to_N b - 48))%N d acc.

Lemma decimal_from_le d : forall acc, (acc <= decimal_from acc d)%N.
Proof.
  induction d as [|b d IH]; intros acc; [unfold decimal_from; cbn [fold_left]; lia|].
  specialize (IH (acc * 10 + (Byte.to_N b - 48))%N).
  unfold decimal_from in *. cbn [fold_left]. lia.
Qed.

Lemma usize_go d : Forall digit d -> forall acc, fits acc ->
  usize_from_str_go d acc = if N.ltb (decimal_from acc d) usize_max_plus_1 then Some (decimal_from acc d) else None.
Proof.
  induction 1 as [|b d Hb Hd IH]; intros acc F; cbn [usize_from_str_go decimal_from fold_left].
  - unfold fits in F. unfold usize_max_plus_1. apply N.ltb_lt in F. rewrite F. reflexivity.
  - unfold digit_value. assert (in_rng 48 57 b = true) as -> by (apply in_rng_spec; exact Hb).
    cbv zeta. destruct (N.ltb_spec (acc * 10 + (Byte.to_N b - 48))%N usize_max_plus_1) as [L|L].
    + rewrite IH by exact L. reflexivity.
    + pose proof (decimal_from_le d (acc * 10 + (Byte.to_N b - 48))%N) as M. unfold decimal_from in *.
      destruct (N.ltb_spec (fold_left (fun acc b => (acc * 10 + (Byte.to_N b - 48))%N) d (acc * 10 + (Byte.to_N b - 48))%N)
                  usize_max_plus_1) as [L'|L']; [lia|reflexivity].
Qed.

Lemma usize_from_str_spec d : d <> [] -> Forall digit d ->
  usize_from_str d = if N.ltb (decimal d) (2 ^ 64) then Some (decimal d) else None.
Proof.
  intros N H. destruct d as [|b d]; [congruence|]. unfold usize_from_str. rewrite usize_go; [reflexivity|exact H|].
  vm_compute. reflexivity.
Qed.

Lemma p_int_cases s :
  exists d r, s = d ++ r /\ Forall digit d /\ no_digit_first r /\
    p_int s = if is_empty d then PFail else if N.ltb (decimal d) (2 ^ 64) then PMatch (decimal d) r else PPanic.
Proof.
  unfold p_int. pose proof (span_sound (fun b => is_digit [b]) s) as S. destruct (span _ s) as (a, r).
  destruct (S a r eq_refl) as (-> & H1 & H2). exists a, r.
  assert (Forall digit a) as Ha.
  { eapply Forall_impl; [|exact H1]. intros b. apply is_digit_spec. }
  split; [reflexivity|]. split; [exact Ha|]. split.
  { destruct r as [|b r]; [exact I|]. simpl. rewrite <- is_digit_spec, H2. discriminate. }
  destruct a as [|b a]; [reflexivity|]. cbn [is_empty]. rewrite usize_from_str_spec; [|discriminate|exact Ha].
  destruct (N.ltb _ _); reflexivity.
Qed.

Lemma p_int_sound s v r : p_int s = PMatch v r -> exists d, s = d ++ r /\ number_text d v /\ no_digit_first r.
Proof.
  intros H. destruct (p_int_cases s) as (d & r' & -> & Hd & F & E). rewrite E in H.
  destruct d as [|b d]; [discriminate|]. cbn [is_empty] in H.
  destruct (N.ltb_spec (decimal (b :: d)) (2 ^ 64)) as [L|L]; [|discriminate]. inversion H; subst.
  exists (b :: d). split; [reflexivity|]. split; [|exact F]. constructor; [discriminate|exact Hd|exact L].
Qed.

Lemma digits_unique d r d' r' : Forall digit d -> no_digit_first r -> Forall digit d' -> no_digit_first r' ->
  d ++ r = d' ++ r' -> d = d' /\ r = r'.
Proof.
  intros H F H' F' E.
  assert (forall d r, Forall digit d -> no_digit_first r -> span (fun b => is_digit [b]) (d ++ r) = (d, r)) as K.
  { intros d0 r0 H0 F0. apply span_complete.
    - eapply Forall_impl; [|exact H0]. intros b. apply is_digit_spec.
    - destruct r0 as [|b r0]; [exact I|]. destruct (is_digit [b]) eqn:D; [|reflexivity].
      apply is_digit_spec in D. contradiction. }
  pose proof (K d r H F) as K1. rewrite E, (K d' r' H' F') in K1. inversion K1. auto.
Qed.

Lemma p_int_complete d v r : number_text d v -> no_digit_first r -> p_int (d ++ r) = PMatch v r.
Proof.
  intros [d' N H L] F. destruct (p_int_cases (d' ++ r)) as (d2 & r2 & E & Hd & F2 & ->).
  destruct (digits_unique _ _ _ _ H F Hd F2 E) as (<- & <-). destruct d'; [congruence|]. cbn [is_empty].
  apply N.ltb_lt in L. rewrite L. reflexivity.
Qed.

(** ** Bounds *)
Definition par_of (b : bound) : optional_parameter :=
  match b with MinLen v => OptInt ($"min_len") v | MaxLen v => OptInt ($"max_len") v end.

Lemma p_param1_match kw s o r : p_param1 kw s = PMatch o r <->
  exists d v, s = kw ++ $"=" ++ d ++ r /\ number_text d v /\ no_digit_first r /\ o = OptInt kw v.
Proof.
  unfold p_param1. split.
  - rewrite pbind_match. intros (u & t & H & K). apply p_keyword_match in H. destruct H as (-> & ->).
    rewrite pbind_match in K. destruct K as (u' & t' & H & K). apply p_str_match in H. subst t.
    rewrite pbind_match in K. destruct K as (v & t & H & K). apply p_int_sound in H. destruct H as (d & -> & H & F).
    inversion K; subst. exists d, v. auto.
  - intros (d & v & -> & H & F & ->). rewrite p_keyword_app. cbn [pbind]. rewrite p_str_app. cbn [pbind].
    rewrite (p_int_complete d v r H F). reflexivity.
Qed.

Lemma p_param_sound s o r : p_param s = PMatch o r ->
  exists t b, s = t ++ r /\ bound_text t b /\ o = par_of b /\ no_digit_first r.
Proof.
  unfold p_param. intros H. destruct (p_param1 ($"min_len") s) as [o' r'| |] eqn:E; cbn [p_or] in H; try discriminate.
  - inversion H; subst. apply p_param1_match in E. destruct E as (d & v & -> & E & F & ->).
    exists ($"min_len=" ++ d), (MinLen v). split; [rewrite <- app_assoc; reflexivity|]. split; [constructor; exact E|auto].
  - apply p_param1_match in H. destruct H as (d & v & -> & K & F & ->).
    exists ($"max_len=" ++ d), (MaxLen v). split; [rewrite <- app_assoc; reflexivity|]. split; [constructor; exact K|auto].
Qed.
Lemma p_param_complete t b r : bound_text t b -> no_digit_first r -> p_param (t ++ r) = PMatch (par_of b) r.
Proof.
  intros [d v H|d v H] F; unfold p_param; rewrite <- app_assoc.
  - change ($"min_len=" ++ d ++ r) with ($"min_len" ++ $"=" ++ d ++ r).
    assert (p_param1 ($"min_len") ($"min_len" ++ $"=" ++ d ++ r) = PMatch (OptInt ($"min_len") v) r) as ->;
      [|reflexivity]. apply p_param1_match. exists d, v. auto.
  - change ($"max_len=" ++ d ++ r) with ($"max_len" ++ $"=" ++ d ++ r).
    assert (p_param1 ($"min_len") ($"max_len" ++ $"=" ++ d ++ r) = PFail) as -> by reflexivity. cbn [p_or].
    apply p_param1_match. exists d, v. auto.
Qed.
Lemma p_param_panic s : p_param s = PPanic <->
  exists kw d r, (kw = $"min_len=" \/ kw = $"max_len=") /\ s = kw ++ d ++ r /\ d <> [] /\ Forall digit d /\
    no_digit_first r /\ ~ fits (decimal d).
Proof.
  assert (forall kw s, p_param1 kw s = PPanic <-> exists d r, s = kw ++ $"=" ++ d ++ r /\ d <> [] /\ Forall digit d /\
            no_digit_first r /\ ~ fits (decimal d)) as P.
  { clear s. intros kw s. unfold p_param1. split.
    - rewrite pbind_panic. intros [H|(u & t & H & K)]; [destruct (p_keyword_nopanic _ _ H)|].
      apply p_keyword_match in H. destruct H as (-> & ->).
      rewrite pbind_panic in K. destruct K as [K|(u & t' & H & K)]; [destruct (p_str_nopanic _ _ K)|].
      apply p_str_match in H. subst t. rewrite pbind_panic in K.
      destruct K as [K|(v & t & H & K)]; [|discriminate].
      destruct (p_int_cases t') as (d & r & -> & Hd & F & E). rewrite E in K.
      destruct d as [|b d]; [discriminate|]. cbn [is_empty] in K.
      destruct (N.ltb_spec (decimal (b :: d)) (2 ^ 64)) as [L|L]; [discriminate|].
      exists (b :: d), r. split; [reflexivity|]. split; [discriminate|]. split; [exact Hd|]. split; [exact F|]. unfold fits. lia.
    - intros (d & r & -> & N & Hd & F & L). rewrite p_keyword_app. cbn [pbind]. rewrite p_str_app. cbn [pbind].
      destruct (p_int_cases (d ++ r)) as (d2 & r2 & E & Hd2 & F2 & ->).
      destruct (digits_unique _ _ _ _ Hd F Hd2 F2 E) as (<- & <-). destruct d; [congruence|]. cbn [is_empty].
      destruct (N.ltb_spec (decimal (b :: d)) (2 ^ 64)) as [L'|L']; [destruct (L L')|reflexivity]. }
  unfold p_param. split.
  - intros H. destruct (p_param1 ($"min_len") s) as [o r| |] eqn:E; cbn [p_or] in H; try discriminate.
    + apply P in H. destruct H as (d & r & -> & H). exists ($"max_len="), d, r. auto.
    + apply P in E. destruct E as (d & r & -> & E). exists ($"min_len="), d, r. auto.
  - intros (kw & d & r & [-> | ->] & -> & H).
    + change ($"min_len=" ++ d ++ r) with ($"min_len" ++ $"=" ++ d ++ r).
      assert (p_param1 ($"min_len") ($"min_len" ++ $"=" ++ d ++ r) = PPanic) as ->; [|reflexivity].
      apply P. exists d, r. auto.
    + change ($"max_len=" ++ d ++ r) with ($"max_len" ++ $"=" ++ d ++ r).
      assert (p_param1 ($"min_len") ($"max_len" ++ $"=" ++ d ++ r) = PFail) as -> by reflexivity. cbn [p_or].
      apply P. exists d, r. auto.
Qed.

(** ** Lists of bounds *)
Lemma p_more_match s o r : p_more s = PMatch o r <->
  exists c t b, s = c ++ t ++ r /\ comma_text c /\ bound_text t b /\ o = par_of b /\ no_digit_first r.
Proof.
  unfold p_more. split.
  - rewrite pbind_match. intros (u & t & H & K). apply p_comma_sound in H. destruct H as (c & -> & H & _).
    apply p_param_sound in K. destruct K as (t' & b & -> & K). exists c, t', b. tauto.
  - intros (c & t & b & -> & H & K & -> & F). rewrite p_comma_complete; [|exact H|].
    + cbn [pbind]. apply p_param_complete; assumption.
    + destruct K as [d v _|d v _]; cbn; discriminate.
Qed.

Lemma comma_no_digit c r : comma_text c -> no_digit_first (c ++ r).
Proof. intros [n]. simpl. unfold digit. cbn. lia. Qed.

Lemma more_sound n : forall s os r, p_star p_more n s = PMatch os r ->
  exists t bs, s = t ++ r /\ os = map par_of bs /\
    (bs = [] /\ t = [] \/ exists c u, t = c ++ u /\ comma_text c /\ bounds_text u bs).
Proof.
  induction n as [|n IH]; intros s os r H; cbn [p_star] in H; [discriminate|].
  destruct (p_more s) as [o s'| |] eqn:E; try discriminate.
  - apply pbind_match in H. destruct H as (os' & s'' & H & K). inversion K; subst. clear K.
    apply IH in H. destruct H as (t & bs & -> & -> & H).
    apply p_more_match in E. destruct E as (c & t1 & b & -> & Hc & Hb & -> & F).
    exists (c ++ t1 ++ t), (b :: bs). split; [rewrite !app_assoc; reflexivity|]. split; [reflexivity|].
    right. exists c, (t1 ++ t). split; [reflexivity|]. split; [exact Hc|].
    destruct H as [(-> & ->)|(c' & u & -> & Hc' & Hu)].
    + rewrite app_nil_r. constructor. exact Hb.
    + constructor; assumption.
  - inversion H; subst. exists [], []. auto.
Qed.

Lemma more_stop n r : p_star p_more (S n) ($")" ++ r) = PMatch [] ($")" ++ r).
Proof. reflexivity. Qed.

Lemma more_complete u bs : bounds_text u bs -> forall c n r, comma_text c -> length (c ++ u ++ $")" ++ r) < n ->
  p_star p_more n (c ++ u ++ $")" ++ r) = PMatch (map par_of bs) ($")" ++ r).
Proof.
  induction 1 as [t b Hb|t b c' u bs Hb Hc' Hu IH]; intros c n r Hc L.
  - destruct n as [|n]; [lia|]. cbn [p_star].
    assert (p_more (c ++ t ++ $")" ++ r) = PMatch (par_of b) ($")" ++ r)) as ->.
    { apply p_more_match. exists c, t, b. repeat split; auto. simpl. unfold digit. cbn. lia. }
    destruct n as [|n].
    { exfalso. rewrite !app_length in L. simpl in L. lia. }
    rewrite more_stop. reflexivity.
  - destruct n as [|n]; [lia|]. cbn [p_star].
    assert (p_more (c ++ (t ++ c' ++ u) ++ $")" ++ r) = PMatch (par_of b) (c' ++ u ++ $")" ++ r)) as ->.
    { apply p_more_match. exists c, t, b. rewrite <- !app_assoc. repeat split; auto. apply comma_no_digit. exact Hc'. }
    rewrite IH; [reflexivity|exact Hc'|]. destruct Hc as [k]. rewrite !app_length in *. simpl in *. lia.
Qed.

Lemma p_params_sound s os r : p_params s = PMatch os r ->
  exists t bs, s = t ++ r /\ os = map par_of bs /\ opt_bounds_text t bs.
Proof.
  unfold p_params. destruct (p_param s) as [o s'| |] eqn:E; try discriminate.
  - rewrite pbind_match. intros (os' & s'' & H & K). inversion K; subst. clear K.
    apply p_param_sound in E. destruct E as (t & b & -> & Hb & -> & F).
    apply more_sound in H. destruct H as (t' & bs & -> & -> & H).
    exists (t ++ t'), (b :: bs). split; [rewrite app_assoc; reflexivity|]. split; [reflexivity|].
    apply bounds_some. destruct H as [(-> & ->)|(c & u & -> & Hc & Hu)].
    + rewrite app_nil_r. constructor. exact Hb.
    + constructor; assumption.
  - intros H. inversion H; subst. exists [], []. repeat split. constructor.
Qed.

Lemma p_params_complete t bs r : opt_bounds_text t bs ->
  p_params (t ++ $")" ++ r) = PMatch (map par_of bs) ($")" ++ r).
Proof.
  intros H0. destruct H0 as [|t bs H]; [reflexivity|]. unfold p_params. destruct H as [t b Hb|t b c u bs Hb Hc Hu].
  - rewrite (p_param_complete t b ($")" ++ r) Hb).
    + rewrite more_stop. reflexivity.
    + simpl. unfold digit. cbn. lia.
  - rewrite <- !app_assoc. rewrite (p_param_complete t b (c ++ u ++ $")" ++ r) Hb).
    + rewrite (more_complete u bs Hu c _ r Hc); [reflexivity|lia].
    + apply comma_no_digit. exact Hc.
Qed.

Lemma more_panic n : forall s, length s < n -> p_star p_more n s = PPanic ->
  exists c u r, s = c ++ u ++ r /\ comma_text c /\ bounds_overflow u /\ no_digit_first r.
Proof.
  induction n as [|n IH]; intros s L H; [lia|]. cbn [p_star] in H.
  destruct (p_more s) as [o s'| |] eqn:E; try discriminate.
  - pose proof (p_more_shorter _ _ _ E) as Ls. apply p_more_match in E.
    destruct E as (c & t & b & -> & Hc & Hb & -> & F). apply pbind_panic in H.
    destruct H as [H|(w & t' & _ & H)]; [|discriminate]. apply IH in H; [|lia].
    destruct H as (c' & u & r & -> & Hc' & Hu & Fr). exists c, (t ++ c' ++ u), r.
    split; [rewrite !app_assoc; reflexivity|]. split; [exact Hc|]. split; [constructor 2 with b; assumption|exact Fr].
  - clear H. unfold p_more in E. apply pbind_panic in E.
    destruct E as [E|(w & t & E & K)]; [destruct (p_comma_nopanic _ E)|].
    apply p_comma_sound in E. destruct E as (c & -> & Hc & _). apply p_param_panic in K.
    destruct K as (kw & d & r & Hk & -> & N & Hd & F & B). exists c, (kw ++ d), r.
    rewrite <- app_assoc. split; [reflexivity|]. split; [exact Hc|]. split; [constructor; assumption|exact F].
Qed.

Lemma overflow_head u r : bounds_overflow u -> exists s, u ++ r = x6d :: s.
Proof.
  intros [kw d [-> | ->] _ _ _|t b c u' [d v _|d v _] _ _]; eexists; reflexivity.
Qed.

Lemma more_panics u : bounds_overflow u -> forall c n r, comma_text c -> no_digit_first r ->
  length (c ++ u ++ r) < n -> p_star p_more n (c ++ u ++ r) = PPanic.
Proof.
  intros H. induction H as [kw d Hk N Hd B|t b c' u Hb Hc' Hu IH]; intros c n r Hc F L;
    (destruct n as [|n]; [lia|]); cbn [p_star].
  - assert (p_more (c ++ (kw ++ d) ++ r) = PPanic) as ->; [|reflexivity]. unfold p_more.
    rewrite p_comma_complete; [|exact Hc|].
    + cbn [pbind]. apply p_param_panic. exists kw, d, r. rewrite <- app_assoc. auto 10.
    + destruct Hk as [-> | ->]; cbn; discriminate.
  - assert (p_more (c ++ (t ++ c' ++ u) ++ r) = PMatch (par_of b) (c' ++ u ++ r)) as ->.
    { apply p_more_match. exists c, t, b. rewrite <- !app_assoc. repeat split; auto. apply comma_no_digit. exact Hc'. }
    rewrite IH; [reflexivity|exact Hc'|exact F|]. destruct Hc as [k]. rewrite !app_length in *. simpl in *. lia.
Qed.

Lemma p_params_panic s : p_params s = PPanic <->
  exists u r, s = u ++ r /\ bounds_overflow u /\ no_digit_first r.
Proof.
  unfold p_params. split.
  - destruct (p_param s) as [o s'| |] eqn:E; try discriminate.
    + rewrite pbind_panic. intros [H|(w & t & _ & H)]; [|discriminate]. apply more_panic in H; [|lia].
      destruct H as (c & u & r & -> & Hc & Hu & F). apply p_param_sound in E.
      destruct E as (t & b & -> & Hb & _). exists (t ++ c ++ u), r. split; [rewrite !app_assoc; reflexivity|].
      split; [constructor 2 with b; assumption|exact F].
    + intros _. apply p_param_panic in E. destruct E as (kw & d & r & Hk & -> & N & Hd & F & B).
      exists (kw ++ d), r. rewrite <- app_assoc. split; [reflexivity|]. split; [constructor; assumption|exact F].
  - intros (u & r & -> & [kw d Hk N Hd B|t b c u' Hb Hc Hu] & F).
    + assert (p_param ((kw ++ d) ++ r) = PPanic) as ->; [|reflexivity].
      apply p_param_panic. exists kw, d, r. rewrite <- app_assoc. auto 10.
    + rewrite <- !app_assoc. rewrite (p_param_complete t b _ Hb); [|apply comma_no_digit; exact Hc].
      rewrite (more_panics u' Hu c _ r Hc F); [reflexivity|lia].
Qed.

(** ** Values *)
Lemma sorted_ext l l' : StronglySorted byte_lt l -> StronglySorted byte_lt l' ->
  (forall b, In b l <-> In b l') -> l = l'.
Proof.
  revert l'. induction l as [|x l IH]; intros l' H H' E.
  - destruct l' as [|y l']; [reflexivity|]. destruct (proj2 (E y) (or_introl eq_refl)).
  - destruct l' as [|y l']; [destruct (proj1 (E x) (or_introl eq_refl))|].
    inversion H as [|? ? H1 H2]; subst. inversion H' as [|? ? H1' H2']; subst.
    rewrite Forall_forall in H2, H2'.
    assert (x = y) as ->.
    { destruct (proj1 (E x) (or_introl eq_refl)) as [->|I1]; [reflexivity|].
      destruct (proj2 (E y) (or_introl eq_refl)) as [->|I2]; [reflexivity|].
      specialize (H2 _ I2). specialize (H2' _ I1). unfold byte_lt in *. lia. }
    f_equal. apply IH; [exact H1|exact H1'|]. intros b. specialize (E b). split; intros I.
    + destruct (proj1 E (or_intror I)) as [->|I']; [|exact I']. specialize (H2 _ I). unfold byte_lt in H2. lia.
    + destruct (proj2 E (or_intror I)) as [->|I']; [|exact I']. specialize (H2' _ I). unfold byte_lt in H2'. lia.
Qed.

Lemma set_with_unique C bs n p p' : set_with C bs n p -> set_with C bs n p' -> p = p'.
Proof.
  intros (H1 & H2 & H3 & H4 & H5) (K1 & K2 & K3 & K4 & K5). destruct p as [a1 a2 a3 a4], p' as [b1 b2 b3 b4].
  cbn [sp_name sp_character_set sp_min_length sp_max_length] in *.
  f_equal; try congruence. apply sorted_ext; auto. intros b. rewrite H3, K3. tauto.
Qed.

Lemma fold_params bs : forall p,
  fold_left set_optional_param (map par_of bs) p =
  {| sp_name := sp_name p; sp_character_set := sp_character_set p;
     sp_min_length := last_min bs (sp_min_length p); sp_max_length := last_max bs (sp_max_length p) |}.
Proof.
  induction bs as [|b bs IH]; intros p; cbn [map fold_left]; [destruct p; reflexivity|].
  rewrite IH. destruct b; reflexivity.
Qed.

Lemma new_set_with chars bs n : exists p, new_set chars n (Some (map par_of bs)) = PSet p /\
  set_with (fun b => In b chars) bs n p.
Proof.
  unfold new_set, set_optional_params. rewrite fold_params. eexists. split; [reflexivity|].
  unfold set_with, set_set_name. cbn. split; [reflexivity|]. split; [apply bset_from_iter_sorted|].
  split; [intros b; apply bset_from_iter_in|auto].
Qed.
Lemma new_set_none chars n : new_set chars n None = new_set chars n (Some (map par_of [])).
Proof. reflexivity. Qed.
Lemma new_int_with bs n : exists p, new_int n (Some (map par_of bs)) = PInt p /\ set_with digit bs n p.
Proof.
  unfold new_int, set_optional_params. rewrite fold_params. eexists. split; [reflexivity|].
  unfold set_with, set_set_name, int_new, set_new.
  cbn [sp_name sp_character_set sp_min_length sp_max_length].
  split; [reflexivity|]. split; [apply bset_from_iter_sorted|].
  split; [|auto]. intros b. unfold create_set_from_str. rewrite bset_from_iter_in. apply in_digits.
Qed.
Lemma new_int_none n : new_int n None = new_int n (Some (map par_of [])).
Proof. reflexivity. Qed.

(** ** Unescaping *)
Lemma replace_skip from to s k : k <= length s -> str_replace_go from to s k = str_replace_go from to (skipn k s) 0.
Proof.
  revert k. induction s as [|x s IH]; intros k L; [destruct k; [reflexivity|simpl in L; lia]|].
  destruct k as [|k]; [reflexivity|]. cbn [str_replace_go skipn]. apply IH. simpl in L. lia.
Qed.

Lemma replace_plain from to p : ~ occurs_in from p -> str_replace from to p = p.
Proof.
  unfold str_replace. induction p as [|x p IH]; intros H; [reflexivity|]. cbn [str_replace_go].
  destruct (prefixb from (x :: p)) eqn:P.
  - apply prefixb_app in P. destruct P as (r & P). exfalso. apply H. exists [], r. exact P.
  - rewrite IH; [reflexivity|]. intros (a & b & E). apply H. exists (x :: a), b. rewrite E. reflexivity.
Qed.

Lemma replace_more from to p s : from <> [] -> borderless from -> ~ occurs_in from p ->
  str_replace from to (p ++ from ++ s) = p ++ to ++ str_replace from to s.
Proof.
  intros Nf B. unfold str_replace. induction p as [|x p IH]; intros H; cbn [app].
  - assert (prefixb from (from ++ s) = true) as P by (apply prefixb_app; eauto).
    destruct from as [|f0 from]; [congruence|]. cbn [app]. cbn [str_replace_go]. cbn [app] in P. rewrite P.
    cbn [length]. rewrite Nat.sub_succ, Nat.sub_0_r. rewrite replace_skip by (rewrite app_length; lia).
    rewrite skipn_app, skipn_all, Nat.sub_diag. reflexivity.
  - cbn [str_replace_go]. destruct (prefixb from (x :: p ++ from ++ s)) eqn:P.
    + exfalso. apply H. apply (B (x :: p) s); [discriminate|exact P].
    + rewrite IH; [reflexivity|]. intros (a & b & E). apply H. exists (x :: a), b. rewrite E. reflexivity.
Qed.

Lemma unescape_complete s u : unescaped s u -> unescape_literal s = u.
Proof.
  unfold unescape_literal. change escape_seq with escaped_begin. induction 1 as [p H|p s u H _ IH].
  - apply replace_plain. exact H.
  - change escape_seq with escaped_begin. rewrite replace_more; [rewrite IH; reflexivity|discriminate|exact escape_borderless|exact H].
Qed.

Lemma unescape_sound s : unescaped s (unescape_literal s).
Proof.
  remember (length s) as n eqn:En. revert s En. induction n as [n IH] using lt_wf_ind. intros s ->.
  pose proof (until_app escaped_begin s) as T. pose proof (until_sound escaped_begin s) as S.
  destruct (until escaped_begin s) as (a, r). destruct (S a r ltac:(discriminate) eq_refl) as (O & F).
  apply follow_app in F. destruct F as [->|(r' & ->)].
  - rewrite app_nil_r in T. subst s. unfold unescape_literal. rewrite (replace_plain _ _ _ O). constructor. exact O.
  - subst s. unfold unescape_literal.
    rewrite replace_more; [|discriminate|exact escape_borderless|exact O].
    apply unescaped_more; [exact O|]. apply (IH (length r')); [|reflexivity].
    rewrite !app_length. simpl. lia.
Qed.

(** ** Pieces *)
Notation follows r := (r = [] \/ exists r', r = parser_begin ++ r').

Lemma text_not_begin raw r : raw <> [] -> ~ occurs_in parser_begin raw -> follows r -> prefixb parser_begin (raw ++ r) = false.
Proof.
  intros N O F. destruct (prefixb parser_begin (raw ++ r)) eqn:P; [|reflexivity]. exfalso. apply O.
  destruct F as [->|(r' & ->)].
  - rewrite app_nil_r in P. apply prefixb_app in P. destruct P as (y & P). exists [], y. exact P.
  - apply (begin_borderless raw r' N P).
Qed.

Lemma p_literal_complete raw r : raw <> [] -> ~ occurs_in parser_begin raw -> follows r ->
  p_literal (raw ++ r) = PMatch raw r.
Proof. intros N O F. apply p_until_complete; auto; [discriminate|exact begin_borderless]. Qed.
Lemma p_literal_none r : follows r -> p_literal r = PFail.
Proof. intros [->|(r' & ->)]; reflexivity. Qed.

Lemma p_opt_match {A} (p : pres A) s o r : p_opt p s = PMatch o r ->
  match o with Some v => p = PMatch v r | None => p = PFail /\ r = s end.
Proof. destruct p as [v t| |]; simpl; intros H; inversion H; subst; auto. Qed.

Definition greedy_tokens (n : option str) (e : option str) : list token :=
  match e with
  | Some raw => [Parser (PGreedy {| gp_name := n; gp_end_string := Some raw |}); Literal raw]
  | None => [Parser (PGreedy {| gp_name := n; gp_end_string := None |})]
  end.

Lemma p_greedy_sound s v r : p_greedy s = PMatch v r ->
  exists t n e, item_text t (IGreedy n) /\ v = greedy_tokens n e /\ follows r /\
    match e with Some raw => s = t ++ raw ++ r /\ item_text raw (IText raw) | None => s = t ++ r end.
Proof.
  unfold p_greedy. rewrite pbind_match. intros (u1 & s1 & H & K). apply p_str_match in H. subst s.
  rewrite pbind_match in K. destruct K as (u2 & s2 & H & K). apply p_keyword_match in H. destruct H as (-> & ->).
  rewrite pbind_match in K. destruct K as (n & s3 & H & K). apply p_opt_name_sound in H. destruct H as (nt & -> & Hn).
  rewrite pbind_match in K. destruct K as (u4 & s4 & H & K). apply p_str_match in H. subst s3.
  rewrite pbind_match in K. destruct K as (e & s5 & H & K). apply p_opt_match in H.
  assert (v = greedy_tokens n e /\ s5 = r) as (-> & ->).
  { destruct e; inversion K; subst; split; reflexivity. }
  exists ($"%{GREEDY" ++ nt ++ $"}"), n, e. split; [constructor; exact Hn|]. split; [reflexivity|].
  destruct e as [raw|].
  - apply p_until_sound in H; [|discriminate]. destruct H as (-> & N & O & F).
    split; [apply follow_app; exact F|]. split; [|constructor; assumption]. rewrite <- !app_assoc. reflexivity.
  - destruct H as (H & ->). split.
    + unfold p_literal, p_until in H. pose proof (until_app parser_begin s4) as T. pose proof (until_sound parser_begin s4) as S.
      destruct (until parser_begin s4) as (a, r). destruct (S a r ltac:(discriminate) eq_refl) as (_ & F).
      destruct a; [|discriminate]. cbn [app] in T. subst. apply follow_app. exact F.
    + rewrite <- !app_assoc. reflexivity.
Qed.

Lemma p_greedy_complete t n e r : item_text t (IGreedy n) -> follows r ->
  match e with Some raw => item_text raw (IText raw) | None => True end ->
  p_greedy (t ++ match e with Some raw => raw ++ r | None => r end) = PMatch (greedy_tokens n e) r.
Proof.
  intros Ht F He. inversion Ht as [|nt n' Hn| |]; subst.
  set (z := match e with Some raw => raw ++ r | None => r end). rewrite <- !app_assoc.
  change ($"%{GREEDY" ++ nt ++ $"}" ++ z) with (parser_begin ++ $"GREEDY" ++ nt ++ $"}" ++ z).
  unfold p_greedy. rewrite p_str_app. cbn [pbind]. rewrite p_keyword_app. cbn [pbind].
  rewrite (p_opt_name_complete nt n z Hn). cbn [pbind]. rewrite p_str_app. cbn [pbind]. subst z.
  destruct e as [raw|].
  - inversion He; subst. rewrite p_literal_complete; auto.
  - rewrite p_literal_none; auto.
Qed.

Lemma opt_set_params_sound s o r : p_opt (p_set_params s) s = PMatch o r ->
  exists t bs, s = t ++ r /\ set_bounds_text t bs /\
    forall chars n, new_set chars n o = new_set chars n (Some (map par_of bs)).
Proof.
  intros H. apply p_opt_match in H. destruct o as [os|].
  - unfold p_set_params in H. rewrite pbind_match in H. destruct H as (u & s1 & H & K).
    apply p_comma_sound in H. destruct H as (c & -> & Hc & _). apply p_params_sound in K.
    destruct K as (t & bs & -> & -> & K). exists (c ++ t), bs. split; [rewrite app_assoc; reflexivity|].
    split; [constructor; assumption|reflexivity].
  - destruct H as (_ & ->). exists [], []. split; [reflexivity|]. split; [constructor|reflexivity].
Qed.

Lemma opt_bounds_head t bs r : opt_bounds_text t bs -> exists b s, t ++ $")" ++ r = b :: s /\ b <> x20.
Proof.
  intros [|t' bs' [t0 b [d v _|d v _]|t0 b c u bs0 [d v _|d v _] _ _]];
    eexists; eexists; (split; [reflexivity|discriminate]).
Qed.

Lemma opt_set_params_complete t bs r : set_bounds_text t bs ->
  exists o, p_opt (p_set_params (t ++ $")" ++ r)) (t ++ $")" ++ r) = PMatch o ($")" ++ r) /\
    forall chars n, new_set chars n o = new_set chars n (Some (map par_of bs)).
Proof.
  intros [|c t' bs' Hc Ht].
  - exists None. split; reflexivity.
  - exists (Some (map par_of bs')). split; [|reflexivity]. unfold p_set_params. rewrite <- app_assoc.
    rewrite p_comma_complete; [|exact Hc|].
    + cbn [pbind]. rewrite (p_params_complete _ _ _ Ht). reflexivity.
    + destruct (opt_bounds_head t' bs' r Ht) as (b & s & -> & N). exact N.
Qed.

Lemma opt_int_params_sound s o r : p_opt (p_int_params s) s = PMatch o r ->
  exists t bs, s = t ++ r /\ int_bounds_text t bs /\
    forall n, new_int n o = new_int n (Some (map par_of bs)).
Proof.
  intros H. apply p_opt_match in H. destruct o as [os|].
  - unfold p_int_params in H. rewrite pbind_match in H. destruct H as (u & s1 & H & K).
    apply p_str_match in H. subst s. rewrite pbind_match in K. destruct K as (os' & s2 & H & K).
    apply p_params_sound in H. destruct H as (t & bs & -> & -> & H).
    rewrite pbind_match in K. destruct K as (u' & s3 & H' & K). apply p_str_match in H'. subst s2. inversion K; subst.
    exists ($"(" ++ t ++ $")"), bs. split; [rewrite <- !app_assoc; reflexivity|]. split; [constructor; exact H|reflexivity].
  - destruct H as (_ & ->). exists [], []. split; [reflexivity|]. split; [constructor|reflexivity].
Qed.

Lemma name_text_not_paren nt n r : name_text nt n -> prefixb ($"(") (nt ++ $"}" ++ r) = false.
Proof. intros [|n' _]; reflexivity. Qed.

Lemma opt_int_params_complete t bs nt n r : int_bounds_text t bs -> name_text nt n ->
  exists o, p_opt (p_int_params (t ++ nt ++ $"}" ++ r)) (t ++ nt ++ $"}" ++ r) = PMatch o (nt ++ $"}" ++ r) /\
    forall n, new_int n o = new_int n (Some (map par_of bs)).
Proof.
  intros [|t' bs' Ht] Hn.
  - exists None. split; [|reflexivity]. cbn [app]. unfold p_int_params.
    pose proof (name_text_not_paren nt n r Hn) as P. apply p_str_fail in P. rewrite P. reflexivity.
  - exists (Some (map par_of bs')). split; [|reflexivity]. unfold p_int_params. rewrite <- !app_assoc.
    rewrite p_str_app. cbn [pbind]. rewrite (p_params_complete _ _ _ Ht). cbn [pbind]. rewrite p_str_app. reflexivity.
Qed.

Lemma p_set_sound s q r : p_set s = PMatch q r -> exists chars bt bs nt n p,
  s = $"SET(""" ++ chars ++ $"""" ++ bt ++ $")" ++ nt ++ r /\ chars <> [] /\ ~ In x22 chars /\
  set_bounds_text bt bs /\ name_text nt n /\ q = PSet p /\ set_with (fun b => In b chars) bs n p.
Proof.
  unfold p_set. rewrite pbind_match. intros (u1 & s1 & H & K). apply p_keyword_match in H. destruct H as (-> & ->).
  rewrite pbind_match in K. destruct K as (u2 & s2 & H & K). apply p_str_match in H. subst s1.
  rewrite pbind_match in K. destruct K as (chars & s3 & H & K). apply p_string_sound in H. destruct H as (-> & N & Q).
  rewrite pbind_match in K. destruct K as (o & s4 & H & K). apply opt_set_params_sound in H.
  destruct H as (bt & bs & -> & Hb & Ho).
  rewrite pbind_match in K. destruct K as (u5 & s5 & H & K). apply p_str_match in H. subst s4.
  rewrite pbind_match in K. destruct K as (n & s6 & H & K). apply p_opt_name_sound in H. destruct H as (nt & -> & Hn).
  inversion K; subst. destruct (new_set_with chars bs n) as (p & E & Hp).
  exists chars, bt, bs, nt, n, p. split; [reflexivity|]. rewrite Ho, E. auto 10.
Qed.

Lemma p_int_parser_sound s q r : p_int_parser s = PMatch q r -> exists bt bs nt n p,
  s = $"INT" ++ bt ++ nt ++ r /\ int_bounds_text bt bs /\ name_text nt n /\ q = PInt p /\ set_with digit bs n p.
Proof.
  unfold p_int_parser. rewrite pbind_match. intros (u1 & s1 & H & K). apply p_keyword_match in H. destruct H as (-> & ->).
  rewrite pbind_match in K. destruct K as (o & s4 & H & K). apply opt_int_params_sound in H.
  destruct H as (bt & bs & -> & Hb & Ho).
  rewrite pbind_match in K. destruct K as (n & s6 & H & K). apply p_opt_name_sound in H. destruct H as (nt & -> & Hn).
  inversion K; subst. destruct (new_int_with bs n) as (p & E & Hp).
  exists bt, bs, nt, n, p. split; [reflexivity|]. rewrite Ho, E. auto.
Qed.

(** What one item other than text means. *)
Definition parser_item (i : item) (q : parser) : Prop :=
  match i with
  | ISet chars bs n => exists p, q = PSet p /\ set_with (fun b => In b chars) bs n p
  | IInt bs n => exists p, q = PInt p /\ set_with digit bs n p
  | _ => False
  end.

Lemma p_piece_parser_sound s v r : p_piece_parser s = PMatch v r ->
  exists t i q, s = t ++ r /\ item_text t i /\ parser_item i q /\ v = [Parser q].
Proof.
  unfold p_piece_parser. rewrite pbind_match. intros (u1 & s1 & H & K). apply p_str_match in H. subst s.
  rewrite pbind_match in K. destruct K as (q & s2 & H & K).
  rewrite pbind_match in K. destruct K as (u3 & s3 & H' & K). apply p_str_match in H'. subst s2. inversion K; subst.
  destruct (p_set s1) as [q' r'| |] eqn:E; cbn [p_or] in H; try discriminate.
  - inversion H; subst. apply p_set_sound in E.
    destruct E as (chars & bt & bs & nt & n & p & -> & N & Q & Hb & Hn & -> & Hp).
    eexists. exists (ISet chars bs n), (PSet p). split; [|split; [apply text_set; eassumption|]].
    + rewrite <- !app_assoc. reflexivity.
    + split; [exists p; auto|reflexivity].
  - apply p_int_parser_sound in H. destruct H as (bt & bs & nt & n & p & -> & Hb & Hn & -> & Hp).
    eexists. exists (IInt bs n), (PInt p). split; [|split; [apply text_int; eassumption|]].
    + rewrite <- !app_assoc. reflexivity.
    + split; [exists p; auto|reflexivity].
Qed.

Lemma p_piece_parser_complete t i q r : item_text t i -> parser_item i q ->
  p_piece_parser (t ++ r) = PMatch [Parser q] r /\ p_greedy (t ++ r) = PFail /\ p_piece_literal (t ++ r) = PFail.
Proof.
  intros Ht Hq. destruct Ht as [raw _ _|nt n _|chars bt bs nt n N Q Hb Hn|bt bs nt n Hb Hn]; try contradiction.
  - destruct Hq as (p & -> & Hp). rewrite <- !app_assoc. split; [|split; reflexivity].
    change ($"%{SET(""" ++ chars ++ $"""" ++ bt ++ $")" ++ nt ++ $"}" ++ r) with
      (parser_begin ++ $"SET" ++ $"(" ++ $"""" ++ chars ++ $"""" ++ bt ++ $")" ++ nt ++ $"}" ++ r).
    unfold p_piece_parser. rewrite p_str_app. cbn [pbind]. unfold p_set. rewrite p_keyword_app. cbn [pbind].
    rewrite p_str_app. cbn [pbind]. rewrite (p_string_complete chars _ N Q). cbn [pbind].
    destruct (opt_set_params_complete bt bs (nt ++ $"}" ++ r) Hb) as (o & -> & Ho). cbn [pbind].
    rewrite p_str_app. cbn [pbind]. rewrite (p_opt_name_complete nt n r Hn). cbn [pbind p_or].
    rewrite p_str_app. cbn [pbind]. rewrite Ho. destruct (new_set_with chars bs n) as (p' & -> & Hp').
    rewrite (set_with_unique _ _ _ _ _ Hp Hp'). reflexivity.
  - destruct Hq as (p & -> & Hp). rewrite <- !app_assoc. split; [|split; reflexivity].
    change ($"%{INT" ++ bt ++ nt ++ $"}" ++ r) with (parser_begin ++ $"INT" ++ bt ++ nt ++ $"}" ++ r).
    unfold p_piece_parser. rewrite p_str_app. cbn [pbind].
    assert (p_set ($"INT" ++ bt ++ nt ++ $"}" ++ r) = PFail) as -> by reflexivity. cbn [p_or].
    unfold p_int_parser. rewrite p_keyword_app. cbn [pbind].
    destruct (opt_int_params_complete bt bs nt n r Hb Hn) as (o & -> & Ho). cbn [pbind].
    rewrite (p_opt_name_complete nt n r Hn). cbn [pbind].
    rewrite p_str_app. cbn [pbind]. rewrite Ho. destruct (new_int_with bs n) as (p' & -> & Hp').
    rewrite (set_with_unique _ _ _ _ _ Hp Hp'). reflexivity.
Qed.

Lemma p_greedy_not_begin s : prefixb parser_begin s = false -> p_greedy s = PFail.
Proof. intros P. unfold p_greedy. apply p_str_fail in P. rewrite P. reflexivity. Qed.

(** Every piece is one item, or GREEDY and the text after it. *)
Lemma p_piece_sound s v r : p_piece s = PMatch v r ->
  (exists raw, s = raw ++ r /\ item_text raw (IText raw) /\ follows r /\ prefixb parser_begin s = false /\
     v = [Literal (unescape_literal raw)]) \/
  (exists t n e, item_text t (IGreedy n) /\ v = greedy_tokens n e /\ follows r /\
     match e with Some raw => s = t ++ raw ++ r /\ item_text raw (IText raw) | None => s = t ++ r end) \/
  (exists t i q, s = t ++ r /\ item_text t i /\ parser_item i q /\ v = [Parser q]).
Proof.
  unfold p_piece. destruct (p_greedy s) as [v' r'| |] eqn:G; cbn [p_or]; intros H; try discriminate.
  - inversion H; subst. right. left. apply p_greedy_sound. exact G.
  - destruct (p_piece_literal s) as [v' r'| |] eqn:E; cbn [p_or] in H; try discriminate.
    + inversion H; subst. left. unfold p_piece_literal in E. rewrite pbind_match in E.
      destruct E as (raw & s1 & E & K). apply p_until_sound in E; [|discriminate].
      destruct E as (-> & N & O & F). inversion K; subst. apply follow_app in F. exists raw.
      split; [reflexivity|]. split; [constructor; assumption|]. split; [exact F|]. split; [|reflexivity].
      apply text_not_begin; assumption.
    + right. right. apply p_piece_parser_sound. exact H.
Qed.

Lemma item_head t i r : item_text t i -> is_text i = false -> exists r', t ++ r = parser_begin ++ r'.
Proof. intros K H. destruct K; try discriminate; eexists; rewrite <- !app_assoc; reflexivity. Qed.

Lemma items_follow s is : items_text s is -> match is with i :: _ => is_text i = false | [] => True end -> follows s.
Proof.
  intros K H. destruct K as [|t i s' is' Ht _]; [left; reflexivity|]. right. apply (item_head t i s' Ht H).
Qed.

(** ** The loop over the pieces *)
Lemma items_follow_app s is z : items_text s is ->
  match is with i :: _ => is_text i = false | [] => True end -> follows z -> follows (s ++ z).
Proof.
  intros K H F. destruct K as [|t i s' is' Ht _]; [exact F|]. right. rewrite <- app_assoc.
  apply (item_head t i (s' ++ z) Ht H).
Qed.

Lemma texts_apart_text x is : texts_apart (IText x :: is) ->
  match is with i :: _ => is_text i = false | [] => True end /\ texts_apart is.
Proof.
  destruct is as [|i is]; intros H; [split; exact I|]. destruct H as (H1 & H2). split; [|exact H2].
  destruct i; try reflexivity. exfalso. apply H1. split; reflexivity.
Qed.
Lemma texts_apart_tl x is : texts_apart (x :: is) -> texts_apart is.
Proof. destruct is as [|i is]; intros H; [exact I|]. exact (proj2 H). Qed.

(** The items in front of [z] are read; then the loop is at [z]. *)
Lemma star_prefix is ts : meaning is ts -> forall s z n, items_text s is -> texts_apart is -> follows z ->
  length (s ++ z) < n ->
  exists vs m, length z < m /\ concat vs = ts /\ (vs = [] <-> is = []) /\
    p_star p_piece n (s ++ z) = pbind (p_star p_piece m z) (fun vs' r => PMatch (vs ++ vs') r).
Proof.
  assert (forall v vs' s' k m z, p_star p_piece k s' = pbind (p_star p_piece m z) (fun ws r => PMatch (vs' ++ ws) r) ->
            pbind (p_star p_piece k s') (fun vs r => PMatch (v :: vs) r) =
            pbind (p_star p_piece m z) (fun ws r => PMatch ((v :: vs') ++ ws) r)) as ST.
  { intros v vs' s' k m z ->. destruct (p_star p_piece m z); reflexivity. }
  induction 1 as [|raw u is ts Hu _ IH|n raw is ts _ IH|n is ts Hh _ IH|chars bs n p is ts Hp _ IH|bs n p is ts Hp _ IH];
    intros s z k Hs Ha Fz L; inversion Hs as [|t i s' is' Ht Hs']; subst.
  - exists [], k. split; [exact L|]. repeat split; auto. cbn [app]. destruct (p_star p_piece k z); reflexivity.
  - destruct k as [|k]; [lia|]. cbn [p_star].
    inversion Ht; subst. destruct (texts_apart_text _ _ Ha) as (A1 & A2).
    pose proof (items_follow_app _ _ z Hs' A1 Fz) as F. rewrite <- app_assoc in *.
    assert (p_piece (raw ++ s' ++ z) = PMatch [Literal u] (s' ++ z)) as ->.
    { unfold p_piece. rewrite p_greedy_not_begin by (apply text_not_begin; assumption). cbn [p_or].
      unfold p_piece_literal. rewrite p_literal_complete by assumption. cbn [pbind p_or].
      rewrite (unescape_complete _ _ Hu). reflexivity. }
    destruct (IH s' z k Hs' A2 Fz) as (vs & m & Lm & E & _ & ES).
    { rewrite app_length in L. destruct raw; [congruence|]. simpl in L. lia. }
    exists ([Literal u] :: vs), m. split; [exact Lm|]. split; [simpl; rewrite E; reflexivity|].
    split; [split; discriminate|]. apply ST. exact ES.
  - destruct k as [|k]; [lia|]. cbn [p_star].
    pose proof (texts_apart_tl _ _ Ha) as A1. destruct (texts_apart_text _ _ A1) as (A2 & A3).
    inversion Hs' as [|t2 i2 s2 is2 Ht2 Hs2]; subst. inversion Ht2; subst.
    pose proof (items_follow_app _ _ z Hs2 A2 Fz) as F. rewrite <- !app_assoc in *.
    assert (p_piece (t ++ raw ++ s2 ++ z) = PMatch (greedy_tokens n (Some raw)) (s2 ++ z)) as ->.
    { unfold p_piece. pose proof (p_greedy_complete t n (Some raw) (s2 ++ z) Ht F Ht2) as G. cbv iota in G.
      rewrite G. reflexivity. }
    destruct (IH s2 z k Hs2 A3 Fz) as (vs & m & Lm & E & _ & ES).
    { rewrite !app_length in *. destruct raw; [congruence|]. simpl in L. lia. }
    exists (greedy_tokens n (Some raw) :: vs), m. split; [exact Lm|]. split; [simpl; rewrite E; reflexivity|].
    split; [split; discriminate|]. apply ST. exact ES.
  - destruct k as [|k]; [lia|]. cbn [p_star].
    pose proof (texts_apart_tl _ _ Ha) as A1. pose proof (items_follow_app _ _ z Hs' Hh Fz) as F.
    rewrite <- app_assoc in *.
    assert (p_piece (t ++ s' ++ z) = PMatch (greedy_tokens n None) (s' ++ z)) as ->.
    { unfold p_piece. pose proof (p_greedy_complete t n None (s' ++ z) Ht F I) as G. cbv iota in G.
      rewrite G. reflexivity. }
    destruct (IH s' z k Hs' A1 Fz) as (vs & m & Lm & E & _ & ES).
    { rewrite app_length in L. inversion Ht; subst. rewrite app_length in L. simpl in L. lia. }
    exists (greedy_tokens n None :: vs), m. split; [exact Lm|]. split; [simpl; rewrite E; reflexivity|].
    split; [split; discriminate|]. apply ST. exact ES.
  - destruct k as [|k]; [lia|]. cbn [p_star]. pose proof (texts_apart_tl _ _ Ha) as A1. rewrite <- app_assoc in *.
    destruct (p_piece_parser_complete t (ISet chars bs n) (PSet p) (s' ++ z) Ht (ex_intro _ p (conj eq_refl Hp))) as (E1 & E2 & E3).
    assert (p_piece (t ++ s' ++ z) = PMatch [Parser (PSet p)] (s' ++ z)) as ->.
    { unfold p_piece. rewrite E2, E3, E1. reflexivity. }
    destruct (IH s' z k Hs' A1 Fz) as (vs & m & Lm & E & _ & ES).
    { rewrite app_length in L. inversion Ht; subst. rewrite app_length in L. simpl in L. lia. }
    exists ([Parser (PSet p)] :: vs), m. split; [exact Lm|]. split; [simpl; rewrite E; reflexivity|].
    split; [split; discriminate|]. apply ST. exact ES.
  - destruct k as [|k]; [lia|]. cbn [p_star]. pose proof (texts_apart_tl _ _ Ha) as A1. rewrite <- app_assoc in *.
    destruct (p_piece_parser_complete t (IInt bs n) (PInt p) (s' ++ z) Ht (ex_intro _ p (conj eq_refl Hp))) as (E1 & E2 & E3).
    assert (p_piece (t ++ s' ++ z) = PMatch [Parser (PInt p)] (s' ++ z)) as ->.
    { unfold p_piece. rewrite E2, E3, E1. reflexivity. }
    destruct (IH s' z k Hs' A1 Fz) as (vs & m & Lm & E & _ & ES).
    { rewrite app_length in L. inversion Ht; subst. rewrite app_length in L. simpl in L. lia. }
    exists ([Parser (PInt p)] :: vs), m. split; [exact Lm|]. split; [simpl; rewrite E; reflexivity|].
    split; [split; discriminate|]. apply ST. exact ES.
Qed.

Lemma star_complete is ts s n : meaning is ts -> items_text s is -> texts_apart is -> length s < n ->
  exists vs, p_star p_piece n s = PMatch vs [] /\ concat vs = ts /\ (vs = [] <-> is = []).
Proof.
  intros Hm Hs Ha L. destruct (star_prefix is ts Hm s [] n Hs Ha (or_introl eq_refl)) as (vs & m & Lm & E & V & ES).
  { rewrite app_nil_r. exact L. }
  rewrite app_nil_r in ES. destruct m as [|m]; [simpl in Lm; lia|].
  assert (p_star p_piece (S m) [] = PMatch [] []) as E0 by reflexivity. rewrite E0 in ES. cbn [pbind] in ES.
  rewrite app_nil_r in ES. eauto.
Qed.

Definition head_text (is : list item) : Prop := match is with i :: _ => is_text i = true | [] => False end.

Lemma texts_apart_cons i is : texts_apart is -> ~ (is_text i = true /\ head_text is) -> texts_apart (i :: is).
Proof. destruct is as [|j is]; intros H N; [exact I|]. split; [exact N|exact H]. Qed.

(** One piece in front of items. *)
Lemma piece_in_front s v s' : p_piece s = PMatch v s' -> forall t is ts r, s' = t ++ r -> items_text t is ->
  texts_apart is -> meaning is ts -> (head_text is -> prefixb parser_begin s' = false) ->
  exists t' is', s = t' ++ r /\ items_text t' is' /\ texts_apart is' /\ meaning is' (v ++ ts) /\ is' <> [] /\
    (head_text is' -> prefixb parser_begin s = false).
Proof.
  intros H t is ts r -> Ht Ha Hm Hh.
  assert (forall z, follows z -> (head_text is -> prefixb parser_begin z = false) -> head_text is -> z = []) as FH.
  { intros z [->|(r' & ->)] Q HT; [reflexivity|]. specialize (Q HT).
    assert (prefixb parser_begin (parser_begin ++ r') = true) by (apply prefixb_app; eauto). congruence. }
  assert (follows (t ++ r) -> ~ head_text is) as FN.
  { intros F HT. pose proof (FH _ F Hh HT) as E. apply app_eq_nil in E. destruct E as (-> & _).
    destruct is as [|i is]; [exact HT|]. inversion Ht as [|t1 i1 s1 is1 Ht1 _ E1]; subst.
    apply app_eq_nil in E1. destruct E1 as (-> & _). inversion Ht1; subst; congruence. }
  destruct (p_piece_sound _ _ _ H) as [(raw & -> & Hr & F & P & ->)|[(t0 & n & e & H0 & -> & F & K)|(t0 & i & q & -> & H0 & Hq & ->)]].
  - exists (raw ++ t), (IText raw :: is). split; [apply app_assoc|]. split; [constructor; assumption|].
    split; [apply texts_apart_cons; [exact Ha|]; intros (_ & HT); apply (FN F HT)|].
    split; [constructor; [apply unescape_sound|exact Hm]|]. split; [discriminate|]. intros _. exact P.
  - destruct e as [raw|].
    + destruct K as (-> & Hr). exists (t0 ++ raw ++ t), (IGreedy n :: IText raw :: is).
      split; [rewrite !app_assoc; reflexivity|]. split; [constructor; [exact H0|constructor; assumption]|].
      split.
      { apply texts_apart_cons; [|intros (? & _); discriminate]. apply texts_apart_cons; [exact Ha|].
        intros (_ & HT). apply (FN F HT). }
      split; [apply means_greedy_text; exact Hm|]. split; [discriminate|]. simpl. discriminate.
    + subst s. exists (t0 ++ t), (IGreedy n :: is). split; [apply app_assoc|]. split; [constructor; assumption|].
      split; [apply texts_apart_cons; [exact Ha|]; intros (? & _); discriminate|].
      split; [|split; [discriminate|simpl; discriminate]]. apply means_greedy; [|exact Hm].
      specialize (FN F). destruct is as [|i is]; [exact I|]. simpl in FN. destruct (is_text i); [exfalso; auto|reflexivity].
  - exists (t0 ++ t), (i :: is). split; [apply app_assoc|]. split; [constructor; assumption|].
    split; [apply texts_apart_cons; [exact Ha|]; intros (E & _); destruct i; try discriminate; contradiction|].
    split; [|split; [discriminate|]].
    + destruct i as [|n|chars bs n|bs n]; try contradiction; destruct Hq as (p & -> & Hp); constructor; assumption.
    + intros E. destruct i; try discriminate; contradiction.
Qed.

Lemma star_sound n : forall s vs r, p_star p_piece n s = PMatch vs r ->
  exists t is, s = t ++ r /\ items_text t is /\ texts_apart is /\ meaning is (concat vs) /\
    (vs <> [] -> is <> []) /\ (head_text is -> prefixb parser_begin s = false).
Proof.
  induction n as [|n IH]; intros s vs r H; cbn [p_star] in H; [discriminate|].
  destruct (p_piece s) as [v s'| |] eqn:E; try discriminate.
  - apply pbind_match in H. destruct H as (vs' & s'' & H & K). inversion K; subst. clear K.
    apply IH in H. destruct H as (t & is & E' & Ht & Ha & Hm & _ & Hh).
    destruct (piece_in_front s v s' E t is (concat vs') r E' Ht Ha Hm Hh) as (t' & is' & G1 & G2 & G3 & G4 & G5 & G6).
    exists t', is'. auto 10.
  - inversion H; subst. exists [], []. repeat split; auto; try constructor. simpl. tauto.
Qed.

(** ** Panics *)
Lemma p_or_panic {A} (p q : pres A) : p_or p q = PPanic <-> p = PPanic \/ p = PFail /\ q = PPanic.
Proof.
  destruct p; simpl; split; intros H; try discriminate; try tauto; try (destruct H as [H|(H & _)]; discriminate).
  destruct H as [H|(_ & H)]; [discriminate|exact H].
Qed.
Lemma p_opt_panic {A} (p : pres A) s : p_opt p s = PPanic <-> p = PPanic.
Proof. destruct p; simpl; split; congruence. Qed.

Lemma p_greedy_nopanic s : p_greedy s <> PPanic.
Proof.
  unfold p_greedy. rewrite pbind_panic. intros [H|(u & t & _ & H)]; [apply (p_str_nopanic _ _ H)|].
  rewrite pbind_panic in H. destruct H as [H|(v2 & t2 & _ & H)]; [apply (p_keyword_nopanic _ _ H)|].
  rewrite pbind_panic in H. destruct H as [H|(v3 & t3 & _ & H)].
  { apply p_opt_panic in H. apply (p_name_nopanic _ H). }
  rewrite pbind_panic in H. destruct H as [H|(v4 & t4 & _ & H)]; [apply (p_str_nopanic _ _ H)|].
  rewrite pbind_panic in H. destruct H as [H|(v5 & t5 & _ & H)]; [|destruct v5; discriminate].
  apply p_opt_panic in H. apply (p_until_nopanic _ _ H).
Qed.
Lemma p_piece_literal_nopanic s : p_piece_literal s <> PPanic.
Proof.
  unfold p_piece_literal. rewrite pbind_panic. intros [H|(u & t & _ & H)]; [|discriminate].
  apply (p_until_nopanic _ _ H).
Qed.

Lemma p_set_panic s : p_set s = PPanic <-> exists chars c u r,
  s = $"SET(""" ++ chars ++ $"""" ++ c ++ u ++ r /\ chars <> [] /\ ~ In x22 chars /\ comma_text c /\
  bounds_overflow u /\ no_digit_first r.
Proof.
  unfold p_set. split.
  - rewrite pbind_panic. intros [H|(u1 & s1 & H & K)]; [destruct (p_keyword_nopanic _ _ H)|].
    apply p_keyword_match in H. destruct H as (-> & ->).
    rewrite pbind_panic in K. destruct K as [K|(u2 & s2 & H & K)]; [destruct (p_str_nopanic _ _ K)|].
    apply p_str_match in H. subst s1.
    rewrite pbind_panic in K. destruct K as [K|(chars & s3 & H & K)]; [destruct (p_string_nopanic _ K)|].
    apply p_string_sound in H. destruct H as (-> & N & Q).
    rewrite pbind_panic in K. destruct K as [K|(o & s4 & H & K)].
    + apply p_opt_panic in K. unfold p_set_params in K. rewrite pbind_panic in K.
      destruct K as [K|(u4 & s4 & H & K)]; [destruct (p_comma_nopanic _ K)|].
      apply p_comma_sound in H. destruct H as (c & -> & Hc & _). apply p_params_panic in K.
      destruct K as (u & r & -> & Hu & F). exists chars, c, u, r. auto 10.
    + exfalso. rewrite pbind_panic in K. destruct K as [K|(u5 & s5 & _ & K)]; [destruct (p_str_nopanic _ _ K)|].
      rewrite pbind_panic in K. destruct K as [K|(u6 & s6 & _ & K)]; [|discriminate].
      apply p_opt_panic in K. apply (p_name_nopanic _ K).
  - intros (chars & c & u & r & -> & N & Q & Hc & Hu & F).
    change ($"SET(""" ++ chars ++ $"""" ++ c ++ u ++ r) with ($"SET" ++ $"(" ++ $"""" ++ chars ++ $"""" ++ c ++ u ++ r).
    rewrite p_keyword_app. cbn [pbind]. rewrite p_str_app. cbn [pbind]. rewrite (p_string_complete chars _ N Q).
    cbn [pbind]. unfold p_set_params. rewrite p_comma_complete; [|exact Hc|].
    + cbn [pbind]. assert (p_params (u ++ r) = PPanic) as ->; [|reflexivity]. apply p_params_panic. eauto.
    + destruct (overflow_head u r Hu) as (z & ->). discriminate.
Qed.

Lemma p_int_parser_panic s : p_int_parser s = PPanic <-> exists u r,
  s = $"INT(" ++ u ++ r /\ bounds_overflow u /\ no_digit_first r.
Proof.
  unfold p_int_parser. split.
  - rewrite pbind_panic. intros [H|(u1 & s1 & H & K)]; [destruct (p_keyword_nopanic _ _ H)|].
    apply p_keyword_match in H. destruct H as (-> & ->).
    rewrite pbind_panic in K. destruct K as [K|(o & s4 & H & K)].
    + apply p_opt_panic in K. unfold p_int_params in K. rewrite pbind_panic in K.
      destruct K as [K|(u4 & s4 & H & K)]; [destruct (p_str_nopanic _ _ K)|].
      apply p_str_match in H. subst s1. rewrite pbind_panic in K. destruct K as [K|(os & s5 & H & K)].
      * apply p_params_panic in K. destruct K as (u & r & -> & Hu & F). exists u, r. auto.
      * exfalso. rewrite pbind_panic in K. destruct K as [K|(u6 & s6 & _ & K)]; [destruct (p_str_nopanic _ _ K)|discriminate].
    + exfalso. rewrite pbind_panic in K. destruct K as [K|(u6 & s6 & _ & K)]; [|discriminate].
      apply p_opt_panic in K. apply (p_name_nopanic _ K).
  - intros (u & r & -> & Hu & F). change ($"INT(" ++ u ++ r) with ($"INT" ++ $"(" ++ u ++ r).
    rewrite p_keyword_app. cbn [pbind]. unfold p_int_params. rewrite p_str_app. cbn [pbind].
    assert (p_params (u ++ r) = PPanic) as ->; [|reflexivity]. apply p_params_panic. eauto.
Qed.

Lemma p_piece_panic s : p_piece s = PPanic <-> exists u r, s = u ++ r /\ item_overflow u /\ no_digit_first r.
Proof.
  unfold p_piece. split.
  - rewrite p_or_panic. intros [H|(_ & H)]; [destruct (p_greedy_nopanic _ H)|].
    rewrite p_or_panic in H. destruct H as [H|(_ & H)]; [destruct (p_piece_literal_nopanic _ H)|].
    unfold p_piece_parser in H. rewrite pbind_panic in H.
    destruct H as [H|(u1 & s1 & E & H)]; [destruct (p_str_nopanic _ _ H)|]. apply p_str_match in E. subst s.
    rewrite pbind_panic in H. destruct H as [H|(q & s2 & _ & H)].
    + rewrite p_or_panic in H. destruct H as [H|(_ & H)].
      * apply p_set_panic in H. destruct H as (chars & c & u & r & -> & N & Q & Hc & Hu & F).
        exists ($"%{SET(""" ++ chars ++ $"""" ++ c ++ u), r. split; [rewrite <- !app_assoc; reflexivity|].
        split; [constructor; assumption|exact F].
      * apply p_int_parser_panic in H. destruct H as (u & r & -> & Hu & F).
        exists ($"%{INT(" ++ u), r. split; [rewrite <- !app_assoc; reflexivity|].
        split; [constructor; assumption|exact F].
    + exfalso. rewrite pbind_panic in H. destruct H as [H|(u3 & s3 & _ & H)]; [destruct (p_str_nopanic _ _ H)|discriminate].
  - intros (v & r & -> & [u Hu|chars c u N Q Hc Hu] & F); rewrite <- !app_assoc.
    + change ($"%{INT(" ++ u ++ r) with (parser_begin ++ $"INT(" ++ u ++ r).
      assert (p_greedy (parser_begin ++ $"INT(" ++ u ++ r) = PFail) as -> by reflexivity.
      assert (p_piece_literal (parser_begin ++ $"INT(" ++ u ++ r) = PFail) as -> by reflexivity. cbn [p_or].
      unfold p_piece_parser. rewrite p_str_app. cbn [pbind].
      assert (p_set ($"INT(" ++ u ++ r) = PFail) as -> by reflexivity. cbn [p_or].
      assert (p_int_parser ($"INT(" ++ u ++ r) = PPanic) as ->; [|reflexivity]. apply p_int_parser_panic. eauto.
    + change ($"%{SET(""" ++ chars ++ $"""" ++ c ++ u ++ r) with (parser_begin ++ $"SET(""" ++ chars ++ $"""" ++ c ++ u ++ r).
      assert (p_greedy (parser_begin ++ $"SET(""" ++ chars ++ $"""" ++ c ++ u ++ r) = PFail) as -> by reflexivity.
      assert (p_piece_literal (parser_begin ++ $"SET(""" ++ chars ++ $"""" ++ c ++ u ++ r) = PFail) as -> by reflexivity. cbn [p_or].
      unfold p_piece_parser. rewrite p_str_app. cbn [pbind].
      assert (p_set ($"SET(""" ++ chars ++ $"""" ++ c ++ u ++ r) = PPanic) as ->; [|reflexivity].
      apply p_set_panic. exists chars, c, u, r. auto 10.
Qed.

Lemma star_panic n : forall s, length s < n -> p_star p_piece n s = PPanic ->
  exists t is u r, s = t ++ u ++ r /\ items_text t is /\ texts_apart is /\ item_overflow u /\ no_digit_first r /\
    (head_text is -> prefixb parser_begin s = false) /\ exists ts, meaning is ts.
Proof.
  induction n as [|n IH]; intros s L H; [lia|]. cbn [p_star] in H.
  destruct (p_piece s) as [v s'| |] eqn:E; try discriminate.
  - pose proof (p_piece_shorter _ _ _ E) as Ls. apply pbind_panic in H.
    destruct H as [H|(w & t & _ & H)]; [|discriminate]. apply IH in H; [|lia].
    destruct H as (t & is & u & r & E' & Ht & Ha & Hu & F & Hh & ts & Hm).
    destruct (piece_in_front s v s' E t is ts (u ++ r) E' Ht Ha Hm Hh) as (t' & is' & G1 & G2 & G3 & G4 & G5 & G6).
    exists t', is', u, r. split; [exact G1|]. repeat (split; [assumption|]). eexists. exact G4.
  - clear H. apply p_piece_panic in E. destruct E as (u & r & -> & Hu & F).
    exists [], [], u, r. split; [reflexivity|]. split; [constructor|]. split; [exact I|].
    split; [exact Hu|]. split; [exact F|]. split; [simpl; tauto|]. exists []. constructor.
Qed.

Lemma meaning_total is : exists ts, meaning is ts.
Proof.
  remember (length is) as n eqn:En. revert is En. induction n as [n IH] using lt_wf_ind. intros is ->.
  destruct is as [|i is]; [exists []; constructor|]. destruct i as [raw|n|chars bs n|bs n].
  - destruct (IH (length is) ltac:(simpl; lia) is eq_refl) as (ts & H). eexists. constructor; [apply unescape_sound|exact H].
  - destruct is as [|j is]; [eexists; apply means_greedy; [exact I|constructor]|].
    destruct (is_text j) eqn:T.
    + destruct j; try discriminate. destruct (IH (length is) ltac:(simpl; lia) is eq_refl) as (ts & H).
      eexists. apply means_greedy_text. exact H.
    + destruct (IH (length (j :: is)) ltac:(simpl; lia) (j :: is) eq_refl) as (ts & H).
      eexists. apply means_greedy; [exact T|exact H].
  - destruct (IH (length is) ltac:(simpl; lia) is eq_refl) as (ts & H).
    destruct (new_set_with chars bs n) as (p & _ & Hp). eexists. constructor; [exact Hp|exact H].
  - destruct (IH (length is) ltac:(simpl; lia) is eq_refl) as (ts & H).
    destruct (new_int_with bs n) as (p & _ & Hp). eexists. constructor; [exact Hp|exact H].
Qed.

Lemma star_panics t is u r n : items_text t is -> texts_apart is -> item_overflow u -> no_digit_first r ->
  length (t ++ u ++ r) < n -> p_star p_piece n (t ++ u ++ r) = PPanic.
Proof.
  intros Ht Ha Hu F L. destruct (meaning_total is) as (ts & Hm).
  destruct (star_prefix is ts Hm t (u ++ r) n Ht Ha) as (vs & m & Lm & _ & _ & ->); [|exact L|].
  - right. destruct Hu; rewrite <- ?app_assoc; eexists; reflexivity.
  - destruct m as [|m]; [lia|]. cbn [p_star].
    assert (p_piece (u ++ r) = PPanic) as ->; [|reflexivity]. apply p_piece_panic. eauto.
Qed.
