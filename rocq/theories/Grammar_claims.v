(** * Statements about the pattern compiler *)
From Coq Require Import Sorted.
From Verif Require Import Base Base_facts Utils Utils_facts Parsers Parsers_facts Pattern Spec Grammar Peg
  Grammar_refine Spec_grammar Grammar_syntax.

(** ** What is accepted, and what panics *)
Theorem compile_accepts s ts : utf8 s ->
  (compile s = Ret (Ok ts) <-> exists is, pattern_text s is /\ meaning is ts).
Proof.
  intros U. pose proof (compile_spec s U) as C. split.
  - intros H. destruct (p_star p_piece (S (length s)) s) as [vs rest| |] eqn:E; [|contradiction|congruence].
    destruct (is_empty rest && negb (is_empty vs))%bool eqn:D.
    + apply andb_true_iff in D. destruct D as (D1 & D2). apply is_empty_true in D1. subst rest.
      apply negb_true_iff, is_empty_false in D2.
      apply star_sound in E. destruct E as (t & is & -> & Ht & Ha & Hm & N & _). rewrite app_nil_r in *.
      exists is. split; [split; [exact Ht|split; [auto|exact Ha]]|]. congruence.
    + destruct C as (st & w & _ & _ & C & _). congruence.
  - intros (is & (Ht & N & Ha) & Hm).
    destruct (star_complete is ts s (S (length s)) Hm Ht Ha ltac:(lia)) as (vs & E & Ec & V).
    rewrite E in C. assert (is_empty vs = false) as Ev by (apply is_empty_false; tauto).
    rewrite Ev in C. cbn [is_empty negb andb] in C. rewrite C, Ec. reflexivity.
Qed.

Theorem compile_panics s : utf8 s -> (compile s = Panic <-> pattern_overflow s).
Proof.
  intros U. pose proof (compile_spec s U) as C. split.
  - intros H. destruct (p_star p_piece (S (length s)) s) as [vs rest| |] eqn:E; [|contradiction|].
    + destruct (is_empty rest && negb (is_empty vs))%bool; [congruence|].
      destruct C as (st & w & _ & _ & C & _). congruence.
    + apply star_panic in E; [|lia]. destruct E as (t & is & u & r & E & Ht & Ha & Hu & F & _).
      exists t, is, u, r. auto.
  - intros (t & is & u & r & -> & Ht & Ha & Hu & F).
    rewrite (star_panics t is u r _ Ht Ha Hu F (Nat.lt_succ_diag_r _)) in C. exact C.
Qed.

Theorem compile_terminates s : utf8 s -> compile s <> OutOfFuel.
Proof.
  intros U. pose proof (compile_spec s U) as C.
  destruct (p_star p_piece (S (length s)) s) as [vs rest| |]; [|contradiction|congruence].
  destruct (is_empty rest && negb (is_empty vs))%bool; [congruence|].
  destruct C as (st & w & _ & _ & C & _). congruence.
Qed.

(** ** Numbers that fit *)
Lemma overflow_run u : bounds_overflow u -> exists x d, u = x ++ [x3d] ++ d /\ d <> [] /\ Forall digit d /\ ~ fits (decimal d).
Proof.
  induction 1 as [kw d [-> | ->] N H B|t b c u _ _ _ (x & d & -> & H)].
  - exists ($"min_len"), d. auto.
  - exists ($"max_len"), d. auto.
  - exists (t ++ c ++ x), d. rewrite <- !app_assoc. auto.
Qed.

Theorem compile_small_numbers s : utf8 s ->
  (forall x d y, s = x ++ d ++ y -> d <> [] -> Forall digit d ->
     match rev x with b :: _ => ~ digit b | [] => True end -> no_digit_first y -> fits (decimal d)) ->
  exists r, compile s = Ret r.
Proof.
  intros U H. destruct (compile s) as [r| |] eqn:E; [eauto|exfalso|destruct (compile_terminates s U E)].
  apply (compile_panics s U) in E. destruct E as (t & is & u & r & -> & _ & _ & Hu & F).
  assert (exists x d, u = x ++ [x3d] ++ d /\ d <> [] /\ Forall digit d /\ ~ fits (decimal d)) as (x & d & -> & N & D & B).
  { destruct Hu as [u Hu|chars c u _ _ _ Hu]; destruct (overflow_run u Hu) as (x & d & -> & K).
    - exists ($"%{INT(" ++ x), d. rewrite <- !app_assoc. auto.
    - exists ($"%{SET(""" ++ chars ++ $"""" ++ c ++ x), d. rewrite <- !app_assoc. auto. }
  apply B. apply (H (t ++ x ++ [x3d]) d r); [rewrite <- !app_assoc; reflexivity|exact N|exact D| |exact F].
  rewrite !rev_app_distr. simpl. unfold digit. cbn. lia.
Qed.

Lemma compile_overflow : exists s, utf8 s /\ compile s = Panic.
Proof.
  exists ($"%{INT(min_len=18446744073709551616)}"). split; [apply ascii_utf8; reflexivity|vm_compute; reflexivity].
Qed.

Lemma items_one s i : items_text s [i] -> item_text s i.
Proof.
  intros H. inversion H as [|t i' s' is' Ht Hs]; subst. inversion Hs; subst. rewrite app_nil_r. exact Ht.
Qed.

Lemma one_item s i : item_text s i -> items_text s [i].
Proof. intros H. rewrite <- (app_nil_r s). constructor; [exact H|constructor]. Qed.

(** ** Escaping *)
Lemma begin_in_app a b : occurs_in ($"%{") (a ++ b) ->
  occurs_in ($"%{") a \/ occurs_in ($"%{") b \/ (exists a' b', a = a' ++ [x25] /\ b = x7b :: b').
Proof.
  intros (x & y & E). change ($"%{") with [x25; x7b] in *.
  revert x E. induction a as [|c a IH]; intros x E; cbn [app] in E.
  - right. left. exists x, y. exact E.
  - destruct x as [|c' x]; cbn [app] in E.
    + inversion E as [[E1 E2]]. subst c. destruct a as [|d a]; cbn [app] in E2.
      * right. right. exists [], y. auto.
      * inversion E2; subst. left. exists [], a. reflexivity.
    + inversion E as [[E1 E2]]. subst c'. destruct (IH x E2) as [(p & q & ->)|[H|(a' & b' & -> & ->)]].
      * left. exists (c :: p), q. reflexivity.
      * right. left. exact H.
      * right. right. exists (c :: a'), b'. auto.
Qed.

Lemma escaped_no_begin u e : escaped u e -> ~ occurs_in ($"%{") e.
Proof.
  induction 1 as [p H|p u e H _ IH]; [exact H|]. intros O.
  apply begin_in_app in O. destruct O as [O|[O|(a & b & _ & E)]]; [exact (H O)| |discriminate].
  apply begin_in_app in O. destruct O as [O|[O|(a & b & E & _)]]; [|exact (IH O)|].
  - destruct O as (a & b & E). change escape_seq with [x5c; x25; x5c; x7b] in E. change ($"%{") with [x25; x7b] in E.
    destruct a as [|a0 [|a1 [|a2 [|a3 [|a4 a]]]]]; cbn [app] in E; discriminate.
  - change escape_seq with ([x5c; x25; x5c] ++ [x7b]) in E. apply app_inj_tail in E. destruct E. discriminate.
Qed.

Lemma escaped_unescaped u e : escaped u e -> ~ occurs_in escape_seq u -> unescaped e u.
Proof.
  induction 1 as [p H|p u e H _ IH]; intros N; [constructor; exact N|].
  apply unescaped_more.
  - intros (a & b & ->). apply N. exists a, (b ++ $"%{" ++ u). rewrite <- !app_assoc. reflexivity.
  - apply IH. intros (a & b & ->). apply N. exists (p ++ $"%{" ++ a), b. rewrite <- !app_assoc. reflexivity.
Qed.

Lemma escaped_utf8 u e : escaped u e -> utf8 u -> utf8 e.
Proof.
  induction 1 as [p H|p u e H _ IH]; intros U; [exact U|].
  assert (utf8 p) as Up by (apply (utf8_before_occurrence p ($"%{") u U); [apply ascii_utf8; reflexivity|discriminate]).
  apply utf8_app; [exact Up|]. apply utf8_app; [apply ascii_utf8; reflexivity|]. apply IH.
  apply (utf8_app_inv_r (p ++ $"%{")); [apply utf8_app; [exact Up|apply ascii_utf8; reflexivity]|].
  rewrite <- app_assoc. exact U.
Qed.

Theorem compile_escaped u e : utf8 u -> u <> [] -> ~ occurs_in escape_seq u -> escaped u e ->
  compile e = Ret (Ok [Literal u]).
Proof.
  intros U N O E. apply compile_accepts; [apply (escaped_utf8 u e E U)|]. exists [IText e]. split.
  - split; [|split; [discriminate|exact I]]. apply one_item.
    constructor; [|apply (escaped_no_begin u e E)].
    destruct E as [p _|p u e _ _]; [exact N|]. destruct p; discriminate.
  - constructor; [apply escaped_unescaped; assumption|constructor].
Qed.

(** Every text can be escaped. *)
Lemma escaped_total u : exists e, escaped u e.
Proof.
  remember (length u) as n eqn:En. revert u En. induction n as [n IH] using lt_wf_ind. intros u ->.
  pose proof (until_app parser_begin u) as T. pose proof (until_sound parser_begin u) as S.
  destruct (until parser_begin u) as (a, r). destruct (S a r ltac:(discriminate) eq_refl) as (O & F).
  apply follow_app in F. destruct F as [->|(r' & ->)].
  - rewrite app_nil_r in T. subst u. exists a. constructor. exact O.
  - subst u. destruct (IH (length r')) with (u := r') as (e & He); [rewrite !app_length; simpl; lia|reflexivity|].
    eexists. apply escaped_more; [exact O|exact He].
Qed.

(** ** Names *)
Lemma name_text_inv nt n : name_text nt (Some n) -> nt = $":" ++ n /\ name n.
Proof. intros H. inversion H; subst. auto. Qed.

Lemma name_ascii n : name n -> ascii n = true.
Proof.
  assert (forall b, name_char b \/ b = x2d -> ascii_byte b = true) as A.
  { intros b H. apply ident_next_spec in H. destruct (class_next [b] H) as (b' & E & A). inversion E; subst. exact A. }
  intros [c Hc|c d s Hc Hd Hs]; apply forallb_forall; intros b [<-|Hb].
  - apply A. left. left. exact Hc.
  - destruct Hb.
  - apply A. left. left. exact Hc.
  - destruct Hb as [<-|Hb]; [apply A; exact Hd|]. rewrite Forall_forall in Hs. apply A. left. apply Hs. exact Hb.
Qed.

Theorem compile_name n p : utf8 n -> set_with digit [] (Some n) p ->
  (compile ($"%{INT:" ++ n ++ $"}") = Ret (Ok [Parser (PInt p)]) <-> name n).
Proof.
  intros U Hp. rewrite compile_accepts.
  2:{ apply utf8_app; [apply ascii_utf8; reflexivity|]. apply utf8_app; [exact U|apply ascii_utf8; reflexivity]. }
  split.
  - intros (is & (Ht & _ & Ha) & Hm). inversion Hm as [| | | | |bs n' p' is' ts' Hp' Hm']; subst.
    inversion Hm'; subst. apply items_one in Ht. inversion Ht as [| | |bt bs' nt n'' Hb Hn E]; subst.
    assert (n' = Some n) as -> by (destruct Hp as (H1 & _), Hp' as (H2 & _); congruence).
    apply name_text_inv in Hn. tauto.
  - intros H. exists [IInt [] (Some n)]. split.
    + split; [|split; [discriminate|exact I]]. apply one_item.
      apply (text_int [] [] ($":" ++ n) (Some n)); constructor. exact H.
    + constructor; [exact Hp|constructor].
Qed.

Lemma readme_name_rejected : exists n, readme_name n /\ utf8 n /\
  exists e, compile ($"%{INT:" ++ n ++ $"}") = Ret (Err e).
Proof.
  exists ($"ab-c"). split; [|split; [apply ascii_utf8; reflexivity|vm_compute; eexists; reflexivity]].
  constructor; [left; left; vm_compute; split; discriminate|].
  constructor; [left; left; left; left; vm_compute; split; discriminate|].
  constructor; [right; reflexivity|]. constructor; [left; left; left; left; vm_compute; split; discriminate|constructor].
Qed.

(** ** GREEDY *)
Lemma name_text_ascii nt n : name_text nt n -> ascii nt = true.
Proof. intros [|n' H]; [reflexivity|]. rewrite ascii_app, (name_ascii n' H). reflexivity. Qed.

Theorem compile_greedy nt n raw : name_text nt n -> utf8 raw -> ~ occurs_in ($"%{") raw ->
  compile ($"%{GREEDY" ++ nt ++ $"}" ++ raw) =
  Ret (Ok (match raw with
           | [] => [Parser (PGreedy {| gp_name := n; gp_end_string := None |})]
           | _ => [Parser (PGreedy {| gp_name := n; gp_end_string := Some raw |}); Literal raw]
           end)).
Proof.
  intros Hn U O. apply compile_accepts.
  { apply utf8_app; [apply ascii_utf8; reflexivity|]. apply utf8_app; [apply ascii_utf8; apply (name_text_ascii nt n Hn)|].
    apply utf8_app; [apply ascii_utf8; reflexivity|exact U]. }
  destruct raw as [|b raw].
  - exists [IGreedy n]. split.
    + split; [|split; [discriminate|exact I]]. apply one_item.
      constructor. exact Hn.
    + apply means_greedy; [exact I|constructor].
  - exists [IGreedy n; IText (b :: raw)]. split.
    + split; [|split; [discriminate|]].
      * replace ($"%{GREEDY" ++ nt ++ $"}" ++ b :: raw) with (($"%{GREEDY" ++ nt ++ $"}") ++ (b :: raw) ++ [])
          by (rewrite app_nil_r, <- !app_assoc; reflexivity).
        constructor; [constructor; exact Hn|]. constructor; [constructor; [discriminate|exact O]|constructor].
      * split; [intros (H & _); discriminate|exact I].
    + apply means_greedy_text. constructor.
Qed.

(** ** The shape of compiled patterns *)
Lemma item_nonempty t i : item_text t i -> t <> [].
Proof. intros [raw N _|nt n _|chars bt bs nt n _ _ _ _|bt bs nt n _ _]; [exact N|discriminate..]. Qed.

Lemma unescaped_nonempty s u : unescaped s u -> s <> [] -> u <> [].
Proof. intros [p _|p s' u' _ _] N; [exact N|]. destruct p; discriminate. Qed.

Lemma meaning_literals is ts : meaning is ts -> forall s, items_text s is ->
  Forall (fun t => match t with Literal l => l <> [] | _ => True end) ts.
Proof.
  induction 1 as [|raw u is ts Hu _ IH|n raw is ts _ IH|n is ts _ _ IH|chars bs n p is ts Hp _ IH|bs n p is ts Hp _ IH];
    intros s Hs; inversion Hs as [|t i s' is' Ht Hs']; subst; try (constructor; [exact I|apply (IH s'); assumption]).
  - constructor.
  - constructor; [|apply (IH s'); assumption]. inversion Ht; subst. apply (unescaped_nonempty raw u Hu). assumption.
  - inversion Hs' as [|t2 i2 s2 is2 Ht2 Hs2]; subst. inversion Ht2; subst.
    constructor; [exact I|]. constructor; [assumption|apply (IH s2); assumption].
Qed.

Theorem compile_literals s ts l : utf8 s -> compile s = Ret (Ok ts) -> In (Literal l) ts -> l <> [].
Proof.
  intros U C H. apply (compile_accepts s ts U) in C. destruct C as (is & (Ht & _) & Hm).
  pose proof (meaning_literals is ts Hm s Ht) as F. rewrite Forall_forall in F. apply (F _ H).
Qed.

Definition head_literal (ts : list token) : option str :=
  match ts with Literal l :: _ => Some l | _ => None end.

Lemma meaning_head is ts : meaning is ts -> match is with i :: _ => is_text i = false | [] => True end ->
  head_literal ts = None.
Proof. intros M H. destruct M; try reflexivity. discriminate. Qed.

Lemma literals_apart_cons t ts : literals_apart ts -> match t with Literal _ => head_literal ts = None | _ => True end ->
  literals_apart (t :: ts).
Proof.
  destruct ts as [|u ts]; intros H K; [exact I|]. split; [|exact H]. destruct t, u; try exact I.
  discriminate.
Qed.

Lemma meaning_shape is ts : meaning is ts -> texts_apart is -> literals_apart ts /\ greedy_linked ts.
Proof.
  induction 1 as [|raw u is ts Hu Hm IH|n raw is ts Hm IH|n is ts Hh Hm IH|chars bs n p is ts Hp Hm IH|bs n p is ts Hp Hm IH];
    intros Ha.
  - split; exact I.
  - destruct (texts_apart_text _ _ Ha) as (A1 & A2). destruct (IH A2) as (I1 & I2). split.
    + apply literals_apart_cons; [exact I1|apply (meaning_head is ts Hm A1)].
    + split; [exact I|exact I2].
  - pose proof (texts_apart_tl _ _ Ha) as A1. destruct (texts_apart_text _ _ A1) as (A2 & A3).
    destruct (IH A3) as (I1 & I2). split.
    + apply literals_apart_cons; [|exact I]. apply literals_apart_cons; [exact I1|apply (meaning_head is ts Hm A2)].
    + split; [reflexivity|]. split; [exact I|exact I2].
  - destruct (IH (texts_apart_tl _ _ Ha)) as (I1 & I2). split.
    + apply literals_apart_cons; [exact I1|exact I].
    + split; [|exact I2]. pose proof (meaning_head is ts Hm Hh) as E. cbn [gp_end_string].
      destruct ts as [|[q|l] ts]; [reflexivity|reflexivity|discriminate].
  - destruct (IH (texts_apart_tl _ _ Ha)) as (I1 & I2).
    split; [apply literals_apart_cons; [exact I1|exact I]|split; [exact I|exact I2]].
  - destruct (IH (texts_apart_tl _ _ Ha)) as (I1 & I2).
    split; [apply literals_apart_cons; [exact I1|exact I]|split; [exact I|exact I2]].
Qed.

Theorem compile_shape s ts : utf8 s -> compile s = Ret (Ok ts) -> ts <> [] /\ literals_apart ts /\ greedy_linked ts.
Proof.
  intros U C. apply (compile_accepts s ts U) in C. destruct C as (is & (Ht & N & Ha) & Hm).
  split; [|apply (meaning_shape is ts Hm Ha)]. destruct Hm; congruence.
Qed.

(** ** Compiled patterns satisfy what the matchers assume *)
Lemma utf8_cut_ascii a b : utf8 (a ++ b) -> match b with c :: _ => ascii_byte c = true | [] => True end -> utf8 a /\ utf8 b.
Proof.
  intros U H. destruct b as [|c b].
  - rewrite app_nil_r in U. split; [exact U|constructor].
  - apply utf8_cut; [exact U|]. simpl. right. apply ascii_byte_not_cont. exact H.
Qed.

Lemma comma_ascii c : comma_text c -> ascii c = true.
Proof. intros [n]. rewrite ascii_app. simpl. induction n; [reflexivity|exact IHn]. Qed.
Lemma digits_are_ascii d : Forall digit d -> ascii d = true.
Proof.
  intros H. apply Forall_ascii. eapply Forall_impl; [|exact H]. intros b D. unfold digit in D. unfold ascii_byte.
  apply N.ltb_lt. lia.
Qed.
Lemma bound_ascii t b : bound_text t b -> ascii t = true.
Proof. intros [d v [d' _ H _]|d v [d' _ H _]]; rewrite ascii_app, (digits_are_ascii _ H); reflexivity. Qed.
Lemma bounds_ascii t bs : bounds_text t bs -> ascii t = true.
Proof.
  induction 1 as [t b H|t b c u bs H Hc _ IH]; [apply (bound_ascii t b H)|].
  rewrite !ascii_app, (bound_ascii t b H), (comma_ascii c Hc), IH. reflexivity.
Qed.
Lemma opt_bounds_ascii t bs : opt_bounds_text t bs -> ascii t = true.
Proof. intros [|t' bs' H]; [reflexivity|apply (bounds_ascii t' bs' H)]. Qed.
Lemma set_bounds_ascii t bs : set_bounds_text t bs -> ascii t = true.
Proof. intros [|c t' bs' Hc H]; [reflexivity|]. rewrite ascii_app, (comma_ascii c Hc), (opt_bounds_ascii _ _ H). reflexivity. Qed.
Lemma int_bounds_ascii t bs : int_bounds_text t bs -> ascii t = true.
Proof. intros [|t' bs' H]; [reflexivity|]. rewrite !ascii_app, (opt_bounds_ascii _ _ H). reflexivity. Qed.

Lemma item_utf8 t i s is : item_text t i -> items_text s is ->
  (is_text i = true -> match is with j :: _ => is_text j = false | [] => True end) ->
  utf8 (t ++ s) -> utf8 t /\ utf8 s /\ match i with ISet chars _ _ => utf8 chars | _ => True end.
Proof.
  intros Ht Hs F U. destruct Ht as [raw N O|nt n Hn|chars bt bs nt n N Q Hb Hn|bt bs nt n Hb Hn].
  - destruct (utf8_cut_ascii raw s U) as (U1 & U2); [|auto].
    destruct (items_follow s is Hs (F eq_refl)) as [->|(r & ->)]; [exact I|reflexivity].
  - assert (ascii ($"%{GREEDY" ++ nt ++ $"}") = true) as A.
    { rewrite !ascii_app, (name_text_ascii nt n Hn). reflexivity. }
    split; [apply ascii_utf8; exact A|]. split; [|exact I]. apply (utf8_ascii_prefix _ _ U A).
  - rewrite <- !app_assoc in U. apply utf8_ascii_prefix in U; [|reflexivity].
    destruct (utf8_cut_ascii chars _ U) as (U1 & U2); [reflexivity|].
    assert (ascii ($"""" ++ bt ++ $")" ++ nt ++ $"}") = true) as A.
    { rewrite !ascii_app, (name_text_ascii nt n Hn), (set_bounds_ascii bt bs Hb). reflexivity. }
    split; [|split; [|exact U1]].
    + apply utf8_app; [apply ascii_utf8; reflexivity|]. apply utf8_app; [exact U1|]. apply ascii_utf8. exact A.
    + apply (utf8_ascii_prefix ($"""" ++ bt ++ $")" ++ nt ++ $"}") s); [|exact A]. rewrite <- !app_assoc. exact U2.
  - assert (ascii ($"%{INT" ++ bt ++ nt ++ $"}") = true) as A.
    { rewrite !ascii_app, (name_text_ascii nt n Hn), (int_bounds_ascii bt bs Hb). reflexivity. }
    split; [apply ascii_utf8; exact A|]. split; [|exact I]. apply (utf8_ascii_prefix _ _ U A).
Qed.

Lemma unescaped_utf8 s u : unescaped s u -> utf8 s -> utf8 u.
Proof.
  induction 1 as [p H|p s u H _ IH]; intros U; [exact U|].
  assert (utf8 p) as Up by (apply (utf8_before_occurrence p escape_seq s U); [apply ascii_utf8; reflexivity|discriminate]).
  apply utf8_app; [exact Up|]. apply utf8_app; [apply ascii_utf8; reflexivity|]. apply IH.
  apply (utf8_app_inv_r (p ++ escape_seq)); [apply utf8_app; [exact Up|apply ascii_utf8; reflexivity]|].
  rewrite <- app_assoc. exact U.
Qed.

Lemma bounds_fit t bs : bounds_text t bs -> Forall (fun b => match b with MinLen v | MaxLen v => fits v end) bs.
Proof.
  induction 1 as [t b H|t b c u bs H _ _ IH]; constructor; auto; destruct H as [d v [d' _ _ F]|d v [d' _ _ F]]; exact F.
Qed.
Lemma last_min_fits bs : Forall (fun b => match b with MinLen v | MaxLen v => fits v end) bs ->
  forall d, opt_fits d -> opt_fits (last_min bs d).
Proof. induction 1 as [|[v|v] bs H _ IH]; intros d D; simpl; auto. Qed.
Lemma last_max_fits bs : Forall (fun b => match b with MinLen v | MaxLen v => fits v end) bs ->
  forall d, opt_fits d -> opt_fits (last_max bs d).
Proof. induction 1 as [|[v|v] bs H _ IH]; intros d D; simpl; auto. Qed.
Lemma opt_bounds_fit t bs : opt_bounds_text t bs -> Forall (fun b => match b with MinLen v | MaxLen v => fits v end) bs.
Proof. intros [|t' bs' H]; [constructor|apply (bounds_fit t' bs' H)]. Qed.
Lemma name_text_utf8 nt n : name_text nt n -> opt_utf8 n.
Proof. intros [|n' H]; [exact I|]. apply ascii_utf8, name_ascii, H. Qed.

Lemma set_with_valid C bs n p : set_with C bs n p -> opt_utf8 n ->
  Forall (fun b => match b with MinLen v | MaxLen v => fits v end) bs -> valid_set p.
Proof.
  intros (<- & H2 & _ & H4 & H5) U F. split; [exact U|]. split; [exact H2|].
  rewrite H4, H5. split; [apply last_min_fits|apply last_max_fits]; auto; exact I.
Qed.

Lemma meaning_valid is ts : meaning is ts -> forall s, items_text s is -> texts_apart is -> utf8 s ->
  Forall valid_token ts.
Proof.
  induction 1 as [|raw u is ts Hu Hm IH|n raw is ts Hm IH|n is ts Hh Hm IH|chars bs n p is ts Hp Hm IH|bs n p is ts Hp Hm IH];
    intros s Hs Ha U; inversion Hs as [|t i s' is' Ht Hs']; subst.
  - constructor.
  - destruct (texts_apart_text _ _ Ha) as (A1 & A2).
    destruct (item_utf8 _ _ _ _ Ht Hs' (fun _ => A1) U) as (U1 & U2 & _).
    constructor; [|apply (IH s'); assumption]. inversion Ht; subst. apply (unescaped_utf8 raw u Hu U1).
  - pose proof (texts_apart_tl _ _ Ha) as A1. destruct (texts_apart_text _ _ A1) as (A2 & A3).
    destruct (item_utf8 _ _ _ _ Ht Hs' ltac:(discriminate) U) as (U1 & U2 & _).
    inversion Hs' as [|t2 i2 s2 is2 Ht2 Hs2]; subst.
    destruct (item_utf8 _ _ _ _ Ht2 Hs2 (fun _ => A2) U2) as (U3 & U4 & _). inversion Ht2; subst.
    constructor; [|constructor; [exact U3|apply (IH s2); assumption]].
    inversion Ht; subst. split; [apply (name_text_utf8 nt n); assumption|exact U3].
  - destruct (item_utf8 _ _ _ _ Ht Hs' ltac:(discriminate) U) as (U1 & U2 & _).
    constructor; [|apply (IH s'); [exact Hs'|apply (texts_apart_tl _ _ Ha)|exact U2]].
    inversion Ht; subst. split; [apply (name_text_utf8 nt n); assumption|exact I].
  - destruct (item_utf8 _ _ _ _ Ht Hs' ltac:(discriminate) U) as (U1 & U2 & _).
    constructor; [|apply (IH s'); [exact Hs'|apply (texts_apart_tl _ _ Ha)|exact U2]].
    inversion Ht as [| |chars' bt bs' nt n' N Q Hb Hn|]; subst.
    apply (set_with_valid _ _ _ _ Hp); [apply (name_text_utf8 nt n Hn)|].
    destruct Hb as [|c t' bs' _ Hb]; [constructor|apply (opt_bounds_fit _ _ Hb)].
  - destruct (item_utf8 _ _ _ _ Ht Hs' ltac:(discriminate) U) as (U1 & U2 & _).
    constructor; [|apply (IH s'); [exact Hs'|apply (texts_apart_tl _ _ Ha)|exact U2]].
    inversion Ht as [| | |bt bs' nt n' Hb Hn]; subst.
    apply (set_with_valid _ _ _ _ Hp); [apply (name_text_utf8 nt n Hn)|].
    destruct Hb as [|t' bs' Hb]; [constructor|apply (opt_bounds_fit _ _ Hb)].
Qed.

Theorem compile_valid s ts : utf8 s -> compile s = Ret (Ok ts) -> Forall valid_token ts.
Proof.
  intros U C. apply (compile_accepts s ts U) in C. destruct C as (is & (Ht & N & Ha) & Hm).
  apply (meaning_valid is ts Hm s Ht Ha U).
Qed.

(** ASCII pattern strings give ASCII patterns. *)
Lemma meaning_ascii is ts : meaning is ts -> forall s, items_text s is -> ascii s = true -> Forall ascii_token ts.
Proof.
  assert (forall s u, unescaped s u -> ascii s = true -> ascii u = true) as UA.
  { induction 1 as [p _|p s u _ _ IH]; [auto|]. rewrite !ascii_app, !andb_true_iff. intros (A1 & _ & A3). auto. }
  induction 1 as [|raw u is ts Hu Hm IH|n raw is ts Hm IH|n is ts Hh Hm IH|chars bs n p is ts Hp Hm IH|bs n p is ts Hp Hm IH];
    intros s Hs A; inversion Hs as [|t i s' is' Ht Hs']; subst; rewrite ?ascii_app, ?andb_true_iff in A.
  - constructor.
  - destruct A as (A1 & A2). inversion Ht; subst. constructor; [apply (UA raw u Hu A1)|apply (IH s'); assumption].
  - destruct A as (A1 & A2). inversion Hs' as [|t2 i2 s2 is2 Ht2 Hs2]; subst.
    rewrite ascii_app, andb_true_iff in A2. destruct A2 as (A2 & A3). inversion Ht2; subst.
    constructor; [exact I|]. constructor; [exact A2|apply (IH s2); assumption].
  - destruct A as (A1 & A2). constructor; [exact I|apply (IH s'); assumption].
  - destruct A as (A1 & A2). constructor; [|apply (IH s'); assumption].
    inversion Ht as [| |chars' bt bs' nt n' N Q Hb Hn|]; subst. rewrite !ascii_app, !andb_true_iff in A1.
    destruct A1 as (_ & A1 & _). intros b Hb'. destruct Hp as (_ & _ & Hp & _). apply Hp in Hb'.
    unfold ascii in A1. rewrite forallb_forall in A1. apply A1. exact Hb'.
  - destruct A as (A1 & A2). constructor; [|apply (IH s'); assumption].
    intros b Hb. destruct Hp as (_ & _ & Hp & _). apply Hp in Hb. unfold digit in Hb. unfold ascii_byte. apply N.ltb_lt. lia.
Qed.

Theorem compile_ascii s ts : ascii s = true -> compile s = Ret (Ok ts) -> Forall ascii_token ts.
Proof.
  intros A C. apply (compile_accepts s ts (ascii_utf8 s A)) in C. destruct C as (is & (Ht & _) & Hm).
  apply (meaning_ascii is ts Hm s Ht A).
Qed.

(** ** Lines and columns *)
Lemma strip_cr_plain cur : ~ In x0d cur -> strip_cr cur = rev cur.
Proof.
  destruct cur as [|b cur]; intros H; [reflexivity|]. cbn [strip_cr]. destruct (byte_eqb b x0d) eqn:E; [|reflexivity].
  apply byte_eqb_eq in E. subst. destruct H. left. reflexivity.
Qed.

Lemma strip_cr_long e cur : ~ In x0d cur -> length cur <= length (strip_cr (e ++ cur)).
Proof.
  intros H. destruct e as [|b e]; [rewrite strip_cr_plain by exact H; cbn [app]; rewrite rev_length; lia|].
  cbn [app strip_cr]. destruct (byte_eqb b x0d); rewrite rev_length; cbn [length]; rewrite app_length; lia.
Qed.

Lemma loop_here s cur lineno : ~ In x0d cur -> forall e,
  pos_to_line_loop (lines_go s (e ++ cur)) (length cur) lineno = (lineno, length cur + 1).
Proof.
  intros H. induction s as [|b s IH]; intros e; cbn [lines_go].
  - destruct (e ++ cur) as [|c l] eqn:E; [reflexivity|]. rewrite <- E. cbn [pos_to_line_loop].
    pose proof (strip_cr_long e cur H) as L. destruct (Nat.ltb_spec (length cur) (length (strip_cr (e ++ cur)) + 1)); [reflexivity|lia].
  - destruct (byte_eqb b x0a); [|apply (IH (b :: e))]. cbn [pos_to_line_loop].
    pose proof (strip_cr_long e cur H) as L. destruct (Nat.ltb_spec (length cur) (length (strip_cr (e ++ cur)) + 1)); [reflexivity|lia].
Qed.

Lemma newlines_app a b : newlines (a ++ b) = newlines a + newlines b.
Proof. unfold newlines. rewrite filter_app, app_length. reflexivity. Qed.
Lemma newlines_none a : ~ In x0a a -> newlines a = 0.
Proof.
  intros H. unfold newlines. induction a as [|b a IH]; [reflexivity|]. cbn [filter].
  destruct (byte_eqb b x0a) eqn:E; [apply byte_eqb_eq in E; subst; destruct H; left; reflexivity|].
  apply IH. intros I. apply H. right. exact I.
Qed.

Lemma loop_located s : forall off cur lineno, off <= length s -> ~ In x0d (firstn off s) -> ~ In x0d cur -> ~ In x0a cur ->
  exists a b, rev cur ++ firstn off s = a ++ b /\ ~ In x0a b /\ (a = [] \/ exists a', a = a' ++ [x0a]) /\
    pos_to_line_loop (lines_go s cur) (length cur + off) lineno = (lineno + newlines a, 1 + length b).
Proof.
  assert (forall s cur lineno, ~ In x0d cur -> ~ In x0a cur ->
    exists a b, rev cur ++ firstn 0 s = a ++ b /\ ~ In x0a b /\ (a = [] \/ exists a', a = a' ++ [x0a]) /\
      pos_to_line_loop (lines_go s cur) (length cur + 0) lineno = (lineno + newlines a, 1 + length b)) as Z.
  { intros s0 cur lineno Hc Hn. exists [], (rev cur). split; [rewrite app_nil_r; reflexivity|].
    split; [rewrite <- in_rev; exact Hn|]. split; [left; reflexivity|].
    pose proof (loop_here s0 cur lineno Hc []) as K. cbn [app] in K. rewrite Nat.add_0_r, K, rev_length. cbn [newlines filter length].
    f_equal; lia. }
  induction s as [|b s IH]; intros off cur lineno L Hs Hc Hn.
  - assert (off = 0) as -> by (simpl in L; lia). apply Z; assumption.
  - destruct off as [|off]; [apply Z; assumption|]. cbn [firstn] in Hs. cbn [length] in L.
    assert (~ In x0d (firstn off s)) as Hs' by (intros I; apply Hs; right; exact I).
    cbn [lines_go firstn]. destruct (byte_eqb b x0a) eqn:E.
    + apply byte_eqb_eq in E. subst b. rewrite (strip_cr_plain cur Hc). cbn [pos_to_line_loop]. rewrite rev_length.
      destruct (Nat.ltb_spec (length cur + S off) (length cur + 1)); [lia|].
      replace (length cur + S off - (length cur + 1)) with (length (@nil byte) + off) by (cbn [length]; lia).
      destruct (IH off [] (lineno + 1) ltac:(lia) Hs' ltac:(auto) ltac:(auto)) as (a & b & Ea & Hb & Ha & ->).
      exists (rev cur ++ [x0a] ++ a), b. split; [|split; [exact Hb|split]].
      * cbn [rev app] in Ea. rewrite Ea, <- !app_assoc. reflexivity.
      * right. destruct Ha as [->|(a' & ->)]; [exists (rev cur); reflexivity|].
        exists (rev cur ++ [x0a] ++ a'). rewrite <- !app_assoc. reflexivity.
      * rewrite !newlines_app, (newlines_none (rev cur)) by (rewrite <- in_rev; exact Hn). f_equal. cbn. lia.
    + replace (length cur + S off) with (length (b :: cur) + off) by (cbn [length]; lia).
      destruct (IH off (b :: cur) lineno ltac:(lia) Hs') as (x & y & Ea & Hb & Ha & ->).
      * intros [->|I]; [apply Hs; left; reflexivity|exact (Hc I)].
      * intros [->|I]; [discriminate|exact (Hn I)].
      * exists x, y. split; [|auto]. cbn [rev] in Ea. rewrite <- app_assoc in Ea. exact Ea.
Qed.

Theorem pos_to_line_located s off : off <= length s -> ~ In x0d (firstn off s) ->
  located s off (fst (pos_to_line s off)) (snd (pos_to_line s off)).
Proof.
  intros L H. destruct (loop_located s off [] 1 L H ltac:(auto) ltac:(auto)) as (a & b & Ea & Hb & Ha & E).
  unfold pos_to_line, lines. cbn [length plus] in E. rewrite E. exists a, b. auto.
Qed.

Lemma list_last {A} (l : list A) : l = [] \/ exists l' x, l = l' ++ [x].
Proof. destruct l as [|a l]; [auto|]. right. destruct (@exists_last A (a :: l) ltac:(discriminate)) as (l' & x & ->). eauto. Qed.

(** [located] has exactly one solution. *)
Lemma located_unique s off l c l' c' : located s off l c -> located s off l' c' -> l = l' /\ c = c'.
Proof.
  intros (a & b & E & Hb & Ha & -> & ->) (a' & b' & E' & Hb' & Ha' & -> & ->).
  rewrite E in E'. assert (a = a'); [|subst; apply app_inv_head in E'; subst; auto].
  clear E. destruct (app_eq_app _ _ _ _ E') as (l & [(-> & ->)|(-> & ->)]).
  - destruct (list_last l) as [->|(l' & x & ->)]; [apply app_nil_r|].
    rewrite app_assoc in Ha. destruct Ha as [Ha|(z & Ha)]; [destruct (a' ++ l'); discriminate|].
    apply app_inj_tail in Ha. destruct Ha as (_ & ->). destruct Hb'. apply in_app_iff. left. apply in_app_iff. right. left. reflexivity.
  - destruct (list_last l) as [->|(l' & x & ->)]; [symmetry; apply app_nil_r|].
    rewrite app_assoc in Ha'. destruct Ha' as [Ha'|(z & Ha')]; [destruct (a ++ l'); discriminate|].
    apply app_inj_tail in Ha'. destruct Ha' as (_ & ->). destruct Hb. apply in_app_iff. left. apply in_app_iff. right. left. reflexivity.
Qed.

(** ** Errors *)
Lemma pos_to_line_offset s st : pe_offset (pattern_error s st) = max_err_pos st /\ pe_expected (pattern_error s st) = expected st.
Proof. unfold pattern_error. destruct (pos_to_line s (max_err_pos st)). split; reflexivity. Qed.

(** Items that a text begins with are read before an error is found. *)
Lemma star_suffix n : forall s vs r, p_star p_piece n s = PMatch vs r -> length r <= length s.
Proof.
  intros s vs r H. apply star_sound in H. destruct H as (t & is & -> & _). rewrite app_length. lia.
Qed.

Lemma items_before s vs w rest t is z : p_star p_piece (S (length s)) s = PMatch vs rest -> s = w ++ rest ->
  s = t ++ z -> items_text t is -> texts_apart is -> follows z -> length t <= length w.
Proof.
  intros E Ew Et Ht Ha F. destruct (meaning_total is) as (ts & Hm).
  destruct (star_prefix is ts Hm t z (S (length s)) Ht Ha F) as (vs' & m & _ & _ & _ & E'); [rewrite <- Et; lia|].
  rewrite <- Et, E in E'. symmetry in E'. apply pbind_match in E'. destruct E' as (v & r & E1 & E2). inversion E2; subst r.
  apply star_suffix in E1. assert (length w + length rest = length t + length z); [|lia].
  rewrite <- !app_length. congruence.
Qed.

Theorem compile_error s e : utf8 s -> compile s = Ret (Err e) ->
  pe_offset e <= length s /\ is_char_boundary s (pe_offset e) = true /\ pe_expected e <> [] /\
  (~ In x0d (firstn (pe_offset e) s) -> located s (pe_offset e) (pe_line e) (pe_column e)) /\
  (forall t is z, s = t ++ z -> items_text t is -> texts_apart is -> z = [] \/ prefix_of ($"%{") z ->
     length t <= pe_offset e).
Proof.
  intros U H. pose proof (compile_spec s U) as C.
  destruct (p_star p_piece (S (length s)) s) as [vs rest| |] eqn:E; [|contradiction|congruence].
  destruct (is_empty rest && negb (is_empty vs))%bool; [congruence|].
  destruct C as (st & w & Es & Uw & C & (O1 & O2 & _) & (M1 & M2)). rewrite C in H. inversion H; subst e. clear H.
  destruct (pos_to_line_offset s st) as (-> & ->). split; [exact O1|]. split; [exact O2|]. split; [exact M2|].
  split.
  2:{ intros t is z Et Ht Ha F. apply (Nat.le_trans _ (length w)); [|exact M1].
      exact (items_before s vs w rest t is z E Es Et Ht Ha F). }
  intros R. pose proof (pos_to_line_located s _ O1 R) as P. unfold pattern_error.
  destruct (pos_to_line s (max_err_pos st)). exact P.
Qed.

Lemma crlf_misplaced : exists s e, utf8 s /\ compile s = Ret (Err e) /\
  ~ located s (pe_offset e) (pe_line e) (pe_column e).
Proof.
  exists ([x61; x0d; x0a] ++ $"%{"). eexists. split; [apply ascii_utf8; reflexivity|].
  split; [vm_compute; reflexivity|]. intros (a & b & E & Hb & Ha & L & C).
  cbn [pe_offset pe_line pe_column] in *. cbn [firstn app] in E.
  change (firstn 5 _) with ([x61; x0d; x0a] ++ [x25; x7b]) in E.
  assert (length b = 0) as B by (clear - C; cbn in C; lia). destruct b; [|discriminate].
  rewrite app_nil_r in E. subst a. cbn in L. lia.
Qed.

(** ** Ambiguity and concatenation *)
Theorem pattern_unambiguous s is ts is' ts' : utf8 s -> pattern_text s is -> meaning is ts ->
  pattern_text s is' -> meaning is' ts' -> ts = ts'.
Proof.
  intros U P M P' M'. assert (compile s = Ret (Ok ts)) as E by (apply compile_accepts; eauto).
  assert (compile s = Ret (Ok ts')) as E' by (apply compile_accepts; eauto). congruence.
Qed.

Lemma items_app s is s' is' : items_text s is -> items_text s' is' -> items_text (s ++ s') (is ++ is').
Proof. induction 1 as [|t i s is Ht _ IH]; intros H; [exact H|]. rewrite <- app_assoc. cbn [app]. constructor; auto. Qed.

Lemma texts_apart_app is is' : texts_apart is -> texts_apart is' ->
  match is' with i :: _ => is_text i = false | [] => True end -> texts_apart (is ++ is').
Proof.
  intros H H' F. induction is as [|i is IH]; [exact H'|]. cbn [app]. apply texts_apart_cons.
  - apply IH. apply (texts_apart_tl _ _ H).
  - destruct is as [|j is]; cbn [app].
    + destruct is' as [|j is']; cbn [head_text]; [tauto|]. intros (_ & K). cbn in K. congruence.
    + destruct H as (H & _). exact H.
Qed.

Lemma meaning_app is ts is' ts' : meaning is ts -> meaning is' ts' ->
  match is' with i :: _ => is_text i = false | [] => True end -> meaning (is ++ is') (ts ++ ts').
Proof.
  intros H H' F. induction H as [|raw u is ts Hu _ IH|n raw is ts _ IH|n is ts Hh _ IH|chars bs n p is ts Hp _ IH|bs n p is ts Hp _ IH];
    cbn [app]; try (constructor; assumption); [exact H'|].
  apply means_greedy; [|exact IH]. destruct is as [|i is]; [exact F|exact Hh].
Qed.

Theorem compile_app s ts s' ts' : utf8 s -> utf8 s' -> compile s = Ret (Ok ts) -> compile s' = Ret (Ok ts') ->
  prefix_of ($"%{") s' -> compile (s ++ s') = Ret (Ok (ts ++ ts')).
Proof.
  intros U U' C C' (r & E). apply compile_accepts in C; [|exact U]. apply compile_accepts in C'; [|exact U'].
  destruct C as (is & (Ht & N & Ha) & M), C' as (is' & (Ht' & N' & Ha') & M').
  assert (match is' with i :: _ => is_text i = false | [] => True end) as F.
  { destruct is' as [|i is']; [exact I|]. inversion Ht' as [|t i' s2 is2 Hi Hs]; subst.
    destruct i as [raw| | |]; try reflexivity. exfalso. inversion Hi as [raw' Nr O| | |]; subst.
    destruct (texts_apart_text _ _ Ha') as (A & _).
    pose proof (text_not_begin raw s2 Nr O (items_follow s2 is' Hs A)) as T.
    assert (prefixb parser_begin (raw ++ s2) = true) by (apply prefixb_app; exists r; assumption). congruence. }
  apply compile_accepts; [apply utf8_app; assumption|]. exists (is ++ is').
  split; [|apply meaning_app; assumption]. split; [apply items_app; assumption|].
  split; [destruct is; [congruence|discriminate]|apply texts_apart_app; assumption].
Qed.
