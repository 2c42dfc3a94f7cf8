(** * Messages that went wrong *)
From Verif Require Import Base Base_facts Utils Parsers Parsers_facts Pattern Grammar Source Spec Spec_table Spec_source Single_claims Trie_main
  Spec_fill Fill_claims TrieSpec_cases Continued_claims Join_claims Spec_mix Mix_claims Spec_early Early_claims Spec_stuck.
From Verif Require Trie SuffixArray.

Lemma run_longest s v c w : Forall (fun x => In x (sp_character_set s)) v ->
  set_captures (sp_character_set s) (sp_min_length s) (sp_max_length s) (v ++ c) w -> length v <= length w.
Proof. intros F ((_ & _ & M) & _). apply M; [exists c; reflexivity|exact F]. Qed.

Lemma stuck_walk ts a : stuck ts a -> forall b caps, ~ walk ts (a ++ b) caps.
Proof.
  induction 1 as [x a|l ts a N1 N2|l ts a S IH|q s ts v x c Q F Nx Na|q s ts v c n Q F Mx L|q v ts a Se S IH]; intros b caps W.
  - inversion W.
  - inversion W as [|? ? text ? W' E1 E2 E3|]; subst. destruct (Nat.le_gt_cases (length l) (length a)) as [L|L].
    + apply N1. apply (prefix_shorten _ _ b); [exists text; symmetry; exact E2|exact L].
    + apply N2. apply (prefix_shorten _ _ text); [exists b; exact E2|lia].
  - rewrite <- app_assoc in W. inversion W as [|? ? text ? W' E1 E2 E3|]; subst. apply app_inv_head in E2. subst text. exact (IH b caps W').
  - rewrite <- app_assoc in W. inversion W as [| |q' ts' w text caps' C W' E1 E2 E3]; subst. rewrite E2 in C.
    assert (set_captures (sp_character_set s) (sp_min_length s) (sp_max_length s) (v ++ (x :: c) ++ b) w) as C' by (destruct Q as [-> | ->]; exact C).
    pose proof (run_longest s v _ w F C') as L. pose proof C' as ((_ & Fw & _) & _).
    assert (w = v) as ->.
    { destruct (Nat.eq_dec (length w) (length v)) as [E|E].
      - clear -E2 E. revert v E2 E. induction w as [|y w IH]; intros v E2 E; destruct v as [|z v]; try discriminate; [reflexivity|].
        injection E2 as -> E2. f_equal. apply IH; [exact E2|]. simpl in E. lia.
      - exfalso. assert (exists u, w = v ++ x :: u) as (u & ->).
        { clear -E2 L E. revert w E2 L E. induction v as [|z v IH]; intros w E2 L E.
          - destruct w as [|y w]; [cbn in E; lia|]. injection E2 as -> _. exists w. reflexivity.
          - destruct w as [|y w]; [simpl in L; lia|]. injection E2 as -> E2. destruct (IH w E2) as (u & ->); [simpl in L; lia|simpl in E; lia|]. exists u. reflexivity. }
        apply Forall_app in Fw. destruct Fw as (_ & Fw). inversion Fw; subst. contradiction. }
    apply Na. exact (captures_admissible (PSet s) _ v _ eq_refl C').
  - rewrite <- app_assoc in W. inversion W as [| |q' ts' w text caps' C W' E1 E2 E3]; subst. rewrite E2 in C.
    assert (set_captures (sp_character_set s) (sp_min_length s) (sp_max_length s) (v ++ c ++ b) w) as C' by (destruct Q as [-> | ->]; exact C).
    pose proof (run_longest s v _ w F C') as Lw. destruct C' as (_ & _ & _ & Bx). unfold below_max in Bx. rewrite Mx in Bx. lia.
  - rewrite <- app_assoc in W. pose proof (settled_captures q v a b Se) as C. inversion W as [| |q' ts' v' text caps' C' W' E1 E2 E3]; subst.
    rewrite E2 in C'. pose proof (captures_unique _ _ _ _ C' C) as ->. apply app_inv_head in E2. subst text. exact (IH b caps' W').
Qed.

(** ** Everything else can be completed *)
Lemma run_split (set : str) a : exists v c, a = v ++ c /\ Forall (fun x => In x set) v /\ match c with b :: _ => ~ In b set | [] => True end.
Proof.
  induction a as [|x a (v & c & -> & F & H)]; [exists [], []; repeat constructor|]. destruct (in_dec Byte.byte_eq_dec x set) as [J|J].
  - exists (x :: v), c. split; [reflexivity|]. split; [constructor; assumption|exact H].
  - exists [], (x :: v ++ c). split; [reflexivity|]. split; [constructor|exact J].
Qed.
Lemma run_fits s v : Forall (fun x => In x (sp_character_set s)) v -> admissible_set s v \/ ~ admissible_set s v.
Proof.
  intros F. destruct (list_eq_dec Byte.byte_eq_dec v []) as [->|Nv]; [right; intros (H & _); congruence|].
  destruct (sp_min_length s) as [m|] eqn:Em; [destruct (N.le_gt_cases m (N.of_nat (length v))) as [Lm|Lm]; [|right; intros (_ & _ & H & _); rewrite Em in H; lia]|];
  (destruct (sp_max_length s) as [n|] eqn:En; [destruct (N.le_gt_cases (N.of_nat (length v)) n) as [Ln|Ln]; [|right; intros (_ & _ & _ & H); rewrite En in H; lia]|]);
  left; (split; [exact Nv|]; split; [exact F|]; rewrite Em, En; auto).
Qed.
Lemma ascii_run_utf8 (set v : str) : (forall b, In b set -> ascii_byte b = true) -> Forall (fun x => In x set) v -> utf8 v.
Proof.
  intros A F. apply ascii_utf8. unfold ascii. apply forallb_forall. intros x J. apply A. rewrite Forall_forall in F. exact (F x J).
Qed.
Lemma prefix_cases (l a : str) : (exists a', a = l ++ a') \/ (exists x, l = a ++ x /\ x <> []) \/ (~ prefix_of l a /\ ~ prefix_of a l).
Proof.
  revert a. induction l as [|x l IH]; intros a; [left; exists a; reflexivity|]. destruct a as [|y a]; [right; left; exists (x :: l); split; [reflexivity|discriminate]|].
  destruct (Byte.byte_eq_dec x y) as [<-|Ne].
  - destruct (IH a) as [(a' & ->)|[(z & -> & Nz)|(N1 & N2)]]; [left; exists a'; reflexivity|right; left; exists z; auto|right; right].
    split; intros (r & E); injection E as E; [apply N1|apply N2]; exists r; exact E.
  - right. right. split; intros (r & E); injection E as E _; congruence.
Qed.
Lemma first_occurrence (e : str) text : (exists v d, text = v ++ e ++ d /\ before_first e text v) \/ ~ occurs_in e text.
Proof.
  induction text as [|x text IH].
  - destruct e as [|y e]; [left; exists [], []; split; [reflexivity|]; split; [exists []; reflexivity|intros; simpl; lia]|].
    right. intros (a & b & E). destruct a; discriminate E.
  - destruct (prefix_cases e (x :: text)) as [(d & E)|H].
    + left. exists [], d. split; [exact E|]. split; [exists d; exact E|intros; simpl; lia].
    + assert (~ prefix_of e (x :: text)) as Np.
      { destruct H as [(z & -> & Nz)|(N1 & _)]; [|exact N1]. intros (r & E). apply (f_equal (@length byte)) in E. rewrite !app_length in E. destruct z; [congruence|simpl in E; lia]. }
      destruct IH as [(v & d & -> & P & M)|No].
      * left. exists (x :: v), d. split; [reflexivity|]. split; [exists d; rewrite <- app_assoc; reflexivity|].
        intros w (r & E). destruct w as [|y w]; [destruct Np; exists r; exact E|]. simpl. apply le_n_S. apply M. injection E as _ E. exists r. exact E.
      * right. intros (a & b & E). destruct a as [|y a]; [apply Np; exists b; exact E|]. injection E as _ E. apply No. exists a, b. exact E.
Qed.

Definition completed (ts : list token) (a : str) : Prop :=
  exists b vs, filled ts vs (a ++ b) /\ admissible_values vs /\ utf8 b /\ (ts <> [] -> a ++ b <> []).

Lemma set_completed q s ts : q = PSet s \/ q = PInt s -> spaced (Parser q :: ts) -> fillable (Parser q) -> parser_ascii_set q ->
  (forall a, utf8 a -> stuck ts a \/ completed ts a) -> forall a, utf8 a -> stuck (Parser q :: ts) a \/ completed (Parser q :: ts) a.
Proof.
  intros Q S Fl As IH a U.
  assert (sp_character_set s <> [] /\ exists v, length v <> 0 /\ above_min (sp_min_length s) (length (v : str)) /\ below_max (sp_max_length s) (length v)) as (Ns & u & Lu & Mn & Mx)
    by (destruct Q as [-> | ->]; exact Fl).
  assert (forall b, In b (sp_character_set s) -> ascii_byte b = true) as A by (destruct Q as [-> | ->]; exact As).
  assert (forall v, admissible_set s v -> admissible q v) as Ad by (intros v; destruct Q as [-> | ->]; exact (fun x => x)).
  destruct (run_split (sp_character_set s) a) as (v & c & -> & F & Hc). pose proof (ascii_run_utf8 _ v A F) as Uv. pose proof (utf8_app_inv_r _ _ Uv U) as Uc.
  destruct c as [|x c].
  - (* the run is open *)
    assert ((exists n, sp_max_length s = Some n /\ (n < N.of_nat (length v))%N) \/ below_max (sp_max_length s) (length v)) as [(n & En & Ln)|Bv].
    { unfold below_max. destruct (sp_max_length s) as [n|]; [|auto]. destruct (N.le_gt_cases (N.of_nat (length v)) n); [auto|left; eauto]. }
    { left. exact (stuck_long q s ts v [] n Q F En Ln). }
    destruct (IH [] utf8_nil) as [Sx|(b & vs & Fb & Ab & Ub & _)].
    { left. exfalso. clear -Sx S Q. inversion Sx; subst.
      - apply H0. exists l. reflexivity.
      - destruct l; [|discriminate]. destruct Q as [-> | ->]; cbn in S; tauto.
      - destruct v; discriminate.
      - match goal with H : _ ++ _ = [] |- _ => apply app_eq_nil in H; destruct H as (-> & _) end. cbn in *. lia.
      - match goal with H : _ ++ _ = [] |- _ => apply app_eq_nil in H; destruct H as (-> & ->) end.
        match goal with H : settled _ _ _ |- _ => destruct H as (C & H') end. destruct q0 as [s0|s0|g]; try congruence.
        destruct Q as [-> | ->]; cbn in S; tauto. }
    destruct (sp_character_set s) as [|y set] eqn:Es; [congruence|].
    set (w := v ++ repeat y (length u - length v)).
    assert (Forall (fun x => In x (y :: set)) w) as Fw.
    { apply Forall_app. split; [exact F|]. apply Forall_forall. intros z J. apply repeat_spec in J. subst z. left. reflexivity. }
    assert (length w = Nat.max (length u) (length v)) as Lw by (unfold w; rewrite app_length, repeat_length; lia).
    assert (admissible_set s w) as Aw.
    { split; [intros E; rewrite E in Lw; simpl in Lw; lia|]. split; [rewrite Es; exact Fw|].
      unfold above_min in Mn. unfold below_max in Mx, Bv. rewrite Lw. split; [destruct (sp_min_length s); [lia|exact I]|destruct (sp_max_length s); [lia|exact I]]. }
    right. exists (repeat y (length u - length v) ++ b), ((q, w) :: vs). rewrite app_nil_r, app_assoc. fold w.
    split; [constructor; exact Fb|]. split; [constructor; [exact (Ad _ Aw)|exact Ab]|]. split.
    + apply utf8_app; [|exact Ub]. apply (ascii_run_utf8 (y :: set)); [exact A|]. apply Forall_app in Fw. tauto.
    + intros _ E. apply app_eq_nil in E. destruct E as (E & _). destruct Aw as (Nw & _). congruence.
  - destruct (run_fits s v F) as [Av|Nv]; [|left; exact (stuck_run q s ts v x c Q F Hc Nv)].
    destruct (IH (x :: c) Uc) as [Sx|(b & vs & Fb & Ab & Ub & _)].
    + left. apply stuck_behind_parser; [|exact Sx]. assert (set_captures (sp_character_set s) (sp_min_length s) (sp_max_length s) (v ++ x :: c) v) as C by (apply admissible_captures; [exact Av|exact Hc]).
      destruct Q as [-> | ->]; (split; [exact C|discriminate]).
    + right. exists b, ((q, v) :: vs). rewrite <- app_assoc. split; [constructor; exact Fb|]. split; [constructor; [exact (Ad _ Av)|exact Ab]|]. split; [exact Ub|].
      intros _ E. apply app_eq_nil in E. destruct E as (_ & E). discriminate E.
Qed.

Lemma not_stuck_nil ts : spaced ts -> Forall fillable ts -> ~ stuck ts [].
Proof.
  intros S F H. inversion H as [|l ts' a N1 N2 E1 E2|l ts' a H' E1 E2|q s ts' v b c Q Fv Nb Na E1 E2|q s ts' v c n Q Fv Mx L E1 E2|q v ts' a Se H' E1 E2]; subst.
  - apply N2. exists l. reflexivity.
  - apply app_eq_nil in E2. destruct E2 as (-> & _). inversion F as [|? ? Fl _]; subst. apply Fl. reflexivity.
  - destruct v; discriminate E2.
  - apply app_eq_nil in E2. destruct E2 as (-> & _). cbn in L. lia.
  - apply app_eq_nil in E2. destruct E2 as (-> & ->). destruct Se as (_ & Se). destruct q as [s|s|g]; try congruence.
    destruct Se as (e & d & Ee & Ed). symmetry in Ed. apply app_eq_nil in Ed. destruct Ed as (-> & _).
    cbn [spaced] in S. rewrite Ee in S. destruct S as ((rest & ->) & _). inversion F as [|? ? _ F']; subst. inversion F' as [|? ? Fl _]; subst. apply Fl. reflexivity.
Qed.

Lemma greedy_completed g ts : spaced (Parser (PGreedy g) :: ts) -> Forall fillable ts -> valid_token (Parser (PGreedy g)) ->
  (forall a, utf8 a -> stuck ts a \/ completed ts a) -> forall a, utf8 a -> stuck (Parser (PGreedy g) :: ts) a \/ completed (Parser (PGreedy g) :: ts) a.
Proof.
  intros S F V IH a U. pose proof S as S0. cbn [spaced] in S. destruct S as (S & S').
  assert (parser_utf8 (PGreedy g)) as Vg by (cbn in V |- *; tauto).
  destruct (gp_end_string g) as [e|] eqn:Ee.
  - destruct S as (rest & ->). assert (utf8 e) as Ue by (cbn in Vg; rewrite Ee in Vg; exact Vg).
    assert (e <> []) as Ne by (inversion F as [|? ? Fl _]; subst; exact Fl).
    destruct (first_occurrence e a) as [(v & d & -> & B)|No].
    + assert (captures (PGreedy g) (v ++ e ++ d) v) as C by (cbn [captures]; unfold greedy_captures; rewrite Ee; exact B).
      pose proof (captures_ascii_utf8 _ _ _ U Vg I C) as Uv. pose proof (utf8_app_inv_r _ _ Uv U) as Ur.
      destruct (IH (e ++ d) Ur) as [Sx|(b & vs & Fb & Ab & Ub & _)].
      * left. apply stuck_behind_parser; [|exact Sx]. split; [exact C|]. exists e, d. auto.
      * right. exists b, ((PGreedy g, v) :: vs). rewrite <- app_assoc. split; [constructor; exact Fb|].
        split; [constructor; [exact (captures_admissible _ _ v _ eq_refl C)|exact Ab]|]. split; [exact Ub|].
        intros _ E. apply app_eq_nil in E. destruct E as (_ & E). apply app_eq_nil in E. destruct E as (E & _). apply app_eq_nil in E. tauto.
    + right. destruct (first_occurrence e (a ++ e)) as [(v & d & E & B)|No']; [|destruct No'; exists a, []; rewrite app_nil_r; reflexivity].
      assert (captures (PGreedy g) (v ++ e ++ d) v) as C by (cbn [captures]; unfold greedy_captures; rewrite Ee, <- E; exact B).
      assert (utf8 (v ++ e ++ d)) as Uw by (rewrite <- E; apply utf8_app; assumption).
      pose proof (captures_ascii_utf8 _ _ _ Uw Vg I C) as Uv.
      assert (exists b', v ++ e = a ++ b') as (b' & Eb).
      { destruct (Nat.le_gt_cases (length a) (length (v ++ e))) as [L|L].
        - apply (prefix_shorten _ _ d); [exists e; rewrite <- app_assoc; symmetry; exact E|exact L].
        - exfalso. apply No. destruct (prefix_shorten (v ++ e) a e) as (r & Er); [exists d; rewrite <- app_assoc; exact E|lia|].
          exists v, r. rewrite app_assoc. exact Er. }
      destruct (IH e Ue) as [Sx|(b & vs & Fb & Ab & Ub & _)].
      { exfalso. inversion Sx as [|? ? ? N1 _|l ts' x H' E1 E2| | |]; subst; [apply N1; exists []; symmetry; apply app_nil_r|].
        assert (x = []) as -> by (apply (f_equal (@length byte)) in E2; rewrite app_length in E2; destruct x; [reflexivity|simpl in E2; lia]).
        inversion F; subst. exact (not_stuck_nil rest S' H2 H'). }
      exists (b' ++ b), ((PGreedy g, v) :: vs). rewrite app_assoc, <- Eb, <- app_assoc. split; [constructor; exact Fb|].
      split; [constructor; [exact (captures_admissible _ _ v _ eq_refl C)|exact Ab]|]. split.
      * apply utf8_app; [|exact Ub]. apply (utf8_app_inv_r a); [exact U|]. rewrite <- Eb. apply utf8_app; assumption.
      * intros _ Z. apply app_eq_nil in Z. destruct Z as (_ & Z). apply app_eq_nil in Z. tauto.
  - right. subst ts. exists ($"x"), [(PGreedy g, a ++ $"x")]. split; [|split; [|split]].
    + rewrite <- (app_nil_r (a ++ $"x")) at 2. constructor. constructor.
    + constructor; [|constructor]. cbn [fst snd admissible]. rewrite Ee. exact I.
    + apply ascii_utf8. reflexivity.
    + intros _ Z. apply app_eq_nil in Z. destruct Z as (_ & Z). discriminate Z.
Qed.

Lemma stuck_or_completed ts : spaced ts -> Forall fillable ts -> Forall valid_token ts -> (forall q, In (Parser q) ts -> parser_ascii_set q) ->
  forall a, utf8 a -> stuck ts a \/ completed ts a.
Proof.
  induction ts as [|[q|l] ts IH]; intros S F V As a U.
  - destruct a as [|x a]; [right|left; constructor]. exists [], []. split; [constructor|]. split; [constructor|]. split; [constructor|congruence].
  - inversion F as [|? ? Fq F']; subst. inversion V as [|? ? Vq V']; subst.
    assert (forall a, utf8 a -> stuck ts a \/ completed ts a) as IH'.
    { apply IH; [destruct q; cbn [spaced] in S; tauto|exact F'|exact V'|intros x J; apply As; right; exact J]. }
    pose proof (As q (or_introl eq_refl)) as Aq. destruct q as [s|s|g].
    + exact (set_completed (PSet s) s ts (or_introl eq_refl) S Fq Aq IH' a U).
    + exact (set_completed (PInt s) s ts (or_intror eq_refl) S Fq Aq IH' a U).
    + exact (greedy_completed g ts S F' Vq IH' a U).
  - inversion F as [|? ? Fl F']; subst. inversion V as [|? ? Vl V']; subst. cbn [spaced fillable valid_token] in *.
    assert (forall a, utf8 a -> stuck ts a \/ completed ts a) as IH' by (apply IH; [exact S|exact F'|exact V'|intros x J; apply As; right; exact J]).
    destruct (prefix_cases l a) as [(a' & ->)|[(x & -> & Nx)|(N1 & N2)]].
    + pose proof (utf8_app_inv_r _ _ Vl U) as Ua. destruct (IH' a' Ua) as [Sx|(b & vs & Fb & Ab & Ub & Nb)]; [left; constructor; exact Sx|right].
      exists b, vs. rewrite <- app_assoc. split; [constructor; [|exact Fb]|].
      { destruct ts; [left; reflexivity|right]. split; [exact Fl|apply Nb; discriminate]. }
      split; [exact Ab|]. split; [exact Ub|]. intros _ Z. apply app_eq_nil in Z. tauto.
    + right. destruct (IH' [] utf8_nil) as [Sx|(b & vs & Fb & Ab & Ub & Nb)]; [destruct (not_stuck_nil ts S F' Sx)|].
      exists (x ++ b), vs. rewrite app_assoc. split; [constructor; [|exact Fb]|].
      { destruct ts; [left; reflexivity|right]. split; [exact Fl|apply Nb; discriminate]. }
      split; [exact Ab|]. split; [apply utf8_app; [exact (utf8_app_inv_r _ _ U Vl)|exact Ub]|]. intros _ Z. apply app_eq_nil in Z. tauto.
    + left. constructor; assumption.
Qed.

(** ** The trie *)
Theorem trie_stuck sip ps t p a b r :
  Forall valid_pattern ps -> collision_free sip ps -> NoDup (map pat_uuid ps) -> Trie.add_patterns sip Trie.tree_new ps = Ret t ->
  In p ps -> stuck (pat_tokens p) a -> utf8 (a ++ b) -> Trie.parse t (a ++ b) = Ret (Some r) -> mr_pattern r <> stripped p.
Proof.
  intros V C Nd A J S U E Ep. destruct (trie_sound sip ps t _ r V C A U E) as (p' & caps & J' & Ep' & W & R).
  assert (p' = p) as -> by (apply (same_pattern ps Nd); [exact J'|exact J|congruence]).
  exact (stuck_walk _ _ S b caps W).
Qed.

Theorem trie_goes_on sip p t a :
  valid_pattern p -> (forall q, parser_in [p] q -> parser_ascii_set q) -> collision_free sip [p] -> Trie.add_patterns sip Trie.tree_new [p] = Ret t ->
  pat_tokens p <> [] -> spaced (pat_tokens p) -> Forall fillable (pat_tokens p) -> utf8 a ->
  (stuck (pat_tokens p) a /\ forall b o, utf8 (a ++ b) -> Trie.parse t (a ++ b) = Ret o -> o = None) \/
  (~ stuck (pat_tokens p) a /\ exists b, utf8 (a ++ b) /\ forall o, Trie.parse t (a ++ b) = Ret o -> o <> None).
Proof.
  intros V As C A N0 S F U. destruct (stuck_or_completed (pat_tokens p) S F V) with (a := a) as [Sx|(b & vs & Fb & Ab & Ub & _)]; [|exact U| |].
  - intros q J. apply As. exists p. split; [left; reflexivity|exact J].
  - left. split; [exact Sx|]. intros b o Uo E. destruct o as [r|]; [exfalso|reflexivity].
    destruct (trie_sound sip [p] t _ r (Forall_cons _ V (Forall_nil _)) C A Uo E) as (p' & caps & [<-|[]] & _ & W & _). exact (stuck_walk _ _ Sx b caps W).
  - right. pose proof (filled_walk _ _ _ Fb S N0 Ab) as W. split.
    + intros Sx. assert (forall ts text caps, trie_walk ts text caps -> walk ts text caps) as H.
      { clear. induction 1 as [l|q v C|l ts text caps N0 Nl Nt W IH|q ts v text caps N0 C W IH].
        - rewrite <- (app_nil_r l) at 2. constructor. constructor.
        - rewrite <- (app_nil_r v) at 1. constructor; [rewrite app_nil_r; exact C|constructor].
        - constructor. exact IH.
        - constructor; assumption. }
      exact (stuck_walk _ _ Sx b vs (H _ _ _ W)).
    + exists b. pose proof (utf8_app _ _ U Ub) as Uo. split; [exact Uo|]. intros o E ->.
      exact (trie_one sip p t _ None V C A Uo E vs W).
Qed.
