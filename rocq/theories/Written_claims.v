(** * Which token lists can be written *)
From Coq Require Import Sorted.
From Verif Require Import Base Base_facts Utils Parsers Parsers_facts Pattern Spec Grammar Spec_grammar Grammar_syntax Grammar_claims Spec_written.

(** ** Unescaped text has no escape sequence *)
Lemma escape_fresh p u : ~ occurs_in escape_seq p -> ~ occurs_in escape_seq u -> ~ occurs_in escape_seq (p ++ $"%{" ++ u).
Proof.
  intros P U (a & b & E). revert p P E. induction a as [|x a IH]; intros p P E.
  - destruct p as [|p1 [|p2 [|p3 [|p4 p]]]]; cbn in E; try discriminate E.
    injection E as E1 E2 E3 E4 _. subst. apply P. exists [], p. reflexivity.
  - destruct p as [|y p].
    + cbn in E. injection E as _ E. destruct a as [|y a]; cbn in E; [discriminate E|]. injection E as _ E.
      apply U. exists a, b. exact E.
    + cbn in E. injection E as -> E. apply (IH p); [|exact E]. intros (c & d & F). apply P. exists (x :: c), d. rewrite F. reflexivity.
Qed.
Lemma unescaped_fresh s u : unescaped s u -> ~ occurs_in escape_seq u.
Proof. induction 1 as [p H|p s u H _ IH]; [exact H|apply escape_fresh; assumption]. Qed.

(** ** From the text to the tokens *)
Lemma name_text_can nt n : name_text nt n -> name_can n.
Proof. intros [|n' H]; [exact I|exact H]. Qed.
Lemma set_with_can C bs n p : set_with C bs n p -> name_can n ->
  Forall (fun b => match b with MinLen v | MaxLen v => fits v end) bs -> set_can p.
Proof.
  intros (<- & H2 & _ & H4 & H5) U F. split; [exact U|]. rewrite H4, H5.
  split; [apply last_min_fits; auto; exact I|]. split; [apply last_max_fits; auto; exact I|exact H2].
Qed.

Lemma meaning_can is ts : meaning is ts -> forall s b, items_text s is -> texts_apart is -> utf8 s ->
  (b = true -> match is with i :: _ => is_text i = false | [] => True end) -> tokens_can b ts.
Proof.
  induction 1 as [|raw u is ts Hu Hm IH|n raw is ts Hm IH|n is ts Hh Hm IH|chars bs n p is ts Hp Hm IH|bs n p is ts Hp Hm IH];
    intros s b Hs Ha U B; inversion Hs as [|t i s' is' Ht Hs']; subst.
  - exact I.
  - destruct (texts_apart_text _ _ Ha) as (A1 & A2).
    destruct (item_utf8 _ _ _ _ Ht Hs' (fun _ => A1) U) as (U1 & U2 & _). inversion Ht; subst.
    destruct b; [discriminate (B eq_refl)|]. cbn [tokens_can].
    split; [|apply (IH s'); try assumption; discriminate].
    split; [apply (unescaped_nonempty _ _ Hu); assumption|]. split; [apply (unescaped_utf8 _ _ Hu U1)|exact (unescaped_fresh _ _ Hu)].
  - pose proof (texts_apart_tl _ _ Ha) as A1. destruct (texts_apart_text _ _ A1) as (A2 & A3).
    destruct (item_utf8 _ _ _ _ Ht Hs' ltac:(discriminate) U) as (U1 & U2 & _).
    inversion Hs' as [|t2 i2 s2 is2 Ht2 Hs2]; subst.
    destruct (item_utf8 _ _ _ _ Ht2 Hs2 (fun _ => A2) U2) as (U3 & U4 & _). inversion Ht2; subst. inversion Ht; subst.
    cbn [tokens_can parser_can is_greedy]. split; [eapply name_text_can; eassumption|].
    split; [repeat split; assumption|]. apply (IH s2); try assumption. discriminate.
  - destruct (item_utf8 _ _ _ _ Ht Hs' ltac:(discriminate) U) as (U1 & U2 & _). inversion Ht; subst.
    cbn [tokens_can parser_can is_greedy]. split; [eapply name_text_can; eassumption|].
    apply (IH s'); [exact Hs'|apply (texts_apart_tl _ _ Ha)|exact U2|intros _; exact Hh].
  - destruct (item_utf8 _ _ _ _ Ht Hs' ltac:(discriminate) U) as (U1 & U2 & Uc).
    inversion Ht as [| |chars' bt bs' nt n' N Q Hb Hn|]; subst.
    cbn [tokens_can parser_can is_greedy].
    split; [split|apply (IH s'); [exact Hs'|apply (texts_apart_tl _ _ Ha)|exact U2|discriminate]].
    + apply (set_with_can _ _ _ _ Hp); [apply (name_text_can nt n Hn)|].
      destruct Hb as [|c t' bs' _ Hb]; [constructor|apply (opt_bounds_fit _ _ Hb)].
    + exists chars. destruct Hp as (_ & _ & Hp & _). auto.
  - destruct (item_utf8 _ _ _ _ Ht Hs' ltac:(discriminate) U) as (U1 & U2 & _).
    inversion Ht as [| | |bt bs' nt n' Hb Hn]; subst.
    cbn [tokens_can parser_can is_greedy].
    split; [split|apply (IH s'); [exact Hs'|apply (texts_apart_tl _ _ Ha)|exact U2|discriminate]].
    + apply (set_with_can _ _ _ _ Hp); [apply (name_text_can nt n Hn)|].
      destruct Hb as [|t' bs' Hb]; [constructor|apply (opt_bounds_fit _ _ Hb)].
    + destruct Hp as (_ & _ & Hp & _). exact Hp.
Qed.

(** ** From the tokens to a text *)
Lemma decimal_snoc d b : decimal (d ++ [b]) = (decimal d * 10 + (Byte.to_N b - 48))%N.
Proof. unfold decimal. rewrite fold_left_app. reflexivity. Qed.
Lemma number_digit v : (v < 10)%N -> exists b, digit b /\ (Byte.to_N b - 48 = v)%N.
Proof.
  intros H. destruct (Byte.of_N (48 + v)) as [b|] eqn:E.
  - apply Byte.to_of_N in E. exists b. unfold digit. lia.
  - apply Byte.of_N_None_iff in E. lia.
Qed.
Lemma number_can v : fits v -> exists d, number_text d v.
Proof.
  enough (exists d, d <> [] /\ Forall digit d /\ decimal d = v) as (d & N & F & E).
  { intros H. exists d. rewrite <- E. constructor; auto. rewrite E. exact H. }
  induction v as [v IH] using (well_founded_induction N.lt_wf_0).
  destruct (N.lt_ge_cases v 10) as [H|H].
  - destruct (number_digit v H) as (b & D & E). exists [b]. split; [discriminate|]. split; [constructor; auto|].
    unfold decimal. cbn [fold_left]. lia.
  - destruct (IH (v / 10)%N) as (d & N & F & E); [apply N.div_lt; lia|].
    destruct (number_digit (v mod 10)%N (N.mod_lt v 10 ltac:(discriminate))) as (b & D & Eb).
    exists (d ++ [b]). split; [destruct d; discriminate|]. split; [apply Forall_app; auto|].
    rewrite decimal_snoc, E, Eb, (N.mul_comm _ 10). symmetry. apply N.div_mod. discriminate.
Qed.

Definition bounds_of (a b : option N) : list bound :=
  match a with Some v => [MinLen v] | None => [] end ++ match b with Some v => [MaxLen v] | None => [] end.
Lemma bounds_last a b : last_min (bounds_of a b) None = a /\ last_max (bounds_of a b) None = b.
Proof. destruct a, b; split; reflexivity. Qed.
Lemma bounds_can a b : bound_can a -> bound_can b -> exists t, opt_bounds_text t (bounds_of a b).
Proof.
  destruct a as [v|], b as [w|]; cbn [bound_can bounds_of app]; intros A B.
  - destruct (number_can v A) as (d & D), (number_can w B) as (e & E).
    eexists. apply bounds_some. eapply bounds_more; [apply bound_min; exact D|apply (comma_spaces 0)|]. apply bounds_one, bound_max. exact E.
  - destruct (number_can v A) as (d & D). eexists. apply bounds_some, bounds_one, bound_min. exact D.
  - destruct (number_can w B) as (e & E). eexists. apply bounds_some, bounds_one, bound_max. exact E.
  - eexists. apply bounds_none.
Qed.
Lemma name_written n : name_can n -> exists nt, name_text nt n.
Proof. destruct n as [n|]; intros H; eexists; constructor; exact H. Qed.

(** The items of a list of tokens that are no literals behind GREEDY. *)
Lemma can_items k : forall ts b, length ts <= k -> tokens_can b ts -> literals_apart ts -> greedy_linked ts ->
  (b = true -> head_literal ts = None) ->
  exists s is, utf8 s /\ items_text s is /\ texts_apart is /\ meaning is ts /\
    (head_literal ts = None -> match is with i :: _ => is_text i = false | [] => True end).
Proof.
  induction k as [|k IH]; intros ts b L C A G B.
  { destruct ts; [|cbn in L; lia]. exists [], []. repeat split; constructor. }
  destruct ts as [|[q|l] ts].
  - exists [], []. repeat split; constructor.
  - cbn [tokens_can] in C. destruct C as (Cq & C). cbn [greedy_linked] in G. destruct G as (Gq & G). cbn [length] in L.
    assert (literals_apart ts) as A' by (destruct ts; [exact I|exact (proj2 A)]).
    destruct q as [p|p|g]; cbn [parser_can is_greedy] in Cq, C.
    + destruct (IH ts false ltac:(lia) C A' G ltac:(discriminate)) as (s & is & U & T & P & M & H).
      destruct Cq as ((Cn & C1 & C2 & S) & chars & Uc & Nc & Q & E).
      destruct (name_written _ Cn) as (nt & Hn), (bounds_can _ _ C1 C2) as (bt & Hb).
      assert (item_text ($"%{SET(""" ++ chars ++ $"""" ++ ($"," ++ bt) ++ $")" ++ nt ++ $"}")
        (ISet chars (bounds_of (sp_min_length p) (sp_max_length p)) (sp_name p))) as It.
      { apply text_set; auto. apply (set_bounds_some ($",") bt); [exact (comma_spaces 0)|exact Hb]. }
      eexists _, _. split; [|split; [apply items_cons; [exact It|exact T]|]].
      * apply utf8_app; [|exact U]. apply utf8_app; [apply ascii_utf8; reflexivity|]. apply utf8_app; [exact Uc|]. apply ascii_utf8.
        rewrite !ascii_app, (name_text_ascii nt _ Hn), (opt_bounds_ascii bt _ Hb). reflexivity.
      * split; [apply texts_apart_cons; [exact P|destruct is; cbn; tauto || (intros (X & _); discriminate X)]|].
        split; [|intros _; reflexivity]. apply means_set; [|exact M].
        unfold set_with. destruct (bounds_last (sp_min_length p) (sp_max_length p)) as (X & Y). auto.
    + destruct (IH ts false ltac:(lia) C A' G ltac:(discriminate)) as (s & is & U & T & P & M & H).
      destruct Cq as ((Cn & C1 & C2 & S) & E).
      destruct (name_written _ Cn) as (nt & Hn), (bounds_can _ _ C1 C2) as (bt & Hb).
      assert (item_text ($"%{INT" ++ ($"(" ++ bt ++ $")") ++ nt ++ $"}")
        (IInt (bounds_of (sp_min_length p) (sp_max_length p)) (sp_name p))) as It.
      { apply text_int; auto. apply int_bounds_some. exact Hb. }
      eexists _, _. split; [|split; [apply items_cons; [exact It|exact T]|]].
      * apply utf8_app; [|exact U]. apply ascii_utf8.
        rewrite !ascii_app, (name_text_ascii nt _ Hn), (opt_bounds_ascii bt _ Hb). reflexivity.
      * split; [apply texts_apart_cons; [exact P|destruct is; cbn; tauto || (intros (X & _); discriminate X)]|].
        split; [|intros _; reflexivity]. apply means_int; [|exact M].
        unfold set_with. destruct (bounds_last (sp_min_length p) (sp_max_length p)) as (X & Y). auto.
    + destruct (name_written _ Cq) as (nt & Hn). destruct g as [gn ge]. cbn [gp_name gp_end_string] in *. subst ge.
      assert (item_text ($"%{GREEDY" ++ nt ++ $"}") (IGreedy gn)) as It by (apply text_greedy; exact Hn).
      assert (utf8 ($"%{GREEDY" ++ nt ++ $"}")) as Ut.
      { apply ascii_utf8. rewrite !ascii_app, (name_text_ascii nt _ Hn). reflexivity. }
      destruct ts as [|[q|l] ts].
      * exists (($"%{GREEDY" ++ nt ++ $"}") ++ []), [IGreedy gn]. rewrite app_nil_r at 1. split; [exact Ut|].
        split; [apply items_cons; [exact It|constructor]|]. split; [exact I|]. split; [apply means_greedy; constructor|reflexivity].
      * destruct (IH (Parser q :: ts) true ltac:(lia) C A' G ltac:(reflexivity)) as (s & is & U & T & P & M & H).
        eexists _, _. split; [|split; [apply items_cons; [exact It|exact T]|]]; [apply utf8_app; assumption|].
        split; [apply texts_apart_cons; [exact P|destruct is; cbn; tauto || (intros (X & _); discriminate X)]|].
        split; [|reflexivity]. apply means_greedy; [exact (H eq_refl)|exact M].
      * cbn [tokens_can] in C. destruct C as ((Nl & Ul & Ol) & C). cbn [length] in L.
        assert (literals_apart ts /\ head_literal ts = None) as (A2 & Hh).
        { destruct ts as [|[q|l'] ts]; cbn in A' |- *; tauto. }
        cbn [greedy_linked] in G. destruct G as (_ & G).
        destruct (IH ts false ltac:(lia) C A2 G ltac:(discriminate)) as (s & is & U & T & P & M & H).
        exists (($"%{GREEDY" ++ nt ++ $"}") ++ l ++ s), (IGreedy gn :: IText l :: is).
        split; [apply utf8_app; [exact Ut|apply utf8_app; assumption]|].
        split; [apply items_cons; [exact It|]; apply items_cons; [apply text_text; assumption|exact T]|].
        split; [|split; [apply means_greedy_text; exact M|reflexivity]].
        apply texts_apart_cons; [apply texts_apart_cons; [exact P|]|cbn; intros (X & _); discriminate X].
        specialize (H Hh). destruct is as [|i is]; cbn; [tauto|]. intros (_ & X). congruence.
  - destruct b; [discriminate (B eq_refl)|]. cbn [tokens_can] in C. destruct C as ((Nl & Ul & Ol) & C). cbn [length] in L.
    assert (literals_apart ts /\ head_literal ts = None) as (A2 & Hh).
    { destruct ts as [|[q|l'] ts]; cbn in A |- *; tauto. }
    destruct G as (_ & G).
    destruct (IH ts false ltac:(lia) C A2 G ltac:(discriminate)) as (s & is & U & T & P & M & H).
    destruct (escaped_total l) as (e & E). pose proof (escaped_unescaped l e E Ol) as Un.
    exists (e ++ s), (IText e :: is). split; [apply utf8_app; [exact (escaped_utf8 _ _ E Ul)|exact U]|].
    split; [apply items_cons; [apply text_text; [|exact (escaped_no_begin _ _ E)]|exact T]|].
    + intros ->. inversion Un as [p X Y Z|p s0 u0 X Y Z W]; subst; [congruence|]. destruct p; discriminate.
    + split; [|split; [apply means_text; assumption|discriminate]].
      apply texts_apart_cons; [exact P|]. specialize (H Hh). destruct is as [|i is]; cbn; [tauto|]. intros (_ & X). congruence.
Qed.

Theorem written ts : (exists s, utf8 s /\ compile s = Ret (Ok ts)) <->
  ts <> [] /\ literals_apart ts /\ greedy_linked ts /\ tokens_can false ts.
Proof.
  split.
  - intros (s & U & C). destruct (compile_shape s ts U C) as (N & A & G). split; [exact N|]. split; [exact A|]. split; [exact G|].
    apply (compile_accepts s ts U) in C. destruct C as (is & (Ht & _ & Ha) & Hm).
    apply (meaning_can is ts Hm s false Ht Ha U). discriminate.
  - intros (N & A & G & C). destruct (can_items (length ts) ts false (le_n _) C A G ltac:(discriminate)) as (s & is & U & T & P & M & _).
    exists s. split; [exact U|]. apply compile_accepts; [exact U|]. exists is. split; [|exact M]. split; [exact T|]. split; [|exact P].
    intros ->. inversion M; subst. congruence.
Qed.

(** ** Different ways to write the same *)
Lemma first_begin p u p' u' : ~ occurs_in ($"%{") p -> ~ occurs_in ($"%{") p' -> p ++ $"%{" ++ u = p' ++ $"%{" ++ u' -> p = p' /\ u = u'.
Proof.
  revert p'. induction p as [|x p IH]; intros [|y p'] P P' E; cbn in E.
  - injection E as E. auto.
  - injection E as <- E. destruct p' as [|z p']; cbn in E; [discriminate E|]. injection E as <- E. destruct P'. exists [], p'. reflexivity.
  - injection E as -> E. destruct p as [|z p]; cbn in E; [discriminate E|]. injection E as -> E. destruct P. exists [], p. reflexivity.
  - injection E as <- E. destruct (IH p') as (-> & ->); [| |exact E|auto].
    + intros (a & b & F). apply P. exists (x :: a), b. rewrite F. reflexivity.
    + intros (a & b & F). apply P'. exists (x :: a), b. rewrite F. reflexivity.
Qed.
Lemma no_begin_left a b : ~ occurs_in ($"%{") (a ++ b) -> ~ occurs_in ($"%{") a.
Proof. intros H (x & y & E). apply H. exists x, (y ++ b). rewrite E, <- !app_assoc. reflexivity. Qed.
Lemma no_begin_right a b : ~ occurs_in ($"%{") (a ++ b) -> ~ occurs_in ($"%{") b.
Proof. intros H (x & y & E). apply H. exists (a ++ x), y. rewrite E, <- !app_assoc. reflexivity. Qed.

Lemma unescaped_escaped s u : unescaped s u -> ~ occurs_in ($"%{") s -> escaped u s.
Proof.
  induction 1 as [p H|p s u H _ IH]; intros N; [apply escaped_plain; exact N|].
  apply escaped_more; [exact (no_begin_left _ _ N)|]. apply IH. exact (no_begin_right _ _ (no_begin_right _ _ N)).
Qed.
Lemma escaped_fun u e : escaped u e -> forall e', escaped u e' -> e = e'.
Proof.
  induction 1 as [p H|p u e H _ IH]; intros e' H'; inversion H' as [p' N E1 E2|p' u' e2 N H2 E1 E2]; subst.
  - reflexivity.
  - destruct H. exists p', u'. reflexivity.
  - destruct N. exists p, u. reflexivity.
  - apply first_begin in E1; [|assumption..]. destruct E1 as (-> & ->). rewrite (IH e2 H2). reflexivity.
Qed.
Lemma unescaped_one raw raw' u : unescaped raw u -> unescaped raw' u -> ~ occurs_in ($"%{") raw -> ~ occurs_in ($"%{") raw' -> raw = raw'.
Proof. intros H H' N N'. apply (escaped_fun u); apply unescaped_escaped; assumption. Qed.

Lemma set_with_same C bs n p C' bs' n' : set_with C bs n p ->
  (set_with C' bs' n' p <-> (forall b, C b <-> C' b) /\ last_min bs None = last_min bs' None /\ last_max bs None = last_max bs' None /\ n = n').
Proof.
  intros (A1 & A2 & A3 & A4 & A5). unfold set_with. rewrite A1, A4, A5. split.
  - intros (B1 & _ & B3 & B4 & B5). split; [intros b; rewrite <- A3; apply B3|auto].
  - intros (B1 & B2 & B3 & B4). split; [exact B4|]. split; [exact A2|]. split; [intros b; rewrite A3; apply B1|auto].
Qed.

Definition plain_items (is : list item) : Prop := forall raw, In (IText raw) is -> ~ occurs_in ($"%{") raw.
Lemma items_plain s is : items_text s is -> plain_items is.
Proof.
  induction 1 as [|t i s is Ht _ IH]; intros raw I; [destruct I|]. destruct I as [->|I]; [|exact (IH raw I)]. inversion Ht; assumption.
Qed.
Lemma plain_tl i is : plain_items (i :: is) -> plain_items is.
Proof. intros H raw I. apply H. right. exact I. Qed.

Lemma same_meaning is ts : meaning is ts -> plain_items is -> forall is' ts', meaning is' ts' -> plain_items is' -> texts_apart is -> texts_apart is' ->
  (ts = ts' <-> Forall2 same_item is is').
Proof.
  induction 1 as [|raw u is ts Hu Hm IH|n raw is ts Hm IH|n is ts Hh Hm IH|chars bs n p is ts Hp Hm IH|bs n p is ts Hp Hm IH];
    intros P is' ts' M P' A A'.
  - destruct M; split; intros E; try discriminate E; try (inversion E; fail); constructor.
  - destruct M as [|raw' u' is' ts' Hu' M|n' raw' is' ts' M|n' is' ts' Hh' M|chars' bs' n' p' is' ts' Hp' M|bs' n' p' is' ts' Hp' M];
      try (split; intros E; [discriminate E|inversion E; subst; contradiction]).
    specialize (IH (plain_tl _ _ P) is' ts' M (plain_tl _ _ P') (texts_apart_tl _ _ A) (texts_apart_tl _ _ A')). split; intros E.
    + injection E as -> E. constructor; [|apply IH; exact E].
      apply (unescaped_one raw raw' u' Hu Hu'); [apply P|apply P']; left; reflexivity.
    + inversion E as [|? ? ? ? E1 E2]; subst. cbn in E1. subst raw'. f_equal; [|apply IH; exact E2]. f_equal.
      rewrite <- (unescape_complete _ _ Hu), <- (unescape_complete _ _ Hu'). reflexivity.
  - destruct M as [|raw' u' is' ts' Hu' M|n' raw' is' ts' M|n' is' ts' Hh' M|chars' bs' n' p' is' ts' Hp' M|bs' n' p' is' ts' Hp' M];
      try (split; intros E; [discriminate E|inversion E; subst; contradiction]).
    + specialize (IH (plain_tl _ _ (plain_tl _ _ P)) is' ts' M (plain_tl _ _ (plain_tl _ _ P'))
        (texts_apart_tl _ _ (texts_apart_tl _ _ A)) (texts_apart_tl _ _ (texts_apart_tl _ _ A'))). split; intros E.
      * injection E as -> -> _ E. constructor; [reflexivity|]. constructor; [reflexivity|]. apply IH. exact E.
      * inversion E as [|? ? ? ? E1 E2]; subst. cbn in E1. subst n'. inversion E2 as [|? ? ? ? E3 E4]; subst. cbn in E3. subst raw'.
        rewrite (proj2 IH E4). reflexivity.
    + split; intros E; [discriminate E|]. inversion E as [|? ? ? ? E1 E2]; subst. inversion E2 as [|? j ? ? E3 E4]; subst.
      cbn in Hh'. destruct j; try contradiction. discriminate Hh'.
  - destruct M as [|raw' u' is' ts' Hu' M|n' raw' is' ts' M|n' is' ts' Hh' M|chars' bs' n' p' is' ts' Hp' M|bs' n' p' is' ts' Hp' M];
      try (split; intros E; [discriminate E|inversion E; subst; contradiction]).
    + split; intros E; [discriminate E|]. inversion E as [|? ? ? ? E1 E2]; subst. inversion E2 as [|j ? ? ? E3 E4]; subst.
      cbn in Hh. destruct j; try contradiction. discriminate Hh.
    + specialize (IH (plain_tl _ _ P) is' ts' M (plain_tl _ _ P') (texts_apart_tl _ _ A) (texts_apart_tl _ _ A')). split; intros E.
      * injection E as -> E. constructor; [reflexivity|]. apply IH. exact E.
      * inversion E as [|? ? ? ? E1 E2]; subst. cbn in E1. subst n'. rewrite (proj2 IH E2). reflexivity.
  - destruct M as [|raw' u' is' ts' Hu' M|n' raw' is' ts' M|n' is' ts' Hh' M|chars' bs' n' p' is' ts' Hp' M|bs' n' p' is' ts' Hp' M];
      try (split; intros E; [discriminate E|inversion E; subst; contradiction]).
    specialize (IH (plain_tl _ _ P) is' ts' M (plain_tl _ _ P') (texts_apart_tl _ _ A) (texts_apart_tl _ _ A')). split; intros E.
    + injection E as -> E. constructor; [|apply IH; exact E]. apply (set_with_same _ _ _ _ _ _ _ Hp). exact Hp'.
    + inversion E as [|? ? ? ? E1 E2]; subst. rewrite (proj2 IH E2). f_equal. f_equal. f_equal.
      apply (set_with_unique (fun b => In b chars') bs' n' p p'); [|exact Hp']. apply (set_with_same _ _ _ _ _ _ _ Hp). exact E1.
  - destruct M as [|raw' u' is' ts' Hu' M|n' raw' is' ts' M|n' is' ts' Hh' M|chars' bs' n' p' is' ts' Hp' M|bs' n' p' is' ts' Hp' M];
      try (split; intros E; [discriminate E|inversion E; subst; contradiction]).
    specialize (IH (plain_tl _ _ P) is' ts' M (plain_tl _ _ P') (texts_apart_tl _ _ A) (texts_apart_tl _ _ A')). split; intros E.
    + injection E as -> E. constructor; [|apply IH; exact E]. apply (set_with_same _ _ _ _ _ _ _ Hp) in Hp'. exact (proj2 Hp').
    + inversion E as [|? ? ? ? E1 E2]; subst. rewrite (proj2 IH E2). f_equal. f_equal. f_equal.
      apply (set_with_unique digit bs' n' p p'); [|exact Hp']. apply (set_with_same _ _ _ _ _ _ _ Hp). split; [reflexivity|exact E1].
Qed.

Theorem spelling s s' is is' : utf8 s -> utf8 s' -> pattern_text s is -> pattern_text s' is' ->
  (compile s = compile s' <-> Forall2 same_item is is').
Proof.
  intros U U' P P'. destruct (meaning_total is) as (ts & M), (meaning_total is') as (ts' & M').
  assert (compile s = Ret (Ok ts)) as -> by (apply compile_accepts; eauto).
  assert (compile s' = Ret (Ok ts')) as -> by (apply compile_accepts; eauto).
  destruct P as (T & _ & A), P' as (T' & _ & A').
  rewrite <- (same_meaning is ts M (items_plain _ _ T) is' ts' M' (items_plain _ _ T') A A').
  split; [intros E; injection E as E; exact E|intros ->; reflexivity].
Qed.
