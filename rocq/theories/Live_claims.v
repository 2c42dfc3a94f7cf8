(** * Which patterns can match at all; matches that keep everything *)
From Verif Require Import Base Base_facts Utils Parsers Pattern Spec Spec_grammar Spec_trie Spec_table Spec_live
  Grammar Grammar_claims Trie_total Trie_main Trie_claims Table_claims Siphash Deciders Tests.
From Verif Require Trie SuffixArray.

Definition shaped (ts : list token) : Prop :=
  (forall l, In (Literal l) ts -> l <> []) /\ literals_apart ts /\ greedy_linked ts.

Lemma shaped_tail t ts : shaped (t :: ts) -> shaped ts.
Proof.
  intros (A & B & C). split; [intros l I; apply A; right; exact I|]. split.
  - destruct ts; [exact I|apply B].
  - apply C.
Qed.

Definition linked (R : token -> token -> list token -> Prop) (ts : list token) : Prop := forall a t u b, ts = a ++ t :: u :: b -> R t u b.
Lemma linked_cons R t u b : linked R (t :: u :: b) <-> R t u b /\ linked R (u :: b).
Proof.
  split.
  - intros H. split; [apply (H [] t u b eq_refl)|]. intros a t' u' b' E. apply (H (t :: a)). rewrite E. reflexivity.
  - intros (H & L) a t' u' b' E. destruct a as [|x a]; simpl in E.
    + injection E as -> -> ->. exact H.
    + injection E as -> E. exact (L a t' u' b' E).
Qed.
Lemma linked_one R t : linked R [t].
Proof. intros a t' u b E. destruct a as [|x [|y a]]; discriminate. Qed.
Lemma linked_nil R : linked R [].
Proof. intros [|x a] t' u b E; discriminate. Qed.

Definition trie_link (A : byte -> Prop) (t u : token) (b : list token) : Prop :=
  (takes_the_rest t -> takes_the_rest u) /\
  forall s, t = Parser (PSet s) \/ t = Parser (PInt s) -> can_follow A (sp_character_set s) u.
Definition table_link (A : byte -> Prop) (t u : token) (b : list token) : Prop :=
  (takes_the_rest t -> takes_the_rest u) /\
  forall s, t = Parser (PSet s) \/ t = Parser (PInt s) -> can_follow_loosely A (sp_character_set s) u b.

(** ** Captures *)
Lemma captures_in s v text : set_captures (sp_character_set s) (sp_min_length s) (sp_max_length s) (v ++ text) v ->
  match text with b :: _ => ~ In b (sp_character_set s) | [] => True end /\
  exists b v', v = b :: v' /\ In b (sp_character_set s).
Proof.
  intros ((P & F & M) & N & _ & _). split.
  - destruct text as [|b text]; [exact I|]. intros Hb.
    assert (length (v ++ [b]) <= length v) as L.
    { apply M; [exists text; rewrite <- app_assoc; reflexivity|]. apply Forall_app. auto. }
    rewrite app_length in L. simpl in L. lia.
  - destruct v as [|b v]; [contradiction|]. exists b, v. inversion F; auto.
Qed.

Lemma captures_possible s v text : set_captures (sp_character_set s) (sp_min_length s) (sp_max_length s) (v ++ text) v ->
  sp_character_set s <> [] /\ exists n, 0 < n /\ above_min (sp_min_length s) n /\ below_max (sp_max_length s) n.
Proof.
  intros H. destruct (captures_in s v text H) as (_ & b & v' & -> & I). split; [intros E; rewrite E in I; exact I|].
  destruct H as (_ & _ & Hm & HM). exists (length (b :: v')). split; [simpl; lia|]. auto.
Qed.

Lemma captures_repeat s b n text : In b (sp_character_set s) -> 0 < n ->
  above_min (sp_min_length s) n -> below_max (sp_max_length s) n ->
  match text with c :: _ => ~ In c (sp_character_set s) | [] => True end ->
  set_captures (sp_character_set s) (sp_min_length s) (sp_max_length s) (repeat b n ++ text) (repeat b n).
Proof.
  intros I P Hm HM T. unfold set_captures. rewrite repeat_length.
  split; [|split; [destruct n; [lia|discriminate]|auto]].
  split; [exists text; reflexivity|]. split.
  - apply Forall_forall. intros x X. apply repeat_spec in X. subst x. exact I.
  - intros w' (z & E) F. rewrite repeat_length. destruct (le_gt_dec (length w') n) as [L|L]; [exact L|exfalso].
    assert (exists c w'', w' = repeat b n ++ c :: w'') as (c & w'' & ->).
    { exists (nth n w' b), (skipn (S n) w'). 
      assert (firstn n w' = repeat b n) as Ef.
      { assert (firstn n (repeat b n ++ text) = repeat b n) as Ex.
        { rewrite <- (repeat_length b n) at 1. rewrite firstn_app, Nat.sub_diag, firstn_O, firstn_all, app_nil_r. reflexivity. }
        rewrite E in Ex. rewrite firstn_app in Ex. replace (n - length w') with 0 in Ex by lia. rewrite firstn_O, app_nil_r in Ex.
        exact Ex. }
      rewrite <- Ef. rewrite <- (firstn_skipn n w') at 1. f_equal.
      clear - L. revert w' L. induction n as [|n IH]; intros [|x w'] L; simpl in *; try lia; [reflexivity|].
      apply IH. lia. }
    rewrite <- app_assoc in E. apply app_inv_head in E. destruct text as [|d text]; [discriminate|].
    injection E as -> _. apply T. apply Forall_app in F. destruct F as (_ & F). inversion F; auto.
Qed.

Lemma captures_greedy_after e v rest : e <> [] -> match e with b :: _ => ~ In b v | [] => True end ->
  before_first e (v ++ e ++ rest) v.
Proof.
  intros N H. split; [exists rest; apply app_assoc|]. intros w' (z & E). destruct e as [|b e]; [contradiction|].
  destruct (Nat.le_gt_cases (length v) (length w')) as [L|L]; [exact L|exfalso]. apply H.
  assert (nth_error (v ++ (b :: e) ++ rest) (length w') = Some b) as Hn.
  { rewrite E, <- app_assoc, nth_error_app2, Nat.sub_diag by lia. reflexivity. }
  rewrite nth_error_app1 in Hn by lia. exact (nth_error_In _ _ Hn).
Qed.
Lemma captures_greedy_now e rest : before_first e (e ++ rest) [].
Proof. split; [exists rest; reflexivity|]. intros w' _. simpl. lia. Qed.

(** ** A match needs room *)
Lemma walk_nil_text ts caps : shaped ts -> walk ts [] caps -> Forall takes_the_rest ts.
Proof.
  revert caps. induction ts as [|t ts IH]; intros caps S W; [constructor|].
  assert (forall a b : str, [] = a ++ b -> a = [] /\ b = []) as Hnil.
  { intros a b E. symmetry in E. apply app_eq_nil. exact E. }
  inversion W as [|l toks text caps' W' E1 E2|q toks v text caps' C W' E1 E2]; subst.
  - apply eq_sym in E2. apply Hnil in E2. destruct E2 as (-> & _). destruct S as (S & _). exfalso. apply (S []); [left; reflexivity|reflexivity].
  - apply eq_sym in E2. apply Hnil in E2. destruct E2 as (-> & ->). constructor; [|apply (IH caps'); [apply (shaped_tail _ _ S)|exact W']].
    destruct q as [s|s|g]; simpl in C.
    + destruct (captures_in s [] [] C) as (_ & b & v' & E & _). discriminate.
    + destruct (captures_in s [] [] C) as (_ & b & v' & E & _). discriminate.
    + exists g. split; [reflexivity|]. destruct (gp_end_string g) as [e|] eqn:Eg; [exfalso|reflexivity].
      destruct S as (S & _ & L). simpl in L. destruct L as (L & _). rewrite Eg in L.
      destruct ts as [|[q|l] ts]; try discriminate. injection L as <-.
      destruct C as ((z & C) & _). simpl in C. apply Hnil in C. apply (S e); [right; left; reflexivity|apply C].
Qed.

(** The text after a longest run. *)
Definition begins_outside (set : str) (text : str) : Prop :=
  match text with b :: _ => ~ In b set | [] => True end.

Lemma walk_can_follow A set t ts text caps : shaped (t :: ts) -> Forall A text -> walk (t :: ts) text caps ->
  begins_outside set text -> can_follow A set t.
Proof.
  intros S F W B. inversion W as [|l toks text' caps' W' E1 E2|q toks v text' caps' C W' E1 E2]; subst; simpl.
  - destruct l as [|b l]; [exfalso; destruct S as (S & _); apply (S []); [left; reflexivity|reflexivity]|].
    exists b, l. split; [reflexivity|exact B].
  - destruct q as [s|s|g]; simpl in C.
    + destruct (captures_in s v text' C) as (_ & b & v' & -> & I). exists b. auto.
    + destruct (captures_in s v text' C) as (_ & b & v' & -> & I). exists b. auto.
    + destruct (gp_end_string g) as [e|] eqn:Eg; [right|left; reflexivity].
      assert (v ++ text' <> []) as N.
      { intros E. destruct C as ((z & C) & _). rewrite E in C. symmetry in C. apply app_eq_nil in C. destruct C as (C & _).
        apply app_eq_nil in C. destruct C as (_ & ->). destruct S as (S & _ & L). simpl in L. destruct L as (L & _).
        rewrite Eg in L. destruct ts as [|[q|l] ts]; try discriminate. injection L as <-.
        apply (S []); [right; left; reflexivity|reflexivity]. }
      destruct (v ++ text') as [|b x]; [contradiction|]. exists b. split; [inversion F; assumption|exact B].
Qed.

Theorem walk_live A ts text caps : shaped ts -> Forall A text -> walk ts text caps -> can_match A ts.
Proof.
  assert (forall ts text caps, shaped ts -> Forall A text -> walk ts text caps ->
            Forall possible ts /\ linked (trie_link A) ts) as H; [|exact (H ts text caps)].
  clear. intros ts. induction ts as [|t ts IH]; intros text caps S F W; [split; [constructor|apply linked_nil]|].
  assert (exists v text' caps', text = v ++ text' /\ walk ts text' caps' /\ possible t /\
            (takes_the_rest t -> text' = []) /\
            forall s, t = Parser (PSet s) \/ t = Parser (PInt s) -> begins_outside (sp_character_set s) text')
    as (v & text' & caps' & -> & W' & P & G & B).
  { inversion W as [|l toks text' caps' W' E1 E2|q toks v text' caps' C W' E1 E2]; subst.
    - exists l, text', caps. split; [reflexivity|]. split; [exact W'|]. split; [exact I|].
      split; [intros (g & E & _); discriminate|]. intros s [E|E]; discriminate.
    - exists v, text', caps'. split; [reflexivity|]. split; [exact W'|]. destruct q as [s|s|g]; simpl in C.
      + split; [apply (captures_possible s v text' C)|]. split; [intros (g & E & _); discriminate|].
        intros s' [E|E]; [injection E as <-|discriminate]. apply (captures_in s v text' C).
      + split; [apply (captures_possible s v text' C)|]. split; [intros (g & E & _); discriminate|].
        intros s' [E|E]; [discriminate|injection E as <-]. apply (captures_in s v text' C).
      + split; [exact I|]. split; [|intros s [E|E]; discriminate]. intros (g' & E & N). injection E as <-. rewrite N in C.
        simpl in C. rewrite <- (app_nil_r v) in C at 1. apply app_inv_head in C. auto. }
  apply Forall_app in F. destruct F as (_ & F).
  destruct (IH text' caps' (shaped_tail _ _ S) F W') as (Pt & L). split; [constructor; assumption|].
  destruct ts as [|u ts]; [apply linked_one|]. apply linked_cons. split; [|exact L]. split.
  - intros T. rewrite (G T) in W'. pose proof (walk_nil_text _ _ (shaped_tail _ _ S) W') as Q. inversion Q; assumption.
  - intros s Es. exact (walk_can_follow A _ u ts text' caps' (shaped_tail _ _ S) F W' (B s Es)).
Qed.

(** ** A message for every other pattern *)
Definition ascii_in (b : byte) : Prop := ascii_byte b = true.
Lemma ascii_forall s : ascii s = true <-> Forall ascii_in s.
Proof. unfold ascii. rewrite forallb_forall, Forall_forall. reflexivity. Qed.

(** What comes before, and what the text must be like. *)
Inductive place := Fresh | Behind (set : str) | Past (set : str).
Definition fits_at (c : place) (text : str) : Prop :=
  match c with
  | Fresh => text <> []
  | Behind set => begins_outside set text
  | Past set => begins_outside set text /\ text <> []
  end.

Lemma rest_walks ts : ts <> [] -> Forall takes_the_rest ts -> exists caps, trie_walk ts [] caps /\ table_walk ts [] caps.
Proof.
  induction ts as [|t ts IH]; [contradiction|]. intros _ F. inversion F as [|x y (g & -> & Eg) Ft]; subst.
  destruct ts as [|u ts].
  - exists [(PGreedy g, [])]. assert (captures (PGreedy g) [] []) as C by (simpl; rewrite Eg; reflexivity).
    split; [apply tw_parser_last|apply bw_parser_last]; exact C.
  - destruct (IH ltac:(discriminate) Ft) as (caps & W & W'). exists ((PGreedy g, []) :: caps).
    assert (captures (PGreedy g) ([] ++ []) []) as C by (simpl; rewrite Eg; reflexivity).
    split; [apply (tw_parser (PGreedy g) (u :: ts) [] [] caps)|apply (bw_parser (PGreedy g) (u :: ts) [] [] caps)];
      try discriminate; assumption.
Qed.
Lemma links_rest (R : token -> token -> list token -> Prop) (t u : token) (b : list token) : (forall t u b, R t u b -> takes_the_rest t -> takes_the_rest u) -> takes_the_rest t ->
  linked R (t :: u :: b) -> Forall takes_the_rest (u :: b).
Proof.
  intros H. revert t u. induction b as [|v b IH]; intros t u T L; apply linked_cons in L; destruct L as (L & L').
  - constructor; [apply (H _ _ _ L T)|constructor].
  - constructor; [apply (H _ _ _ L T)|]. apply (IH u v); [apply (H _ _ _ L T)|exact L'].
Qed.
Lemma byte_in (b : byte) (set : str) : {In b set} + {~ In b set}.
Proof. apply in_dec. exact Byte.byte_eq_dec. Qed.
Lemma repeat_begins set b n text : 0 < n -> ~ In b set -> begins_outside set (repeat b n ++ text).
Proof. destruct n; [lia|]. intros _ H. exact H. Qed.
Lemma repeat_some (b : byte) n text : 0 < n -> repeat b n ++ text <> [].
Proof. destruct n; [lia|discriminate]. Qed.

(** Messages are made of the bytes [A] and have the property [G]. *)
Section Build.
Variable A : byte -> Prop.
Variable G : str -> Prop.
Hypothesis G_nil : G [].
Hypothesis G_app : forall v w, G v -> G w -> G (v ++ w).
Hypothesis G_ascii : forall b, ascii_in b -> G [b].
Hypothesis G_outside : forall set, (forall x, In x set -> ascii_in x) -> outside A set ->
  exists x v, G (x :: v) /\ ~ In x set /\ forall y, In y set -> ~ In y (x :: v).
Definition good_token (t : token) : Prop :=
  match t with Literal l => G l /\ utf8 l | Parser q => parser_ascii_set q end.
Lemma repeat_good b n : ascii_in b -> G (repeat b n).
Proof. intros H. induction n as [|n IH]; [exact G_nil|]. exact (G_app [b] (repeat b n) (G_ascii b H) IH). Qed.

(** What may come after a run, with the skipping of literals. *)
Definition follows_set (W : list token -> str -> list (parser * str) -> Prop) (set : str) (u : token) (b : list token) : Prop :=
  can_follow A set u \/
  exists l, u = Literal l /\
    (b = [] /\ W [u] [] [] \/
     outside A set /\ exists v b', b = v :: b' /\ can_follow A set v /\
       forall text caps, text <> [] -> begins_outside set text -> W b text caps -> W (u :: b) text caps).
Definition placed (W : list token -> str -> list (parser * str) -> Prop) (c : place) (u : token) (b : list token) : Prop :=
  match c with
  | Fresh => True
  | Behind set => (forall x, In x set -> ascii_in x) /\ follows_set W set u b
  | Past set => (forall x, In x set -> ascii_in x) /\ outside A set /\ can_follow A set u /\ exists q, u = Parser q
  end.

Lemma build (W : list token -> str -> list (parser * str) -> Prop) (R : token -> token -> list token -> Prop) :
  (forall p v, captures p v v -> W [Parser p] v [(p, v)]) ->
  (forall p toks v text caps, toks <> [] -> captures p (v ++ text) v -> W toks text caps ->
     W (Parser p :: toks) (v ++ text) ((p, v) :: caps)) ->
  (forall l, W [Literal l] l []) ->
  (forall l toks text caps, toks <> [] -> l <> [] -> utf8 l -> text <> [] -> W toks text caps ->
     W (Literal l :: toks) (l ++ text) caps) ->
  (forall ts, ts <> [] -> Forall takes_the_rest ts -> exists caps, W ts [] caps) ->
  (forall t u b, R t u b -> takes_the_rest t -> takes_the_rest u) ->
  (forall t u b s, R t u b -> t = Parser (PSet s) \/ t = Parser (PInt s) -> shaped (t :: u :: b) ->
     follows_set W (sp_character_set s) u b) ->
  forall ts, Forall good_token ts -> shaped ts -> Forall possible ts -> linked R ts ->
  forall u b c, ts = u :: b -> placed W c u b ->
  exists text caps, W ts text caps /\ G text /\ fits_at c text /\
    (c = Fresh -> forall l, u = Literal l -> prefix_of l text).
Proof.
  intros Wpl Wp Wll Wl Wr Rr Rs ts. induction ts as [|t ts IH]; intros Ha S P L u b c E Pl; [discriminate|].
  injection E as <- <-. inversion Ha as [|x y Hat Hats]; subst. inversion P as [|x y Pt Pts]; subst.
  pose proof (shaped_tail _ _ S) as S'.
  assert (linked R ts) as L'.
  { destruct ts as [|u ts]; [apply linked_nil|]. apply linked_cons in L. apply L. }
  specialize (IH Hats S' Pts L').
  assert (forall s, (t = Parser (PSet s) \/ t = Parser (PInt s)) ->
            exists q, t = Parser q /\ q = q /\ (forall v w, captures q v w <->
                set_captures (sp_character_set s) (sp_min_length s) (sp_max_length s) v w)) as Hq.
  { intros s [->| ->]; eexists; (split; [reflexivity|]); (split; [reflexivity|]); intros v w; reflexivity. }
  assert (forall s, (t = Parser (PSet s) \/ t = Parser (PInt s)) -> exists text caps, W (t :: ts) text caps /\
            G text /\ fits_at c text) as Hset.
  { intros s Es. destruct (Hq s Es) as (q & Eq_ & _ & Cq).
    assert (possible (Parser (PSet s))) as (Ne & n & Hn & Hm & HM) by (destruct Es as [E|E]; rewrite E in Pt; exact Pt).
    assert (forall x, In x (sp_character_set s) -> ascii_in x) as As by (destruct Es as [E|E]; rewrite E in Hat; exact Hat).
    assert (exists x, In x (sp_character_set s) /\
              match c with Fresh => True | Behind set | Past set => ~ In x set end) as (x & Ix & Nx).
    { assert (forall set, can_follow A set t -> exists x, In x (sp_character_set s) /\ ~ In x set) as Hcf.
      { intros set H. destruct Es as [E|E]; rewrite E in H; exact H. }
      destruct c as [|set|set].
      - destruct (sp_character_set s) as [|x r]; [contradiction|]. exists x. split; [left; reflexivity|exact I].
      - destruct (proj2 Pl) as [H|(l & E & _)]; [apply Hcf, H|]. destruct Es as [E'|E']; rewrite E' in E; discriminate.
      - apply Hcf, Pl. }
    assert (forall text, fits_at c (repeat x n ++ text)) as Fit.
    { intros text. destruct c as [|set|set]; simpl; [apply repeat_some, Hn|apply repeat_begins; assumption|].
      split; [apply repeat_begins; assumption|apply repeat_some, Hn]. }
    destruct ts as [|u ts].
    - exists (repeat x n), [(q, repeat x n)]. split; [|split; [apply repeat_good, As, Ix|]].
      + rewrite Eq_. apply Wpl, Cq. rewrite <- (app_nil_r (repeat x n)) at 1. apply captures_repeat; auto.
      + rewrite <- (app_nil_r (repeat x n)). apply Fit.
    - apply linked_cons in L. destruct L as (L & _).
      destruct (IH u ts (Behind (sp_character_set s)) eq_refl (conj As (Rs _ _ _ s L Es S))) as (text & caps & W1 & A1 & F1 & _).
      exists (repeat x n ++ text), ((q, repeat x n) :: caps). split; [|split; [|apply Fit]].
      + rewrite Eq_. apply Wp; [discriminate| |exact W1]. apply Cq. apply captures_repeat; auto.
      + apply G_app; [apply repeat_good, As, Ix|exact A1]. }
  destruct t as [[s|s|g]|l].
  - destruct (Hset s (or_introl eq_refl)) as (text & caps & W1 & A1 & F1). exists text, caps.
    split; [exact W1|]. split; [exact A1|]. split; [exact F1|]. intros _ l El; discriminate El.
  - destruct (Hset s (or_intror eq_refl)) as (text & caps & W1 & A1 & F1). exists text, caps.
    split; [exact W1|]. split; [exact A1|]. split; [exact F1|]. intros _ l El; discriminate El.
  - clear Hset Hq. destruct (gp_end_string g) as [e|] eqn:Eg.
    + destruct S as (Sl & Sa & Sg). simpl in Sg. destruct Sg as (Sg & _). rewrite Eg in Sg.
      destruct ts as [|[q|l] ts]; try discriminate. injection Sg as <-.
      assert (e <> []) as Ne by (apply Sl; right; left; reflexivity).
      destruct (IH (Literal e) ts Fresh eq_refl I) as (text & caps & W1 & A1 & F1 & P1).
      destruct (P1 eq_refl e eq_refl) as (z & ->).
      assert (forall v, captures (PGreedy g) (v ++ e ++ z) v <-> before_first e (v ++ e ++ z) v) as Cg.
      { intros v. simpl. rewrite Eg. reflexivity. }
      assert ((exists v, before_first e (v ++ e ++ z) v /\ G v /\ fits_at c (v ++ e ++ z))) as (v & Bv & Av & Fv).
      { assert (forall set, (forall x, In x set -> ascii_in x) -> outside A set -> exists v, before_first e (v ++ e ++ z) v /\ G v /\
                  begins_outside set (v ++ e ++ z)) as Hout.
        { intros set As O. destruct (G_outside set As O) as (x & v & Gv & Nx & Nv). destruct e as [|y e]; [contradiction|]. destruct (byte_in y set) as [Iy|Ny].
          - exists (x :: v). split; [apply (captures_greedy_after (y :: e) (x :: v) z); [discriminate|exact (Nv y Iy)]|].
            split; [exact Gv|exact Nx].
          - exists []. split; [exact (captures_greedy_now (y :: e) z)|]. split; [exact G_nil|exact Ny]. }
        assert (forall v, v ++ e ++ z <> []) as Nev.
        { intros v E. apply app_eq_nil in E. destruct E as (_ & E). apply app_eq_nil in E. destruct E as (E & _). contradiction. }
        destruct c as [|set|set].
        - exists []. split; [exact (captures_greedy_now e z)|]. split; [exact G_nil|]. apply (Nev []).
        - apply Hout; [apply Pl|]. destruct (proj2 Pl) as [[E|H]|(l & E & _)]; [congruence|exact H|discriminate].
        - destruct (Hout set (proj1 Pl) (proj1 (proj2 Pl))) as (v & B & Gv & F). exists v. split; [exact B|]. split; [exact Gv|]. split; [exact F|apply Nev]. }
      exists (v ++ e ++ z), ((PGreedy g, v) :: caps). split; [|split; [apply G_app; auto|]].
      * apply Wp; [discriminate|apply Cg, Bv|exact W1].
      * split; [exact Fv|]. intros _ l El; discriminate El.
    + assert (exists v, G v /\ fits_at c (v ++ [])) as (v & Av & Fv).
      { destruct c as [|set|set].
        - exists [x61]. split; [apply G_ascii; reflexivity|]. discriminate.
        - exists []. split; [exact G_nil|exact I].
        - destruct Pl as (As & O & _). destruct (G_outside set As O) as (x & v & Gv & Nx & _). exists (x :: v).
          split; [exact Gv|]. split; [exact Nx|discriminate]. }
      assert (forall w, captures (PGreedy g) w w) as Cg by (intros w; simpl; rewrite Eg; reflexivity).
      destruct ts as [|u ts].
      * exists v, [(PGreedy g, v)]. split; [apply Wpl, Cg|]. split; [exact Av|]. rewrite app_nil_r in Fv.
        split; [exact Fv|]. intros _ l El; discriminate El.
      * destruct (Wr (u :: ts) ltac:(discriminate)) as (caps & W1).
        { apply (links_rest R (Parser (PGreedy g)) u ts Rr); [exists g; auto|exact L]. }
        exists (v ++ []), ((PGreedy g, v) :: caps). split; [|split; [apply G_app; [exact Av|exact G_nil]|]].
        -- apply Wp; [discriminate| |exact W1]. rewrite app_nil_r. apply Cg.
        -- split; [exact Fv|]. intros _ l El; discriminate El.
  - clear Hset Hq. assert (l <> []) as Nl by (apply S; left; reflexivity).
    destruct Hat as (Al & Ul).
    assert (match c with Fresh => True | Behind set | Past set => can_follow A set (Literal l) end ->
            exists text caps, W (Literal l :: ts) text caps /\ G text /\ fits_at c text /\ prefix_of l text) as Hwhole.
    { intros Hc. assert (forall text, fits_at c (l ++ text)) as Fit.
      { intros text. destruct l as [|x l]; [contradiction|]. destruct c as [|set|set]; simpl; [discriminate| |].
        - destruct Hc as (x' & l' & E & N). injection E as <- <-. exact N.
        - destruct Hc as (x' & l' & E & N). injection E as <- <-. split; [exact N|discriminate]. }
      destruct ts as [|u ts].
      - exists l, []. split; [apply Wll|]. split; [exact Al|]. split; [rewrite <- (app_nil_r l); apply Fit|].
        exists []. symmetry. apply app_nil_r.
      - destruct (IH u ts Fresh eq_refl I) as (text & caps & W1 & A1 & F1 & _). exists (l ++ text), caps.
        split; [apply Wl; try assumption; [discriminate]|].
        split; [apply G_app; auto|]. split; [apply Fit|exists text; reflexivity]. }
    assert (match c with Fresh => True | Behind set | Past set => can_follow A set (Literal l) end ->
            exists text caps, W (Literal l :: ts) text caps /\ G text /\ fits_at c text /\
    (c = Fresh -> forall l0, Literal l = Literal l0 -> prefix_of l0 text)) as Hw.
    { intros Hc. destruct (Hwhole Hc) as (text & caps & W1 & A1 & F1 & P1). exists text, caps.
      split; [exact W1|]. split; [exact A1|]. split; [exact F1|]. intros _ l0 El. injection El as <-. exact P1. }
    destruct c as [|set|set].
    + apply Hw, I.
    + destruct Pl as (As & [H|(l0 & E0 & [(-> & W1)|(O & v & b' & -> & Cv & Sk)])]).
      * apply Hw, H.
      * exists [], []. split; [exact W1|]. split; [exact G_nil|]. split; [exact I|]. discriminate.
      * destruct v as [q|l'].
        -- destruct (IH (Parser q) b' (Past set) eq_refl) as (text & caps & W1 & A1 & (F1 & F2) & _).
           { split; [exact As|]. split; [exact O|]. split; [exact Cv|exists q; reflexivity]. }
           exists text, caps. split; [apply Sk; assumption|]. split; [exact A1|]. split; [exact F1|]. discriminate.
        -- exfalso. destruct S as (_ & Sa & _). simpl in Sa. apply Sa.
    + apply Hw, Pl.
Qed.
Lemma trie_builds ts : ts <> [] -> Forall good_token ts -> shaped ts -> can_match A ts ->
  exists text caps, trie_walk ts text caps /\ G text.
Proof.
  intros N Ha S (P & L). destruct ts as [|u b]; [contradiction|].
  destruct (build trie_walk (trie_link A)) with (ts := u :: b) (u := u) (b := b) (c := Fresh) as (text & caps & W & Gt & _);
    try assumption; try reflexivity.
  - exact tw_parser_last.
  - exact tw_parser.
  - exact tw_literal_last.
  - intros l toks text caps H1 H2 _ H3 H4. apply tw_literal; assumption.
  - intros ts Ht F. destruct (rest_walks ts Ht F) as (caps & W & _). exists caps. exact W.
  - intros t v r (H & _). exact H.
  - intros t v r s (_ & H) E _. left. apply (H s E).
  - exists text, caps. auto.
Qed.

Lemma common_none set l text : begins_outside set text -> match l with x :: _ => In x set | [] => True end ->
  longest_common_chars l text [].
Proof.
  intros B H. split; [constructor|]. split; [exists l; reflexivity|]. split; [exists text; reflexivity|].
  intros w' _ (z & E) (z' & E'). destruct w' as [|x w']; [simpl; lia|exfalso]. subst l text. simpl in B, H. contradiction.
Qed.
Lemma common_all l text : utf8 l -> longest_common_chars l (l ++ text) l.
Proof.
  intros U. split; [exact U|]. split; [exists []; symmetry; apply app_nil_r|]. split; [exists text; reflexivity|].
  intros w' _ (z & ->) _. rewrite app_length. lia.
Qed.

Lemma table_builds ts : ts <> [] -> Forall good_token ts -> shaped ts -> can_match_loosely A ts ->
  exists text caps, table_walk ts text caps /\ G text.
Proof.
  intros N Ha S (P & L). destruct ts as [|u b]; [contradiction|].
  destruct (build table_walk (table_link A)) with (ts := u :: b) (u := u) (b := b) (c := Fresh) as (text & caps & W & Gt & _);
    try assumption; try reflexivity.
  - exact bw_parser_last.
  - exact bw_parser.
  - intros l. apply bw_literal_last. exists []. symmetry. apply app_nil_r.
  - intros l toks text caps H1 H2 H3 H4 H5. apply bw_literal; try assumption. apply common_all, H3.
  - intros ts Ht F. destruct (rest_walks ts Ht F) as (caps & _ & W). exists caps. exact W.
  - intros t v r (H & _). exact H.
  - intros t v r s (_ & H) E Sh. destruct (H s E) as [H'|(l & -> & H')]; [left; exact H'|].
    assert (l <> []) as Nl by (apply Sh; right; left; reflexivity).
    destruct l as [|x l]; [contradiction|]. destruct (byte_in x (sp_character_set s)) as [Ix|Nx].
    2:{ left. exists x, l. auto. }
    right. exists (x :: l). split; [reflexivity|]. destruct H' as [->|(O & v & b' & -> & C)].
    + left. split; [reflexivity|]. apply bw_literal_last. exists (x :: l). reflexivity.
    + right. split; [exact O|]. exists v, b'. split; [reflexivity|]. split; [exact C|].
      intros text caps Ht B W. apply (bw_literal (x :: l) (v :: b') [] text caps); try assumption; [discriminate|].
      exact (common_none (sp_character_set s) (x :: l) text B Ix).
  - exists text, caps. auto.
Qed.
End Build.

(** Messages of ASCII characters, and all messages. *)
Lemma ascii_outside set : (forall x, In x set -> ascii_in x) -> outside ascii_in set ->
  exists x v, ascii (x :: v) = true /\ ~ In x set /\ forall y, In y set -> ~ In y (x :: v).
Proof.
  intros _ (x & Ax & Nx). exists x, []. split; [apply ascii_forall; constructor; [exact Ax|constructor]|].
  split; [exact Nx|]. intros y Iy [->|[]]. contradiction.
Qed.
Lemma ascii_append v w : ascii v = true -> ascii w = true -> ascii (v ++ w) = true.
Proof. rewrite !ascii_forall. intros. apply Forall_app. auto. Qed.
Lemma ascii_one b : ascii_in b -> ascii [b] = true.
Proof. intros H. apply ascii_forall. constructor; [exact H|constructor]. Qed.
Lemma ascii_good t : ascii_token t -> good_token (fun s => ascii s = true) t.
Proof. destruct t as [q|l]; simpl; [auto|]. intros H. split; [exact H|apply ascii_utf8, H]. Qed.

Lemma beyond_ascii set : (forall x, In x set -> ascii_in x) -> outside (fun _ => True) set ->
  exists x v, utf8 (x :: v) /\ ~ In x set /\ forall y, In y set -> ~ In y (x :: v).
Proof.
  intros As _. assert (forall y, In y set -> ~ In y ($"é")) as N.
  { intros y Iy H. apply As in Iy. simpl in H. destruct H as [<-|[<-|[]]]; discriminate. }
  exists xc3, [xa9]. split; [apply utf8b_sound; vm_compute; reflexivity|]. split; [|exact N].
  intros H. apply (N _ H). left. reflexivity.
Qed.
Lemma utf8_one b : ascii_in b -> utf8 [b].
Proof. intros H. apply ascii_utf8, ascii_one, H. Qed.

(** ** The same for the suffix table *)
Lemma table_walk_nil_text t ts caps : shaped (t :: ts) -> table_walk (t :: ts) [] caps ->
  takes_the_rest t \/ exists l, t = Literal l /\ ts = [].
Proof.
  intros S W. remember ([] : str) as empty eqn:E0. inversion W as [l text Pr|p v C|l toks w text caps' N Lc Ne W'|p toks v text caps' N C W']; subst.
  - right. exists l. auto.
  - left. destruct p as [s|s|g]; simpl in C.
    + destruct C as (_ & C & _). contradiction.
    + destruct C as (_ & C & _). contradiction.
    + destruct S as (_ & _ & (Sg & _)). exists g. auto.
  - match goal with H : _ ++ _ = [] |- _ => apply app_eq_nil in H; destruct H as (_ & ->) end. contradiction.
  - match goal with H : _ ++ _ = [] |- _ => apply app_eq_nil in H; destruct H as (-> & ->) end.
    left. destruct p as [s|s|g]; simpl in C.
    + destruct C as (_ & C & _). contradiction.
    + destruct C as (_ & C & _). contradiction.
    + exists g. split; [reflexivity|]. destruct (gp_end_string g) as [e|] eqn:Eg; [exfalso|reflexivity].
      destruct S as (Sl & _ & (Sg & _)). rewrite Eg in Sg. destruct ts as [|[q|l] ts]; try discriminate. injection Sg as <-.
      destruct C as ((z & C) & _). symmetry in C. apply app_eq_nil in C. destruct C as (C & _). simpl in C. subst e.
      apply (Sl []); [right; left; reflexivity|reflexivity].
Qed.

Lemma table_walk_parser_follow A set q ts text caps : shaped (Parser q :: ts) -> Forall A text ->
  table_walk (Parser q :: ts) text caps -> begins_outside set text -> can_follow A set (Parser q).
Proof.
  intros S F W B.
  assert (exists v text', text = v ++ text' /\ captures q (v ++ text') v) as (v & text' & -> & C).
  { inversion W; subst; [exists text, []; rewrite app_nil_r; auto|eexists _, _; split; [reflexivity|assumption]]. }
  destruct q as [s|s|g]; simpl in C.
  - destruct (captures_in s v text' C) as (_ & b & v' & -> & I). exists b. auto.
  - destruct (captures_in s v text' C) as (_ & b & v' & -> & I). exists b. auto.
  - simpl. destruct (gp_end_string g) as [e|] eqn:Eg; [right|left; reflexivity].
    assert (v ++ text' <> []) as N.
    { intros E. destruct C as ((z & C) & _). rewrite E in C. symmetry in C. apply app_eq_nil in C. destruct C as (C & _).
      apply app_eq_nil in C. destruct C as (_ & ->). destruct S as (S & _ & L). simpl in L. destruct L as (L & _).
      rewrite Eg in L. destruct ts as [|[q|l] ts]; try discriminate. injection L as <-.
      apply (S []); [right; left; reflexivity|reflexivity]. }
    destruct (v ++ text') as [|b x]; [contradiction|]. exists b. split; [inversion F; assumption|exact B].
Qed.

Lemma table_walk_follow A set u ts text caps : shaped (u :: ts) -> Forall A text -> table_walk (u :: ts) text caps ->
  begins_outside set text -> can_follow_loosely A set u ts.
Proof.
  intros S F W B. destruct u as [q|l]; [left; exact (table_walk_parser_follow A set q ts text caps S F W B)|].
  destruct ts as [|v ts]; [right; exists l; auto|].
  inversion W as [|  |l' toks w text' caps' N Lc Ne W' E1 E2|]; subst.
  destruct l as [|x l]; [exfalso; destruct S as (S & _); apply (S []); [left; reflexivity|reflexivity]|].
  destruct (byte_in x set) as [Ix|Nx]; [right|left; exists x, l; auto]. exists (x :: l). split; [reflexivity|]. right.
  assert (w = []) as ->.
  { destruct w as [|y w]; [reflexivity|exfalso]. destruct Lc as (_ & (z & E) & _). injection E as <- _. simpl in B. contradiction. }
  simpl in *. split.
  - destruct text' as [|y text']; [contradiction|]. exists y. split; [inversion F; assumption|exact B].
  - exists v, ts. split; [reflexivity|]. destruct v as [q|l'].
    + exact (table_walk_parser_follow A set q ts text' caps (shaped_tail _ _ S) F W' B).
    + exfalso. destruct S as (_ & Sa & _). simpl in Sa. apply Sa.
Qed.

Theorem table_walk_live A ts text caps : shaped ts -> Forall A text -> table_walk ts text caps -> can_match_loosely A ts.
Proof.
  assert (forall ts text caps, shaped ts -> Forall A text -> table_walk ts text caps ->
            Forall possible ts /\ linked (table_link A) ts) as H; [|exact (H ts text caps)].
  clear. intros ts. induction ts as [|t ts IH]; intros text caps S F W; [inversion W|].
  assert (possible t) as P.
  { destruct t as [q|l]; [|exact I].
    assert (exists v text', captures q (v ++ text') v) as (v & text' & C).
    { inversion W; subst; [exists text, []; rewrite app_nil_r; assumption|eexists _, _; eassumption]. }
    destruct q as [s|s|g]; [exact (captures_possible s v text' C)|exact (captures_possible s v text' C)|exact I]. }
  destruct ts as [|u ts]; [split; [constructor; [exact P|constructor]|apply linked_one]|].
  assert (exists v text' caps', text = v ++ text' /\ table_walk (u :: ts) text' caps' /\
            (takes_the_rest t -> text' = []) /\
            forall s, t = Parser (PSet s) \/ t = Parser (PInt s) -> begins_outside (sp_character_set s) text')
    as (v & text' & caps' & -> & W' & G & B).
  { inversion W as [| |l toks w text' caps' N Lc Ne W' E1 E2|q toks v text' caps' N C W' E1 E2]; subst.
    - exists w, text', caps. split; [reflexivity|]. split; [exact W'|].
      split; [intros (g & E & _); discriminate|]. intros s [E|E]; discriminate.
    - exists v, text', caps'. split; [reflexivity|]. split; [exact W'|]. destruct q as [s|s|g]; simpl in C.
      + split; [intros (g & E & _); discriminate|].
        intros s' [E|E]; [injection E as <-|discriminate]. apply (captures_in s v text' C).
      + split; [intros (g & E & _); discriminate|].
        intros s' [E|E]; [discriminate|injection E as <-]. apply (captures_in s v text' C).
      + split; [|intros s [E|E]; discriminate]. intros (g' & E & Ng). injection E as <-. rewrite Ng in C.
        simpl in C. rewrite <- (app_nil_r v) in C at 1. apply app_inv_head in C. auto. }
  apply Forall_app in F. destruct F as (_ & F).
  destruct (IH text' caps' (shaped_tail _ _ S) F W') as (Pt & L). split; [constructor; assumption|].
  apply linked_cons. split; [|exact L]. split.
  - intros T. rewrite (G T) in W'. destruct (table_walk_nil_text u ts caps' (shaped_tail _ _ S) W') as [Q|(l & -> & _)]; [exact Q|].
    destruct T as (g & -> & Eg). destruct S as (_ & _ & (Sg & _)). rewrite Eg in Sg. discriminate.
  - intros s Es. exact (table_walk_follow A _ u ts text' caps' (shaped_tail _ _ S) F W' (B s Es)).
Qed.

(** ** Patterns of strings *)
Lemma compile_shaped s ts : utf8 s -> compile s = Ret (Ok ts) -> ts <> [] /\ shaped ts.
Proof.
  intros U C. destruct (compile_shape s ts U C) as (N & A & G). split; [exact N|]. split; [|auto].
  intros l. apply (compile_literals s ts l U C).
Qed.

Lemma trie_walk_is_walk ts text caps : trie_walk ts text caps -> walk ts text caps.
Proof.
  induction 1 as [l|p v C|l toks text caps N Nl Nt W IH|p toks v text caps N C W IH].
  - rewrite <- (app_nil_r l) at 2. apply walk_literal, walk_nil.
  - rewrite <- (app_nil_r v) at 1. apply walk_parser; [rewrite app_nil_r; exact C|apply walk_nil].
  - apply walk_literal, IH.
  - apply walk_parser; assumption.
Qed.

Theorem trie_live sip s p : ascii s = true -> compile s = Ret (Ok (pat_tokens p)) -> collision_free sip [p] ->
  exists t, Trie.add_patterns sip Trie.tree_new [p] = Ret t /\
    ((exists text r, ascii text = true /\ Trie.parse t text = Ret (Some r)) <-> can_match ascii_in (pat_tokens p)).
Proof.
  intros A C F. pose proof (ascii_utf8 s A) as U. destruct (compile_shaped s _ U C) as (N & S).
  pose proof (compile_valid s _ U C) as V. pose proof (compile_ascii s _ A C) as Ha.
  destruct (trie_total sip [p]) as (t & Ht & Hp); [constructor; [exact V|constructor]|constructor; [exact Ha|constructor]|].
  exists t. split; [exact Ht|].
  assert (forall q, In (Parser q) (pat_tokens p) -> parser_ascii_set q) as Hs.
  { intros q I. rewrite Forall_forall in Ha. exact (Ha _ I). }
  split.
  - intros (text & r & At & Pr). pose proof (trie_single sip p t text (Some r) V Hs F Ht (ascii_utf8 text At) Pr) as (_ & caps & W & _).
    apply (walk_live ascii_in _ text caps S); [apply ascii_forall, At|apply trie_walk_is_walk, W].
  - intros L. destruct (trie_builds ascii_in (fun s => ascii s = true) eq_refl ascii_append ascii_one ascii_outside _ N
      (Forall_impl _ ascii_good Ha) S L) as (text & caps & W & At).
    destruct (Hp text At) as (r & Pr). pose proof (trie_single sip p t text r V Hs F Ht (ascii_utf8 text At) Pr) as H.
    destruct r as [r|]; [exists text, r; auto|]. exfalso. apply (H caps), W.
Qed.

Theorem table_live sip s p : ascii s = true -> compile s = Ret (Ok (pat_tokens p)) -> collision_free sip [p] ->
  exists t, SuffixArray.add_patterns sip SuffixArray.table_new [p] = Ret t /\
    ((exists text r, ascii text = true /\ SuffixArray.parse t text = Ret (Some r)) <-> can_match_loosely ascii_in (pat_tokens p)).
Proof.
  intros A C F. pose proof (ascii_utf8 s A) as U. destruct (compile_shaped s _ U C) as (N & S).
  pose proof (compile_valid s _ U C) as V. pose proof (compile_ascii s _ A C) as Ha.
  assert (forall q, In (Parser q) (pat_tokens p) -> parser_ascii_set q) as Hs.
  { intros q I. rewrite Forall_forall in Ha. exact (Ha _ I). }
  destruct (table_total sip [p]) as (t & Ht & Hp); [constructor; [exact V|constructor]| |].
  { intros q (p' & [<-|[]] & I). apply Hs, I. }
  exists t. split; [exact Ht|].
  split.
  - intros (text & r & At & Pr). pose proof (table_single sip p t text (Some r) V Hs F Ht (ascii_utf8 text At) Pr) as (_ & caps & W & _).
    apply (table_walk_live ascii_in _ text caps S); [apply ascii_forall, At|exact W].
  - intros L. destruct (table_builds ascii_in (fun s => ascii s = true) eq_refl ascii_append ascii_one ascii_outside _ N
      (Forall_impl _ ascii_good Ha) S L) as (text & caps & W & At).
    destruct (Hp text (ascii_utf8 text At)) as (r & Pr). pose proof (table_single sip p t text r V Hs F Ht (ascii_utf8 text At) Pr) as H.
    destruct r as [r|]; [exists text, r; auto|]. exfalso. apply (H caps), W.
Qed.

(** Only patterns that can match are reported, whatever else is loaded. *)
Definition compiled_pattern_of (p : pattern) : Prop := exists s, utf8 s /\ compile s = Ret (Ok (pat_tokens p)).
Lemma compiled_valid ps : Forall compiled_pattern_of ps -> Forall valid_pattern ps.
Proof. apply Forall_impl. intros p (s & U & C). exact (compile_valid s _ U C). Qed.

Theorem trie_reports_live sip ps t text r : Forall compiled_pattern_of ps -> collision_free sip ps ->
  Trie.add_patterns sip Trie.tree_new ps = Ret t -> utf8 text -> Trie.parse t text = Ret (Some r) ->
  exists p, In p ps /\ mr_pattern r = stripped p /\ can_match (fun b => In b text) (pat_tokens p).
Proof.
  intros C F H U P. destruct (trie_sound sip ps t text r (compiled_valid ps C) F H U P) as (p & caps & I & E & W & _).
  exists p. split; [exact I|]. split; [exact E|]. rewrite Forall_forall in C. destruct (C p I) as (s & Us & Cs).
  apply (walk_live _ _ text caps (proj2 (compile_shaped s _ Us Cs))); [|exact W]. apply Forall_forall. auto.
Qed.

Theorem table_reports_live sip ps t text r : Forall compiled_pattern_of ps -> collision_free sip ps ->
  SuffixArray.add_patterns sip SuffixArray.table_new ps = Ret t -> utf8 text -> SuffixArray.parse t text = Ret (Some r) ->
  exists p, In p ps /\ mr_pattern r = stripped p /\ can_match_loosely (fun b => In b text) (pat_tokens p).
Proof.
  intros C F H U P. destruct (table_sound sip ps t text r (compiled_valid ps C) F H U P) as (p & caps & I & E & W & _).
  exists p. split; [exact I|]. split; [exact E|]. rewrite Forall_forall in C. destruct (C p I) as (s & Us & Cs).
  apply (table_walk_live _ _ text caps (proj2 (compile_shaped s _ Us Cs))); [|exact W]. apply Forall_forall. auto.
Qed.

(** ** Nothing is lost *)
Lemma walk_parsers ts text caps : walk ts text caps -> map fst caps = parsers_in ts.
Proof. induction 1; simpl; [reflexivity|assumption|]. f_equal. assumption. Qed.
Lemma walk_text ts text caps : walk ts text caps -> forall text', walk ts text' caps -> text = text'.
Proof.
  induction 1 as [|l toks text caps W IH|p toks v text caps C W IH]; intros text' W'; inversion W'; subst; [reflexivity| |];
    f_equal; apply IH; assumption.
Qed.
Lemma named_in caps key v : named caps key v -> In (Some key) (map name_of (map fst caps)).
Proof. induction 1; simpl; [left|right]; assumption. Qed.
Lemma named_same caps : forall caps' names, map fst caps = map fst caps' -> map name_of (map fst caps) = map Some names ->
  NoDup names -> (forall k v, named caps k v <-> named caps' k v) -> caps = caps'.
Proof.
  induction caps as [|(p, v) caps IH]; intros [|(p', v') caps'] [|n names] Ef En Nd H; try discriminate; [reflexivity|].
  simpl in Ef, En. injection Ef as <- Ef. injection En as Ep En. inversion Nd as [|x y Nn Nd']; subst.
  assert (v' = v) as ->.
  { assert (named ((p, v') :: caps') n v) as Hn by (apply H, named_here, Ep). inversion Hn; congruence. }
  f_equal. apply (IH caps' names); try assumption.
  assert (forall cs k w, map fst cs = map fst caps -> named cs k w -> name_of p <> Some k) as Hk.
  { intros cs k w E Hn E'. rewrite Ep in E'. injection E' as <-. apply named_in in Hn. rewrite E, En in Hn.
    apply in_map_iff in Hn. destruct Hn as (x & Ex & Ix). injection Ex as ->. contradiction. }
  intros k w. split; intros Hn.
  - assert (name_of p <> Some k) as Nk by exact (Hk caps k w eq_refl Hn).
    assert (named ((p, v) :: caps') k w) as Hn' by (apply H, named_later; assumption). inversion Hn'; subst; [contradiction|assumption].
  - assert (name_of p <> Some k) as Nk by exact (Hk caps' k w (eq_sym Ef) Hn).
    assert (named ((p, v) :: caps) k w) as Hn' by (apply H, named_later; assumption). inversion Hn'; subst; [contradiction|assumption].
Qed.

Theorem trie_keeps_all sip ps t text text' r r' :
  Forall valid_pattern ps -> collision_free sip ps -> Trie.add_patterns sip Trie.tree_new ps = Ret t ->
  (forall p q, In p ps -> In q ps -> stripped p = stripped q -> p = q) ->
  (forall p, In p ps -> mr_pattern r = stripped p -> all_named_apart p) ->
  utf8 text -> Trie.parse t text = Ret (Some r) -> utf8 text' -> Trie.parse t text' = Ret (Some r') ->
  mr_pattern r = mr_pattern r' -> (forall k v, maps_to (mr_values r) k v <-> maps_to (mr_values r') k v) ->
  text = text'.
Proof.
  intros V F H D A U P U' P' Ep Ev.
  destruct (trie_sound sip ps t text r V F H U P) as (p & caps & I & E & W & (R & _)).
  destruct (trie_sound sip ps t text' r' V F H U' P') as (p' & caps' & I' & E' & W' & (R' & _)).
  assert (p = p') as <- by (apply D; try assumption; congruence).
  destruct (A p I E) as (names & En & Nd).
  apply (walk_text _ _ _ W). replace caps with caps'; [exact W'|]. symmetry.
  pose proof (walk_parsers _ _ _ W) as Hp. pose proof (walk_parsers _ _ _ W') as Hp'.
  apply (named_same caps caps' names); [congruence|rewrite Hp; exact En|exact Nd|].
  intros k v. rewrite <- R, <- R'. apply Ev.
Qed.

(** Two parsers for the same characters side by side. *)
Lemma twice_dead A a s s' b : (forall x, In x (sp_character_set s') -> In x (sp_character_set s)) ->
  (forall t t', t = PSet s \/ t = PInt s -> t' = PSet s' \/ t' = PInt s' ->
     ~ can_match A (a ++ Parser t :: Parser t' :: b) /\ ~ can_match_loosely A (a ++ Parser t :: Parser t' :: b)).
Proof.
  intros Sub t t' Et Et'.
  assert (~ can_follow A (sp_character_set s) (Parser t')) as N.
  { intros H. assert (exists x, In x (sp_character_set s') /\ ~ In x (sp_character_set s)) as (x & I & O)
      by (destruct Et' as [E|E]; rewrite E in H; exact H). apply O, Sub, I. }
  assert (Parser t = Parser (PSet s) \/ Parser t = Parser (PInt s)) as E by (destruct Et as [->| ->]; auto).
  split; intros (_ & H); destruct (H a (Parser t) (Parser t') b eq_refl) as (_ & G); specialize (G s E).
  - exact (N G).
  - destruct G as [G|(l & G & _)]; [exact (N G)|discriminate].
Qed.

Lemma greedy_then_parser_dead A a g q b : gp_end_string g = None -> ~ takes_the_rest (Parser q) ->
  ~ can_match A (a ++ Parser (PGreedy g) :: Parser q :: b) /\ ~ can_match_loosely A (a ++ Parser (PGreedy g) :: Parser q :: b).
Proof.
  intros E N. split; intros (_ & H); destruct (H a (Parser (PGreedy g)) (Parser q) b eq_refl) as (G & _);
    apply N, G; exists g; auto.
Qed.

(** ** For the examples *)
Lemma live_by s text x : ascii s = true -> compile s = Ret (Ok (comp s)) -> collision_free siphash [tpat 1 s] ->
  ascii text = true -> trie_run [tpat 1 s] text = Ret (Some x) -> can_match ascii_in (comp s).
Proof.
  intros A C F At R. destruct (trie_live siphash s (tpat 1 s) A C F) as (t & Ht & H). apply H. exists text.
  unfold trie_run, trie in R. rewrite Ht in R. simpl in R. destruct (Trie.parse t text) as [[r|]| |]; try discriminate.
  exists r. auto.
Qed.
Lemma loose_by s text x : ascii s = true -> compile s = Ret (Ok (comp s)) -> collision_free siphash [tpat 1 s] ->
  ascii text = true -> table_run [tpat 1 s] text = Ret (Some x) -> can_match_loosely ascii_in (comp s).
Proof.
  intros A C F At R. destruct (table_live siphash s (tpat 1 s) A C F) as (t & Ht & H). apply H. exists text.
  unfold table_run, table in R. rewrite Ht in R. simpl in R. destruct (SuffixArray.parse t text) as [[r|]| |]; try discriminate.
  exists r. auto.
Qed.
Lemma dead_by A ts a t u b s x l : ts = a ++ t :: u :: b -> t = Parser (PSet s) \/ t = Parser (PInt s) -> u = Literal (x :: l) ->
  In x (sp_character_set s) -> ~ can_match A ts.
Proof.
  intros -> Et -> I (_ & H). destruct (H a t (Literal (x :: l)) b eq_refl) as (_ & G). destruct (G s Et) as (x' & l' & E & N).
  injection E as <- <-. contradiction.
Qed.

(** In a suffix table two messages are reported alike. *)
Lemma table_loses : exists p t text text' r,
  valid_pattern p /\ all_named_apart p /\ collision_free siphash [p] /\
  SuffixArray.add_patterns siphash SuffixArray.table_new [p] = Ret t /\ ascii text = true /\ ascii text' = true /\
  SuffixArray.parse t text = Ret (Some r) /\ SuffixArray.parse t text' = Ret (Some r) /\ text <> text'.
Proof.
  exists (tpat 1 ($"app%{INT:x}!")). eexists. exists ($"app42!"), ($"42"). eexists.
  split; [apply valid_patternb_sound; vm_compute; reflexivity|].
  split; [exists [$"x"]; split; [vm_compute; reflexivity|constructor; [intros []|constructor]]|].
  split; [apply collision_freeb_sound; vm_compute; reflexivity|].
  split; [vm_compute; reflexivity|]. do 2 (split; [vm_compute; reflexivity|]).
  split; [vm_compute; reflexivity|]. split; [vm_compute; reflexivity|]. vm_compute. discriminate.
Qed.

(** In a trie as well if a name is missing. *)
Lemma trie_loses_unnamed : exists p t text text' r,
  valid_pattern p /\ collision_free siphash [p] /\
  Trie.add_patterns siphash Trie.tree_new [p] = Ret t /\ ascii text = true /\ ascii text' = true /\
  Trie.parse t text = Ret (Some r) /\ Trie.parse t text' = Ret (Some r) /\ text <> text'.
Proof.
  exists (tpat 1 ($"app%{INT}!")). eexists. exists ($"app42!"), ($"app1!"). eexists.
  split; [apply valid_patternb_sound; vm_compute; reflexivity|].
  split; [apply collision_freeb_sound; vm_compute; reflexivity|].
  split; [vm_compute; reflexivity|]. do 2 (split; [vm_compute; reflexivity|]).
  split; [vm_compute; reflexivity|]. split; [vm_compute; reflexivity|]. vm_compute. discriminate.
Qed.
