(** * Patterns as regular expressions *)
From Verif Require Import Base Base_facts Utils Parsers Parsers_facts Pattern Spec Spec_table Spec_canon Spec_separate Spec_regex
  Single_claims Table_claims Separate_tests Separate_claims Trie_main Trie_claims Live_claims.
From Verif Require Trie SuffixArray.

(** ** Regular expressions *)
Lemma matches_text l v : matches (text_regex l) v <-> v = l.
Proof.
  split.
  - revert v. induction l as [|b l IH]; simpl; intros v M; inversion M; subst; [reflexivity|].
    match goal with H : matches (Byte _) _ |- _ => inversion H; subst end. simpl. f_equal. auto.
  - intros ->. induction l as [|b l IH]; simpl; [constructor|]. apply (m_then _ _ [b] l); [constructor|exact IH].
Qed.

Lemma singles set vs : Forall (matches (OneOf set)) vs ->
  Forall (fun b => In b set) (concat vs) /\ length (concat vs) = length vs.
Proof.
  induction 1 as [|v vs M F (IH & L)]; simpl; [auto|].
  inversion M; subst. simpl. split; [constructor; assumption|]. f_equal. exact L.
Qed.
Lemma to_singles set v : Forall (fun b => In b set) v ->
  exists vs, concat vs = v /\ Forall (matches (OneOf set)) vs /\ length vs = length v.
Proof.
  induction 1 as [|b v I F (vs & <- & M & L)]; [exists []; auto|].
  exists ([b] :: vs). simpl. split; [reflexivity|]. split; [constructor; [constructor; exact I|exact M]|]. f_equal. exact L.
Qed.
Lemma any_singles vs : Forall (matches AnyByte) vs -> length (concat vs) = length vs.
Proof. induction 1 as [|v vs M F L]; simpl; [reflexivity|]. inversion M; subst. simpl. f_equal. exact L. Qed.
Lemma to_any v : exists vs, concat vs = v /\ Forall (matches AnyByte) vs /\ length vs = length v.
Proof.
  induction v as [|b v (vs & <- & M & L)]; [exists []; auto|].
  exists ([b] :: vs). simpl. split; [reflexivity|]. split; [constructor; [constructor|exact M]|]. f_equal. exact L.
Qed.

Lemma matches_set set mn mx v : matches (Repeat (OneOf set) (at_least_one mn) mx) v <->
  Forall (fun b => In b set) v /\ v <> [] /\ above_min mn (length v) /\ below_max mx (length v).
Proof.
  split.
  - intros M. inversion M as [| | | | |r m1 m2 vs F A B]; subst. destruct (singles set vs F) as (Hi & L).
    split; [exact Hi|]. rewrite L. split; [|split; [|exact B]].
    + intros E. rewrite E in L. destruct vs; [|discriminate]. destruct mn; simpl in A; lia.
    + destruct mn; simpl in *; [lia|exact I].
  - intros (I & N & A & B). destruct (to_singles set v I) as (vs & <- & M & L). rewrite <- L in *.
    constructor; [exact M| |exact B].
    assert (0 < length vs) by (destruct vs; [contradiction N; reflexivity|simpl; lia]).
    assert (1 <= N.of_nat (length vs))%N as Ho by lia.
    destruct mn as [m|]; [apply N.max_lub; [exact Ho|exact A]|exact Ho].
Qed.
Lemma matches_any v : matches (Repeat AnyByte None None) v.
Proof. destruct (to_any v) as (vs & <- & M & _). constructor; [exact M|exact I|exact I]. Qed.
Lemma matches_more v : matches (Repeat AnyByte (Some 1%N) None) v <-> v <> [].
Proof.
  split.
  - intros M E. inversion M as [| | | | |r m1 m2 vs F A B]; subst. pose proof (any_singles vs F) as L.
    destruct vs; [simpl in A; lia|]. match goal with H : concat _ = [] |- _ => rewrite H in L end. discriminate.
  - intros N. destruct (to_any v) as (vs & <- & M & L). constructor; [exact M| |exact I].
    destruct vs; [contradiction N; reflexivity|]. simpl. lia.
Qed.
Lemma matches_then r r' text : matches (Then r r') text <-> exists v w, text = v ++ w /\ matches r v /\ matches r' w.
Proof.
  split; [intros M; inversion M; subst; eauto|]. intros (v & w & -> & A & B). constructor; assumption.
Qed.
Lemma matches_eps v : matches Eps v <-> v = [].
Proof. split; [intros M; inversion M; reflexivity|intros ->; constructor]. Qed.

(** ** Every match is one of the regular expression *)
Lemma captures_matches q v text : captures q (v ++ text) v -> matches (parser_regex q) v.
Proof.
  assert (forall s, set_captures (sp_character_set s) (sp_min_length s) (sp_max_length s) (v ++ text) v ->
    matches (Repeat (OneOf (sp_character_set s)) (at_least_one (sp_min_length s)) (sp_max_length s)) v) as Hs.
  { intros s ((_ & F & _) & N & A & B). apply matches_set. auto. }
  destruct q as [s|s|g]; simpl; intros C; [apply Hs, C|apply Hs, C|apply matches_any].
Qed.
Lemma walk_divided ts text caps : walk ts text caps -> divided ts text caps.
Proof. induction 1; constructor; eauto using captures_matches. Qed.
Lemma divided_matches ts text : matches (regex_of ts) text <-> exists caps, divided ts text caps.
Proof.
  split.
  - revert text. induction ts as [|t ts IH]; simpl; intros text M.
    + apply matches_eps in M. subst. exists []. constructor.
    + apply matches_then in M. destruct M as (v & w & -> & A & B). destruct (IH w B) as (caps & D).
      destruct t as [q|l]; simpl in A.
      * exists ((q, v) :: caps). constructor; assumption.
      * apply matches_text in A. subst. exists caps. constructor. assumption.
  - intros (caps & D). induction D; simpl; [constructor| |].
    + apply m_then; [apply matches_text; reflexivity|assumption].
    + apply m_then; assumption.
Qed.

Lemma trie_walk_matches ts text caps : trie_walk ts text caps ->
  forall lit, (lit = true -> text <> []) -> matches (regex_after lit ts) text.
Proof.
  assert (forall q v text lit r, captures q (v ++ text) v -> (lit = true -> v ++ text <> []) -> matches r text ->
    matches (Then (match q with
            | PGreedy g =>
                match gp_end_string g with
                | None => Repeat AnyByte (if lit then Some 1%N else None) None
                | Some _ => parser_regex q
                end
            | _ => parser_regex q
            end) r) (v ++ text)) as Hp.
  { intros q v text0 lit r C L M. apply m_then; [|exact M]. pose proof (captures_matches q v text0 C) as Mq.
    destruct q as [s|s|g]; try exact Mq. destruct (gp_end_string g) as [e|] eqn:Ee; [exact Mq|].
    destruct lit; [|apply matches_any]. apply matches_more. simpl in C. rewrite Ee in C. simpl in C. rewrite C. auto. }
  induction 1 as [l|p v C|l toks text caps N Nl Nt W IH|p toks v text caps N C W IH]; intros lit L; simpl.
  - rewrite <- (app_nil_r l) at 2. apply m_then; [apply matches_text; reflexivity|constructor].
  - rewrite <- (app_nil_r v) in C at 1. rewrite <- (app_nil_r v) in L |- *.
    exact (Hp p v [] lit Eps C L m_eps).
  - apply m_then; [apply matches_text; reflexivity|]. apply IH. auto.
  - apply Hp; [exact C|exact L|]. apply IH. discriminate.
Qed.

(** ** And for definite patterns the other way round *)
Definition greedy_regex (lit : bool) (g : greedy_parser) : regex :=
  match gp_end_string g with
  | None => Repeat AnyByte (if lit then Some 1%N else None) None
  | Some _ => Repeat AnyByte None None
  end.

Lemma matches_greedy lit g v : gp_end_string g = None -> matches (greedy_regex lit g) v <-> (lit = true -> v <> []).
Proof.
  unfold greedy_regex. intros ->. destruct lit.
  - rewrite matches_more. split; auto.
  - split; [discriminate|intros _; apply matches_any].
Qed.

Lemma wild_longer ts lit x text : wild ts -> matches (regex_after lit ts) text -> matches (regex_after lit ts) (x ++ text).
Proof.
  intros [g E|g e ts' E N W] M; simpl in *; rewrite E in *; apply matches_then in M; destruct M as (v & w & -> & A & B);
    rewrite app_assoc; apply m_then; try exact B; [|apply matches_any].
  destruct lit; [|apply matches_any]. apply matches_more in A. apply matches_more. destruct x; [exact A|discriminate].
Qed.

Lemma occurs_first e text : occurs_in e text -> exists w, before_first e text w.
Proof.
  intros (a & b & E). destruct (str_find e text) as [i|] eqn:F.
  - exists (firstn i text). apply (str_find_before_first e text i F).
  - exfalso. exact (proj1 (str_find_none e text) F a b E).
Qed.

Lemma wild_walk ts : wild ts -> forall lit text, matches (regex_after lit ts) text -> exists caps, trie_walk ts text caps.
Proof.
  induction 1 as [g E|g e ts E N W IH]; intros lit text M; simpl in M; rewrite E in M.
  - exists [(PGreedy g, text)]. apply tw_parser_last. simpl. rewrite E. reflexivity.
  - apply matches_then in M. destruct M as (v & w & -> & _ & M).
    apply matches_then in M. destruct M as (e' & z & -> & M & Z). apply matches_text in M. subst e'.
    destruct (occurs_first e (v ++ e ++ z)) as (w & ((r & Er) & L)); [exists v, z; reflexivity|].
    pose proof (L v) as Lv. specialize (Lv (ex_intro _ z (app_assoc _ _ _))).
    assert (exists y, r = y ++ z) as (y & ->).
    { rewrite !app_assoc in Er. destruct (app_eq_app (v ++ e) z (w ++ e) r Er) as (k & [(A & B)|(A & B)]).
      - exists k. exact B.
      - exists []. assert (k = []) as -> by (apply (f_equal (@length byte)) in A; rewrite !app_length in A; destruct k; [reflexivity|simpl in A; lia]).
        exact (eq_sym B). }
    destruct (IH true (y ++ z)) as (caps & T); [apply wild_longer; assumption|].
    exists ((PGreedy g, w) :: caps). rewrite Er, <- app_assoc. apply tw_parser; [discriminate| |].
    + simpl. rewrite E. simpl. rewrite app_assoc, <- Er. split; [exists (y ++ z); exact Er|exact L].
    + apply tw_literal; [inversion W; discriminate|exact N| |exact T].
      intros Z'. inversion W as [g' E' X|g' e2 ts2 E' N' W' X]; subst ts; simpl in Z; rewrite E' in Z.
      * apply matches_then in Z. destruct Z as (z1 & z2 & -> & Z & _). apply matches_more in Z.
        destruct y; [destruct z1; [contradiction|discriminate]|discriminate].
      * apply matches_then in Z. destruct Z as (z1 & z2 & -> & _ & Z). apply matches_then in Z.
        destruct Z as (z3 & z4 & -> & Z & _). apply matches_text in Z. subst z3.
        apply app_eq_nil in Z'. destruct Z' as (_ & Z'). apply app_eq_nil in Z'. destruct Z' as (_ & Z').
        apply app_eq_nil in Z'. destruct Z' as (Z' & _). contradiction.
Qed.

Lemma set_regex_captures q s v text : q = PSet s \/ q = PInt s -> matches (parser_regex q) v ->
  match text with b :: _ => ~ In b (sp_character_set s) | [] => True end -> captures q (v ++ text) v.
Proof.
  intros Q M T. assert (set_captures (sp_character_set s) (sp_min_length s) (sp_max_length s) (v ++ text) v) as C.
  { assert (matches (Repeat (OneOf (sp_character_set s)) (at_least_one (sp_min_length s)) (sp_max_length s)) v) as M'
      by (destruct Q as [-> | ->]; exact M).
    apply matches_set in M'. destruct M' as (F & N & A & B). split; [|auto].
    apply longest_prefix_in_iff. exists text. split; [reflexivity|]. split; [exact F|]. destruct text; exact T. }
  destruct Q as [-> | ->]; exact C.
Qed.

Lemma set_regex q s lit ts : q = PSet s \/ q = PInt s ->
  regex_after lit (Parser q :: ts) = Then (parser_regex q) (regex_after false ts).
Proof. intros [-> | ->]; reflexivity. Qed.
Lemma set_regex_some q s v : q = PSet s \/ q = PInt s -> matches (parser_regex q) v ->
  exists b v', v = b :: v' /\ In b (sp_character_set s).
Proof.
  intros Q M. assert (matches (Repeat (OneOf (sp_character_set s)) (at_least_one (sp_min_length s)) (sp_max_length s)) v) as M'
    by (destruct Q as [-> | ->]; exact M).
  apply matches_set in M'. destruct M' as (F & N & _). destruct v as [|b v]; [contradiction|]. exists b, v. inversion F; auto.
Qed.

Lemma after_literal q ts text : definite (Parser q :: ts) -> matches (regex_after true (Parser q :: ts)) text -> text <> [].
Proof.
  assert (forall s, q = PSet s \/ q = PInt s -> matches (regex_after true (Parser q :: ts)) text -> text <> []) as Hs.
  { intros s Q M. rewrite (set_regex q s true ts Q) in M. apply matches_then in M. destruct M as (v & w & -> & A & _).
    destruct (set_regex_some q s v Q A) as (b & v' & -> & _). discriminate. }
  intros D M. inversion D as [|q' s Q|ts' W| |q' s u ts' Q]; subst; [exact (Hs s Q M)| |exact (Hs s Q M)].
  inversion W as [g E|g e ts' E N W']; subst; simpl in M; rewrite E in M; apply matches_then in M;
    destruct M as (v & w & -> & A & B).
  - apply matches_more in A. destruct v; [contradiction|discriminate].
  - apply matches_then in B. destruct B as (v2 & w2 & -> & B & _). apply matches_text in B. subst v2.
    destruct v; [destruct e; [contradiction|discriminate]|discriminate].
Qed.

(** What is left of a text that the expression of wild tokens matches, without the
    bytes of the set at its beginning, is matched as well. *)
Lemma run_of (S : byte -> Prop) (dec : forall b, {S b} + {~ S b}) (text : str) :
  exists x y, text = x ++ y /\ Forall S x /\ match y with b :: _ => ~ S b | [] => True end.
Proof.
  induction text as [|b text (x & y & E & F & N)]; [exists [], []; auto|].
  destruct (dec b) as [Y|Y].
  - exists (b :: x), y. split; [simpl; rewrite E; reflexivity|]. auto.
  - exists [], (b :: text). auto.
Qed.

Lemma wild_rest g ts s x y : wild (Parser (PGreedy g) :: ts) -> clear_after s (Parser (PGreedy g)) ->
  Forall (fun b => In b (sp_character_set s)) x ->
  matches (regex_after false (Parser (PGreedy g) :: ts)) (x ++ y) -> matches (regex_after false (Parser (PGreedy g) :: ts)) y.
Proof.
  intros W (_ & C) F M. inversion W as [g' E|g' e ts' E N W']; subst; simpl in M |- *; rewrite E in M, C |- *.
  - rewrite <- (app_nil_r y). apply m_then; [apply matches_any|constructor].
  - apply matches_then in M. destruct M as (v & w & Ev & _ & M).
    assert (exists k, v = x ++ k /\ y = k ++ w) as (k & -> & ->).
    { apply matches_then in M. destruct M as (e' & z & -> & M & _). apply matches_text in M. subst e'.
      destruct C as (b & e' & -> & Nb). destruct (app_eq_app _ _ _ _ Ev) as (k & [(A & B)|(A & B)]).
      - destruct k as [|c k]; [exists []; rewrite app_nil_r in *; simpl in B; subst; auto|].
        exfalso. simpl in B. injection B as -> B. subst x. apply Forall_app in F. destruct F as (_ & F). inversion F. contradiction.
      - exists k. auto. }
    apply m_then; [apply matches_any|exact M].
Qed.

Theorem definite_walk ts : definite ts -> forall lit text, matches (regex_after lit ts) text -> exists caps, trie_walk ts text caps.
Proof.
  induction 1 as [l|q s Q|ts W|l q ts N D IH|q s u ts Q C D IH]; intros lit text M.
  - simpl in M. apply matches_then in M. destruct M as (v & w & -> & A & B). apply matches_text in A.
    apply matches_eps in B. subst. rewrite app_nil_r. exists []. constructor.
  - rewrite (set_regex q s lit [] Q) in M. apply matches_then in M. destruct M as (v & w & -> & A & B).
    apply matches_eps in B. subst. exists [(q, v)]. rewrite app_nil_r. constructor.
    rewrite <- (app_nil_r v) at 1. apply (set_regex_captures q s); [exact Q|exact A|exact I].
  - exact (wild_walk ts W lit text M).
  - simpl in M. apply matches_then in M. destruct M as (v & w & -> & A & B). apply matches_text in A. subst v.
    change (matches (regex_after true (Parser q :: ts)) w) in B.
    destruct (IH true w B) as (caps & T). exists caps. apply tw_literal; [discriminate|exact N| |exact T].
    exact (after_literal q ts w D B).
  - rewrite (set_regex q s lit (u :: ts) Q) in M. apply matches_then in M. destruct M as (v & w & -> & A & B).
    assert ((exists g, u = Parser (PGreedy g)) \/ match w with b :: _ => ~ In b (sp_character_set s) | [] => True end) as [(g & ->)|T].
    { destruct u as [[s'|s'|g]|l]; [right|right|left; eauto|right].
      - rewrite (set_regex _ s' false ts (or_introl eq_refl)) in B. apply matches_then in B. destruct B as (v1 & w1 & -> & B & _).
        destruct (set_regex_some _ s' v1 (or_introl eq_refl) B) as (b & v' & -> & Ib). simpl. apply (C b Ib).
      - rewrite (set_regex _ s' false ts (or_intror eq_refl)) in B. apply matches_then in B. destruct B as (v1 & w1 & -> & B & _).
        destruct (set_regex_some _ s' v1 (or_intror eq_refl) B) as (b & v' & -> & Ib). simpl. apply (C b Ib).
      - simpl in B. apply matches_then in B. destruct B as (v1 & w1 & -> & B & _). apply matches_text in B. subst v1.
        destruct C as (b & l' & -> & Nb). exact Nb. }
    + assert (wild (Parser (PGreedy g) :: ts)) as W.
      { inversion D as [|q' s' Q'|ts' W| |q' s' u' ts' Q']; subst; [destruct Q'; discriminate|exact W|destruct Q'; discriminate]. }
      destruct (run_of (fun b => In b (sp_character_set s)) (fun b => byte_in b _) w) as (x & y & -> & F & T).
      pose proof (wild_rest g ts s x y W C F B) as By. destruct (IH false y By) as (caps & Ty).
      exists ((q, v ++ x) :: caps). rewrite app_assoc. apply tw_parser; [discriminate| |exact Ty].
      apply (set_regex_captures q s); [exact Q| |exact T].
      assert (matches (Repeat (OneOf (sp_character_set s)) (at_least_one (sp_min_length s)) (sp_max_length s)) (v ++ x)) as G.
      { assert (matches (Repeat (OneOf (sp_character_set s)) (at_least_one (sp_min_length s)) (sp_max_length s)) v) as A'
          by (destruct Q as [-> | ->]; exact A).
        apply matches_set in A'. destruct A' as (F' & N & Mn & _). apply matches_set.
        split; [apply Forall_app; auto|]. split; [destruct v; [contradiction|discriminate]|]. split.
        - destruct (sp_min_length s); simpl in *; [rewrite app_length; lia|exact I].
        - destruct C as (-> & _). exact I. }
      destruct Q as [-> | ->]; exact G.
    + destruct (IH false w B) as (caps & Tw). exists ((q, v) :: caps).
      apply tw_parser; [discriminate|apply (set_regex_captures q s); assumption|exact Tw].
Qed.

Theorem definite_regex ts text : definite ts -> matches (trie_regex ts) text <-> exists caps, trie_walk ts text caps.
Proof.
  intros D. split; [apply (definite_walk ts D)|]. intros (caps & T). apply (trie_walk_matches ts text caps T). discriminate.
Qed.

(** ** Groups are unique *)
Lemma greedy_last_tail t ts : greedy_last (t :: ts) -> ts <> [] ->
  greedy_last ts \/ exists g, ts = [Parser (PGreedy g)].
Proof.
  intros G N. destruct ts as [|u ts]; [contradiction|]. 
  destruct u as [[s|s|g]|l].
  4:{ left. intros a g b E. destruct (G (t :: a) g b) as (-> & H); [simpl; f_equal; exact E|]. split; [reflexivity|].
      right. destruct a as [|x a]; [discriminate|]. destruct H as [H|(a' & l' & H)]; [discriminate|].
      destruct a' as [|y a']; [discriminate|]. injection H as _ H. exists a', l'. exact H. }
  1,2: left; intros a g b E; destruct (G (t :: a) g b) as (-> & H); [simpl; f_equal; exact E|]; split; [reflexivity|];
      right; destruct a as [|x a]; [discriminate|]; destruct H as [H|(a' & l' & H)]; [discriminate|];
      destruct a' as [|y a']; [discriminate|]; injection H as _ H; exists a', l'; exact H.
  right. exists g. destruct (G [t] g ts eq_refl) as (-> & _). reflexivity.
Qed.

Lemma divided_nonempty q s ts text caps : q = PSet s \/ q = PInt s -> divided (Parser q :: ts) text caps ->
  exists b r, text = b :: r /\ In b (sp_character_set s).
Proof.
  intros Q D. inversion D as [| |q' ts' v text' caps' M D']; subst. destruct (set_regex_some q s v Q M) as (b & v' & -> & I).
  exists b, (v' ++ text'). auto.
Qed.

Theorem divided_walk ts : definite ts -> greedy_last ts -> forall text caps, divided ts text caps -> walk ts text caps.
Proof.
  assert (forall g text caps, gp_end_string g = None -> divided [Parser (PGreedy g)] text caps -> walk [Parser (PGreedy g)] text caps) as Hg.
  { intros g text caps E D. inversion D as [| |q' ts' v text' caps' M D']; subst. inversion D'; subst.
    apply walk_parser; [simpl; rewrite E, app_nil_r; reflexivity|constructor]. }
  assert (forall ts, wild ts -> greedy_last ts -> forall text caps, divided ts text caps -> walk ts text caps) as Hw.
  { intros ts0 W G. inversion W as [g E|g e ts' E N W']; subst; [intros; apply Hg; assumption|].
    destruct (G [] g (Literal e :: ts') eq_refl). discriminate. }
  induction 1 as [l|q s Q|ts W|l q ts N D IH|q s u ts Q C D IH]; intros G text caps V.
  - inversion V as [|l' ts' text' caps' V'|]; subst. inversion V'; subst. apply walk_literal, walk_nil.
  - inversion V as [| |q' ts' v text' caps' M V']; subst. inversion V'; subst. apply walk_parser; [|constructor].
    apply (set_regex_captures q s); [exact Q|exact M|exact I].
  - apply Hw; assumption.
  - inversion V as [|l' ts' text' caps' V'|]; subst. apply walk_literal.
    destruct (greedy_last_tail _ _ G) as [G'|(g & E)]; [discriminate|apply IH; assumption|].
    injection E as -> ->. apply Hg; [|exact V'].
    inversion D as [|q' s' Q'|ts' W| |]; subst; [destruct Q'; discriminate|]. inversion W; assumption.
  - inversion V as [| |q' ts' v text' caps' M V']; subst.
    destruct (greedy_last_tail _ _ G) as [G'|(g & E)]; [discriminate| |].
    + apply walk_parser; [|apply IH; assumption]. apply (set_regex_captures q s); [exact Q|exact M|].
      destruct u as [[s'|s'|g]|l].
      * destruct (divided_nonempty _ s' ts text' caps' (or_introl eq_refl) V') as (b & r & -> & Ib). apply (C b Ib).
      * destruct (divided_nonempty _ s' ts text' caps' (or_intror eq_refl) V') as (b & r & -> & Ib). apply (C b Ib).
      * destruct (G [Parser q] g ts eq_refl) as (_ & [H|([|x a'] & l & H)]); [discriminate|destruct Q; subst; discriminate|].
        destruct a'; discriminate.
      * destruct C as (b & l' & -> & Nb). inversion V'; subst. exact Nb.
    + injection E as -> ->. destruct (G [Parser q] g [] eq_refl) as (_ & [H|([|x a'] & l & H)]); [discriminate|destruct Q; subst; discriminate|].
      destruct a'; discriminate.
Qed.

(** ** In the trie *)
Theorem trie_matches_regex sip ps t text r :
  Forall valid_pattern ps -> collision_free sip ps -> Trie.add_patterns sip Trie.tree_new ps = Ret t ->
  utf8 text -> Trie.parse t text = Ret (Some r) ->
  exists p caps, In p ps /\ mr_pattern r = stripped p /\ matches (regex_of (pat_tokens p)) text /\
    divided (pat_tokens p) text caps /\ reports caps (mr_values r).
Proof.
  intros V F T U P. destruct (trie_sound sip ps t text r V F T U P) as (p & caps & Ip & Ep & W & R).
  exists p, caps. apply walk_divided in W. split; [exact Ip|]. split; [exact Ep|]. split; [|auto].
  apply divided_matches. exists caps. exact W.
Qed.

Theorem trie_is_regex sip p t text r :
  valid_pattern p -> definite (pat_tokens p) -> collision_free sip [p] ->
  Trie.add_patterns sip Trie.tree_new [p] = Ret t -> utf8 text -> Trie.parse t text = Ret r ->
  match r with
  | Some r => mr_pattern r = stripped p /\ matches (trie_regex (pat_tokens p)) text
  | None => ~ matches (trie_regex (pat_tokens p)) text
  end.
Proof.
  intros V D F T U P. pose proof (trie_one sip p t text r V F T U P) as H. destruct r as [r|].
  - destruct H as (E & caps & W & _). split; [exact E|]. apply definite_regex; eauto.
  - intros M. apply (definite_regex _ _ D) in M. destruct M as (caps & W). exact (H caps W).
Qed.

Lemma captures_only q text v w : captures q text v -> captures q text w -> v = w.
Proof.
  assert (forall s, set_captures (sp_character_set s) (sp_min_length s) (sp_max_length s) text v ->
    set_captures (sp_character_set s) (sp_min_length s) (sp_max_length s) text w -> v = w) as Hs.
  { intros s (A & _) (B & _). exact (longest_prefix_in_unique _ _ _ _ A B). }
  destruct q as [s|s|g]; simpl; [apply Hs|apply Hs|]. destruct (gp_end_string g); simpl; [apply before_first_unique|congruence].
Qed.
Lemma walk_caps ts text caps : walk ts text caps -> forall caps', walk ts text caps' -> caps = caps'.
Proof.
  induction 1 as [|l toks text caps W IH|p toks v text caps C W IH]; intros caps' W'.
  - inversion W'. reflexivity.
  - inversion W' as [|l' toks' text' caps2 W2 E1 E2|]; subst. apply app_inv_head in E2. subst. auto.
  - inversion W' as [| |p' toks' v' text' caps2 C' W2 E1 E2]; subst. rewrite E2 in C'.
    pose proof (captures_only p _ _ _ C C') as Ev. subst v'. apply app_inv_head in E2. subst. f_equal. auto.
Qed.

Theorem trie_groups sip p t text r caps :
  valid_pattern p -> definite (pat_tokens p) -> greedy_last (pat_tokens p) -> collision_free sip [p] ->
  Trie.add_patterns sip Trie.tree_new [p] = Ret t -> utf8 text -> Trie.parse t text = Ret (Some r) ->
  divided (pat_tokens p) text caps -> reports caps (mr_values r).
Proof.
  intros V D G F T U P Dv. destruct (trie_one sip p t text (Some r) V F T U P) as (_ & caps' & W & R).
  pose proof (divided_walk _ D G text caps Dv) as W'. apply trie_walk_is_walk in W.
  rewrite (walk_caps _ _ _ W' _ W). exact R.
Qed.

Theorem separate_regexes sip ps t text r :
  Forall valid_pattern ps -> separate ps -> Forall (fun p => definite (pat_tokens p)) ps ->
  Trie.add_patterns sip Trie.tree_new ps = Ret t -> utf8 text -> Trie.parse t text = Ret r ->
  match r with
  | Some r => exists p, In p ps /\ mr_pattern r = stripped p /\ matches (trie_regex (pat_tokens p)) text
  | None => forall p, In p ps -> ~ matches (trie_regex (pat_tokens p)) text
  end.
Proof.
  intros V S D T U P. rewrite Forall_forall in D. pose proof (separate_answers sip ps t text r V S T U P) as H. destruct r as [r|].
  - destruct H as (p & caps & (Ip & W & _) & E & _). exists p. split; [exact Ip|]. split; [exact E|]. apply definite_regex; eauto.
  - intros p Ip M. apply (definite_regex _ _ (D p Ip)) in M. destruct M as (caps & W). exact (H p caps Ip W).
Qed.

(** ** In the suffix table *)
Lemma matches_beginning l v : matches (beginning_regex l) v <-> prefix_of v l.
Proof.
  split.
  - revert v. induction l as [|b l IH]; simpl; intros v M; inversion M as [| | | | |r m1 m2 vs F A B]; subst; [exists []; reflexivity|].
    destruct vs as [|w [|w' vs]]; [exists (b :: l); reflexivity| |cbn [length below_max] in B; lia].
    inversion F as [|? ? Mw _]; subst. apply matches_then in Mw. destruct Mw as (x & y & -> & X & Y).
    inversion X; subst. destruct (IH y Y) as (r & ->). exists r. simpl. rewrite app_nil_r. reflexivity.
  - revert v. induction l as [|b l IH]; simpl; intros v (r & E).
    + symmetry in E. apply app_eq_nil in E. destruct E as (-> & _). constructor.
    + destruct v as [|c v]; [apply (m_repeat _ _ _ []); [constructor|exact I|cbn; lia]|].
      injection E as -> E. rewrite <- (app_nil_r (c :: v)). apply (m_repeat _ _ _ [c :: v]); [|exact I|cbn; lia].
      constructor; [|constructor]. apply (m_then _ _ [c] v); [constructor|]. apply IH. exists r. exact E.
Qed.

Lemma table_walk_loose ts text caps : table_walk ts text caps -> matches (loose_regex ts) text.
Proof.
  induction 1 as [l text P|p v C|l toks w text caps N C Nt W IH|p toks v text caps N C W IH]; simpl.
  - rewrite <- (app_nil_r text). apply m_then; [apply matches_beginning, P|constructor].
  - rewrite <- (app_nil_r v) in C at 1. apply captures_matches in C. rewrite <- (app_nil_r v). apply m_then; [exact C|constructor].
  - apply m_then; [apply matches_beginning; apply C|exact IH].
  - apply m_then; [exact (captures_matches _ _ _ C)|exact IH].
Qed.

Theorem table_at_most sip ps t text r :
  Forall valid_pattern ps -> collision_free sip ps -> SuffixArray.add_patterns sip SuffixArray.table_new ps = Ret t ->
  utf8 text -> SuffixArray.parse t text = Ret (Some r) ->
  exists p, In p ps /\ mr_pattern r = stripped p /\ matches (loose_regex (pat_tokens p)) text.
Proof.
  intros V F T U P. destruct (table_sound sip ps t text r V F T U P) as (p & caps & Ip & E & W & _).
  exists p. split; [exact Ip|]. split; [exact E|]. exact (table_walk_loose _ _ _ W).
Qed.

Theorem table_at_least sip ps t text p :
  Forall valid_pattern ps -> (forall q, parser_in ps q -> parser_ascii_set q) -> separate ps ->
  SuffixArray.add_patterns sip SuffixArray.table_new ps = Ret t -> utf8 text ->
  In p ps -> definite (pat_tokens p) -> matches (trie_regex (pat_tokens p)) text ->
  exists r, SuffixArray.parse t text = Ret (Some r) /\ mr_pattern r = stripped p.
Proof.
  intros V A S T U Ip D M. apply (definite_regex _ _ D) in M. destruct M as (caps & W).
  destruct (separate_table sip ps t text p caps V A S T U Ip W) as (r & P & E & _). eauto.
Qed.
