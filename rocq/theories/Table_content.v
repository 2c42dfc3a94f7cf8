(** * What the abstract table contains after adding patterns *)
From Coq Require Import Sorted.
From Verif Require Import Base Base_facts Utils Utils_facts Parsers Parsers_facts Pattern Spec
  Spec_table SuffixArray TrieSpec TrieSpec_facts TrieSpec_props TrieSpec_cases TableSpec Table_refine
  Table_facts.

(** ** Levels made of one pattern are the same for trie and table *)
Lemma chain_same toks p : t_insert toks level_empty p = s_insert toks level_empty p.
Proof.
  induction toks as [|[x|l] rest IH]; [reflexivity| |]; cbn [t_insert s_insert]; rewrite IH; reflexivity.
Qed.

Definition tput (rest : list token) (p : pattern) (e : entry) : entry :=
  if is_empty rest then (Some p, snd e) else (fst e, Some (t_insert rest level_empty p)).

Lemma put_tput rest p e : put rest p e = tput rest p e.
Proof. unfold put, tput. rewrite chain_same. reflexivity. Qed.

Lemma t_insert_unfold tok rest L p :
  t_insert (tok :: rest) L p =
  match tok with
  | Literal l => Level (upsert l (tput rest p) (lits_of L)) (pars_of L)
  | Parser q => Level (lits_of L) (at_parser (pars_of L) q (tput rest p))
  end.
Proof. destruct tok; reflexivity. Qed.

Lemma t_adds_snoc ps p : t_adds (ps ++ [p]) = t_add (t_adds ps) p.
Proof. unfold t_adds. rewrite fold_left_app. reflexivity. Qed.

(** ** The entry of a token *)
Fixpoint plookup (x : parser) (P : list (parser * entry)) : option entry :=
  match P with
  | [] => None
  | (y, e) :: P' => if parser_eq_dec y x then Some e else plookup x P'
  end.

Definition entry_of (L : level) (tok : token) : option entry :=
  match tok with
  | Literal l => lookup l (lits_of L)
  | Parser x => plookup x (pars_of L)
  end.

Lemma token_dec (a b : token) : {a = b} + {a <> b}.
Proof. decide equality; [apply parser_eq_dec|apply str_dec]. Qed.

Definition odef (o : option entry) : entry := match o with Some e => e | None => (None, None) end.

Lemma str_eqb_refl (a : str) : str_eqb a a = true.
Proof. apply str_eqb_eq. reflexivity. Qed.

Lemma lookup_upsert l f K k :
  sorted_keys K ->
  lookup k (upsert l f K) = if str_eqb k l then Some (f (odef (lookup l K))) else lookup k K.
Proof.
  unfold sorted_keys. induction K as [|(k0, e) K IH]; simpl; intros HS; [reflexivity|].
  inversion HS as [|? ? S1 S2]; subst. destruct (str_cmp l k0) eqn:E; simpl.
  - apply str_cmp_eq in E. subst k0. rewrite str_eqb_refl. destruct (str_eqb k l); reflexivity.
  - destruct (str_eqb k l) eqn:E2; [|reflexivity].
    assert (str_eqb l k0 = false) as ->.
    { apply str_eqb_neq. intros ->. rewrite str_cmp_refl in E. discriminate. }
    assert (lookup l K = None) as ->; [|reflexivity].
    destruct (lookup l K) as [e'|] eqn:El; [|reflexivity]. apply lookup_in in El.
    rewrite Forall_forall in S2. specialize (S2 l (in_map fst _ _ El)).
    pose proof (str_cmp_lt_trans _ _ _ E S2) as C. rewrite str_cmp_refl in C. discriminate.
  - rewrite IH by exact S1. assert (str_eqb l k0 = false) as ->.
    { apply str_eqb_neq. intros ->. rewrite str_cmp_refl in E. discriminate. }
    destruct (str_eqb k k0) eqn:E1; [|reflexivity]. apply str_eqb_eq in E1. subst k0.
    assert (str_eqb k l = false) as ->; [|reflexivity].
    apply str_eqb_neq. intros ->. rewrite str_cmp_refl in E. discriminate.
Qed.

Lemma plookup_at P x f y :
  plookup y (at_parser P x f) =
  if parser_eq_dec y x then Some (f (odef (plookup x P))) else plookup y P.
Proof.
  induction P as [|(z, e) P IH]; simpl.
  - destruct (parser_eq_dec x y), (parser_eq_dec y x); congruence.
  - destruct (parser_eq_dec z x) as [->|N]; simpl.
    + destruct (parser_eq_dec x y), (parser_eq_dec y x); congruence.
    + rewrite IH. destruct (parser_eq_dec z y) as [->|N2]; [|reflexivity].
      destruct (parser_eq_dec y x); congruence.
Qed.

Lemma t_insert_sorted toks L p : sorted_keys (lits_of L) -> sorted_keys (lits_of (t_insert toks L p)).
Proof.
  intros H. destruct toks as [|[x|l] rest]; [exact H| |]; rewrite t_insert_unfold.
  - exact H.
  - apply upsert_sorted. exact H.
Qed.

Lemma t_adds_sorted ps : sorted_keys (lits_of (t_adds ps)).
Proof.
  induction ps as [|p ps IH] using rev_ind; [constructor|]. rewrite t_adds_snoc.
  apply t_insert_sorted. exact IH.
Qed.

Lemma entry_of_insert tok rest L p tok' :
  sorted_keys (lits_of L) ->
  entry_of (t_insert (tok :: rest) L p) tok' =
  if token_dec tok' tok then Some (tput rest p (odef (entry_of L tok))) else entry_of L tok'.
Proof.
  intros HS. rewrite t_insert_unfold. destruct tok as [x|l]; destruct tok' as [x'|l']; cbn [entry_of lits_of pars_of].
  - rewrite plookup_at. destruct (parser_eq_dec x' x), (token_dec (Parser x') (Parser x)); congruence.
  - destruct (token_dec (Literal l') (Parser x)); congruence.
  - destruct (token_dec (Parser x') (Literal l)); congruence.
  - rewrite lookup_upsert by exact HS. destruct (str_eqb l' l) eqn:E, (token_dec (Literal l') (Literal l)) as [E2|E2].
    + reflexivity.
    + apply str_eqb_eq in E. congruence.
    + apply str_eqb_neq in E. congruence.
    + reflexivity.
Qed.

(** ** The last pattern of a kind *)
Definition last_such {A : Type} (f : pattern -> option A) (ps : list pattern) : option A :=
  fold_left (fun acc p => match f p with Some a => Some a | None => acc end) ps None.

Lemma last_such_snoc {A} (f : pattern -> option A) ps p :
  last_such f (ps ++ [p]) = match f p with Some a => Some a | None => last_such f ps end.
Proof. unfold last_such. rewrite fold_left_app. reflexivity. Qed.

Lemma last_such_some {A} (f : pattern -> option A) ps a :
  last_such f ps = Some a <->
  exists x p y, ps = x ++ p :: y /\ f p = Some a /\ forall p', In p' y -> f p' = None.
Proof.
  induction ps as [|p ps IH] using rev_ind.
  - split; [discriminate|]. intros (x & p & y & E & _). destruct x; discriminate.
  - rewrite last_such_snoc. destruct (f p) as [b|] eqn:E.
    + split.
      * intros H. inversion H; subst. exists ps, p, []. repeat split; auto. intros p' [].
      * intros (x & p0 & y & E1 & E2 & E3). destruct y as [|z y] using rev_ind.
        -- apply app_inj_tail in E1. destruct E1 as (_ & ->). congruence.
        -- rewrite app_comm_cons, app_assoc in E1. apply app_inj_tail in E1. destruct E1 as (_ & ->).
           rewrite E3 in E; [discriminate|]. apply in_or_app. right. left. reflexivity.
    + rewrite IH. split.
      * intros (x & p0 & y & -> & E2 & E3). exists x, p0, (y ++ [p]). rewrite <- app_assoc.
        repeat split; auto. intros p' Hp. apply in_app_or in Hp. destruct Hp as [Hp|[<-|[]]]; auto.
      * intros (x & p0 & y & E1 & E2 & E3). destruct y as [|z y _] using rev_ind.
        -- apply app_inj_tail in E1. destruct E1 as (_ & ->). congruence.
        -- rewrite app_comm_cons, app_assoc in E1. apply app_inj_tail in E1. destruct E1 as (-> & _).
           exists x, p0, y. repeat split; auto. intros p' Hp. apply E3. apply in_or_app. auto.
Qed.

Lemma last_such_none {A} (f : pattern -> option A) ps :
  last_such f ps = None <-> forall p, In p ps -> f p = None.
Proof.
  induction ps as [|p ps IH] using rev_ind.
  - split; [intros _ p []|reflexivity].
  - rewrite last_such_snoc. destruct (f p) as [b|] eqn:E.
    + split; [discriminate|]. intros H. rewrite H in E; [discriminate|]. apply in_or_app. right. left. reflexivity.
    + rewrite IH. split.
      * intros H q Hq. apply in_app_or in Hq. destruct Hq as [Hq|[<-|[]]]; auto.
      * intros H q Hq. apply H. apply in_or_app. auto.
Qed.

Definition single (tok : token) (p : pattern) : option pattern :=
  match pat_tokens p with
  | [t] => if token_dec t tok then Some (stripped p) else None
  | _ => None
  end.

Definition longer (tok : token) (p : pattern) : option level :=
  match pat_tokens p with
  | t :: ((_ :: _) as rest) =>
      if token_dec t tok then Some (t_insert rest level_empty (stripped p)) else None
  | _ => None
  end.

Definition first_is (tok : token) (p : pattern) : bool :=
  match pat_tokens p with
  | t :: _ => if token_dec t tok then true else false
  | [] => false
  end.

Lemma t_adds_entry ps tok :
  entry_of (t_adds ps) tok =
  if existsb (first_is tok) ps
  then Some (last_such (single tok) ps, last_such (longer tok) ps) else None.
Proof.
  induction ps as [|p ps IH] using rev_ind.
  - destruct tok; reflexivity.
  - rewrite t_adds_snoc, existsb_app, !last_such_snoc. cbn [existsb]. unfold t_add.
    unfold single at 1, longer at 1, first_is at 2.
    destruct (pat_tokens p) as [|t rest] eqn:E.
    + rewrite Bool.orb_false_r. exact IH.
    + rewrite entry_of_insert by apply t_adds_sorted. destruct (token_dec tok t) as [->|N].
      * destruct (token_dec t t); [|congruence]. cbn [orb]. rewrite Bool.orb_true_r.
        rewrite IH. unfold tput. destruct rest as [|t2 rest]; cbn [is_empty].
        -- destruct (existsb (first_is t) ps) eqn:Ex; [reflexivity|]. cbn [odef snd].
           f_equal. f_equal. symmetry. apply last_such_none. intros p' Hp. unfold longer.
           assert (first_is t p' = false) as F.
           { destruct (first_is t p') eqn:F; [|reflexivity]. rewrite <- Ex. symmetry. apply existsb_exists. eauto. }
           unfold first_is in F. destruct (pat_tokens p') as [|t' [|t'' r']]; auto.
           destruct (token_dec t' t); [discriminate|reflexivity].
        -- destruct (existsb (first_is t) ps) eqn:Ex; [reflexivity|]. cbn [odef fst].
           f_equal. f_equal. symmetry. apply last_such_none. intros p' Hp. unfold single.
           assert (first_is t p' = false) as F.
           { destruct (first_is t p') eqn:F; [|reflexivity]. rewrite <- Ex. symmetry. apply existsb_exists. eauto. }
           unfold first_is in F. destruct (pat_tokens p') as [|t' [|t'' r']]; auto.
           destruct (token_dec t' t); [discriminate|reflexivity].
      * destruct (token_dec t tok); [congruence|]. cbn [orb]. rewrite Bool.orb_false_r. rewrite IH.
        destruct rest; reflexivity.
Qed.

(** ** Membership and lookup *)
Lemma in_lookup {A} (K : list (str * A)) k e :
  NoDup (keys K) -> In (k, e) K <-> lookup k K = Some e.
Proof.
  induction K as [|(k0, e0) K IH]; simpl; intros HN; [split; [intros []|discriminate]|].
  inversion HN as [|? ? N1 N2]; subst. destruct (str_eqb k k0) eqn:E.
  - apply str_eqb_eq in E. subst k0. split.
    + intros [H|H]; [congruence|]. exfalso. apply N1. apply (in_map fst) in H. exact H.
    + intros H. left. congruence.
  - rewrite <- (IH N2). apply str_eqb_neq in E. split; [intros [H|H]; congruence|auto].
Qed.

Lemma sorted_keys_nodup K : sorted_keys K -> NoDup (keys K).
Proof.
  unfold sorted_keys. induction 1 as [|k ks HS IH HF]; constructor; auto.
  intros H. rewrite Forall_forall in HF. apply HF in H. unfold str_lt in H. rewrite str_cmp_refl in H.
  discriminate.
Qed.

Lemma in_lits L k e :
  sorted_keys (lits_of L) -> In (k, e) (lits_of L) <-> entry_of L (Literal k) = Some e.
Proof. intros H. apply in_lookup. apply sorted_keys_nodup. exact H. Qed.

Definition pnodup (L : level) : Prop := NoDup (map fst (pars_of L)).

Lemma in_pars L x e : pnodup L -> In (x, e) (pars_of L) <-> entry_of L (Parser x) = Some e.
Proof.
  unfold pnodup. cbn [entry_of]. induction (pars_of L) as [|(y, e0) P IH]; simpl; intros HN; [split; [intros []|discriminate]|].
  inversion HN as [|? ? N1 N2]; subst. destruct (parser_eq_dec y x) as [->|N].
  - split.
    + intros [H|H]; [congruence|]. exfalso. apply N1. apply (in_map fst) in H. exact H.
    + intros H. left. congruence.
  - rewrite <- (IH N2). split; [intros [H|H]; congruence|auto].
Qed.

Lemma at_parser_fst P x f :
  map fst (at_parser P x f) = if in_dec parser_eq_dec x (map fst P) then map fst P else map fst P ++ [x].
Proof.
  induction P as [|(y, e) P IH]; simpl; [reflexivity|].
  destruct (parser_eq_dec y x) as [->|N]; simpl; [reflexivity|].
  rewrite IH. destruct (in_dec parser_eq_dec x (map fst P)); reflexivity.
Qed.

Lemma nodup_snoc {A} (l : list A) x : NoDup l -> ~ In x l -> NoDup (l ++ [x]).
Proof.
  intros H N. apply NoDup_rev in H. rewrite <- (rev_involutive (l ++ [x])). apply NoDup_rev.
  rewrite rev_app_distr. simpl. constructor; [|exact H]. rewrite <- in_rev. exact N.
Qed.

Lemma t_insert_pnodup toks L p : pnodup L -> pnodup (t_insert toks L p).
Proof.
  intros H. destruct toks as [|[x|l] rest]; [exact H| |]; rewrite t_insert_unfold; [|exact H].
  unfold pnodup. cbn [pars_of]. rewrite at_parser_fst.
  destruct (in_dec parser_eq_dec x (map fst (pars_of L))); [exact H|]. apply nodup_snoc; assumption.
Qed.

Lemma t_adds_pnodup ps : pnodup (t_adds ps).
Proof.
  induction ps as [|p ps IH] using rev_ind; [constructor|]. rewrite t_adds_snoc.
  apply t_insert_pnodup. exact IH.
Qed.

(** ** Content *)
Lemma tstored_entry L tok rest q :
  sorted_keys (lits_of L) -> pnodup L ->
  tstored L (tok :: rest) q <->
  exists po co, entry_of L tok = Some (po, co) /\
    ((rest = [] /\ po = Some q) \/ exists c, co = Some c /\ tstored c rest q).
Proof.
  intros HS HN. split.
  - intros H. destruct L as [K P].
    inversion H as [k co ? ? ? Hi|k po c ? ? ? ? Hi Hc|x co ? ? ? Hi|x po c ? ? ? ? Hi Hc]; subst.
    + apply (in_lits (Level K P)) in Hi; [|exact HS]. eauto 8.
    + apply (in_lits (Level K P)) in Hi; [|exact HS]. eauto 8.
    + apply (in_pars (Level K P)) in Hi; [|exact HN]. eauto 8.
    + apply (in_pars (Level K P)) in Hi; [|exact HN]. eauto 8.
  - intros (po & co & E & H). destruct L as [K P]. destruct tok as [x|l].
    + apply in_pars in E; [|exact HN]. destruct H as [(-> & ->)|(c & -> & Hc)].
      * apply (ts_parser x co). exact E.
      * apply (ts_below_parser x po c); assumption.
    + apply in_lits in E; [|exact HS]. destruct H as [(-> & ->)|(c & -> & Hc)].
      * apply (ts_literal l co). exact E.
      * apply (ts_below_literal l po c); assumption.
Qed.

Lemma sorted_empty : sorted_keys (lits_of level_empty).
Proof. constructor. Qed.
Lemma pnodup_empty : pnodup level_empty.
Proof. constructor. Qed.

Lemma tstored_chain toks p : forall path q,
  tstored (t_insert toks level_empty p) path q <-> toks <> [] /\ path = toks /\ q = p.
Proof.
  induction toks as [|tok rest IH]; intros path q.
  - cbn. split; [|tauto]. intros H. inversion H; subst; contradiction.
  - destruct path as [|tok' path].
    { split; [intros H; inversion H|intros (_ & E & _); discriminate]. }
    rewrite tstored_entry; [|apply t_insert_sorted, sorted_empty|apply t_insert_pnodup, pnodup_empty].
    rewrite entry_of_insert by apply sorted_empty. split.
    + intros (po & co & E & H). destruct (token_dec tok' tok) as [->|N].
      * assert (entry_of level_empty tok = None) as E0 by (destruct tok; reflexivity).
        rewrite E0 in E. unfold tput in E. cbn [odef fst snd] in E. split; [discriminate|].
        destruct rest as [|t2 rest]; cbn [is_empty] in E; inversion E; subst.
        -- destruct H as [(-> & H)|(c & H & _)]; [|discriminate]. inversion H. auto.
        -- destruct H as [(-> & H)|(c & H & Hc)]; [discriminate|]. inversion H; subst c.
           apply IH in Hc. destruct Hc as (_ & -> & ->). auto.
      * destruct tok'; discriminate.
    + intros (_ & E & ->). inversion E; subst. destruct (token_dec tok tok); [|congruence].
      assert (entry_of level_empty tok = None) as E0 by (destruct tok; reflexivity). rewrite E0.
      unfold tput. cbn [odef fst snd]. destruct rest as [|t2 rest]; cbn [is_empty].
      * eexists _, _. split; [reflexivity|]. auto.
      * eexists _, _. split; [reflexivity|]. right. eexists. split; [reflexivity|].
        apply IH. split; [discriminate|auto].
Qed.

Lemma tstored_adds ps path q :
  tstored (t_adds ps) path q <->
  path <> [] /\ exists a p b, ps = a ++ p :: b /\ pat_tokens p = path /\ q = stripped p /\
    forall p', In p' b -> ~ displaces (pat_tokens p') path.
Proof.
  destruct path as [|tok rest].
  { split; [intros H; inversion H|intros (N & _); congruence]. }
  rewrite tstored_entry by (apply t_adds_sorted || apply t_adds_pnodup).
  rewrite t_adds_entry.
  assert (forall a p b, ps = a ++ p :: b -> pat_tokens p = tok :: rest ->
            existsb (first_is tok) ps = true) as HE.
  { intros a p b -> E. apply existsb_exists. exists p. split; [apply in_elt|]. unfold first_is.
    rewrite E. destruct (token_dec tok tok); congruence. }
  split.
  - intros (po & co & E & H). split; [discriminate|].
    destruct (existsb (first_is tok) ps); [|discriminate]. inversion E; subst. clear E.
    destruct H as [(-> & H)|(c & H & Hc)].
    + apply last_such_some in H. destruct H as (a & p & b & -> & E & N). exists a, p, b.
      unfold single in E. destruct (pat_tokens p) as [|t [|t2 r]] eqn:Ep; try discriminate.
      destruct (token_dec t tok) as [->|]; [|discriminate]. inversion E. repeat split; auto.
      intros p' Hp (t & r & r' & E1 & E2 & E3). inversion E2; subst. apply N in Hp. unfold single in Hp.
      rewrite E1 in Hp. destruct r; [|destruct E3 as (_ & E3); discriminate E3; reflexivity].
      destruct (token_dec t t); congruence.
    + apply last_such_some in H. destruct H as (a & p & b & -> & E & N). exists a, p, b.
      unfold longer in E. destruct (pat_tokens p) as [|t [|t2 r]] eqn:Ep; try discriminate.
      destruct (token_dec t tok) as [->|]; [|discriminate]. assert (c = t_insert (t2 :: r) level_empty (stripped p)) as -> by congruence.
      apply tstored_chain in Hc. destruct Hc as (_ & -> & ->). repeat split; auto.
      intros p' Hp (t & r0 & r' & E1 & E2 & E3). inversion E2; subst. apply N in Hp. unfold longer in Hp.
      rewrite E1 in Hp. destruct r0; [destruct E3 as (E3 & _); discriminate E3; reflexivity|].
      destruct (token_dec t t); congruence.
  - intros (_ & a & p & b & E & Ep & -> & N). rewrite (HE a p b E Ep).
    eexists _, _. split; [reflexivity|]. destruct rest as [|t2 rest].
    + left. split; [reflexivity|]. apply last_such_some. exists a, p, b. split; [exact E|].
      unfold single. rewrite Ep. split; [destruct (token_dec tok tok); congruence|].
      intros p' Hp. apply N in Hp. destruct (pat_tokens p') as [|t [|t3 r]] eqn:E'; auto.
      destruct (token_dec t tok) as [->|]; [|reflexivity]. exfalso. apply Hp. exists tok, [], [].
      repeat split; auto.
    + right. exists (t_insert (t2 :: rest) level_empty (stripped p)). split.
      * apply last_such_some. exists a, p, b. split; [exact E|].
        unfold longer. rewrite Ep. split; [destruct (token_dec tok tok); [reflexivity|congruence]|].
        intros p' Hp. apply N in Hp. destruct (pat_tokens p') as [|t [|t3 r]] eqn:E'; auto.
        destruct (token_dec t tok) as [->|]; [|reflexivity]. exfalso. apply Hp.
        exists tok, (t3 :: r), (t2 :: rest). repeat split; auto; discriminate.
      * apply tstored_chain. split; [discriminate|auto].
Qed.
