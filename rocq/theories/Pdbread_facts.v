(** * What the converter from patterndb reads: proofs *)
From Verif Require Import Base Base_facts Pdb2adb Pdbread Spec_pdbread.

Lemma str_eqb_rfl (a : str) : str_eqb a a = true.
Proof. apply str_eqb_eq. reflexivity. Qed.

Lemma str_eqb_false (a b : str) : str_eqb a b = false <-> a <> b.
Proof. rewrite <- (str_eqb_eq a b). destruct (str_eqb a b); intuition congruence. Qed.

(** ** Documents *)
Section XmlInd.
  Variable Q : xml -> Prop.
  Hypothesis HE : forall tag atts l, Forall Q l -> Q (Elt tag atts l).
  Hypothesis HT : forall s, Q (Text s).
  Fixpoint xml_nested_ind (x : xml) : Q x :=
    match x with
    | Text s => HT s
    | Elt tag atts l => HE tag atts l
        ((fix go (l : list xml) : Forall Q l :=
            match l with [] => Forall_nil Q | y :: l' => Forall_cons y (xml_nested_ind y) (go l') end) l)
    end.
End XmlInd.

Lemma ended_spec x : forall up e, In e (ended up x) <-> element_of up x e.
Proof.
  induction x as [tag atts l IH|s] using xml_nested_ind; intros up e.
  - cbn [ended]. rewrite in_app_iff, in_flat_map. rewrite Forall_forall in IH. split.
    + intros [(y & Hy & He)|[<-|[]]]; [|constructor]. apply IH in He; [|exact Hy].
      apply (element_child up tag atts l y); assumption.
    + intros H. inversion H; subst; [right; left; reflexivity|]. left.
      eexists. split; [eassumption|]. apply IH; assumption.
  - split; [intros []|intros H; inversion H].
Qed.


(** ** Ancestors *)
Lemma parent_nearest tag up a : parent tag up = Some a <-> nearest tag up a.
Proof.
  induction up as [|(t, atts) up IH]; simpl; [split; [discriminate|intros H; inversion H]|].
  unfold parent in *. cbn [find fst]. destruct (str_eqb t tag) eqn:E.
  - apply str_eqb_eq in E. subst t. split; [intros H; inversion H; constructor|].
    intros H. inversion H; subst; [reflexivity|congruence].
  - apply str_eqb_false in E. rewrite IH. split; [intros H; constructor; assumption|].
    intros H. inversion H; subst; [congruence|assumption].
Qed.

Lemma att_attribute k l : att k l = attribute k l.
Proof.
  unfold attribute. induction l as [|(k', v) l IH]; [reflexivity|]. cbn [att find fst].
  destruct (str_eqb k' k); [reflexivity|exact IH].
Qed.
Lemma id_of_rule l : id_of l = rule_id l.
Proof. unfold id_of, rule_id. rewrite att_attribute. reflexivity. Qed.
Lemma ruleset_name_set a : ruleset_name a = set_name (snd a).
Proof.
  unfold ruleset_name, set_name. rewrite !att_attribute. destruct (attribute ($"name") (snd a)) as [n|]; [|reflexivity].
  unfold truthy. destruct (is_empty n || str_eqb n ($"0"))%bool; reflexivity.
Qed.

Lemma owner_parent tag e : owner tag e = parent tag (el_up e).
Proof. reflexivity. Qed.

Definition example_read (e : element) : list example :=
  match last_child ($"test_message") (el_children e) with
  | Some (m, _) => [Example_ (xml_text m) (att ($"program") (xml_atts m)) (test_values (el_children e))]
  | None => []
  end.

(** ** Hashes *)
Section Hash.
  Context {A : Type}.
  Implicit Types (h : list (str * A)).

  Lemma hash_get_put k v h k' :
    hash_get k' (hash_put k v h) = if str_eqb k k' then Some v else hash_get k' h.
  Proof.
    induction h as [|(k0, v0) h IH]; simpl; [reflexivity|].
    destruct (str_eqb k0 k) eqn:E.
    - apply str_eqb_eq in E. subst k0. simpl. destruct (str_eqb k k'); reflexivity.
    - simpl. destruct (str_eqb k0 k') eqn:E'; [|exact IH]. apply str_eqb_eq in E'. subst k0.
      destruct (str_eqb k k') eqn:E2; [|reflexivity]. apply str_eqb_eq in E2. subst k. rewrite str_eqb_rfl in E. discriminate.
  Qed.

  Lemma hash_put_keys k v h x : In x (map fst (hash_put k v h)) <-> x = k \/ In x (map fst h).
  Proof.
    induction h as [|(k0, v0) h IH]; simpl; [intuition|]. destruct (str_eqb k0 k) eqn:E; simpl.
    - apply str_eqb_eq in E. subst. intuition congruence.
    - rewrite IH. intuition.
  Qed.

  Lemma hash_put_nodup k v h : NoDup (map fst h) -> NoDup (map fst (hash_put k v h)).
  Proof.
    induction h as [|(k0, v0) h IH]; simpl; intros H; [constructor; [intros []|constructor]|].
    inversion H as [|? ? H1 H2]; subst. destruct (str_eqb k0 k) eqn:E; simpl.
    - constructor; assumption.
    - constructor; [|apply IH; exact H2]. rewrite hash_put_keys. intros [->|X]; [rewrite str_eqb_rfl in E; discriminate|contradiction].
  Qed.

  Lemma hash_get_in k v h : NoDup (map fst h) -> (hash_get k h = Some v <-> In (k, v) h).
  Proof.
    induction h as [|(k0, v0) h IH]; simpl; intros H; [split; [discriminate|intros []]|].
    inversion H as [|? ? H1 H2]; subst. destruct (str_eqb k0 k) eqn:E.
    - apply str_eqb_eq in E. subst k0. split; [intros X; inversion X; auto|].
      intros [X|X]; [inversion X; reflexivity|]. apply (in_map fst) in X. contradiction.
    - rewrite (IH H2). split; [auto|]. intros [X|X]; [inversion X; subst; rewrite str_eqb_rfl in E; discriminate|exact X].
  Qed.
End Hash.

Definition filled (l : list (str * str)) : list (str * str) :=
  fold_left (fun h kv => hash_put (fst kv) (snd kv) h) l [].

Lemma filled_snoc l kv : filled (l ++ [kv]) = hash_put (fst kv) (snd kv) (filled l).
Proof. unfold filled. rewrite fold_left_app. reflexivity. Qed.

Lemma filled_nodup l : NoDup (map fst (filled l)).
Proof.
  induction l as [|kv l IH] using rev_ind; [constructor|]. rewrite filled_snoc. apply hash_put_nodup. exact IH.
Qed.

Lemma filled_last l k v : In (k, v) (filled l) <-> last_value l k v.
Proof.
  rewrite <- (hash_get_in k v _ (filled_nodup l)). revert v.
  induction l as [|(k0, v0) l IH] using rev_ind; intros v.
  - split; [discriminate|]. intros (a & b & E & _). destruct a; discriminate.
  - rewrite filled_snoc, hash_get_put. cbn [fst snd]. destruct (str_eqb k0 k) eqn:E.
    + apply str_eqb_eq in E. subst k0. split.
      * intros X. inversion X; subst. exists l, []. auto.
      * intros (a & b & E & N). destruct b as [|x b _] using rev_ind.
        -- apply app_inj_tail in E. destruct E as (_ & E). inversion E. reflexivity.
        -- rewrite app_comm_cons, app_assoc in E. apply app_inj_tail in E. destruct E as (_ & <-).
           exfalso. apply N. rewrite map_app. apply in_or_app. right. left. reflexivity.
    + rewrite IH. apply str_eqb_false in E. split.
      * intros (a & b & -> & N). exists a, (b ++ [(k0, v0)]). split; [rewrite <- app_assoc; reflexivity|].
        rewrite map_app. intros X. apply in_app_or in X. destruct X as [X|[X|[]]]; [contradiction|simpl in X; congruence].
      * intros (a & b & Eb & N). destruct b as [|x b _] using rev_ind.
        -- apply app_inj_tail in Eb. destruct Eb as (_ & Eb). inversion Eb. congruence.
        -- rewrite app_comm_cons, app_assoc in Eb. apply app_inj_tail in Eb. destruct Eb as (-> & _).
           exists a, b. split; [reflexivity|]. intros X. apply N. rewrite map_app. apply in_or_app. auto.
Qed.

(** ** The paths *)
Lemma str_eqb_symm (a b : str) : str_eqb a b = str_eqb b a.
Proof.
  destruct (str_eqb a b) eqn:X, (str_eqb b a) eqn:Y; try reflexivity.
  - apply str_eqb_eq in X. apply str_eqb_false in Y. congruence.
  - apply str_eqb_eq in Y. apply str_eqb_false in X. congruence.
Qed.

Lemma listed_below outer list what e :
  listed outer list what e = (str_eqb (el_tag e) what && below outer list (el_up e))%bool.
Proof.
  unfold listed, tags_up, below. cbn [heads]. rewrite (str_eqb_symm what).
  destruct (str_eqb (el_tag e) what); [|reflexivity].
  destruct (el_up e) as [|(p, pa) up]; [reflexivity|]. cbn [map fst].
  rewrite !Bool.andb_true_l, (str_eqb_symm outer p), (str_eqb_symm list p).
  destruct up as [|(q, qa) up]; cbn [map fst]; rewrite ?(str_eqb_symm outer q);
    destruct (str_eqb p outer), (str_eqb p list); try reflexivity; destruct (str_eqb q outer); reflexivity.
Qed.

Lemma below_parent outer list up : below outer list up = true -> exists a, parent outer up = Some a.
Proof.
  unfold below, parent. destruct up as [|(p, pa) up]; [discriminate|]. cbn [find fst].
  destruct (str_eqb p outer); [eauto|]. destruct (str_eqb p list); [|discriminate].
  destruct up as [|(q, qa) up]; [discriminate|]. cbn [find fst orb andb]. intros ->. eauto.
Qed.

(** ** What has been read so far *)
Definition rule_so_far (examples : bool) (es : list element) (id : str) : rule :=
  Rule_ id
    (match rev (filter (is_rule id) es) with
     | e :: _ => match owner ($"ruleset") e with Some s => ruleset_name s | None => [] end
     | [] => []
     end)
    (unless_empty (map el_text (filter (pattern_of id) es)))
    (if examples then flat_map example_read (filter (example_of id) es) else [])
    (unless_empty (map el_text (filter (tag_of id) es)))
    (match filter (value_of id) es with
     | [] => None
     | vs => Some (filled (map (fun e => (hash_key (att ($"name") (el_atts e)), el_text e)) vs))
     end).

Definition touches (id : str) (e : element) : bool :=
  is_rule id e || pattern_of id e || example_of id e || tag_of id e || value_of id e.

Record so_far (examples : bool) (es : list element) (t : tables) : Prop := {
  sf_rulesets : forall name, hash_get name (tb_rulesets t) = unless_empty (map el_text (filter (program_of name) es));
  sf_rules : forall id, hash_get id (tb_rules t) =
    if existsb (touches id) es then Some (rule_so_far examples es id) else None;
  sf_nodup : NoDup (map fst (tb_rules t)) /\ NoDup (map fst (tb_rulesets t))
}.

Lemma filter_snoc {A} (f : A -> bool) l x : filter f (l ++ [x]) = filter f l ++ if f x then [x] else [].
Proof. rewrite filter_app. simpl. destruct (f x); reflexivity. Qed.

Lemma existsb_snoc {A} (f : A -> bool) l x : existsb f (l ++ [x]) = (existsb f l || f x)%bool.
Proof. rewrite existsb_app. simpl. rewrite Bool.orb_false_r. reflexivity. Qed.

(** Nothing about a rule. *)
Lemma untouched examples es id : existsb (touches id) es = false -> rule_so_far examples es id = new_rule id.
Proof.
  intros H.
  assert (forall e, In e es -> touches id e = false) as HN.
  { intros e He. destruct (touches id e) eqn:E; [|reflexivity]. rewrite <- H. symmetry. apply existsb_exists. eauto. }
  assert (forall f : element -> bool, (forall e, f e = true -> touches id e = true) -> filter f es = []) as HF.
  { intros f Hf. clear H. induction es as [|e es IH]; [reflexivity|]. simpl. destruct (f e) eqn:E.
    - apply Hf in E. rewrite HN in E by (left; reflexivity). discriminate.
    - apply IH. intros e' He'. apply HN. right. exact He'. }
  unfold rule_so_far, new_rule. rewrite !HF; [destruct examples; reflexivity|..];
    intros e E; unfold touches; rewrite E, ?Bool.orb_true_r; reflexivity.
Qed.

Lemma unless_empty_snoc {A} (l : list A) x : unless_empty (l ++ [x]) = Some (l ++ [x]).
Proof. destruct l; reflexivity. Qed.

Lemma pushed_snoc (l : list str) s : pushed (unless_empty l) s = unless_empty (l ++ [s]).
Proof. destruct l; reflexivity. Qed.

(** A step that is about the rule [id]. *)
Lemma so_far_rule examples es e t id f :
  so_far examples es t -> (forall name, program_of name e = false) ->
  (forall id', touches id' e = str_eqb id id') ->
  rule_so_far examples (es ++ [e]) id = f (rule_so_far examples es id) ->
  so_far examples (es ++ [e]) (at_rule id f t).
Proof.
  intros [H1 H2 (N1 & N2)] HP HT HR. constructor.
  - intros name. cbn [at_rule tb_rulesets]. rewrite H1, filter_snoc, HP, app_nil_r. reflexivity.
  - intros id'. cbn [at_rule tb_rules]. rewrite hash_get_put, existsb_snoc, HT.
    destruct (str_eqb id id') eqn:E.
    + apply str_eqb_eq in E. subst id'. rewrite Bool.orb_true_r, HR, H2.
      destruct (existsb (touches id) es) eqn:Ex; [reflexivity|]. rewrite (untouched examples es id Ex). reflexivity.
    + rewrite Bool.orb_false_r, H2. destruct (existsb (touches id') es); [|reflexivity]. f_equal.
      specialize (HT id'). rewrite E in HT. unfold touches in HT. rewrite !Bool.orb_false_iff in HT.
      destruct HT as ((((T1 & T2) & T3) & T4) & T5).
      unfold rule_so_far. rewrite !filter_snoc, T1, T2, T3, T4, T5, !app_nil_r. reflexivity.
  - cbn [at_rule tb_rules tb_rulesets]. split; [apply hash_put_nodup; exact N1|exact N2].
Qed.

Lemma so_far_same examples es e t :
  so_far examples es t -> (forall name, program_of name e = false) -> (forall id, touches id e = false) ->
  so_far examples (es ++ [e]) t.
Proof.
  intros [H1 H2 N] HP HT. constructor; [| |exact N].
  - intros name. rewrite H1, filter_snoc, HP, app_nil_r. reflexivity.
  - intros id. rewrite H2, existsb_snoc, HT, Bool.orb_false_r. destruct (existsb (touches id) es); [|reflexivity]. f_equal.
    specialize (HT id). unfold touches in HT. rewrite !Bool.orb_false_iff in HT.
    destruct HT as ((((T1 & T2) & T3) & T4) & T5).
    unfold rule_so_far. rewrite !filter_snoc, T1, T2, T3, T4, T5, !app_nil_r. reflexivity.
Qed.

(** Which elements are what, by their tags. *)
Lemma kinds e :
  (forall name, program_of name e =
     (str_eqb (el_tag e) ($"pattern") && below ($"ruleset") ($"patterns") (el_up e) && belongs_set name e)%bool) /\
  (forall id, touches id e =
     (str_eqb (el_tag e) ($"rule") && str_eqb (rule_id (el_atts e)) id
      || str_eqb (el_tag e) ($"pattern") && below ($"rule") ($"patterns") (el_up e) && belongs id e
      || str_eqb (el_tag e) ($"example") && below ($"rule") ($"examples") (el_up e) && belongs id e
      || str_eqb (el_tag e) ($"tag") && below ($"rule") ($"tags") (el_up e) && belongs id e
      || str_eqb (el_tag e) ($"value") && below ($"rule") ($"values") (el_up e) && belongs id e)%bool).
Proof.
  split; intros; unfold touches, program_of, is_rule, pattern_of, example_of, tag_of, value_of;
    rewrite !listed_below; reflexivity.
Qed.

Lemma not_both up : below ($"ruleset") ($"patterns") up = true -> below ($"rule") ($"patterns") up = false.
Proof.
  unfold below. destruct up as [|(p, pa) up]; [discriminate|].
  destruct (str_eqb p ($"ruleset")) eqn:E1.
  - apply str_eqb_eq in E1. subst p. reflexivity.
  - destruct (str_eqb p ($"patterns")) eqn:E2; [|discriminate]. apply str_eqb_eq in E2. subst p.
    destruct up as [|(q, qa) up]; [discriminate|]. cbn [orb andb]. intros E. apply str_eqb_eq in E. subst q. reflexivity.
Qed.

Definition fatalb (examples : bool) (e : element) : bool :=
  (str_eqb (el_tag e) ($"ruleset") && is_empty (el_up e))
  || (str_eqb (el_tag e) ($"rule") && match owner ($"ruleset") e with None => true | _ => false end)
  || (str_eqb (el_tag e) ($"description") && match owner ($"ruleset") e with None => true | _ => false end)
  || (str_eqb (el_tag e) ($"action") &&
      (match owner ($"rule") e with None => true | _ => false end
       || negb (existsb (has_tag ($"message")) (flat_map begun (el_children e)))))
  || (listed ($"rule") ($"examples") ($"example") e && examples && negb (existsb (has_tag ($"test_message")) (el_children e))).

Lemma existsb_none {A} (f : A -> bool) l : negb (existsb f l) = true <-> forall x, In x l -> f x = false.
Proof.
  rewrite Bool.negb_true_iff. split.
  - intros H x Hx. destruct (f x) eqn:E; [|reflexivity]. rewrite <- H. symmetry. apply existsb_exists. eauto.
  - intros H. destruct (existsb f l) eqn:E; [|reflexivity]. apply existsb_exists in E. destruct E as (x & Hx & E).
    rewrite (H x Hx) in E. discriminate.
Qed.

Lemma fatalb_spec examples e : fatalb examples e = true <-> fatal examples e.
Proof.
  assert (forall o : option ancestor, match o with None => true | _ => false end = true <-> o = None) as HO
    by (intros []; split; congruence).
  assert (is_empty (el_up e) = true <-> el_up e = []) as HI by (destruct (el_up e); simpl; split; congruence).
  unfold fatalb, fatal. change tagged with has_tag. change opening with begun. rewrite !Bool.orb_true_iff, !Bool.andb_true_iff, !str_eqb_eq, Bool.orb_true_iff, !HO, HI, !existsb_none.
  tauto.
Qed.

Lemma last_child_none tag l : last_child tag l = None <-> existsb (has_tag tag) l = false.
Proof.
  induction l as [|x l IH]; simpl; [tauto|]. destruct (last_child tag l) as [r|].
  - split; [discriminate|]. intros H. apply Bool.orb_false_iff in H. destruct H as (_ & H). apply IH in H. discriminate.
  - destruct IH as (IH & _). rewrite (IH eq_refl), Bool.orb_false_r. destruct (has_tag tag x); split; congruence.
Qed.

Ltac tags :=
  repeat match goal with
  | H : str_eqb ?a ?b = true |- _ => apply str_eqb_eq in H; subst a
  end.

Lemma handle_parts examples (e : element) t : handle examples e t =
  if str_eqb (el_tag e) ($"ruleset") then match el_up e with [] => Panic | _ => Ret t end
  else if str_eqb (el_tag e) ($"rule") then on_rule (el_up e) (el_atts e) t
  else if str_eqb (el_tag e) ($"description") then
    match parent ($"ruleset") (el_up e) with None => Panic | Some _ => Ret t end
  else if str_eqb (el_tag e) ($"pattern") then
    if below ($"ruleset") ($"patterns") (el_up e) then on_ruleset_pattern (el_up e) (el_text e) t
    else if below ($"rule") ($"patterns") (el_up e) then on_rule_pattern (el_up e) (el_text e) t
    else Ret t
  else if str_eqb (el_tag e) ($"example") then
    if below ($"rule") ($"examples") (el_up e) then on_example examples (el_up e) (el_children e) t else Ret t
  else if str_eqb (el_tag e) ($"action") then on_action (el_up e) (el_children e) t
  else if str_eqb (el_tag e) ($"tag") then
    if below ($"rule") ($"tags") (el_up e) then on_rule_tag (el_up e) (el_text e) t else Ret t
  else if str_eqb (el_tag e) ($"value") then
    if below ($"rule") ($"values") (el_up e) then on_rule_value (el_up e) (el_atts e) (el_text e) t else Ret t
  else Ret t.
Proof. destruct e as (up & ((tag & atts) & children)). reflexivity. Qed.

Lemma kr id e : is_rule id e = (str_eqb (el_tag e) ($"rule") && str_eqb (rule_id (el_atts e)) id)%bool.
Proof. reflexivity. Qed.
Lemma kp id e : pattern_of id e = (str_eqb (el_tag e) ($"pattern") && below ($"rule") ($"patterns") (el_up e) && belongs id e)%bool.
Proof. unfold pattern_of. rewrite listed_below. reflexivity. Qed.
Lemma ke id e : example_of id e = (str_eqb (el_tag e) ($"example") && below ($"rule") ($"examples") (el_up e) && belongs id e)%bool.
Proof. unfold example_of. rewrite listed_below. reflexivity. Qed.
Lemma kt id e : tag_of id e = (str_eqb (el_tag e) ($"tag") && below ($"rule") ($"tags") (el_up e) && belongs id e)%bool.
Proof. unfold tag_of. rewrite listed_below. reflexivity. Qed.
Lemma kv id e : value_of id e = (str_eqb (el_tag e) ($"value") && below ($"rule") ($"values") (el_up e) && belongs id e)%bool.
Proof. unfold value_of. rewrite listed_below. reflexivity. Qed.

Lemma rule_same examples es e id : touches id e = false -> rule_so_far examples (es ++ [e]) id = rule_so_far examples es id.
Proof.
  intros HT. unfold touches in HT. rewrite !Bool.orb_false_iff in HT.
  destruct HT as ((((T1 & T2) & T3) & T4) & T5).
  unfold rule_so_far. rewrite !filter_snoc, T1, T2, T3, T4, T5, !app_nil_r. reflexivity.
Qed.

Lemma handle_step examples es (e : element) t :
  so_far examples es t ->
  match handle examples e t with
  | Ret t' => fatalb examples e = false /\ so_far examples (es ++ [e]) t'
  | Panic => fatalb examples e = true
  | OutOfFuel => False
  end.
Proof.
  intros HI. destruct (kinds e) as (KP & KT).
  unfold fatalb. rewrite listed_below, handle_parts, !owner_parent.
  destruct (str_eqb (el_tag e) ($"ruleset")) eqn:E1.
  { apply str_eqb_eq in E1. rewrite E1 in *. destruct (el_up e) as [|a up]; [reflexivity|]. split; [reflexivity|].
    apply so_far_same; [exact HI|intros n; rewrite KP; reflexivity|intros id; rewrite KT; reflexivity]. }
  destruct (str_eqb (el_tag e) ($"rule")) eqn:E2.
  { apply str_eqb_eq in E2. rewrite E2 in *. unfold on_rule. rewrite id_of_rule.
    destruct (parent ($"ruleset") (el_up e)) as [s|] eqn:Es; [|reflexivity]. split; [reflexivity|].
    apply so_far_rule; [exact HI|intros n; rewrite KP; reflexivity| |].
    - intros id. rewrite KT. cbn. rewrite !Bool.orb_false_r. reflexivity.
    - unfold rule_so_far. cbn [rl_id rl_ruleset rl_patterns rl_examples rl_tags rl_values].
      rewrite !filter_snoc, kr, kp, ke, kt, kv, (str_eqb_rfl (rule_id _)), E2.
      replace (str_eqb ($"rule") ($"pattern")) with false by reflexivity.
      replace (str_eqb ($"rule") ($"rule")) with true by reflexivity.
      replace (str_eqb ($"rule") ($"example")) with false by reflexivity.
      replace (str_eqb ($"rule") ($"tag")) with false by reflexivity.
      replace (str_eqb ($"rule") ($"value")) with false by reflexivity.
      cbn [andb]. rewrite rev_app_distr. cbn [rev app]. change (owner ($"ruleset") e) with (parent ($"ruleset") (el_up e)). rewrite Es, !app_nil_r. reflexivity. }
  destruct (str_eqb (el_tag e) ($"description")) eqn:E3.
  { apply str_eqb_eq in E3. rewrite E3 in *. 
    destruct (parent ($"ruleset") (el_up e)) as [s|] eqn:Es; [|reflexivity]. split; [reflexivity|].
    apply so_far_same; [exact HI|intros n; rewrite KP; reflexivity|intros id; rewrite KT; reflexivity]. }
  destruct (str_eqb (el_tag e) ($"pattern")) eqn:E4.
  { apply str_eqb_eq in E4. rewrite E4 in *.
    destruct (below ($"ruleset") ($"patterns") (el_up e)) eqn:B1.
    - unfold on_ruleset_pattern. pose proof (not_both _ B1) as B2.
      destruct (below_parent _ _ _ B1) as (a & Ea). rewrite Ea, ruleset_name_set. split; [reflexivity|].
      assert (forall n, program_of n e = str_eqb (set_name (snd a)) n) as HP.
      { intros n. rewrite KP. unfold belongs_set. rewrite owner_parent, Ea. reflexivity. }
      assert (forall id, touches id e = false) as HT.
      { intros id. rewrite KT, B2. reflexivity. }
      destruct HI as [H1 H2' (N1 & N2)]. constructor.
      + intros n. cbn [tb_rulesets]. rewrite hash_get_put, filter_snoc, HP, !H1.
        destruct (str_eqb (set_name (snd a)) n) eqn:En.
        * apply str_eqb_eq in En. subst n. rewrite map_app. cbn [map].
                    rewrite unless_empty_snoc. f_equal. f_equal.
          destruct (map el_text (filter (program_of (set_name (snd a))) es)); reflexivity.
        * rewrite app_nil_r. reflexivity.
      + intros id. cbn [tb_rules]. rewrite H2', existsb_snoc, HT, Bool.orb_false_r.
        destruct (existsb (touches id) es); [|reflexivity]. f_equal. symmetry. apply rule_same, HT.
      + cbn [tb_rules tb_rulesets]. split; [exact N1|apply hash_put_nodup; exact N2].
    - assert (forall n, program_of n e = false) as HP.
      { intros n. rewrite KP. reflexivity. }
      destruct (below ($"rule") ($"patterns") (el_up e)) eqn:B2.
      + unfold on_rule_pattern, with_rule. destruct (below_parent _ _ _ B2) as (a & Ea). rewrite Ea, id_of_rule.
        split; [reflexivity|].
        assert (forall id, belongs id e = str_eqb (rule_id (snd a)) id) as HB.
        { intros id. unfold belongs. rewrite owner_parent, Ea. reflexivity. }
        apply so_far_rule; [exact HI|exact HP| |].
        * intros id. rewrite KT, HB. cbn. rewrite !Bool.orb_false_r. reflexivity.
        * unfold rule_so_far. cbn [rl_id rl_ruleset rl_patterns rl_examples rl_tags rl_values].
          rewrite !filter_snoc. rewrite kr, kp, ke, kt, kv, HB, str_eqb_rfl.
          rewrite E4, B2.
          replace (str_eqb ($"pattern") ($"pattern")) with true by reflexivity.
          replace (str_eqb ($"pattern") ($"rule")) with false by reflexivity.
          replace (str_eqb ($"pattern") ($"example")) with false by reflexivity.
          replace (str_eqb ($"pattern") ($"tag")) with false by reflexivity.
          replace (str_eqb ($"pattern") ($"value")) with false by reflexivity.
          cbn [andb]. rewrite !app_nil_r, map_app, pushed_snoc. reflexivity.
      + split; [reflexivity|]. apply so_far_same; [exact HI|exact HP|].
        intros id. rewrite KT. reflexivity. }
  destruct (str_eqb (el_tag e) ($"example")) eqn:E5.
  { apply str_eqb_eq in E5. rewrite E5 in *.
    assert (forall n, program_of n e = false) as HP.
    { intros n. rewrite KP. reflexivity. }
    destruct (below ($"rule") ($"examples") (el_up e)) eqn:B2.
    - unfold on_example, with_rule. destruct (below_parent _ _ _ B2) as (a & Ea). rewrite Ea, id_of_rule.
      assert (forall id, belongs id e = str_eqb (rule_id (snd a)) id) as HB.
      { intros id. unfold belongs. rewrite owner_parent, Ea. reflexivity. }
      assert (forall id, touches id e = str_eqb (rule_id (snd a)) id) as HT.
      { intros id. rewrite KT, HB. cbn. rewrite !Bool.orb_false_r. reflexivity. }
      assert (rule_so_far examples (es ++ [e]) (rule_id (snd a)) =
              let r := rule_so_far examples es (rule_id (snd a)) in
              Rule_ (rl_id r) (rl_ruleset r) (rl_patterns r)
                (rl_examples r ++ if examples then example_read e else [])
                (rl_tags r) (rl_values r)) as HR.
      { cbv zeta. unfold rule_so_far. cbn [rl_id rl_ruleset rl_patterns rl_examples rl_tags rl_values].
        rewrite !filter_snoc. rewrite kr, kp, ke, kt, kv, HB, str_eqb_rfl.
        rewrite E5, B2.
        replace (str_eqb ($"example") ($"pattern")) with false by reflexivity.
        replace (str_eqb ($"example") ($"rule")) with false by reflexivity.
        replace (str_eqb ($"example") ($"example")) with true by reflexivity.
        replace (str_eqb ($"example") ($"tag")) with false by reflexivity.
        replace (str_eqb ($"example") ($"value")) with false by reflexivity.
        cbn [andb]. rewrite !app_nil_r. destruct examples; [|reflexivity].
        rewrite flat_map_app. cbn [flat_map]. rewrite app_nil_r. reflexivity. }
      destruct examples.
      + destruct (last_child ($"test_message") (el_children e)) as [(m, after)|] eqn:EL.
        * assert (existsb (has_tag ($"test_message")) (el_children e) = true) as EX.
          { destruct (existsb (has_tag ($"test_message")) (el_children e)) eqn:EX; [reflexivity|].
            apply last_child_none in EX. congruence. }
          rewrite EX. split; [reflexivity|].
          apply so_far_rule; [exact HI|exact HP|intros id; rewrite HT; reflexivity|].
          rewrite HR. cbv zeta. f_equal. f_equal. unfold example_read. rewrite EL. reflexivity.
        * apply last_child_none in EL. rewrite EL. reflexivity.
      + split; [reflexivity|].
        apply so_far_rule; [exact HI|exact HP|intros id; rewrite HT; reflexivity|].
        rewrite HR. reflexivity.
    - split; [reflexivity|]. apply so_far_same; [exact HI|exact HP|]. intros id. rewrite KT. reflexivity. }
  destruct (str_eqb (el_tag e) ($"action")) eqn:E6.
  { apply str_eqb_eq in E6. rewrite E6 in *. unfold on_action, with_rule.
    destruct (parent ($"rule") (el_up e)) as [a|] eqn:Ea; [|reflexivity].
    destruct (existsb (has_tag ($"message")) (flat_map begun (el_children e))); [|reflexivity]. split; [reflexivity|].
    apply so_far_same; [exact HI|intros n; rewrite KP; reflexivity|intros id; rewrite KT; reflexivity]. }
  destruct (str_eqb (el_tag e) ($"tag")) eqn:E7.
  { apply str_eqb_eq in E7. rewrite E7 in *.
    assert (forall n, program_of n e = false) as HP.
    { intros n. rewrite KP. reflexivity. }
    destruct (below ($"rule") ($"tags") (el_up e)) eqn:B2.
    - unfold on_rule_tag, with_rule. destruct (below_parent _ _ _ B2) as (a & Ea). rewrite Ea, id_of_rule.
      split; [reflexivity|].
      assert (forall id, belongs id e = str_eqb (rule_id (snd a)) id) as HB.
      { intros id. unfold belongs. rewrite owner_parent, Ea. reflexivity. }
      apply so_far_rule; [exact HI|exact HP| |].
      + intros id. rewrite KT, HB. cbn. rewrite !Bool.orb_false_r. reflexivity.
      + unfold rule_so_far. cbn [rl_id rl_ruleset rl_patterns rl_examples rl_tags rl_values].
        rewrite !filter_snoc. rewrite kr, kp, ke, kt, kv, HB, str_eqb_rfl.
        rewrite E7, B2.
        replace (str_eqb ($"tag") ($"pattern")) with false by reflexivity.
        replace (str_eqb ($"tag") ($"rule")) with false by reflexivity.
        replace (str_eqb ($"tag") ($"example")) with false by reflexivity.
        replace (str_eqb ($"tag") ($"tag")) with true by reflexivity.
        replace (str_eqb ($"tag") ($"value")) with false by reflexivity.
        cbn [andb]. rewrite !app_nil_r, map_app, pushed_snoc. reflexivity.
    - split; [reflexivity|]. apply so_far_same; [exact HI|exact HP|]. intros id. rewrite KT. reflexivity. }
  destruct (str_eqb (el_tag e) ($"value")) eqn:E8.
  { apply str_eqb_eq in E8. rewrite E8 in *.
    assert (forall n, program_of n e = false) as HP.
    { intros n. rewrite KP. reflexivity. }
    destruct (below ($"rule") ($"values") (el_up e)) eqn:B2.
    - unfold on_rule_value, with_rule. destruct (below_parent _ _ _ B2) as (a & Ea). rewrite Ea, id_of_rule.
      split; [reflexivity|].
      assert (forall id, belongs id e = str_eqb (rule_id (snd a)) id) as HB.
      { intros id. unfold belongs. rewrite owner_parent, Ea. reflexivity. }
      apply so_far_rule; [exact HI|exact HP| |].
      + intros id. rewrite KT, HB. cbn. rewrite ?Bool.orb_false_r. reflexivity.
      + unfold rule_so_far. cbn [rl_id rl_ruleset rl_patterns rl_examples rl_tags rl_values].
        rewrite !filter_snoc. rewrite kr, kp, ke, kt, kv, HB, str_eqb_rfl.
        rewrite E8, B2.
        replace (str_eqb ($"value") ($"pattern")) with false by reflexivity.
        replace (str_eqb ($"value") ($"rule")) with false by reflexivity.
        replace (str_eqb ($"value") ($"example")) with false by reflexivity.
        replace (str_eqb ($"value") ($"tag")) with false by reflexivity.
        replace (str_eqb ($"value") ($"value")) with true by reflexivity.
        cbn [andb]. rewrite !app_nil_r.
        destruct (filter (value_of (rule_id (snd a))) es) as [|v vs]; [reflexivity|].
        cbn [app]. rewrite app_comm_cons, map_app. cbn [map]. rewrite filled_snoc. reflexivity.
    - split; [reflexivity|]. apply so_far_same; [exact HI|exact HP|]. intros id. rewrite KT. reflexivity. }
  split; [reflexivity|]. apply so_far_same; [exact HI| |].
  - intros n. rewrite KP. reflexivity.
  - intros id. rewrite KT. reflexivity.
Qed.

Lemma so_far_nothing examples : so_far examples [] no_tables.
Proof. constructor; [reflexivity|reflexivity|split; constructor]. Qed.

Lemma handle_all_spec examples es0 es t :
  so_far examples es0 t ->
  match handle_all examples es t with
  | Ret t' => existsb (fatalb examples) es = false /\ so_far examples (es0 ++ es) t'
  | Panic => existsb (fatalb examples) es = true
  | OutOfFuel => False
  end.
Proof.
  revert es0 t. induction es as [|e es IH]; intros es0 t H; cbn [handle_all existsb].
  - rewrite app_nil_r. split; [reflexivity|exact H].
  - pose proof (handle_step examples es0 e t H) as HS.
    destruct (handle examples e t) as [t'| |]; cbn [bind] in *; [|rewrite HS; reflexivity|destruct HS].
    destruct HS as (HF & HS). specialize (IH _ _ HS). rewrite <- app_assoc in IH. rewrite HF. exact IH.
Qed.
