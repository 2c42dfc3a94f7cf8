(** * Proofs about reading standard documents *)
From Verif Require Import Base Base_facts Pdb2adb Pdbread Spec_pdbread Pdbread_facts.

Lemma handle_all_app examples a b t :
  handle_all examples (a ++ b) t = let* t' := handle_all examples a t in handle_all examples b t'.
Proof.
  revert t. induction a as [|e a IH]; intros t; [reflexivity|]. cbn [app handle_all].
  destruct (handle examples e t); cbn [bind]; [apply IH|reflexivity|reflexivity].
Qed.

(** ** Entries *)
Section Hash.
  Context {A : Type}.
  Implicit Types (h : list (str * A)) (k : str) (v : A).
  Lemma hash_put_put k v v' h : hash_put k v (hash_put k v' h) = hash_put k v h.
  Proof.
    induction h as [|(k', x) h IH]; cbn [hash_put].
    - rewrite str_eqb_rfl. reflexivity.
    - destruct (str_eqb k' k) eqn:E; cbn [hash_put]; rewrite E; [reflexivity|]. rewrite IH. reflexivity.
  Qed.
  Lemma hash_put_new k v h : ~ In k (map fst h) -> hash_put k v h = h ++ [(k, v)].
  Proof.
    induction h as [|(k', x) h IH]; cbn [hash_put map fst app]; intros H; [reflexivity|].
    destruct (str_eqb k' k) eqn:E.
    - apply str_eqb_eq in E. subst k'. destruct H. left. reflexivity.
    - rewrite IH; [reflexivity|]. intros Hk. apply H. right. exact Hk.
  Qed.
  Lemma hash_get_new k h : ~ In k (map fst h) -> hash_get k h = None.
  Proof.
    induction h as [|(k', x) h IH]; cbn [hash_get map fst]; intros H; [reflexivity|].
    destruct (str_eqb k' k) eqn:E.
    - apply str_eqb_eq in E. subst k'. destruct H. left. reflexivity.
    - apply IH. intros Hk. apply H. right. exact Hk.
  Qed.
End Hash.

Lemma filled_distinct l : NoDup (map fst l) -> filled l = l.
Proof.
  induction l as [|(k, v) l IH] using rev_ind; intros H; [reflexivity|].
  rewrite map_app in H. cbn [map fst] in H. apply NoDup_remove in H. rewrite app_nil_r in H. destruct H as (H & Hk).
  rewrite filled_snoc, IH by exact H. cbn [fst snd]. apply hash_put_new. exact Hk.
Qed.

Lemma at_rule_at id f g t : at_rule id f (at_rule id g t) = at_rule id (fun r => f (g r)) t.
Proof.
  unfold at_rule. cbn [tb_rules tb_rulesets]. rewrite hash_put_put, hash_get_put, str_eqb_rfl. reflexivity.
Qed.
Lemma at_rule_fold {A} id f (g : A -> rule -> rule) l t :
  at_rule id f (fold_left (fun t x => at_rule id (g x) t) l t) = at_rule id (fun r => f (fold_left (fun r x => g x r) l r)) t.
Proof.
  revert t. induction l as [|x l IH]; intros t; cbn [fold_left]; [reflexivity|].
  rewrite IH, at_rule_at. reflexivity.
Qed.
Lemma at_rule_new id f t : ~ In id (map fst (tb_rules t)) ->
  at_rule id f t = Tables (tb_rulesets t) (tb_rules t ++ [(id, f (new_rule id))]).
Proof. intros H. unfold at_rule. rewrite hash_get_new, hash_put_new by exact H. reflexivity. Qed.

(** ** Lists of elements *)
Lemma handle_items {A} examples (f : A -> xml) up (step : A -> tables -> tables) :
  (forall x t, handle_all examples (ended up (f x)) t = Ret (step x t)) ->
  forall l t, handle_all examples (flat_map (ended up) (map f l)) t = Ret (fold_left (fun t x => step x t) l t).
Proof.
  intros H. induction l as [|x l IH]; intros t; [reflexivity|]. cbn [map flat_map fold_left].
  rewrite handle_all_app, H. cbn [bind]. apply IH.
Qed.

Lemma fold_id {A} (l : list A) (t : tables) : fold_left (fun t _ => t) l t = t.
Proof. revert t. induction l; simpl; auto. Qed.

Lemma handle_group {A} examples tag (f : A -> xml) up (step : A -> tables -> tables) :
  (forall l t, handle examples (up, (tag, [], l)) t = Ret t) ->
  (forall x t, handle_all examples (ended ((tag, []) :: up) (f x)) t = Ret (step x t)) ->
  forall l t, handle_all examples (flat_map (ended up) (group tag (map f l))) t = Ret (fold_left (fun t x => step x t) l t).
Proof.
  intros HG H l t. destruct l as [|x l]; [reflexivity|]. 
  replace (group tag (map f (x :: l))) with [Elt tag [] (map f (x :: l))] by reflexivity.
  cbn [flat_map ended]. rewrite app_nil_r, handle_all_app, (handle_items examples f _ step H). cbn [bind handle_all].
  rewrite HG. reflexivity.
Qed.

(** ** A rule *)
Definition add_pattern (p : str) (r : rule) : rule :=
  Rule_ (rl_id r) (rl_ruleset r) (pushed (rl_patterns r) p) (rl_examples r) (rl_tags r) (rl_values r).
Definition add_tag (p : str) (r : rule) : rule :=
  Rule_ (rl_id r) (rl_ruleset r) (rl_patterns r) (rl_examples r) (pushed (rl_tags r) p) (rl_values r).
Definition add_value (kv : str * str) (r : rule) : rule :=
  Rule_ (rl_id r) (rl_ruleset r) (rl_patterns r) (rl_examples r) (rl_tags r)
    (Some (hash_put (fst kv) (snd kv) (match rl_values r with Some l => l | None => [] end))).
Definition example_filled (x : pdb_example) : example :=
  Example_ (px_message x) (px_program x) (match px_values x with [] => None | l => Some (filled l) end).
Definition add_example (examples : bool) (x : pdb_example) (r : rule) : rule :=
  Rule_ (rl_id r) (rl_ruleset r) (rl_patterns r)
    (if examples then rl_examples r ++ [example_filled x] else rl_examples r) (rl_tags r) (rl_values r).
Definition set_ruleset (n : str) (r : rule) : rule :=
  Rule_ (rl_id r) n (rl_patterns r) (rl_examples r) (rl_tags r) (rl_values r).

Lemma rule_eta r : Rule_ (rl_id r) (rl_ruleset r) (rl_patterns r) (rl_examples r) (rl_tags r) (rl_values r) = r.
Proof. destruct r. reflexivity. Qed.

Section Rule.
  Variables (examples : bool) (id : str) (rest : list ancestor).
  Let up := ($"rule", [($"id", id)]) :: rest.

  Lemma handle_pattern p t :
    handle_all examples (ended (($"patterns", []) :: up) (leaf ($"pattern") p)) t = Ret (at_rule id (add_pattern p) t).
  Proof. subst up. cbn. rewrite app_nil_r. reflexivity. Qed.
  Lemma handle_tag p t :
    handle_all examples (ended (($"tags", []) :: up) (leaf ($"tag") p)) t = Ret (at_rule id (add_tag p) t).
  Proof. subst up. cbn. rewrite app_nil_r. reflexivity. Qed.
  Lemma handle_value kv t :
    handle_all examples (ended (($"values", []) :: up) (named_leaf ($"value") kv)) t = Ret (at_rule id (add_value kv) t).
  Proof. subst up. cbn. rewrite app_nil_r. reflexivity. Qed.

  Lemma test_values_read (x : pdb_example) m a :
    test_values (Elt ($"test_message") m a :: group ($"test_values") (map (named_leaf ($"test_value")) (px_values x))) =
    match px_values x with [] => None | l => Some (filled l) end.
  Proof.
    destruct (px_values x) as [|kv l]; [reflexivity|].
    change (group ($"test_values") (map (named_leaf ($"test_value")) (kv :: l)))
      with [Elt ($"test_values") [] (map (named_leaf ($"test_value")) (kv :: l))].
    unfold test_values. cbn [last_child has_tag begun tl flat_map].
    replace (str_eqb ($"test_values") ($"test_values")) with true by reflexivity.
    rewrite app_nil_r.
    assert (forall l, filter (has_tag ($"test_value")) (flat_map begun (map (named_leaf ($"test_value")) l)) =
                      map (named_leaf ($"test_value")) l) as HF.
    { clear. induction l as [|kv l IH]; [reflexivity|]. cbn [map flat_map]. rewrite filter_app, IH. reflexivity. }
    assert (forall tg a c, tl (begun (Elt tg a c)) = flat_map begun c) as -> by reflexivity.
    rewrite (HF (kv :: l)). cbn [map]. f_equal.
    change (named_leaf ($"test_value") kv :: map (named_leaf ($"test_value")) l) with (map (named_leaf ($"test_value")) (kv :: l)).
    unfold filled. generalize (@nil (str * str)). induction (kv :: l) as [|kv' l' IH]; intros h; [reflexivity|].
    cbn [map fold_left]. rewrite <- IH. f_equal. cbn. rewrite app_nil_r. reflexivity.
  Qed.

  Lemma handle_example x t :
    handle_all examples (ended (($"examples", []) :: up) (example_xml x)) t = Ret (at_rule id (add_example examples x) t).
  Proof.
    unfold example_xml. cbn [ended]. rewrite handle_all_app. cbn [flat_map].
    rewrite (handle_all_app examples (ended _ (Elt ($"test_message") _ _))).
    assert (forall m, handle_all examples (ended (($"example", []) :: ($"examples", []) :: up)
                (Elt ($"test_message") m [Text (px_message x)])) t = Ret t) as -> by reflexivity.
    cbn [bind].
    rewrite (handle_group examples ($"test_values") (named_leaf ($"test_value")) _ (fun _ t => t)) by reflexivity.
    rewrite fold_id. cbn [bind handle_all].
    assert (forall c, handle examples (($"examples", []) :: up, ($"example", [], c)) t =
                      on_example examples (($"examples", []) :: up) c t) as HE by reflexivity.
    rewrite HE. clear HE.
    unfold on_example, with_rule. subst up. cbn [parent find fst snd].
    replace (str_eqb ($"examples") ($"rule")) with false by reflexivity.
    replace (str_eqb ($"rule") ($"rule")) with true by reflexivity.
    replace (id_of [($"id", id)]) with id by reflexivity.
    unfold add_example. destruct examples.
    - assert (last_child ($"test_message")
         (Elt ($"test_message") match px_program x with Some p => [($"program", p)] | None => [] end [Text (px_message x)]
          :: group ($"test_values") (map (named_leaf ($"test_value")) (px_values x))) =
         Some (Elt ($"test_message") match px_program x with Some p => [($"program", p)] | None => [] end [Text (px_message x)],
               group ($"test_values") (map (named_leaf ($"test_value")) (px_values x)))) as ->.
      { destruct (px_values x); reflexivity. }
      rewrite test_values_read. cbn [bind xml_text xml_atts flat_map]. rewrite app_nil_r.
      replace (att ($"program") match px_program x with Some p => [($"program", p)] | None => [] end) with (px_program x)
        by (destruct (px_program x); reflexivity).
      reflexivity.
    - cbn [bind]. unfold at_rule. rewrite rule_eta. reflexivity.
  Qed.
End Rule.

Lemma fold_patterns l r : fold_left (fun r x => add_pattern x r) l r =
  Rule_ (rl_id r) (rl_ruleset r) (match l with [] => rl_patterns r | _ => Some (match rl_patterns r with Some o => o | None => [] end ++ l) end)
    (rl_examples r) (rl_tags r) (rl_values r).
Proof.
  revert r. induction l as [|x l IH]; intros r; cbn [fold_left]; [symmetry; apply rule_eta|].
  rewrite IH. cbn [add_pattern rl_id rl_ruleset rl_patterns rl_examples rl_tags rl_values pushed].
  destruct l; [reflexivity|]. rewrite <- app_assoc. reflexivity.
Qed.
Lemma fold_tags l r : fold_left (fun r x => add_tag x r) l r =
  Rule_ (rl_id r) (rl_ruleset r) (rl_patterns r)
    (rl_examples r) (match l with [] => rl_tags r | _ => Some (match rl_tags r with Some o => o | None => [] end ++ l) end) (rl_values r).
Proof.
  revert r. induction l as [|x l IH]; intros r; cbn [fold_left]; [symmetry; apply rule_eta|].
  rewrite IH. cbn [add_tag rl_id rl_ruleset rl_patterns rl_examples rl_tags rl_values pushed].
  destruct l; [reflexivity|]. rewrite <- app_assoc. reflexivity.
Qed.
Lemma fold_examples examples l r : fold_left (fun r x => add_example examples x r) l r =
  Rule_ (rl_id r) (rl_ruleset r) (rl_patterns r)
    (if examples then rl_examples r ++ map example_filled l else rl_examples r) (rl_tags r) (rl_values r).
Proof.
  revert r. induction l as [|x l IH]; intros r; cbn [fold_left map].
  - rewrite app_nil_r. destruct examples; symmetry; apply rule_eta.
  - rewrite IH. cbn [add_example rl_id rl_ruleset rl_patterns rl_examples rl_tags rl_values].
    destruct examples; [|reflexivity]. rewrite <- app_assoc. reflexivity.
Qed.
Lemma fold_values l r : fold_left (fun r x => add_value x r) l r =
  Rule_ (rl_id r) (rl_ruleset r) (rl_patterns r) (rl_examples r) (rl_tags r)
    (match l with
     | [] => rl_values r
     | _ => Some (fold_left (fun h kv => hash_put (fst kv) (snd kv) h) l (match rl_values r with Some o => o | None => [] end))
     end).
Proof.
  revert r. induction l as [|x l IH]; intros r; cbn [fold_left]; [symmetry; apply rule_eta|].
  rewrite IH. cbn [add_value rl_id rl_ruleset rl_patterns rl_examples rl_tags rl_values].
  destruct l; reflexivity.
Qed.

Definition proper (r : pdb_rule) : Prop :=
  NoDup (map fst (pr_values r)) /\ forall x, In x (pr_examples r) -> NoDup (map fst (px_values x)).

Definition set_atts (s : pdb_ruleset) : list (str * str) := [($"name", ps_name s); ($"id", ps_id s)].
Definition countable (s : pdb_ruleset) : Prop := ps_name s <> [] /\ ps_name s <> $"0".

Lemma name_read s : countable s -> ruleset_name ($"ruleset", set_atts s) = ps_name s.
Proof.
  intros (H1 & H2). unfold ruleset_name, set_atts. cbn [snd].
  change (att ($"name") [($"name", ps_name s); ($"id", ps_id s)]) with (Some (ps_name s)).
  unfold truthy. replace (is_empty (ps_name s) || str_eqb (ps_name s) ($"0"))%bool with false; [reflexivity|].
  symmetry. apply Bool.orb_false_iff. split; [destruct (ps_name s); [destruct H1; reflexivity|reflexivity]|].
  apply str_eqb_false. exact H2.
Qed.

Lemma example_filled_in x : NoDup (map fst (px_values x)) -> example_filled x = example_in x.
Proof.
  intros H. unfold example_filled, example_in. destruct (px_values x) as [|kv l] eqn:E; [reflexivity|].
  rewrite filled_distinct by exact H. reflexivity.
Qed.

Lemma handle_rule examples s r rest t :
  countable s -> proper r -> ~ In (pr_id r) (map fst (tb_rules t)) ->
  handle_all examples (ended (($"rules", []) :: ($"ruleset", set_atts s) :: rest) (rule_xml r)) t =
  Ret (Tables (tb_rulesets t) (tb_rules t ++ [(pr_id r, rule_in examples s r)])).
Proof.
  intros Hs (HV & HX) HN. unfold rule_xml. cbn [ended]. rewrite !flat_map_app, <- !app_assoc, !handle_all_app.
  rewrite (handle_group examples ($"patterns") _ _ (fun x => at_rule (pr_id r) (add_pattern x)));
    [|reflexivity|intros x t'; apply handle_pattern].
  cbn [bind]. rewrite handle_all_app.
  rewrite (handle_group examples ($"examples") _ _ (fun x => at_rule (pr_id r) (add_example examples x)));
    [|reflexivity|intros x t'; apply handle_example].
  cbn [bind]. rewrite handle_all_app.
  rewrite (handle_group examples ($"values") _ _ (fun x => at_rule (pr_id r) (add_value x)));
    [|reflexivity|intros x t'; apply handle_value].
  cbn [bind]. rewrite handle_all_app.
  rewrite (handle_group examples ($"tags") _ _ (fun x => at_rule (pr_id r) (add_tag x)));
    [|reflexivity|intros x t'; apply handle_tag].
  cbn [bind handle_all].
  match goal with |- context [handle examples ?e ?t'] =>
    assert (handle examples e t' = Ret (at_rule (pr_id r) (set_ruleset (ps_name s)) t')) as HE end.
  { match goal with |- handle examples (?u, _) ?t' = _ =>
      transitivity (on_rule u [($"id", pr_id r)] t'); [reflexivity|] end.
    unfold on_rule. 
    replace (parent ($"ruleset") (($"rules", []) :: ($"ruleset", set_atts s) :: rest)) with (Some ($"ruleset", set_atts s)) by reflexivity.
    rewrite (name_read s Hs). reflexivity. }
  rewrite HE. cbn [bind]. clear HE.
  rewrite !at_rule_fold, (at_rule_new _ _ _ HN). do 2 f_equal. f_equal. f_equal. f_equal.
  rewrite fold_patterns, fold_examples, fold_values, fold_tags.
  unfold set_ruleset, new_rule, rule_in. cbn [rl_id rl_ruleset rl_patterns rl_examples rl_tags rl_values].
  f_equal.
  - destruct examples; [|reflexivity]. cbn [app]. apply map_ext_in. intros x Hx. apply example_filled_in, HX, Hx.
  - change (fold_left (fun h kv => hash_put (fst kv) (snd kv) h) (pr_values r) []) with (filled (pr_values r)).
    rewrite filled_distinct by exact HV. destruct (pr_values r); reflexivity.
Qed.

(** ** Rulesets *)
Lemma handle_rules examples s rest l t :
  countable s -> (forall r, In r l -> proper r) -> NoDup (map fst (tb_rules t) ++ map pr_id l) ->
  handle_all examples (flat_map (ended (($"rules", []) :: ($"ruleset", set_atts s) :: rest)) (map rule_xml l)) t =
  Ret (Tables (tb_rulesets t) (tb_rules t ++ map (fun r => (pr_id r, rule_in examples s r)) l)).
Proof.
  intros Hs. revert t. induction l as [|r l IH]; intros t HP HN.
  - cbn. rewrite app_nil_r. destruct t. reflexivity.
  - cbn [map flat_map]. rewrite handle_all_app.
    rewrite handle_rule; [|exact Hs|apply HP; left; reflexivity|].
    2: { cbn [map] in HN. apply NoDup_remove_2 in HN. intros H. apply HN. apply in_app_iff. left. exact H. }
    cbn [bind]. rewrite IH; cbn [tb_rules tb_rulesets].
    + rewrite <- app_assoc. reflexivity.
    + intros r' Hr'. apply HP. right. exact Hr'.
    + rewrite map_app, <- app_assoc. exact HN.
Qed.

Definition add_program (n p : str) (t : tables) : tables :=
  Tables (hash_put n (match hash_get n (tb_rulesets t) with Some l => l | None => [] end ++ [p]) (tb_rulesets t)) (tb_rules t).

Lemma add_programs n l t :
  tb_rules (fold_left (fun t p => add_program n p t) l t) = tb_rules t /\
  (forall m, m <> n -> hash_get m (tb_rulesets (fold_left (fun t p => add_program n p t) l t)) = hash_get m (tb_rulesets t)) /\
  hash_get n (tb_rulesets (fold_left (fun t p => add_program n p t) l t)) =
    match l with
    | [] => hash_get n (tb_rulesets t)
    | _ => Some (match hash_get n (tb_rulesets t) with Some o => o | None => [] end ++ l)
    end.
Proof.
  revert t. induction l as [|p l IH]; intros t; cbn [fold_left]; [auto|].
  destruct (IH (add_program n p t)) as (H1 & H2 & H3). split; [exact H1|]. split.
  - intros m Hm. rewrite H2 by exact Hm. unfold add_program. cbn [tb_rulesets]. rewrite hash_get_put.
    replace (str_eqb n m) with false; [reflexivity|]. symmetry. apply str_eqb_false. congruence.
  - rewrite H3. unfold add_program. cbn [tb_rulesets]. rewrite hash_get_put, str_eqb_rfl.
    destruct l; [reflexivity|]. rewrite <- app_assoc. reflexivity.
Qed.

Lemma handle_ruleset examples s a rest t :
  countable s -> (forall r, In r (ps_rules s) -> proper r) ->
  NoDup (map fst (tb_rules t) ++ map pr_id (ps_rules s)) -> hash_get (ps_name s) (tb_rulesets t) = None ->
  exists t', handle_all examples (ended (a :: rest) (ruleset_xml s)) t = Ret t' /\
    tb_rules t' = tb_rules t ++ map (fun r => (pr_id r, rule_in examples s r)) (ps_rules s) /\
    (forall m, m <> ps_name s -> hash_get m (tb_rulesets t') = hash_get m (tb_rulesets t)) /\
    hash_get (ps_name s) (tb_rulesets t') = unless_empty (ps_programs s).
Proof.
  intros Hs HP HN HG. unfold ruleset_xml. cbn [ended].
  rewrite flat_map_app, <- app_assoc, handle_all_app.
  change [($"name", ps_name s); ($"id", ps_id s)] with (set_atts s).
  rewrite (handle_group examples ($"patterns") _ _ (add_program (ps_name s))); [|reflexivity|].
  2: { intros p t'. cbn [leaf ended flat_map app handle_all].
       match goal with |- context [handle examples ?e t'] =>
         assert (handle examples e t' = on_ruleset_pattern (($"patterns", []) :: ($"ruleset", set_atts s) :: a :: rest) (p ++ []) t')
           as -> by reflexivity end.
       unfold on_ruleset_pattern.
       replace (parent ($"ruleset") (($"patterns", []) :: ($"ruleset", set_atts s) :: a :: rest)) with (Some ($"ruleset", set_atts s)) by reflexivity.
       rewrite (name_read s Hs), app_nil_r. reflexivity. }
  cbn [bind]. rewrite handle_all_app.
  destruct (add_programs (ps_name s) (ps_programs s) t) as (P1 & P2 & P3).
  set (t1 := fold_left (fun t p => add_program (ps_name s) p t) (ps_programs s) t) in *.
  assert (handle_all examples (flat_map (ended (($"ruleset", set_atts s) :: a :: rest)) (group ($"rules") (map rule_xml (ps_rules s)))) t1 =
          Ret (Tables (tb_rulesets t1) (tb_rules t1 ++ map (fun r => (pr_id r, rule_in examples s r)) (ps_rules s)))) as HR.
  { destruct (ps_rules s) as [|r l] eqn:E.
    - cbn. rewrite app_nil_r. destruct t1. reflexivity.
    - change (group ($"rules") (map rule_xml (r :: l))) with [Elt ($"rules") [] (map rule_xml (r :: l))].
      set (l' := r :: l) in *. cbn [flat_map ended]. rewrite app_nil_r, handle_all_app.
      rewrite handle_rules; [reflexivity|exact Hs|exact HP|]. rewrite P1. exact HN. }
  match goal with |- context [handle_all examples (flat_map ?f ?l) t1] =>
    change (handle_all examples (flat_map f l) t1 =
      Ret (Tables (tb_rulesets t1) (tb_rules t1 ++ map (fun r => (pr_id r, rule_in examples s r)) (ps_rules s)))) in HR end.
  rewrite HR. cbn [bind handle_all].
  eexists. split; [reflexivity|]. cbn [tb_rules tb_rulesets]. rewrite P1. split; [reflexivity|]. split; [exact P2|].
  rewrite P3, HG. destruct (ps_programs s); reflexivity.
Qed.

Lemma handle_rulesets examples a rest db t :
  (forall s, In s db -> countable s /\ forall r, In r (ps_rules s) -> proper r) ->
  NoDup (map ps_name db) -> (forall s, In s db -> hash_get (ps_name s) (tb_rulesets t) = None) ->
  NoDup (map fst (tb_rules t) ++ map pr_id (flat_map ps_rules db)) ->
  exists t', handle_all examples (flat_map (ended (a :: rest)) (map ruleset_xml db)) t = Ret t' /\
    tb_rules t' = tb_rules t ++ map (fun r => (rl_id r, r)) (rules_in examples db) /\
    (forall m, ~ In m (map ps_name db) -> hash_get m (tb_rulesets t') = hash_get m (tb_rulesets t)) /\
    (forall s, In s db -> hash_get (ps_name s) (tb_rulesets t') = unless_empty (ps_programs s)).
Proof.
  revert t. induction db as [|s db IH]; intros t HC HN HG HI.
  - exists t. cbn. rewrite app_nil_r. split; [reflexivity|]. split; [reflexivity|]. split; [reflexivity|intros s []].
  - cbn [map flat_map] in *. rewrite map_app, app_assoc in HI. rewrite handle_all_app.
    destruct (HC s (or_introl eq_refl)) as (Cs & Ps).
    destruct (handle_ruleset examples s a rest t Cs Ps) as (t1 & E1 & R1 & O1 & S1).
    { clear - HI. induction (map pr_id (flat_map ps_rules db)) as [|x l IH] using rev_ind; [rewrite app_nil_r in HI; exact HI|].
      apply IH. rewrite app_assoc in HI. apply NoDup_remove_1 in HI. rewrite app_nil_r in HI. exact HI. }
    { apply HG. left. reflexivity. }
    rewrite E1. cbn [bind]. inversion HN as [|? ? Hs HN']. subst.
    destruct (IH t1) as (t2 & E2 & R2 & O2 & S2).
    + intros s' Hs'. apply HC. right. exact Hs'.
    + exact HN'.
    + intros s' Hs'. rewrite O1; [apply HG; right; exact Hs'|]. intros E. apply Hs. rewrite <- E. apply in_map. exact Hs'.
    + rewrite R1, map_app, map_map. cbn [fst]. exact HI.
    + exists t2. split; [exact E2|]. split; [|split].
      * rewrite R2, R1, <- app_assoc. f_equal. unfold rules_in. cbn [flat_map]. rewrite map_app, map_map. reflexivity.
      * intros m Hm. rewrite O2, O1; [reflexivity|intros ->; apply Hm; left; reflexivity|intros H; apply Hm; right; exact H].
      * intros s' [<-|Hs']; [|apply S2; exact Hs']. rewrite O2 by exact Hs. exact S1.
Qed.

Theorem standard_read examples db : standard db ->
  exists t, read examples (pdb_xml db) = Ret t /\ map snd (tb_rules t) = rules_in examples db /\
    forall s, In s db -> hash_get (ps_name s) (tb_rulesets t) = unless_empty (ps_programs s).
Proof.
  intros [H1 H2 H3 H4].
  destruct (handle_rulesets examples ($"patterndb", []) [] db no_tables) as (t & E & R & _ & S).
  - intros s Hs. split; [apply H1; exact Hs|]. intros r Hr. apply H4. apply in_flat_map. eauto.
  - exact H2.
  - reflexivity.
  - exact H3.
  - exists t. split; [|split; [|exact S]].
    + unfold read, pdb_xml. cbn [ended]. rewrite handle_all_app.
      match goal with |- context [handle_all examples (flat_map ?f ?l) no_tables] =>
        change (handle_all examples (flat_map f l) no_tables = Ret t) in E end.
      rewrite E. reflexivity.
    + rewrite R. cbn [no_tables tb_rules app]. rewrite map_map. apply map_id.
Qed.
