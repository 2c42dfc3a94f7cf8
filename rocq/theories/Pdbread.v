(** * Model of utils/pdb2adb, reading: 22-161

    The input is the tree of the XML document as XML::Twig builds it (text that
    it throws away, that is white space between elements, is not there).  A
    handler is called at the end of each element that fits its path, when all
    elements that ended before have been handled and nothing that comes later is
    there yet.  [Panic] stands for dying.  Fields that nothing uses are left out:
    of a ruleset everything but its patterns, of a rule the class and the context
    attributes, and the actions (but not how these handlers die). *)
From Verif Require Import Base Pdb2adb.

Inductive xml :=
| Elt (tag : str) (atts : list (str * str)) (children : list xml)
| Text (s : str).

(** What is known of an ancestor: its tag and its attributes. *)
Definition ancestor := (str * list (str * str))%type.

(** [$elt -> {att} -> {k}] *)
Fixpoint att (k : str) (l : list (str * str)) : option str :=
  match l with
  | [] => None
  | (k', v) :: l' => if str_eqb k' k then Some v else att k l'
  end.
(** An undefined key of a hash is the empty one. *)
Definition hash_key (o : option str) : str := interpolated o.

(** [$elt -> text] *)
Fixpoint xml_text (x : xml) : str :=
  match x with Text s => s | Elt _ _ l => flat_map xml_text l end.

(** [$elt -> parent($tag)]: the nearest ancestor with this tag.  [up] has the
    parent first. *)
Definition parent (tag : str) (up : list ancestor) : option ancestor :=
  find (fun a => str_eqb (fst a) tag) up.

(** [{att} -> {name} || id], 54, 61, 71 *)
Definition ruleset_name (a : ancestor) : str :=
  if truthy (att ($"name") (snd a)) then hash_key (att ($"name") (snd a)) else hash_key (att ($"id") (snd a)).
(** [-> id] *)
Definition id_of (atts : list (str * str)) : str := hash_key (att ($"id") atts).

(** ** The elements of a document in the order they end, with their ancestors *)
Fixpoint ended (up : list ancestor) (x : xml) : list (list ancestor * (str * list (str * str) * list xml)) :=
  match x with
  | Text _ => []
  | Elt tag atts l => flat_map (ended ((tag, atts) :: up)) l ++ [(up, (tag, atts, l))]
  end.
(** In the order they begin. *)
Fixpoint begun (x : xml) : list xml :=
  match x with
  | Text _ => []
  | Elt _ _ l => x :: flat_map begun l
  end.

Definition has_tag (tag : str) (x : xml) : bool :=
  match x with Elt t _ _ => str_eqb t tag | Text _ => false end.
Definition xml_atts (x : xml) : list (str * str) :=
  match x with Elt _ a _ => a | Text _ => [] end.

(** ** Hashes: the keys in the order they were first used *)
Fixpoint hash_put {A} (k : str) (v : A) (h : list (str * A)) : list (str * A) :=
  match h with
  | [] => [(k, v)]
  | (k', v') :: h' => if str_eqb k' k then (k', v) :: h' else (k', v') :: hash_put k v h'
  end.
Fixpoint hash_get {A} (k : str) (h : list (str * A)) : option A :=
  match h with
  | [] => None
  | (k', v) :: h' => if str_eqb k' k then Some v else hash_get k h'
  end.

(** [%ruleset] (the patterns only) and [%rule]. *)
Record tables := Tables {
  tb_rulesets : list (str * list str);
  tb_rules : list (str * rule)
}.
Definition no_tables : tables := Tables [] [].

(** A new entry of [%rule]. *)
Definition new_rule (id : str) : rule := Rule_ id [] None [] None None.
Definition at_rule (id : str) (f : rule -> rule) (t : tables) : tables :=
  Tables (tb_rulesets t)
    (hash_put id (f (match hash_get id (tb_rules t) with Some r => r | None => new_rule id end)) (tb_rules t)).

Definition pushed (o : option (list str)) (s : str) : option (list str) :=
  Some (match o with Some l => l | None => [] end ++ [s]).

(** 59-66 *)
Definition on_ruleset_pattern (up : list ancestor) (text : str) (t : tables) : outcome tables :=
  match parent ($"ruleset") up with
  | None => Panic
  | Some a =>
      let old := match hash_get (ruleset_name a) (tb_rulesets t) with Some l => l | None => [] end in
      Ret (Tables (hash_put (ruleset_name a) (old ++ [text]) (tb_rulesets t)) (tb_rules t))
  end.

(** 69-79 *)
Definition on_rule (up : list ancestor) (atts : list (str * str)) (t : tables) : outcome tables :=
  match parent ($"ruleset") up with
  | None => Panic
  | Some a => Ret (at_rule (id_of atts) (fun r => Rule_ (rl_id r) (ruleset_name a) (rl_patterns r) (rl_examples r)
                                                     (rl_tags r) (rl_values r)) t)
  end.

(** [parent('rule') -> id] *)
Definition with_rule (up : list ancestor) (f : str -> outcome tables) : outcome tables :=
  match parent ($"rule") up with None => Panic | Some a => f (id_of (snd a)) end.

(** 81-88 *)
Definition on_rule_pattern (up : list ancestor) (text : str) (t : tables) : outcome tables :=
  with_rule up (fun id => Ret (at_rule id (fun r =>
    Rule_ (rl_id r) (rl_ruleset r) (pushed (rl_patterns r) text) (rl_examples r) (rl_tags r) (rl_values r)) t)).
(** 111-116 *)
Definition on_rule_tag (up : list ancestor) (text : str) (t : tables) : outcome tables :=
  with_rule up (fun id => Ret (at_rule id (fun r =>
    Rule_ (rl_id r) (rl_ruleset r) (rl_patterns r) (rl_examples r) (pushed (rl_tags r) text) (rl_values r)) t)).
(** 118-122 *)
Definition on_rule_value (up : list ancestor) (atts : list (str * str)) (text : str) (t : tables) : outcome tables :=
  with_rule up (fun id => Ret (at_rule id (fun r =>
    Rule_ (rl_id r) (rl_ruleset r) (rl_patterns r) (rl_examples r) (rl_tags r)
      (Some (hash_put (hash_key (att ($"name") atts)) text (match rl_values r with Some l => l | None => [] end)))) t)).

(** The last child with this tag, and what follows it. *)
Fixpoint last_child (tag : str) (l : list xml) : option (xml * list xml) :=
  match l with
  | [] => None
  | x :: l' => match last_child tag l' with
               | Some r => Some r
               | None => if has_tag tag x then Some (x, l') else None
               end
  end.

(** 95-102: all elements test_value that begin after the last child test_values. *)
Definition test_values (children : list xml) : option (list (str * str)) :=
  match last_child ($"test_values") children with
  | None => None
  | Some (x, after) =>
      match filter (has_tag ($"test_value")) (tl (begun x) ++ flat_map begun after) with
      | [] => None
      | vs => Some (fold_left (fun h v => hash_put (hash_key (att ($"name") (xml_atts v))) (xml_text v) h) vs [])
      end
  end.

(** 90-109; without the option the example is not looked at.  The empty list that
    is created then makes no difference. *)
Definition on_example (examples : bool) (up : list ancestor) (children : list xml) (t : tables) : outcome tables :=
  with_rule up (fun id =>
    if examples then
      match last_child ($"test_message") children with
      | None => Panic
      | Some (m, _) =>
          Ret (at_rule id (fun r =>
            Rule_ (rl_id r) (rl_ruleset r) (rl_patterns r)
              (rl_examples r ++ [Example_ (xml_text m) (att ($"program") (xml_atts m)) (test_values children)])
              (rl_tags r) (rl_values r)) t)
      end
    else Ret (at_rule id (fun r => r) t)).

(** 125-156: a rule above, a message below. *)
Definition on_action (up : list ancestor) (children : list xml) (t : tables) : outcome tables :=
  with_rule up (fun _ => if existsb (has_tag ($"message")) (flat_map begun children) then Ret t else Panic).

(** The element is a child of [a], or of an element [b] that is one. *)
Definition below (a b : str) (up : list ancestor) : bool :=
  match up with
  | (p, _) :: up' => str_eqb p a || (str_eqb p b && match up' with (q, _) :: _ => str_eqb q a | [] => false end)
  | [] => false
  end.

(** The handlers, 24-39.  No element fits two paths. *)
Definition handle (examples : bool) (e : list ancestor * (str * list (str * str) * list xml)) (t : tables)
  : outcome tables :=
  let '(up, (tag, atts, children)) := e in
  let text := flat_map xml_text children in
  if str_eqb tag ($"ruleset") then
    (* 44-50: the root has no parent *)
    match up with [] => Panic | _ => Ret t end
  else if str_eqb tag ($"rule") then on_rule up atts t
  else if str_eqb tag ($"description") then
    (* 52-57 *)
    match parent ($"ruleset") up with None => Panic | Some _ => Ret t end
  else if str_eqb tag ($"pattern") then
    if below ($"ruleset") ($"patterns") up then on_ruleset_pattern up text t
    else if below ($"rule") ($"patterns") up then on_rule_pattern up text t
    else Ret t
  else if str_eqb tag ($"example") then
    if below ($"rule") ($"examples") up then on_example examples up children t else Ret t
  else if str_eqb tag ($"action") then on_action up children t
  else if str_eqb tag ($"tag") then
    if below ($"rule") ($"tags") up then on_rule_tag up text t else Ret t
  else if str_eqb tag ($"value") then
    if below ($"rule") ($"values") up then on_rule_value up atts text t else Ret t
  else Ret t.

Fixpoint handle_all (examples : bool) (es : list (list ancestor * (str * list (str * str) * list xml))) (t : tables)
  : outcome tables :=
  match es with
  | [] => Ret t
  | e :: es' => let* t' := handle examples e t in handle_all examples es' t'
  end.

(** 158-161 *)
Definition read (examples : bool) (doc : xml) : outcome tables :=
  handle_all examples (ended [] doc) no_tables.

(** The whole script (with the option -p, without -a).  [each %rule] comes in any
    order, here that of the list; so do the keys of the inner hashes. *)
Definition script (examples with_program : bool) (fresh : nat -> str) (doc : xml) : outcome Deser.value :=
  let* t := read examples doc in
  convert with_program (fun name => hash_get name (tb_rulesets t)) fresh (map snd (tb_rules t)).
