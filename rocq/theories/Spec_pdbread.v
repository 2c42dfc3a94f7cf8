(** * What the converter from patterndb reads: the vocabulary of C132 to C134

    Of Pdbread.v only the types and the lookup in a hash are used here. *)
From Verif Require Import Base Pdb2adb Spec_pdb Pdbread.

(** ** Documents *)

(** All text of an element, that of its children included. *)
Fixpoint text_of (x : xml) : str :=
  match x with Text s => s | Elt _ _ l => flat_map text_of l end.
Definition tagged (tag : str) (x : xml) : bool :=
  match x with Elt t _ _ => str_eqb t tag | Text _ => false end.
Definition attributes (x : xml) : list (str * str) := match x with Elt _ a _ => a | Text _ => [] end.
Definition children (x : xml) : list xml := match x with Elt _ _ l => l | Text _ => [] end.
Definition attribute (k : str) (l : list (str * str)) : option str :=
  option_map snd (find (fun kv => str_eqb (fst kv) k) l).
(** The elements of a document part in the order of their start tags. *)
Fixpoint opening (x : xml) : list xml :=
  match x with Text _ => [] | Elt _ _ l => x :: flat_map opening l end.
(** Missing values are the empty string. *)
Definition or_empty (o : option str) : str := match o with Some s => s | None => [] end.

(** An element with its ancestors, the parent first. *)
Definition element := (list ancestor * (str * list (str * str) * list xml))%type.
Definition el_up (e : element) : list ancestor := fst e.
Definition el_tag (e : element) : str := fst (fst (snd e)).
Definition el_atts (e : element) : list (str * str) := snd (fst (snd e)).
Definition el_children (e : element) : list xml := snd (snd e).
Definition el_text (e : element) : str := flat_map text_of (el_children e).

(** [e] is an element of the document. *)
Inductive element_of : list ancestor -> xml -> element -> Prop :=
| element_self up tag atts l : element_of up (Elt tag atts l) (up, (tag, atts, l))
| element_child up tag atts l x e :
    In x l -> element_of ((tag, atts) :: up) x e -> element_of up (Elt tag atts l) e.

(** All elements in the order of their end tags. *)
Fixpoint closing (up : list ancestor) (x : xml) : list element :=
  match x with
  | Text _ => []
  | Elt tag atts l => flat_map (closing ((tag, atts) :: up)) l ++ [(up, (tag, atts, l))]
  end.

(** Its tag and those of the ancestors, the own one first. *)
Definition tags_up (e : element) : list str := el_tag e :: map fst (el_up e).
Fixpoint heads (p l : list str) : bool :=
  match p, l with
  | [], _ => true
  | a :: p', b :: l' => str_eqb a b && heads p' l'
  | _ :: _, [] => false
  end.
(** [<outer><what>] or [<outer><list><what>]. *)
Definition listed (outer list what : str) (e : element) : bool :=
  heads [what; outer] (tags_up e) || heads [what; list; outer] (tags_up e).

(** The nearest ancestor with this tag. *)
Inductive nearest : str -> list ancestor -> ancestor -> Prop :=
| nearest_here tag atts up : nearest tag ((tag, atts) :: up) (tag, atts)
| nearest_up tag tag' atts up a : tag' <> tag -> nearest tag up a -> nearest tag ((tag', atts) :: up) a.
Definition owner (tag : str) (e : element) : option ancestor := find (fun a => str_eqb (fst a) tag) (el_up e).
(** The id of a rule; the name of a ruleset, which is its id if the name is
    missing, empty or 0. *)
Definition rule_id (atts : list (str * str)) : str := or_empty (attribute ($"id") atts).
Definition set_name (atts : list (str * str)) : str :=
  match attribute ($"name") atts with
  | Some n => if is_empty n || str_eqb n ($"0") then or_empty (attribute ($"id") atts) else n
  | None => or_empty (attribute ($"id") atts)
  end.

(** The id of the rule it belongs to, the name of the ruleset. *)
Definition belongs (id : str) (e : element) : bool :=
  match owner ($"rule") e with Some a => str_eqb (rule_id (snd a)) id | None => false end.
Definition belongs_set (name : str) (e : element) : bool :=
  match owner ($"ruleset") e with Some a => str_eqb (set_name (snd a)) name | None => false end.

(** The elements that are read. *)
Definition is_rule (id : str) (e : element) : bool :=
  str_eqb (el_tag e) ($"rule") && str_eqb (rule_id (el_atts e)) id.
Definition program_of (name : str) (e : element) : bool :=
  listed ($"ruleset") ($"patterns") ($"pattern") e && belongs_set name e.
Definition pattern_of (id : str) (e : element) : bool :=
  listed ($"rule") ($"patterns") ($"pattern") e && belongs id e.
Definition example_of (id : str) (e : element) : bool :=
  listed ($"rule") ($"examples") ($"example") e && belongs id e.
Definition tag_of (id : str) (e : element) : bool :=
  listed ($"rule") ($"tags") ($"tag") e && belongs id e.
Definition value_of (id : str) (e : element) : bool :=
  listed ($"rule") ($"values") ($"value") e && belongs id e.

Definition unless_empty {A : Type} (l : list A) : option (list A) :=
  match l with [] => None | _ => Some l end.

(** [v] is the value of the last pair with this key. *)
Definition last_value (l : list (str * str)) (k v : str) : Prop :=
  exists a b, l = a ++ (k, v) :: b /\ ~ In k (map fst b).
(** A hash filled with these pairs; [None] if there are none. *)
Definition hash_of (l : list (str * str)) (h : option (list (str * str))) : Prop :=
  (h = None <-> l = []) /\
  forall h', h = Some h' -> NoDup (map fst h') /\ forall k v, In (k, v) h' <-> last_value l k v.
Definition name_and_text (x : xml) : str * str := (or_empty (attribute ($"name") (attributes x)), text_of x).

(** [x] is the last one with this tag. *)
Definition last_tagged (tag : str) (l : list xml) (x : xml) (after : list xml) : Prop :=
  exists before, l = before ++ x :: after /\ tagged tag x = true /\ forall y, In y after -> tagged tag y = false.
(** What is read of an example: the last message, and the values that start after
    the start of the last list of values. *)
Record example_from (l : list xml) (x : example) : Prop := {
  xf_message : exists m after, last_tagged ($"test_message") l m after /\ ex_message x = text_of m /\
    ex_program x = attribute ($"program") (attributes m);
  xf_no_values : (forall y, In y l -> tagged ($"test_values") y = false) -> ex_values x = None;
  xf_values : forall v after, last_tagged ($"test_values") l v after ->
    hash_of (map name_and_text (filter (tagged ($"test_value")) (flat_map opening (children v) ++ flat_map opening after)))
      (ex_values x)
}.

(** The rule with this id, as it is read from elements [es]. *)
Record rule_read (examples : bool) (es : list element) (id : str) (r : rule) : Prop := {
  rr_id : rl_id r = id;
  rr_ruleset : exists a e b s, es = a ++ e :: b /\ is_rule id e = true /\ (forall e', In e' b -> is_rule id e' = false) /\
    owner ($"ruleset") e = Some s /\ rl_ruleset r = set_name (snd s);
  rr_patterns : rl_patterns r = unless_empty (map el_text (filter (pattern_of id) es));
  rr_examples : if examples then Forall2 (fun e x => example_from (el_children e) x) (filter (example_of id) es) (rl_examples r)
                else rl_examples r = [];
  rr_tags : rl_tags r = unless_empty (map el_text (filter (tag_of id) es));
  rr_values : hash_of (map (fun e => (or_empty (attribute ($"name") (el_atts e)), el_text e)) (filter (value_of id) es))
                (rl_values r)
}.

(** The script dies at this element. *)
Definition fatal (examples : bool) (e : element) : Prop :=
  (el_tag e = $"ruleset" /\ el_up e = []) \/
  (el_tag e = $"rule" /\ owner ($"ruleset") e = None) \/
  (el_tag e = $"description" /\ owner ($"ruleset") e = None) \/
  (el_tag e = $"action" /\ (owner ($"rule") e = None \/
     forall x, In x (flat_map opening (el_children e)) -> tagged ($"message") x = false)) \/
  (listed ($"rule") ($"examples") ($"example") e = true /\ examples = true /\
     forall x, In x (el_children e) -> tagged ($"test_message") x = false).

(** ** Standard documents *)
Record pdb_example := PdbExample { px_message : str; px_program : option str; px_values : list (str * str) }.
Record pdb_rule := PdbRule {
  pr_id : str;
  pr_patterns : list str;
  pr_examples : list pdb_example;
  pr_values : list (str * str);
  pr_tags : list str
}.
Record pdb_ruleset := PdbRuleset { ps_name : str; ps_id : str; ps_programs : list str; ps_rules : list pdb_rule }.

(** A list of elements is left out if it is empty. *)
Definition group (tag : str) (l : list xml) : list xml := match l with [] => [] | _ => [Elt tag [] l] end.
Definition leaf (tag : str) (s : str) : xml := Elt tag [] [Text s].
Definition named_leaf (tag : str) (kv : str * str) : xml := Elt tag [($"name", fst kv)] [Text (snd kv)].
Definition example_xml (x : pdb_example) : xml :=
  Elt ($"example") []
    (Elt ($"test_message") match px_program x with Some p => [($"program", p)] | None => [] end [Text (px_message x)] ::
     group ($"test_values") (map (named_leaf ($"test_value")) (px_values x))).
Definition rule_xml (r : pdb_rule) : xml :=
  Elt ($"rule") [($"id", pr_id r)]
    (group ($"patterns") (map (leaf ($"pattern")) (pr_patterns r)) ++
     group ($"examples") (map example_xml (pr_examples r)) ++
     group ($"values") (map (named_leaf ($"value")) (pr_values r)) ++
     group ($"tags") (map (leaf ($"tag")) (pr_tags r))).
Definition ruleset_xml (s : pdb_ruleset) : xml :=
  Elt ($"ruleset") [($"name", ps_name s); ($"id", ps_id s)]
    (group ($"patterns") (map (leaf ($"pattern")) (ps_programs s)) ++
     group ($"rules") (map rule_xml (ps_rules s))).
Definition pdb_xml (db : list pdb_ruleset) : xml := Elt ($"patterndb") [] (map ruleset_xml db).

(** Names that count, and nothing twice. *)
Record standard (db : list pdb_ruleset) : Prop := {
  st_name : forall s, In s db -> ps_name s <> [] /\ ps_name s <> $"0";
  st_names : NoDup (map ps_name db);
  st_ids : NoDup (map pr_id (flat_map ps_rules db));
  st_values : forall r, In r (flat_map ps_rules db) ->
    NoDup (map fst (pr_values r)) /\ forall x, In x (pr_examples r) -> NoDup (map fst (px_values x))
}.

(** What stands in the file about a rule. *)
Definition example_in (x : pdb_example) : example := Example_ (px_message x) (px_program x) (unless_empty (px_values x)).
Definition rule_in (examples : bool) (s : pdb_ruleset) (r : pdb_rule) : rule :=
  Rule_ (pr_id r) (ps_name s) (unless_empty (pr_patterns r)) (if examples then map example_in (pr_examples r) else [])
    (unless_empty (pr_tags r)) (unless_empty (pr_values r)).
Definition rules_in (examples : bool) (db : list pdb_ruleset) : list rule :=
  flat_map (fun s => map (rule_in examples s) (ps_rules s)) db.

(** The patterns that are there to be converted, in the order of the file, each
    with the first program of its own ruleset. *)
Definition sources_in (examples : bool) (db : list pdb_ruleset) : list (nat * source) :=
  numbered (flat_map (fun s =>
    match ps_programs s with
    | program :: _ => flat_map (fun r => map (fun ip => Source (rule_in examples s r) program (fst ip) (snd ip))
                                           (numbered (pr_patterns r))) (ps_rules s)
    | [] => []
    end) db).
