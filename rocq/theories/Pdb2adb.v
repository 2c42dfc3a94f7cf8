(** * Model of utils/pdb2adb, the converter from patterndb

    A Perl script.  Here the input is the hashes [%rule] and [%ruleset], which
    Pdbread.v fills; the output is the value that gets encoded by JSON::MaybeXS.
    Warnings are left out.  Perl strings are sequences of characters, here their UTF-8 bytes. *)
From Verif Require Import Base Pattern Grammar Deser Errors.

(** ** Perl *)

(** [split /(x)/]: the fields and the separators between them.  [cur] is the
    field being read. *)
Fixpoint split_capture (x : byte) (cur s : str) : list str :=
  match s with
  | [] => [cur]
  | b :: s' => if byte_eqb b x then cur :: [b] :: split_capture x [] s' else split_capture x (cur ++ [b]) s'
  end.
(** [split /x/] *)
Fixpoint split_on (x : byte) (cur s : str) : list str :=
  match s with
  | [] => [cur]
  | b :: s' => if byte_eqb b x then cur :: split_on x [] s' else split_on x (cur ++ [b]) s'
  end.
(** [split] removes empty fields at the end; of an empty string nothing is left. *)
Fixpoint drop_empty_tail (l : list str) : list str :=
  match l with
  | [] => []
  | x :: l' => match drop_empty_tail l' with
               | [] => if is_empty x then [] else [x]
               | r => x :: r
               end
  end.

(** Undefined values, the empty string and "0" are false. *)
Definition truthy (o : option str) : bool :=
  match o with
  | None => false
  | Some s => negb (is_empty s || str_eqb s ($"0"))
  end.
(** [x ||= d] *)
Definition or_assign (o : option str) (d : str) : str :=
  match o with Some s => if truthy o then s else d | None => d end.
(** An undefined value in a string. *)
Definition interpolated (o : option str) : str := match o with Some s => s | None => [] end.

(** [/^x$/]: a newline may follow. *)
Definition re_whole (x s : str) : bool := str_eqb s x || str_eqb s (x ++ [x0a]).
(** [/^x/] *)
Definition re_starts (x s : str) : bool := prefixb x s.
(** [/x/] *)
Definition re_has (x s : str) : bool := match str_find x s with Some _ => true | None => false end.
(** [/x$/] *)
Definition ends_with (x s : str) : bool := prefixb (rev x) (rev s).
Definition re_ends (x s : str) : bool := ends_with x s || ends_with (x ++ [x0a]) s.

(** [substr(s, 0, 1)] and [substr(s, 1, 1)]; the second is used only when there
    are at least two characters. *)
Definition first_char (s : str) : str := match s with [] => [] | b :: _ => firstn (utf8_width b) s end.
Definition after_first (s : str) : str := match s with [] => [] | b :: _ => skipn (utf8_width b) s end.

(** [s/@@/@/g] *)
Fixpoint unescape_pattern (s : str) : str :=
  match s with
  | x40 :: ((x40 :: s') as t) => x40 :: unescape_pattern s'
  | b :: s' => b :: unescape_pattern s'
  | [] => []
  end.

(** ** _validate_pattern, 284-335 *)
Definition alnum : str := $"AZERTYUIOPQSDFGHJKLMWXCVBNazertyuiopqsdfghjklmwxcvbn1234567890".
Definition set_of (chars key : str) : str := $"%{SET(""" ++ chars ++ $"""):" ++ key ++ $"}".
Definition greedy_of (key : str) : str := $"%{GREEDY:" ++ key ++ $"}".
Definition ignored_key : str := $"pdb2adb2ignore".

Definition validate_pattern (p : str) : option str :=
  let fields := drop_empty_tail (split_on x3a [] p) in
  let key := or_assign (nth_error fields 1) ignored_key in
  let type := or_assign (nth_error fields 0) [] in
  let opt := nth_error fields 2 in
  if re_whole [] type then Some []
  else if re_whole ($"ESTRING") type then
    let opt := if ends_with ($"::") p then Some ($":") else opt in
    Some (greedy_of key ++ interpolated opt)
  else if re_has ($"QSTRING") type then
    let o := interpolated opt in
    let a := first_char o in
    let b := if is_empty (after_first o) then a else first_char (after_first o) in
    Some (a ++ greedy_of key ++ b)
  else if re_whole ($"NUMBER") type then Some ($"%{INT:" ++ key ++ $"}")
  else if re_whole ($"HOSTNAME") type then Some (set_of (alnum ++ $"-.") key)
  else if re_starts ($"FLOAT") type || re_ends ($"DOUBLE") type then Some (set_of ($"1234567890.") key)
  else if re_whole ($"STRING") type then
    if truthy opt then Some (set_of (alnum ++ interpolated opt) key) else Some (set_of alnum key)
  else if re_whole ($"PCRE") type then None
  else if re_whole ($"ANYSTRING") type then Some (greedy_of key)
  else if re_whole ($"SET") type then Some (set_of (interpolated opt) key)
  else if re_starts ($"IPvANY") type || re_starts ($"MACADDR") type || re_starts ($"IPv4") type
          || re_starts ($"LLADDR") type then Some (greedy_of key)
  else None.

(** ** _p2p, 248-277 *)
Fixpoint p2p_fields (is_pattern : bool) (l : list str) : option str :=
  match l with
  | [] => Some []
  | p :: l' =>
      if str_eqb p ($"@") then p2p_fields (negb is_pattern) l'
      else if is_pattern then
        if truthy (validate_pattern p) then
          option_map (app (interpolated (validate_pattern p))) (p2p_fields is_pattern l')
        else None
      else option_map (app (unescape_pattern p)) (p2p_fields is_pattern l')
  end.
Definition p2p (s : str) : option str := p2p_fields false (drop_empty_tail (split_capture x40 [] s)).

(** ** The document, 43-116 and 158-246 *)

(** An element of [$rule{...}->{examples}], 105-109. *)
Record example := Example_ {
  ex_message : str;
  ex_program : option str;
  ex_values : option (list (str * str))
}.
(** [%rule], 69-79, 81-122: [patterns], [tags] and [values] are undefined if the
    rule has none.  The order of the hash is the order of the list of rules. *)
Record rule := Rule_ {
  rl_id : str;
  rl_ruleset : str;
  rl_patterns : option (list str);
  rl_examples : list example;
  rl_tags : option (list str);
  rl_values : option (list (str * str))
}.

Section Convert.
  (** [$opt -> program] *)
  Variable with_program : bool.
  (** [%ruleset]: the patterns, that is programs, of a ruleset; 52-61 *)
  Variable programs : str -> option (list str).
  (** The uuids created one after the other, 222-223. *)
  Variable fresh : nat -> str.

  (** 232-246 *)
  Definition test_message_value (e : example) : value :=
    VMap [($"message", VStr ((if with_program then interpolated (ex_program e) ++ $": " else []) ++ ex_message e));
          ($"values", match ex_values e with
                      | None => VNull
                      | Some l => VMap (map (fun kv => (fst kv, VStr (snd kv))) l)
                      end)].

  (** 190-200: values with macros are left out, and [values] is missing if
      nothing remains. *)
  Definition extra_values (r : rule) : list (str * value) :=
    match rl_values r with
    | None => []
    | Some l =>
        match filter (fun kv => negb (re_has ($"$(") (snd kv))) l with
        | [] => []
        | l' => [($"values", VMap (map (fun kv => (fst kv, VStr (snd kv))) l'))]
        end
    end.
  (** 201-203 *)
  Definition extra_tags (r : rule) : list (str * value) :=
    match rl_tags r with
    | None => []
    | Some l => [($"tags", VSeq (map VStr l))]
    end.

  (** 214-221 *)
  Definition entry (r : rule) (program uuid : str) (p_id : nat) (converted : str) : value :=
    VMap ([($"uuid", VStr uuid);
           ($"pattern", VStr ((if with_program then program ++ $": " else []) ++ converted));
           ($"name", VStr (rl_ruleset r ++ $"_" ++ nat_text p_id));
           ($"test_messages", VSeq (map test_message_value (rl_examples r)))] ++
          extra_values r ++ extra_tags r).

  (** 208-224; [made] counts the uuids created so far. *)
  Fixpoint convert_patterns (r : rule) (program uuid : str) (ps : list str) (p_id made : nat)
    : list value * nat * nat :=
    match ps with
    | [] => ([], p_id, made)
    | p :: ps' =>
        if truthy (p2p p) then
          let '(vs, p_id', made') := convert_patterns r program (fresh made) ps' (S p_id) (S made) in
          (entry r program uuid p_id (interpolated (p2p p)) :: vs, p_id', made')
        else convert_patterns r program (fresh made) ps' p_id (S made)
    end.

  (** 171-225.  A rule with examples and without patterns dies in 204. *)
  Fixpoint convert_rules (rs : list rule) (p_id made : nat) : outcome (list value) :=
    match rs with
    | [] => Ret []
    | r :: rs' =>
        match match programs (rl_ruleset r) with Some (p :: _) => Some p | _ => None end with
        | None => convert_rules rs' p_id made
        | Some program =>
            match rl_patterns r, rl_examples r with
            | None, _ :: _ => Panic
            | None, [] => convert_rules rs' p_id made
            | Some ps, _ =>
                let '(vs, p_id', made') := convert_patterns r program (rl_id r) ps p_id made in
                let* rest := convert_rules rs' p_id' made' in
                Ret (vs ++ rest)
            end
        end
    end.

  (** 227 *)
  Definition convert (rs : list rule) : outcome value :=
    let* vs := convert_rules rs 0 0 in
    Ret (VMap [($"patterns", VSeq vs)]).
End Convert.
