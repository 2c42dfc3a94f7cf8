(** * Properties C87 to C94: the smaller public interfaces of src/utils/,
      src/parsers/, src/matcher/pattern/ and src/matcher/result.rs *)
From Coq Require Import Sorted.
From Verif Require Import Base Base_facts Utils Parsers Pattern Spec Spec_source Spec_api Api_claims Tests.

(** ** C87 *)
Theorem C87_get_len_is_empty :
  forall (A : Type) (l : list A),
    (forall i x, sv_get l i = Some x <-> exists a b, l = a ++ x :: b /\ length a = i) /\
    (forall i, sv_get l i = None <-> sv_len l <= i) /\
    (sv_is_empty l = true <-> sv_len l = 0).
Proof. exact sv_queries. Qed.
Print Assumptions C87_get_len_is_empty.
Theorem C87_remove :
  forall (A : Type) (R : A -> A -> Prop) (l : list A) i, StronglySorted R l ->
    match sv_remove l i with
    | Ret (r, x) => exists a b, l = a ++ x :: b /\ length a = i /\ r = a ++ b /\ StronglySorted R r
    | Panic => length l <= i
    | OutOfFuel => False
    end.
Proof. exact sv_remove_spec. Qed.
Print Assumptions C87_remove.
Example C87_example :
  sv_get [1; 3; 3; 7] 3 = Some 7 /\ sv_get [1; 3] 2 = None /\
  sv_remove [1; 3; 3; 7] 1 = Ret ([1; 3; 7], 3) /\ sv_remove [1; 3] 2 = Panic.
Proof. repeat split. Qed.

(** ** C88 *)
Theorem C88_binary_search_by :
  forall (A : Type) (f : A -> comparison) (l : list A),
    StronglySorted (fun x y => before (f x) (f y)) l ->
    match sv_binary_search_by l (fun x => Ret (f x)) with
    | Ret (inl i) => exists a x b, l = a ++ x :: b /\ length a = i /\ f x = Eq
    | Ret (inr i) => exists a b, l = a ++ b /\ length a = i /\
                       Forall (fun x => f x = Lt) a /\ Forall (fun x => f x = Gt) b
    | _ => False
    end.
Proof. exact sv_binary_search_by_spec. Qed.
Print Assumptions C88_binary_search_by.
Example C88_example :
  StronglySorted (fun x y => before (Nat.compare x 4) (Nat.compare y 4)) [1; 3; 5; 9] /\
  sv_binary_search_by [1; 3; 5; 9] (fun x => Ret (Nat.compare x 4)) = Ret (inr 2) /\
  sv_binary_search_by [1; 3; 5; 9] (fun x => Ret (Nat.compare x 9)) = Ret (inl 3).
Proof. split; [|split; reflexivity]. repeat constructor. Qed.

(** ** C89 *)
Theorem C89_has_common_prefix :
  forall a b, utf8 a -> utf8 b ->
    match has_common_prefix a b with
    | Some n => exists w, longest_common_chars a b w /\ length w = n /\ w <> []
    | None => longest_common_chars a b []
    end.
Proof. exact has_common_prefix_spec. Qed.
Print Assumptions C89_has_common_prefix.
Theorem C89_ltrunc :
  forall a n, utf8 a ->
    match ltrunc a n with
    | Ret r => exists w, a = w ++ r /\ length w = n /\ utf8 w
    | Panic => forall w r, a = w ++ r -> length w = n -> ~ utf8 w
    | OutOfFuel => False
    end.
Proof. exact ltrunc_exact. Qed.
Print Assumptions C89_ltrunc.
Theorem C89_rtrunc :
  forall a n, utf8 a ->
    match rtrunc a n with
    | Ret w => exists r, a = w ++ r /\ length r = n /\ utf8 w
    | Panic => forall w r, a = w ++ r -> length r = n -> ~ utf8 w
    | OutOfFuel => False
    end.
Proof. exact rtrunc_exact. Qed.
Print Assumptions C89_rtrunc.
Example C89_example :
  utf8 ($"aé") /\ ltrunc ($"aé") 1 = Ret ($"é") /\ ltrunc ($"aé") 2 = Panic /\ ltrunc ($"aé") 4 = Panic /\
  rtrunc ($"aé") 2 = Ret ($"a") /\ rtrunc ($"aé") 1 = Panic /\
  (** the byte the two share is not a shared character *)
  has_common_prefix ($"aé") ($"aê") = Some 1 /\ has_common_prefix ($"é") ($"ê") = None.
Proof. split; [apply utf8b_sound; vm_compute; reflexivity|]. vm_compute. repeat split. Qed.

(** ** C90 *)
Theorem C90_flatten :
  forall (A : Type) (a b : list (list A)) v,
    flatten_vec (a ++ v :: b) = flatten_vec a ++ v ++ flatten_vec b /\ flatten_vec (@nil (list A)) = [].
Proof. exact flatten_vec_split. Qed.
Print Assumptions C90_flatten.
Example C90_example : flatten_vec [[1; 2]; []; [3]] = [1; 2; 3].
Proof. reflexivity. Qed.

(** ** C91 *)
Theorem C91_set :
  forall set name ss v, utf8 v ->
    let p := configure (match name with Some n => set_with_name n set | None => set_new set end) ss in
    parser_name (PSet p) = last_of asks_name ss name /\
    let captures := set_captures (last_of asks_chars ss set) (last_of asks_min ss None) (last_of asks_max ss None) v in
    match parser_parse (PSet p) v with
    | Ret (Some w) => captures w /\ utf8 w
    | Ret None => forall w, ~ captures w
    | Panic => exists w, captures w /\ ~ utf8 w
    | OutOfFuel => False
    end.
Proof. exact set_configured. Qed.
Print Assumptions C91_set.
(** [IntParser] has no way of setting the characters. *)
Theorem C91_int :
  forall name ss v, utf8 v -> (forall s, In s ss -> asks_chars s = None) ->
    let p := PInt (configure (match name with Some n => int_with_name n | None => int_new end) ss) in
    parser_name p = last_of asks_name ss name /\
    match parser_parse p v with
    | Ret (Some w) => longest_prefix_in is_digit v w /\ w <> [] /\
                      above_min (last_of asks_min ss None) (length w) /\ below_max (last_of asks_max ss None) (length w)
    | Ret None => forall w, longest_prefix_in is_digit v w ->
                    w = [] \/ ~ above_min (last_of asks_min ss None) (length w) \/
                    ~ below_max (last_of asks_max ss None) (length w)
    | _ => False
    end.
Proof. exact int_configured. Qed.
Print Assumptions C91_int.
Theorem C91_greedy :
  forall name end_string ss v,
    let p := PGreedy (greedy_configure
      (match name, end_string with
       | Some n, Some e => greedy_from_str n e
       | Some n, None => greedy_with_name n
       | None, Some e => greedy_set_end_string greedy_new (Some e)
       | None, None => greedy_new end) ss) in
    parser_name p = last_of greedy_asks_name ss name /\
    (utf8 v -> (forall e, last_of greedy_asks_end ss end_string = Some e -> utf8 e) ->
     match parser_parse p v with
     | Ret r => Spec_api.up_to (last_of greedy_asks_end ss end_string) v r
     | _ => False
     end).
Proof. exact greedy_configured. Qed.
Print Assumptions C91_greedy.
Theorem C91_set_name :
  forall p n, parser_name (parser_set_name p n) = n /\
    (forall v, parser_parse (parser_set_name p n) v = parser_parse p v).
Proof. exact set_name_only. Qed.
Print Assumptions C91_set_name.
Example C91_example :
  let ss := [SetMin (Some 2%N); SetName (Some ($"n")); SetChars ($"ab"); SetMin (Some 3%N); SetMax (Some 4%N); SetMin None] in
  parser_name (PSet (configure (set_new ($"z")) ss)) = Some ($"n") /\
  parser_parse (PSet (configure (set_new ($"z")) ss)) ($"abbz") = Ret (Some ($"abb")) /\
  parser_parse (PSet (configure (set_new ($"z")) ss)) ($"aabba") = Ret None /\
  parser_parse (PGreedy (greedy_configure greedy_new [GEnd (Some ($"b")); GEnd (Some ($"c"))])) ($"abc") = Ret (Some ($"ab")).
Proof. vm_compute. repeat split. Qed.

(** ** C92 *)
Theorem C92_set :
  forall set name o,
    exists p, new_set set name o = PSet p /\ sp_name p = name /\
      StronglySorted byte_lt (sp_character_set p) /\ (forall b, In b (sp_character_set p) <-> In b set) /\
      param ($"min_len") o (sp_min_length p) /\ param ($"max_len") o (sp_max_length p).
Proof. exact factory_set. Qed.
Print Assumptions C92_set.
Theorem C92_int :
  forall name o,
    exists p, new_int name o = PInt p /\ sp_name p = name /\
      StronglySorted byte_lt (sp_character_set p) /\ (forall b, In b (sp_character_set p) <-> is_digit b) /\
      param ($"min_len") o (sp_min_length p) /\ param ($"max_len") o (sp_max_length p).
Proof. exact factory_int. Qed.
Print Assumptions C92_int.
Theorem C92_greedy :
  forall name e, new_greedy name e = PGreedy {| gp_name := name; gp_end_string := e |}.
Proof. reflexivity. Qed.
Print Assumptions C92_greedy.
Example C92_example :
  exists p, new_set ($"ba") (Some ($"n")) (Some [OptInt ($"min_len") 1; OptInt ($"other") 9; OptInt ($"min_len") 2]) = PSet p /\
    sp_min_length p = Some 2%N /\ sp_max_length p = None /\ sp_character_set p = $"ab".
Proof. eexists. vm_compute. repeat split. Qed.

(** ** C93 *)
Theorem C93_pop_first_token :
  forall p,
    (pop_first_token p = None <-> pat_tokens p = []) /\
    forall t p', pop_first_token p = Some (t, p') <->
      pat_tokens p = t :: pat_tokens p' /\ stripped p' = stripped p.
Proof. exact first_token_popped. Qed.
Print Assumptions C93_pop_first_token.
Theorem C93_pop_test_message :
  forall p,
    (pop_test_message p = None <-> tests p = []) /\
    forall m p', pop_test_message p = Some (m, p') <->
      tests p = tests p' ++ [m] /\ pat_test_messages p' <> None /\ untested p' = untested p.
Proof. exact test_message_popped. Qed.
Print Assumptions C93_pop_test_message.
Theorem C93_with_uuid :
  forall u,
    let p := pattern_with_uuid u in
    pat_uuid p = u /\ pat_name p = None /\ pat_tokens p = [] /\ tests p = [] /\ pat_values p = None /\ pat_tags p = None.
Proof. exact with_uuid_blank. Qed.
Print Assumptions C93_with_uuid.
Example C93_example :
  exists p', pop_first_token (tpat 1 ($"a%{INT:x}")) = Some (Literal ($"a"), p') /\
    length (pat_tokens p') = 1 /\ pat_uuid p' = uid 1.
Proof. eexists. vm_compute. repeat split. Qed.

(** ** C94 *)
Theorem C94_inserts :
  forall p kvs,
    let r := fold_left match_result_insert kvs (match_result_new p) in
    mr_pattern r = p /\ StronglySorted (fun a b => str_cmp (fst a) (fst b) = Lt) (mr_values r) /\
    forall k v, maps_to (mr_values r) k v <-> inserted kvs k v.
Proof. exact results_inserted. Qed.
Print Assumptions C94_inserts.
Example C94_example :
  mr_values (fold_left match_result_insert
    [(PInt (int_with_name ($"b")), $"1"); (PInt int_new, $"2"); (PSet (set_with_name ($"a") ($"x")), $"3"); (PInt (int_with_name ($"b")), $"4")]
    (match_result_new (pattern_with_uuid (uid 1)))) = [($"a", $"3"); ($"b", $"4")].
Proof. vm_compute. reflexivity. Qed.
