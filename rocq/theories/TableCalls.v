(** * Matching in the suffix table, with the calls of the parsers recorded *)
From Verif Require Import Base Utils Parsers Pattern SuffixArray Effort.

Section Parse.
  Variable parse_table : table -> str -> traced (option match_result).

  (** suffix_array/impls.rs:186-203 *)
  Definition parser_e_parse (e : parser_e table) (value : str) : traced (option match_result) :=
    let+ r := call (pe_parser e) value in
    match r with
    | None => quiet (Ret None)
    | Some v =>
        let+ value' := quiet (ltrunc value (length v)) in
        match pe_child e with
        | Some child =>
            let+ r := parse_table child value' in
            match r with
            | Some result => quiet (Ret (Some (match_result_insert result (pe_parser e, v))))
            | None => quiet (Ret None)
            end
        | None =>
            if is_empty value' then quiet (Ret (create_match_result e (pe_parser e, v)))
            else quiet (Ret None)
        end
    end.

  (** suffix_array/impls.rs:63-70 *)
  Fixpoint parse_with_parsers (pes : list (parser_e table)) (value : str)
    : traced (option match_result) :=
    match pes with
    | [] => quiet (Ret None)
    | e :: pes' =>
        let+ r := parser_e_parse e value in
        match r with
        | Some result => quiet (Ret (Some result))
        | None => parse_with_parsers pes' value
        end
    end.
End Parse.

(** suffix_array/impls.rs:249-263 *)
Fixpoint parse_fuel (fuel : nat) (t : table) (value : str) : traced (option match_result) :=
  match fuel with
  | O => quiet OutOfFuel
  | S fuel' =>
      let+ r := quiet (longest_common_prefix t value) in
      match r with
      | Some child =>
          let cpl := common_prefix_len (le_literal child) value in
          if Nat.eqb cpl (length value) then
            quiet (Ret (match le_pattern child with
                        | Some p => Some (match_result_new p)
                        | None => None
                        end))
          else if Nat.ltb cpl (length value) then
            let+ value' := quiet (ltrunc value cpl) in
            match le_child child with
            | Some c => parse_fuel fuel' c value'
            | None => quiet (Ret None)
            end
          else quiet (Ret None)
      | None => parse_with_parsers (parse_fuel fuel') (parser_entries t) value
      end
  end.

Definition parse (t : table) (value : str) : traced (option match_result) :=
  parse_fuel (height t) t value.
