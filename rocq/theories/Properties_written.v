(** * Property C155: which token lists are the meaning of a pattern *)
From Coq Require Import Sorted.
From Verif Require Import Base Base_facts Parsers Pattern Spec Grammar Spec_grammar Spec_written Written_claims Deciders.

(** ** C155 *)
Theorem C155_written :
  forall ts, (exists s, utf8 s /\ compile s = Ret (Ok ts)) <->
    ts <> [] /\ literals_apart ts /\ greedy_linked ts /\ tokens_can false ts.
Proof. exact written. Qed.
Print Assumptions C155_written.

(** Tokens that can be written: a literal with the beginning of a parser in it, and
    a literal behind GREEDY with the escape sequence in it. *)
Definition written_demo : list token :=
  [Literal ($"a%{b"); Parser (PSet (SetParser (Some ($"x-1")) ($"ab") (Some 2%N) (Some 12%N)));
   Parser (PGreedy (GreedyParser None (Some ($"\%\{")))); Literal ($"\%\{"); Parser (PInt (SetParser None digits None (Some 3%N)))].
Example C155_example :
  compile ($"a\%\{b%{SET(""bab"",min_len=2,max_len=12):x-1}%{GREEDY}\%\{%{INT(max_len=3)}") = Ret (Ok written_demo) /\
  literals_apart written_demo /\ greedy_linked written_demo /\ tokens_can false written_demo.
Proof.
  split; [vm_compute; reflexivity|].
  apply C155_written. exists ($"a\%\{b%{SET(""bab"",min_len=2,max_len=12):x-1}%{GREEDY}\%\{%{INT(max_len=3)}").
  split; [apply ascii_utf8|]; vm_compute; reflexivity.
Qed.
(** Tokens that cannot: the escape sequence as a literal, two literals in a row, a
    GREEDY that ends somewhere else, a name with a hyphen too late. *)
Example C155_example_others :
  forall ts, In ts [[Literal escape_seq]; [Literal ($"a"); Literal ($"b")];
      [Parser (PGreedy (GreedyParser None (Some ($"b")))); Literal ($"a")];
      [Parser (PGreedy (GreedyParser (Some ($"ab-c")) None))]] ->
    ~ exists s, utf8 s /\ compile s = Ret (Ok ts).
Proof.
  intros ts H E. apply C155_written in E. destruct E as (_ & A & G & C). destruct H as [<-|[<-|[<-|[<-|[]]]]].
  - destruct C as ((_ & _ & O) & _). apply O. exists [], []. reflexivity.
  - destruct A as ([] & _).
  - destruct G as (G & _). discriminate G.
  - destruct C as (C & _). inversion C as [|c d s H1 H2 H3 E]; subst. inversion H3 as [|x l H4 _]; subst.
    unfold name_char, name_start, letter, digit in H4. cbn in H4. destruct H4 as [[H4|[H4|H4]]|H4]; try discriminate H4; lia.
Qed.

(** ** C156: when two patterns mean the same *)
Theorem C156_spelling :
  forall s s' is is', utf8 s -> utf8 s' -> pattern_text s is -> pattern_text s' is' ->
    (compile s = compile s' <-> Forall2 same_item is is').
Proof. exact spelling. Qed.
Print Assumptions C156_spelling.

Lemma digit_text b : digit b -> number_text [b] (decimal [b]).
Proof.
  intros D. constructor; [discriminate|constructor; [exact D|constructor]|]. unfold fits, decimal. cbn [fold_left].
  pose proof (Byte.to_N_bounded b). apply N.le_lt_trans with 255%N; [lia|reflexivity].
Qed.
Example C156_example :
  exists is is', pattern_text ($"x%{SET(""ab"",min_len=1,max_len=7):n}") is /\
    pattern_text ($"x%{SET(""bab"",  max_len=7,min_len=2, min_len=1):n}") is' /\ Forall2 same_item is is' /\
    compile ($"x%{SET(""ab"",min_len=1,max_len=7):n}") = compile ($"x%{SET(""bab"",  max_len=7,min_len=2, min_len=1):n}").
Proof.
  assert (digit x31 /\ digit x32 /\ digit x37) as (D1 & D2 & D7) by (unfold digit; cbn; lia).
  assert (name_text ($":n") (Some ($"n"))) as Hn by (apply (name_present ($"n")), name_one; left; left; cbn; lia).
  assert (item_text ($"x") (IText ($"x"))) as Hx.
  { apply text_text; [discriminate|]. intros ([|a [|b l]] & r & E); discriminate E. }
  exists [IText ($"x"); ISet ($"ab") [MinLen 1; MaxLen 7] (Some ($"n"))],
         [IText ($"x"); ISet ($"bab") [MaxLen 7; MinLen 2; MinLen 1] (Some ($"n"))].
  split; [|split; [|split]].
  - split; [|split; [discriminate|cbn; intuition discriminate]].
    apply (items_cons ($"x") _ ($"%{SET(""ab"",min_len=1,max_len=7):n}")); [exact Hx|].
    apply (items_cons ($"%{SET(""ab"",min_len=1,max_len=7):n}") _ []); [|constructor].
    apply (text_set ($"ab") ($",min_len=1,max_len=7") _ ($":n")); [discriminate|cbn; intuition discriminate| |exact Hn].
    apply (set_bounds_some ($",") ($"min_len=1,max_len=7")); [apply (comma_spaces 0)|]. apply bounds_some.
    apply (bounds_more ($"min_len=1") _ ($",")); [apply (bound_min ($"1")), (digit_text x31 D1)|apply (comma_spaces 0)|].
    apply bounds_one, (bound_max ($"7")), (digit_text x37 D7).
  - split; [|split; [discriminate|cbn; intuition discriminate]].
    apply (items_cons ($"x") _ ($"%{SET(""bab"",  max_len=7,min_len=2, min_len=1):n}")); [exact Hx|].
    apply (items_cons ($"%{SET(""bab"",  max_len=7,min_len=2, min_len=1):n}") _ []); [|constructor].
    apply (text_set ($"bab") ($",  max_len=7,min_len=2, min_len=1") _ ($":n")); [discriminate|cbn; intuition discriminate| |exact Hn].
    apply (set_bounds_some ($",  ") ($"max_len=7,min_len=2, min_len=1")); [apply (comma_spaces 2)|]. apply bounds_some.
    apply (bounds_more ($"max_len=7") _ ($",")); [apply (bound_max ($"7")), (digit_text x37 D7)|apply (comma_spaces 0)|].
    apply (bounds_more ($"min_len=2") _ ($", ")); [apply (bound_min ($"2")), (digit_text x32 D2)|apply (comma_spaces 1)|].
    apply bounds_one, (bound_min ($"1")), (digit_text x31 D1).
  - constructor; [reflexivity|]. constructor; [|constructor]. cbn. intuition auto.
  - vm_compute. reflexivity.
Qed.
