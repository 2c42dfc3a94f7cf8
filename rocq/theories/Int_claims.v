(** * INT written as SET *)
From Verif Require Import Base Base_facts Parsers Parsers_facts Pattern Spec Grammar Spec_grammar Grammar_syntax Grammar_claims Spec_rename Spec_int.

Lemma int_meaning is ts : meaning is ts -> meaning (map int_item is) (map (replace_token int_as_set) ts).
Proof.
  induction 1 as [|raw u is ts Hu Hm IH|n raw is ts Hm IH|n is ts Hh Hm IH|chars bs n p is ts Hp Hm IH|bs n p is ts Hp Hm IH];
    cbn [map int_item replace_token int_as_set]; try (constructor; assumption).
  - constructor; [|exact IH]. destruct is as [|[] is]; cbn; auto.
  - apply means_set; [|exact IH]. destruct Hp as (A & B & C & D). split; [exact A|]. split; [exact B|]. split; [|exact D].
    intros b. rewrite C. symmetry. apply in_digits.
Qed.

Theorem int_text s s' is ts : utf8 s -> utf8 s' -> pattern_text s is -> pattern_text s' (map int_item is) ->
  compile s = Ret (Ok ts) -> compile s' = Ret (Ok (map (replace_token int_as_set) ts)).
Proof.
  intros U U' P P' C. apply compile_accepts in C; [|exact U]. destruct C as (is2 & P2 & M2).
  destruct (meaning_total is) as (ts' & M). rewrite (pattern_unambiguous s is2 ts is ts' U P2 M2 P M).
  apply compile_accepts; [exact U'|]. exists (map int_item is). split; [exact P'|]. apply int_meaning. exact M.
Qed.
