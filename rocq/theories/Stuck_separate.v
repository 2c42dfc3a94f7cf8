(** * Messages that went wrong, among separate patterns *)
From Verif Require Import Base Base_facts Utils Parsers Pattern Grammar Source Spec Spec_table Spec_source Spec_canon Spec_separate Separate_claims
  Separate_tests Trie_main Spec_fill Fill_claims Spec_early Spec_stuck Stuck_claims.
From Verif Require Trie SuffixArray.

Theorem separate_goes_on sip ps t a :
  Forall valid_pattern ps -> (forall q, parser_in ps q -> parser_ascii_set q) -> separate ps -> Trie.add_patterns sip Trie.tree_new ps = Ret t ->
  Forall (fun p => spaced (pat_tokens p) /\ Forall fillable (pat_tokens p)) ps -> utf8 a ->
  ((forall p, In p ps -> stuck (pat_tokens p) a) -> forall b o, utf8 (a ++ b) -> Trie.parse t (a ++ b) = Ret o -> o = None) /\
  forall p, In p ps -> stuck (pat_tokens p) a \/
    exists b, utf8 (a ++ b) /\
      (forall o, Trie.parse t (a ++ b) = Ret o -> exists r, o = Some r /\ mr_pattern r = stripped p) /\
      forall sip' t', SuffixArray.add_patterns sip' SuffixArray.table_new ps = Ret t' ->
        exists r, SuffixArray.parse t' (a ++ b) = Ret (Some r) /\ mr_pattern r = stripped p.
Proof.
  intros V As S A Fs U. split.
  - intros St b o Uo E. destruct o as [r|]; [exfalso|reflexivity].
    destruct (separate_answers sip ps t (a ++ b) (Some r) V S A Uo E) as (p & caps & (J & W & _) & _ & _).
    assert (forall ts text caps, trie_walk ts text caps -> walk ts text caps) as H.
    { clear. induction 1 as [l|q v C|l ts text caps N0 Nl Nt W IH|q ts v text caps N0 C W IH].
      - rewrite <- (app_nil_r l) at 2. constructor. constructor.
      - rewrite <- (app_nil_r v) at 1. constructor; [rewrite app_nil_r; exact C|constructor].
      - constructor. exact IH.
      - constructor; assumption. }
    exact (stuck_walk _ _ (St p J) b caps (H _ _ _ W)).
  - intros p J. destruct (proj1 (Forall_forall _ _) Fs p J) as (Sp & Fl).
    destruct (stuck_or_completed (pat_tokens p) Sp Fl (proj1 (Forall_forall _ _) V p J)) with (a := a) as [Sx|(b & vs & Fb & Ab & Ub & _)]; [|exact U|auto|].
    { intros q Jq. apply As. exists p. split; [exact J|exact Jq]. }
    right. exists b. pose proof (utf8_app _ _ U Ub) as Uo. split; [exact Uo|]. split.
    + intros o E. destruct (separate_filled sip ps t p vs (a ++ b) o V S A J Sp Fb Ab Uo E) as (r & Er & Ep & _). eauto.
    + intros sip' t' At. destruct (separate_table_filled sip' ps t' p vs (a ++ b) V As S At J Sp Fb Ab Uo) as (r & Er & Ep & _). eauto.
Qed.
