(** * Executable checks of the hypotheses, for examples *)
From Coq Require Import Sorted.
From Verif Require Import Base Base_facts Utils Parsers Pattern Spec Spec_trie Trie.

Definition opt_all {A : Type} (f : A -> bool) (o : option A) : bool :=
  match o with Some a => f a | None => true end.
Fixpoint ascendingb (l : list byte) : bool :=
  match l with
  | [] => true
  | x :: l' => forallb (fun y => N.ltb (Byte.to_N x) (Byte.to_N y)) l' && ascendingb l'
  end.
Definition fitsb (v : N) : bool := N.ltb v (2 ^ 64).
Definition valid_setb (s : set_parser) : bool :=
  opt_all utf8b (sp_name s) && ascendingb (sp_character_set s) &&
  opt_all fitsb (sp_min_length s) && opt_all fitsb (sp_max_length s).
Definition valid_parserb (p : parser) : bool :=
  match p with
  | PSet s | PInt s => valid_setb s
  | PGreedy g => opt_all utf8b (gp_name g) && opt_all utf8b (gp_end_string g)
  end.
Definition valid_tokenb (t : token) : bool :=
  match t with Literal l => utf8b l | Parser q => valid_parserb q end.
Definition valid_patternb (p : pattern) : bool := forallb valid_tokenb (pat_tokens p).

Definition ascii_tokenb (t : token) : bool :=
  match t with
  | Literal l => ascii l
  | Parser (PSet s) | Parser (PInt s) => forallb ascii_byte (sp_character_set s)
  | Parser (PGreedy _) => true
  end.
Definition ascii_patternb (p : pattern) : bool := forallb ascii_tokenb (pat_tokens p).

Definition parsers_of (ps : list pattern) : list parser :=
  flat_map (fun p => flat_map (fun t => match t with Parser q => [q] | Literal _ => [] end)
                              (pat_tokens p)) ps.
Definition collision_freeb (sip : list byte -> N) (ps : list pattern) : bool :=
  let hs := map (fun q => (sip (hash_stream q), hash_stream q)) (parsers_of ps) in
  forallb (fun a => forallb (fun b => negb (N.eqb (fst a) (fst b)) || str_eqb (snd a) (snd b)) hs) hs.

Lemma opt_utf8b o : opt_all utf8b o = true -> opt_utf8 o.
Proof. destruct o; simpl; [apply utf8b_sound|auto]. Qed.

Lemma opt_fitsb o : opt_all fitsb o = true -> opt_fits o.
Proof. destruct o; simpl; [|auto]. unfold fitsb, fits. apply N.ltb_lt. Qed.

Lemma ascendingb_sound l : ascendingb l = true -> StronglySorted byte_lt l.
Proof.
  induction l as [|x l IH]; simpl; intros H; [constructor|].
  apply andb_true_iff in H. destruct H as (H1 & H2). constructor; [apply IH; exact H2|].
  rewrite forallb_forall in H1. apply Forall_forall. intros y Hy. apply N.ltb_lt. apply H1. exact Hy.
Qed.

Lemma valid_setb_sound s : valid_setb s = true -> valid_set s.
Proof.
  unfold valid_setb. rewrite !andb_true_iff. intros (((H1 & H2) & H3) & H4).
  split; [apply opt_utf8b; exact H1|]. split; [apply ascendingb_sound; exact H2|].
  split; apply opt_fitsb; assumption.
Qed.

Lemma valid_patternb_sound p : valid_patternb p = true -> valid_pattern p.
Proof.
  unfold valid_patternb, valid_pattern. intros H. rewrite forallb_forall in H.
  apply Forall_forall. intros [[s|s|g]|l] Ht; specialize (H _ Ht); simpl in *.
  - apply valid_setb_sound. exact H.
  - apply valid_setb_sound. exact H.
  - apply andb_true_iff in H. destruct H. split; apply opt_utf8b; assumption.
  - apply utf8b_sound. exact H.
Qed.

Lemma valid_patterns_sound ps : forallb valid_patternb ps = true -> Forall valid_pattern ps.
Proof.
  intros H. rewrite forallb_forall in H. apply Forall_forall. intros p Hp.
  apply valid_patternb_sound. apply H. exact Hp.
Qed.

Lemma ascii_patterns_sound ps : forallb ascii_patternb ps = true -> Forall ascii_pattern ps.
Proof.
  intros H. rewrite forallb_forall in H. apply Forall_forall. intros p Hp. specialize (H p Hp).
  unfold ascii_patternb in H. rewrite forallb_forall in H. unfold ascii_pattern. apply Forall_forall.
  intros [[s|s|g]|l] Ht; specialize (H _ Ht); simpl in *; auto;
    rewrite forallb_forall in H; exact H.
Qed.

Lemma parsers_of_in ps q : parser_in ps q -> In q (parsers_of ps).
Proof.
  intros (p & Hp & Hq). apply in_flat_map. exists p. split; [exact Hp|].
  apply in_flat_map. exists (Parser q). split; [exact Hq|]. left. reflexivity.
Qed.

Lemma collision_freeb_sound sip ps : collision_freeb sip ps = true -> collision_free sip ps.
Proof.
  intros H q q' Hq Hq' E. apply parsers_of_in in Hq. apply parsers_of_in in Hq'.
  unfold collision_freeb in H. rewrite forallb_forall in H.
  specialize (H _ (in_map (fun q => (sip (hash_stream q), hash_stream q)) _ _ Hq)).
  rewrite forallb_forall in H.
  specialize (H _ (in_map (fun q => (sip (hash_stream q), hash_stream q)) _ _ Hq')).
  simpl in H. rewrite E, N.eqb_refl in H. simpl in H. apply str_eqb_eq. exact H.
Qed.

(** Everything a trie holds, as a list. *)
Fixpoint collect (t : tree) : list (list step * pattern) :=
  match t with
  | Tree lcs pcs =>
      flat_map (fun n =>
        match n with
        | LNode l hv po co =>
            (match po with Some p => if hv then [(map inl l, p)] else [] | None => [] end) ++
            (match co with
             | Some c => map (fun x => (map inl l ++ fst x, snd x)) (collect c)
             | None => []
             end)
        end) lcs ++
      flat_map (fun n =>
        match n with
        | PNode q po co =>
            (match po with Some p => [([inr q], p)] | None => [] end) ++
            (match co with
             | Some c => map (fun x => (inr q :: fst x, snd x)) (collect c)
             | None => []
             end)
        end) pcs
  end.

Lemma held_collect t path p : held t path p -> In (path, p) (collect t).
Proof.
  induction 1 as [n lcs pcs p Hi Hv Hp|n c lcs pcs path p Hi Hn H IH|n lcs pcs p Hi Hp
                 |n c lcs pcs path p Hi Hn H IH]; simpl; apply in_or_app.
  - left. apply in_flat_map. exists n. split; [exact Hi|]. destruct n as [l hv po co]; simpl in *.
    subst. left. reflexivity.
  - left. apply in_flat_map. exists n. split; [exact Hi|]. destruct n as [l hv po co]; simpl in *.
    subst. apply in_or_app. right. apply in_map_iff. exists (path, p). auto.
  - right. apply in_flat_map. exists n. split; [exact Hi|]. destruct n as [q po co]; simpl in *.
    subst. left. reflexivity.
  - right. apply in_flat_map. exists n. split; [exact Hi|]. destruct n as [q po co]; simpl in *.
    subst. apply in_or_app. right. apply in_map_iff. exists (path, p). auto.
Qed.
