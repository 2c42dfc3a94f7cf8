(** * Proofs of the statements in Properties_pdb.v *)
From Verif Require Import Base Base_facts Utils Parsers Pattern Spec Grammar Spec_grammar Grammar_claims Deser Errors Pdb2adb
  Spec_pdb.
From Verif Require Grammar_syntax.

(** ** split *)
Lemma split_capture_text x cur t s : ~ In x t -> split_capture x cur (t ++ s) = split_capture x (cur ++ t) s.
Proof.
  revert cur. induction t as [|b t IH]; intros cur N; simpl; [rewrite app_nil_r; reflexivity|].
  destruct (byte_eqb b x) eqn:E; [apply byte_eqb_eq in E; subst; exfalso; apply N; left; reflexivity|].
  rewrite IH; [rewrite <- app_assoc; reflexivity|intros H; apply N; right; exact H].
Qed.
Lemma split_capture_sep x cur s : split_capture x cur (x :: s) = cur :: [x] :: split_capture x [] s.
Proof. simpl. rewrite byte_eqb_refl. reflexivity. Qed.
Lemma split_on_text x cur t s : ~ In x t -> split_on x cur (t ++ s) = split_on x (cur ++ t) s.
Proof.
  revert cur. induction t as [|b t IH]; intros cur N; simpl; [rewrite app_nil_r; reflexivity|].
  destruct (byte_eqb b x) eqn:E; [apply byte_eqb_eq in E; subst; exfalso; apply N; left; reflexivity|].
  rewrite IH; [rewrite <- app_assoc; reflexivity|intros H; apply N; right; exact H].
Qed.
Lemma split_on_sep x cur s : split_on x cur (x :: s) = cur :: split_on x [] s.
Proof. simpl. rewrite byte_eqb_refl. reflexivity. Qed.
Lemma split_on_end x cur t : ~ In x t -> split_on x cur t = [cur ++ t].
Proof. intros N. rewrite <- (app_nil_r t) at 1. rewrite split_on_text by exact N. reflexivity. Qed.

Lemma drop_cons_full x l : x <> [] -> drop_empty_tail (x :: l) = x :: drop_empty_tail l.
Proof. intros N. simpl. destruct (drop_empty_tail l); [|reflexivity]. destruct x; [contradiction|reflexivity]. Qed.
Lemma drop_cons x l : drop_empty_tail l <> [] -> drop_empty_tail (x :: l) = x :: drop_empty_tail l.
Proof. intros N. simpl. destruct (drop_empty_tail l); [contradiction|reflexivity]. Qed.

Lemma unescape_plain t : ~ In x40 t -> unescape_pattern t = t.
Proof.
  induction t as [|b t IH]; [reflexivity|]. intros N.
  assert (b <> x40) as Nb by (intros ->; apply N; left; reflexivity).
  assert (unescape_pattern t = t) as E by (apply IH; intros H; apply N; right; exact H).
  destruct b; try (simpl; rewrite E; reflexivity). contradiction.
Qed.

Lemma not_at_text t : ~ In x40 t -> str_eqb t ($"@") = false.
Proof. intros N. apply str_eqb_neq. intros ->. apply N. left. reflexivity. Qed.

(** ** What the script makes of a parser *)
Definition named (n : option str) : str := match n with Some x => x | None => ignored_key end.
Definition show (i : item) : str :=
  match i with
  | IText s => s
  | IGreedy (Some n) => greedy_of n
  | ISet chars _ (Some n) => set_of chars n
  | IInt _ (Some n) => $"%{INT:" ++ n ++ $"}"
  | _ => []
  end.
Definition conv1 (i : pdb_item) : list item :=
  match i with
  | PdbText s => if is_empty s then [] else [IText s]
  | PdbParser k n o =>
      let key := Some (named n) in
      match k with
      | NUMBER => [IInt [] key]
      | ANYSTRING | IPvANY | IPv4 | MACADDR | LLADDR => [IGreedy key]
      | ESTRING => IGreedy key :: match o with Some x => [IText x] | None => [] end
      | QSTRING => match o with
                   | Some x => [IText (first_char x); IGreedy key;
                                IText (if is_empty (after_first x) then first_char x else first_char (after_first x))]
                   | None => [IGreedy key]
                   end
      | SET => match o with Some x => [ISet x [] key] | None => [] end
      | STRING => [ISet (if truthy o then alnum ++ interpolated o else alnum) [] key]
      | HOSTNAME => [ISet (alnum ++ $"-.") [] key]
      | FLOAT | DOUBLE => [ISet ($"1234567890.") [] key]
      end
  end.

Lemma name_bytes n : name n -> n <> [] /\ Forall (fun b => name_char b \/ b = x2d) n.
Proof.
  intros [c H|c d s H Hd Hs]; (split; [discriminate|]).
  - constructor; [left; left; exact H|constructor].
  - constructor; [left; left; exact H|]. constructor; [exact Hd|].
    apply Forall_forall. intros b I. left. rewrite Forall_forall in Hs. auto.
Qed.
Lemma name_char_num b : name_char b -> (46 <= Byte.to_N b)%N /\ Byte.to_N b <> 58%N /\ Byte.to_N b <> 64%N /\ (Byte.to_N b < 123)%N.
Proof.
  unfold name_char, name_start, letter, digit. intros [[[H|H]|[H|H]]|H]; try (subst b; simpl); lia.
Qed.
Lemma name_avoids n : name n -> ~ In x3a n /\ ~ In x40 n.
Proof.
  intros H. apply name_bytes in H as [_ H]. rewrite Forall_forall in H.
  split; intros I; apply H in I as [I|I]; try discriminate I; apply name_char_num in I; simpl in I; lia.
Qed.
Lemma name_truthy n : name n -> truthy (Some n) = true.
Proof.
  intros H. unfold truthy. destruct (str_eqb n ($"0")) eqn:E.
  - apply str_eqb_eq in E. subst. exfalso. inversion H as [c S|c d s S]; subst.
    destruct S as [[S|S]|[S|S]]; [simpl in S; lia|simpl in S; lia|discriminate|discriminate].
  - destruct n; [inversion H|reflexivity].
Qed.
Lemma name_ascii n : name n -> ascii n = true.
Proof.
  intros H. apply name_bytes in H as [_ H]. unfold ascii. apply forallb_forall. intros b I.
  rewrite Forall_forall in H. apply H in I as [I|I]; [|subst; reflexivity]. apply name_char_num in I.
  unfold ascii_byte. apply N.ltb_lt. lia.
Qed.
Lemma ignored_name : name ignored_key.
Proof.
  unfold ignored_key. apply name_more.
  - left. left. vm_compute. split; discriminate.
  - left. left. left. left. vm_compute. split; discriminate.
  - apply Forall_forall. intros b I. cbn in I. unfold name_char, name_start, letter, digit.
    repeat (destruct I as [<-|I]; [cbn; lia|]). destruct I.
Qed.

Lemma kind_plain k : ~ In x3a (kind_name k) /\ ~ In x40 (kind_name k) /\ kind_name k <> [].
Proof. destruct k; repeat split; try discriminate; vm_compute; intuition discriminate. Qed.

Definition body_fields (k : pdb_kind) (n o : option str) : list str :=
  kind_name k :: match n, o with
                 | None, None => []
                 | Some x, None => [x]
                 | None, Some y => [[]; y]
                 | Some x, Some y => [x; y]
                 end.
Lemma split_body k n o : (forall x, n = Some x -> name x) -> (forall x, o = Some x -> x <> [] /\ ~ In x3a x) ->
  drop_empty_tail (split_on x3a [] (pdb_body k n o)) = body_fields k n o.
Proof.
  intros Hn Ho. destruct (kind_plain k) as (K & _ & K'). unfold pdb_body, body_fields.
  rewrite split_on_text by exact K. cbn [app].
  destruct n as [n|], o as [o|].
  - destruct (name_avoids n (Hn n eq_refl)) as [A _]. destruct (Ho o eq_refl) as [E B].
    cbn [app String.list_byte_of_string]. change ($":" ++ n ++ $":" ++ o) with (x3a :: n ++ x3a :: o).
    rewrite split_on_sep, split_on_text by exact A. rewrite split_on_sep, split_on_end by exact B.
    assert (n <> []) as En by (apply (name_bytes n), Hn; reflexivity).
    cbn [app]. rewrite (drop_cons_full _ _ K'), (drop_cons_full _ _ En), (drop_cons_full _ _ E). reflexivity.
  - destruct (name_avoids n (Hn n eq_refl)) as [A _].
    change ($":" ++ n) with (x3a :: n). rewrite split_on_sep, split_on_end by exact A.
    assert (n <> []) as En by (apply (name_bytes n), Hn; reflexivity).
    cbn [app]. rewrite (drop_cons_full _ _ K'), (drop_cons_full _ _ En). reflexivity.
  - destruct (Ho o eq_refl) as [E B]. change ($"::" ++ o) with (x3a :: x3a :: o).
    rewrite !split_on_sep, split_on_end by exact B. cbn [app].
    rewrite drop_cons_full by exact K'. rewrite drop_cons; rewrite drop_cons_full by exact E; [reflexivity|discriminate].
  - cbn [split_on app]. rewrite drop_cons_full by exact K'. reflexivity.
Qed.

Lemma ends_with_last x y c : ends_with ($"::") (x ++ y ++ [c]) = byte_eqb x3a c && ends_with ($":") (x ++ y).
Proof.
  unfold ends_with. rewrite app_assoc, rev_app_distr. reflexivity.
Qed.
Lemma last_byte (s : str) : s <> [] -> exists a c, s = a ++ [c].
Proof. intros N. destruct (exists_last N) as (a & c & E). eauto. Qed.
Lemma ends_not t s : s <> [] -> ~ In x3a s -> ends_with ($"::") (t ++ s) = false.
Proof.
  intros N H. destruct (last_byte s N) as (a & c & ->). rewrite ends_with_last.
  destruct (byte_eqb x3a c) eqn:E; [|reflexivity]. apply byte_eqb_eq in E. subst c. exfalso. apply H.
  apply in_or_app. right. left. reflexivity.
Qed.
Lemma body_ends k n o : (forall x, n = Some x -> name x) -> (forall x, o = Some x -> x <> [] /\ ~ In x3a x) ->
  ends_with ($"::") (pdb_body k n o) = false.
Proof.
  intros Hn Ho. destruct (kind_plain k) as (K & _ & K'). unfold pdb_body.
  destruct o as [o|]; [destruct (Ho o eq_refl) as [E B]|].
  - destruct n as [n|].
    + rewrite !app_assoc. apply ends_not; assumption.
    + rewrite app_assoc. apply ends_not; assumption.
  - destruct n as [n|].
    + rewrite app_assoc. apply ends_not; [|apply (name_avoids n), Hn; reflexivity].
      apply (name_bytes n), Hn. reflexivity.
    + rewrite app_nil_r. apply (ends_not [] (kind_name k)); assumption.
Qed.

Lemma or_assign_name n d : name n -> or_assign (Some n) d = n.
Proof. intros H. unfold or_assign. rewrite (name_truthy n H). reflexivity. Qed.

Ltac tests :=
  repeat match goal with
  | |- context [re_whole ?x ?t] => let v := eval vm_compute in (re_whole x t) in change (re_whole x t) with v
  | |- context [re_has ?x ?t] => let v := eval vm_compute in (re_has x t) in change (re_has x t) with v
  | |- context [re_starts ?x ?t] => let v := eval vm_compute in (re_starts x t) in change (re_starts x t) with v
  | |- context [re_ends ?x ?t] => let v := eval vm_compute in (re_ends x t) in change (re_ends x t) with v
  end.
Lemma validate_plain k n o :
  (forall x, n = Some x -> name x) -> (forall x, o = Some x -> x <> [] /\ ~ In x3a x) ->
  (k = SET -> o <> None) ->
  validate_pattern (pdb_body k n o) = Some (flat_map show (conv1 (PdbParser k n o))).
Proof.
  intros Hn Ho Hs. unfold validate_pattern. rewrite (split_body k n o Hn Ho), (body_ends k n o Hn Ho).
  assert (or_assign (nth_error (body_fields k n o) 1) ignored_key = named n) as Ek.
  { destruct n as [n|]; [|destruct o; reflexivity].
    assert (nth_error (body_fields k (Some n) o) 1 = Some n) as -> by (destruct o; reflexivity).
    apply or_assign_name, Hn. reflexivity. }
  assert (nth_error (body_fields k n o) 2 = o) as Eo by (destruct n, o; reflexivity).
  rewrite Ek, Eo. unfold conv1. generalize (named n) as key. intros key.
  assert (or_assign (nth_error (body_fields k n o) 0) [] = kind_name k) as Et by (destruct k; reflexivity).
  rewrite Et. clear Ek Eo Et.
  destruct k; cbn [kind_name]; tests; cbn [orb]; cbv iota zeta.
  all: cbn [flat_map show]; rewrite ?app_nil_r; try reflexivity.
  - destruct o as [o|]; cbn [flat_map interpolated show]; rewrite ?app_nil_r; reflexivity.
  - destruct o as [o|]; cbn [flat_map interpolated show]; rewrite ?app_nil_r; reflexivity.
  - destruct o as [o|]; [|exfalso; apply Hs; reflexivity].
    cbn [flat_map interpolated show]; rewrite ?app_nil_r; reflexivity.
  - destruct (truthy o); reflexivity.
Qed.

(** The delimiter of ESTRING may be a colon. *)
Lemma validate_colon n : (forall x, n = Some x -> name x) ->
  validate_pattern (pdb_body ESTRING n (Some ($":"))) = Some (flat_map show (conv1 (PdbParser ESTRING n (Some ($":"))))).
Proof.
  intros Hn. destruct n as [n|]; [|vm_compute; reflexivity]. specialize (Hn n eq_refl).
  destruct (name_avoids n Hn) as [A _]. destruct (name_bytes n Hn) as [En _].
  assert (pdb_body ESTRING (Some n) (Some ($":")) = ($"ESTRING" ++ x3a :: n) ++ $"::") as E.
  { unfold pdb_body. rewrite <- app_assoc. cbn [kind_name]. reflexivity. }
  unfold validate_pattern.
  assert (drop_empty_tail (split_on x3a [] (pdb_body ESTRING (Some n) (Some ($":")))) = [$"ESTRING"; n]) as ->.
  { rewrite E, <- app_assoc. rewrite split_on_text by (vm_compute; intuition discriminate).
    cbn [app]. rewrite split_on_sep, split_on_text by exact A.
    change ($"::") with [x3a; x3a]. rewrite !split_on_sep. cbn [app split_on].
    rewrite drop_cons_full by discriminate. rewrite drop_cons_full by exact En. reflexivity. }
  assert (ends_with ($"::") (pdb_body ESTRING (Some n) (Some ($":"))) = true) as ->.
  { rewrite E. unfold ends_with. rewrite rev_app_distr. reflexivity. }
  cbn [nth_error]. rewrite (or_assign_name n _ Hn).
  change (or_assign (Some ($"ESTRING")) []) with ($"ESTRING"). tests. cbv iota zeta.
  unfold conv1, named. cbn [flat_map show interpolated]. rewrite app_nil_r. reflexivity.
Qed.

Lemma validate_convertible k n o : convertible (PdbParser k n o) -> (k = SET -> o <> None) ->
  validate_pattern (pdb_body k n o) = Some (flat_map show (conv1 (PdbParser k n o))).
Proof.
  intros [Hn Ho] Hs. destruct o as [o|].
  - destruct (Ho o eq_refl) as [(_ & N & C & _)|[-> ->]].
    + apply validate_plain; [exact Hn| |exact Hs]. intros x E. injection E as <-. auto.
    + apply validate_colon, Hn.
  - apply validate_plain; [exact Hn|discriminate|exact Hs].
Qed.

Lemma body_no_at k n o : convertible (PdbParser k n o) -> ~ In x40 (pdb_body k n o).
Proof.
  intros [Hn Ho] I. unfold pdb_body in I. apply in_app_or in I as [I|I]; [apply (kind_plain k) in I; exact I|].
  assert (forall x, o = Some x -> ~ In x40 x) as Ho'.
  { intros x E. destruct (Ho x E) as [(_ & _ & _ & N)|[_ ->]]; [exact N|vm_compute; intuition discriminate]. }
  destruct n as [n|], o as [o|]; try (specialize (Ho' o eq_refl));
    try (specialize (Hn n eq_refl); destruct (name_avoids n Hn) as [_ Hn']); cbn in I;
    repeat (apply in_app_or in I as [I|I] || destruct I as [I|I]); try discriminate I; try contradiction.
Qed.

Lemma long_truthy s : 2 <= length s -> truthy (Some s) = true.
Proof. destruct s as [|a [|b s]]; simpl; [lia|lia|]. intros _. unfold truthy. simpl. destruct (byte_eqb a _); reflexivity. Qed.
Lemma flat_length (l : list item) i : In i l -> length (show i) <= length (flat_map show l).
Proof.
  induction l as [|j l IH]; [contradiction|]. intros [->|H]; cbn [flat_map]; rewrite app_length; [lia|].
  specialize (IH H). lia.
Qed.
Lemma conv_truthy k n o : (k = SET -> o <> None) -> truthy (Some (flat_map show (conv1 (PdbParser k n o)))) = true.
Proof.
  intros Hs. apply long_truthy.
  assert (forall i, In i (conv1 (PdbParser k n o)) -> firstn 2 (show i) = $"%{" ->
                    2 <= length (flat_map show (conv1 (PdbParser k n o)))) as H.
  { intros i I E. apply flat_length in I. assert (length (firstn 2 (show i)) = 2) as L by (rewrite E; reflexivity).
    rewrite firstn_length in L. lia. }
  destruct k; try (eapply H; [left; reflexivity|reflexivity]).
  - destruct o; (eapply H; [|]); [right; left; reflexivity|reflexivity|left; reflexivity|reflexivity].
  - destruct o as [o|]; [|exfalso; apply Hs; reflexivity]. eapply H; [left; reflexivity|reflexivity].
Qed.

Definition set_given (i : pdb_item) : Prop := match i with PdbParser SET _ None => False | _ => True end.

Lemma p2p_items items : Forall convertible items -> Forall set_given items -> forall cur, ~ In x40 cur ->
  p2p_fields false (drop_empty_tail (split_capture x40 cur (flat_map pdb_text items))) =
  Some (cur ++ flat_map show (flat_map conv1 items)).
Proof.
  intros Hc. induction Hc as [|i items Hi Hc IH]; intros Hg cur N.
  - cbn [flat_map split_capture]. rewrite app_nil_r. destruct cur as [|b cur]; [reflexivity|].
    rewrite drop_cons_full by discriminate. cbn [drop_empty_tail p2p_fields].
    rewrite (not_at_text _ N), (unescape_plain _ N). cbn [option_map]. rewrite app_nil_r. reflexivity.
  - inversion Hg as [|? ? Hgi Hg']; subst. specialize (IH Hg'). cbn [flat_map]. rewrite flat_map_app.
    destruct i as [t|k n o].
    + destruct Hi as [_ Ht]. cbn [pdb_text]. rewrite split_capture_text by exact Ht. rewrite IH.
      * f_equal. rewrite <- app_assoc. f_equal. f_equal. destruct t; [reflexivity|]. cbn [conv1 is_empty flat_map show].
        rewrite app_nil_r. reflexivity.
      * intros I. apply in_app_or in I as [I|I]; contradiction.
    + assert (k = SET -> o <> None) as Hs by (intros -> ->; exact Hgi).
      cbn [pdb_text]. rewrite <- !app_assoc.
      change ($"@" ++ pdb_body k n o ++ $"@" ++ flat_map pdb_text items)
        with (x40 :: pdb_body k n o ++ x40 :: flat_map pdb_text items).
      rewrite split_capture_sep, split_capture_text by (apply body_no_at; exact Hi). rewrite split_capture_sep. cbn [app].
      assert (pdb_body k n o <> []) as Nb.
      { unfold pdb_body. destruct (kind_plain k) as (_ & _ & E). destruct (kind_name k); [contradiction|discriminate]. }
      assert (drop_empty_tail (cur :: [x40] :: pdb_body k n o :: [x40] :: split_capture x40 [] (flat_map pdb_text items)) =
              cur :: [x40] :: pdb_body k n o :: [x40] :: drop_empty_tail (split_capture x40 [] (flat_map pdb_text items))) as Ed.
      { rewrite drop_cons; rewrite drop_cons_full by discriminate; [|discriminate].
        rewrite drop_cons_full by exact Nb. rewrite drop_cons_full by discriminate. reflexivity. }
      etransitivity; [apply (f_equal (p2p_fields false)); exact Ed|]. cbn [p2p_fields]. rewrite (not_at_text _ N), (unescape_plain _ N).
      rewrite (not_at_text _ (body_no_at k n o Hi)), (validate_convertible k n o Hi Hs), (conv_truthy k n o Hs).
      change (str_eqb [x40] ($"@")) with true. cbv iota. cbn [negb interpolated].
      rewrite (IH [] ltac:(intros [])). reflexivity.
Qed.

(** ** The result as the text of items *)
Lemma show_merge l : flat_map show (merge l) = flat_map show l.
Proof.
  induction l as [|i l IH]; [reflexivity|]. destruct i; cbn [merge flat_map]; try (rewrite IH; reflexivity).
  rewrite <- IH. destruct (merge l) as [|[]]; try reflexivity. cbn [flat_map show]. rewrite app_assoc. reflexivity.
Qed.
Lemma merge_apart l : texts_apart (merge l).
Proof.
  induction l as [|i l IH]; [exact I|]. destruct i; cbn [merge].
  - destruct (merge l) as [|[] r]; try exact I; try (split; [intros [? ?]; discriminate|exact IH]).
    destruct r as [|j r]; [exact I|]. destruct IH as [A B]. split; [exact A|exact B].
  - destruct (merge l); [exact I|]. split; [intros [? ?]; discriminate|exact IH].
  - destruct (merge l); [exact I|]. split; [intros [? ?]; discriminate|exact IH].
  - destruct (merge l); [exact I|]. split; [intros [? ?]; discriminate|exact IH].
Qed.
Lemma merge_nil l : merge l = [] -> l = [].
Proof.
  destruct l as [|i l]; [reflexivity|]. destruct i; cbn [merge]; try discriminate.
  destruct (merge l) as [|[]]; discriminate.
Qed.

(** What [conv1] yields. *)
Definition shown (i : item) : Prop :=
  match i with
  | IText s => s <> [] /\ utf8 s
  | IGreedy (Some n) => name n
  | ISet chars [] (Some n) => chars <> [] /\ utf8 chars /\ name n
  | IInt [] (Some n) => name n
  | _ => False
  end.
Lemma merge_shown l : Forall shown l -> Forall shown (merge l).
Proof.
  induction 1 as [|i l Hi Hl IH]; [constructor|]. destruct i; cbn [merge]; try (constructor; assumption).
  destruct (merge l) as [|[] r]; try (constructor; assumption).
  inversion IH as [|? ? Hj Hr]; subst. constructor; [|exact Hr]. destruct Hi as [A B], Hj as [C D]. split.
  - destruct raw; [contradiction|discriminate].
  - apply utf8_app; assumption.
Qed.
Lemma shown_text i : shown i -> expressible i -> item_text (show i) i.
Proof.
  destruct i as [s|[n|]|chars [|] [n|]|[|] [n|]]; cbn [shown expressible show]; try contradiction.
  - intros [A _] B. constructor; assumption.
  - intros A _. apply (text_greedy ($":" ++ n) (Some n)). constructor. exact A.
  - intros (A & _ & B) C. apply (text_set chars [] [] ($":" ++ n) (Some n)); [exact A|exact C|constructor|constructor; exact B].
  - intros A _. apply (text_int [] [] ($":" ++ n) (Some n)); constructor. exact A.
Qed.
Lemma shown_texts l : Forall shown l -> Forall expressible l -> items_text (flat_map show l) l.
Proof.
  induction 1 as [|i l Hi Hl IH]; intros He; [constructor|]. inversion He; subst. cbn [flat_map].
  constructor; [apply shown_text; assumption|]. apply IH. assumption.
Qed.
Lemma shown_utf8 l : Forall shown l -> utf8 (flat_map show l).
Proof.
  induction 1 as [|i l Hi Hl IH]; [constructor|]. cbn [flat_map]. apply utf8_app; [|exact IH].
  assert (forall s, ascii s = true -> utf8 s) as A by (intros; apply ascii_utf8; assumption).
  destruct i as [s|[n|]|chars [|] [n|]|[|] [n|]]; cbn [shown show] in *; try contradiction.
  - apply Hi.
  - unfold greedy_of. apply utf8_app; [apply A; reflexivity|]. apply utf8_app; [apply A, name_ascii, Hi|apply A; reflexivity].
  - destruct Hi as (_ & C & D). unfold set_of. apply utf8_app; [apply A; reflexivity|]. apply utf8_app; [exact C|].
    apply utf8_app; [apply A; reflexivity|]. apply utf8_app; [apply A, name_ascii, D|apply A; reflexivity].
  - apply utf8_app; [apply A; reflexivity|]. apply utf8_app; [apply A, name_ascii, Hi|apply A; reflexivity].
Qed.

Lemma named_name n : (forall x, n = Some x -> name x) -> name (named n).
Proof. intros H. destruct n as [n|]; [apply H; reflexivity|apply ignored_name]. Qed.

Lemma first_char_app q s : utf8_char q = true -> first_char (q ++ s) = q /\ after_first (q ++ s) = s.
Proof.
  intros H. destruct (utf8_char_shape q H) as (b & cs & -> & _ & _ & L). unfold first_char, after_first. cbn [app].
  rewrite <- L. change (b :: cs ++ s) with ((b :: cs) ++ s). split.
  - rewrite firstn_app, firstn_all, Nat.sub_diag. cbn [firstn]. apply app_nil_r.
  - rewrite skipn_app, skipn_all, Nat.sub_diag. reflexivity.
Qed.
Lemma first_char_good s : utf8 s -> s <> [] -> first_char s <> [] /\ utf8 (first_char s) /\ utf8 (after_first s).
Proof.
  intros H N. destruct H as [|c s Hc Hs]; [contradiction|]. destruct (first_char_app c s Hc) as [-> ->].
  split; [apply utf8_char_nonempty, Hc|]. split; [|exact Hs]. rewrite <- (app_nil_r c). constructor; [exact Hc|constructor].
Qed.

Lemma conv1_shown i : convertible i -> Forall shown (conv1 i).
Proof.
  destruct i as [s|k n o]; cbn [convertible conv1].
  - intros [U _]. destruct s; cbn [is_empty]; constructor; [|constructor]. split; [discriminate|exact U].
  - intros [Hn Ho]. apply named_name in Hn. cbv zeta.
    assert (forall x, o = Some x -> utf8 x /\ x <> []) as Hx.
    { intros x E. destruct (Ho x E) as [(A & B & _)|[_ ->]]; [auto|]. split; [apply ascii_utf8; reflexivity|discriminate]. }
    clear Ho.
    assert (utf8 alnum) as Ua by (apply ascii_utf8; reflexivity).
    destruct k; try (constructor; [exact Hn|constructor]).
    + constructor; [exact Hn|]. destruct o as [x|]; constructor; [|constructor]. destruct (Hx x eq_refl). split; auto.
    + destruct o as [x|]; [|constructor; [exact Hn|constructor]].
      destruct (Hx x eq_refl) as [U N]. destruct (first_char_good x U N) as (A & B & C).
      constructor; [split; assumption|]. constructor; [exact Hn|]. constructor; [|constructor].
      destruct (after_first x) as [|b t] eqn:E; cbn [is_empty]; [split; assumption|].
      destruct (first_char_good (b :: t) C ltac:(discriminate)) as (A' & B' & _). split; assumption.
    + destruct o as [x|]; constructor; [|constructor]. destruct (Hx x eq_refl). repeat split; auto.
    + constructor; [|constructor]. destruct (truthy o) eqn:T; [|split; [discriminate|split; [exact Ua|exact Hn]]].
      destruct o as [x|]; [|discriminate]. cbn [interpolated]. destruct (Hx x eq_refl).
      split; [discriminate|]. split; [apply utf8_app; assumption|exact Hn].
    + constructor; [|constructor]. split; [discriminate|]. split; [apply ascii_utf8; reflexivity|exact Hn].
    + constructor; [|constructor]. split; [discriminate|]. split; [apply ascii_utf8; reflexivity|exact Hn].
    + constructor; [|constructor]. split; [discriminate|]. split; [apply ascii_utf8; reflexivity|exact Hn].
Qed.

(** ** Sets of characters in another order *)
Inductive same_item : item -> item -> Prop :=
| same_eq i : same_item i i
| same_set a b bs n : same_bytes a b -> same_item (ISet a bs n) (ISet b bs n).
Lemma same_merge l l' : Forall2 same_item l l' -> Forall2 same_item (merge l) (merge l').
Proof.
  induction 1 as [|i j l l' Hij Hl IH]; [constructor|]. destruct Hij as [i|a b bs n H].
  - destruct i; cbn [merge]; try (constructor; [apply same_eq|exact IH]).
    destruct IH as [|x y m m' Hxy Hm]; [constructor; [apply same_eq|constructor]|].
    destruct Hxy as [x|a b bs n H].
    + destruct x; (constructor; [apply same_eq|]); try exact Hm; constructor; try apply same_eq; exact Hm.
    + constructor; [apply same_eq|]. constructor; [apply same_set, H|exact Hm].
  - cbn [merge]. constructor; [apply same_set, H|exact IH].
Qed.
Lemma same_expressible l l' : Forall2 same_item l l' -> Forall expressible l' -> Forall expressible l.
Proof.
  induction 1 as [|i j l l' Hij Hl IH]; intros H; [constructor|]. inversion H as [|? ? A B]; subst.
  constructor; [|apply IH, B]. destruct Hij as [i|a b bs n E]; [exact A|]. cbn [expressible] in *.
  intros I. apply A, E, I.
Qed.
Lemma same_flip l l' : Forall2 same_item l l' -> Forall2 same_item l' l.
Proof.
  induction 1 as [|i j l l' Hij Hl IH]; constructor; [|exact IH].
  destruct Hij; [apply same_eq|apply same_set]. intros x. symmetry. apply H.
Qed.
Lemma same_meaning l ts : meaning l ts -> forall l', Forall2 same_item l l' -> meaning l' ts.
Proof.
  induction 1 as [|raw u is ts Hu Hm IH|n raw is ts Hm IH|n is ts Hf Hm IH|chars bs n p is ts Hp Hm IH|bs n p is ts Hp Hm IH];
    intros l' H.
  - inversion H. constructor.
  - inversion H as [|? j ? l2 Hj Hl]; subst. inversion Hj; subst. constructor; [exact Hu|apply IH, Hl].
  - inversion H as [|? j ? l2 Hj Hl]; subst. inversion Hj; subst. inversion Hl as [|? j ? l3 Hj' Hl']; subst.
    inversion Hj'; subst. apply means_greedy_text. apply IH, Hl'.
  - inversion H as [|? j ? l2 Hj Hl]; subst. inversion Hj; subst. apply means_greedy; [|apply IH, Hl].
    destruct Hl as [|x y m m' Hxy Hm']; [exact I|]. destruct Hxy; [exact Hf|reflexivity].
  - inversion H as [|? j ? l2 Hj Hl]; subst. inversion Hj as [|? b ? ? E]; subst.
    + constructor; [exact Hp|apply IH, Hl].
    + constructor; [|apply IH, Hl]. destruct Hp as (A & B & C & D). split; [exact A|]. split; [exact B|].
      split; [|exact D]. intros x. rewrite C. apply E.
  - inversion H as [|? j ? l2 Hj Hl]; subst. inversion Hj; subst. constructor; [exact Hp|apply IH, Hl].
Qed.

Lemma bytes_eq a b : forallb (fun x => existsb (byte_eqb x) b) a = true -> forallb (fun x => existsb (byte_eqb x) a) b = true ->
  same_bytes a b.
Proof.
  assert (forall a b : str, forallb (fun x => existsb (byte_eqb x) b) a = true -> forall x, In x a -> In x b) as H.
  { intros u v E x I. rewrite forallb_forall in E. apply E, existsb_exists in I as (y & I & Ey).
    apply byte_eqb_eq in Ey. subst. exact I. }
  intros A B x. split; [apply (H a b A)|apply (H b a B)].
Qed.
Lemma alnum_same : same_bytes alnum letters_digits.
Proof. apply bytes_eq; vm_compute; reflexivity. Qed.
Lemma same_trans a b c : same_bytes a b -> same_bytes c b -> same_bytes a c.
Proof. intros H K x. rewrite (H x). symmetry. apply K. Qed.
Lemma same_app a b c : same_bytes a b -> same_bytes (a ++ c) (b ++ c).
Proof. intros H x. rewrite !in_app_iff, (H x). tauto. Qed.

Lemma conv1_converted i is : converted i is -> Forall2 same_item (conv1 i) is.
Proof.
  assert (forall l, Forall2 same_item l l) as R by (induction l; constructor; [apply same_eq|assumption]).
  intros H. destruct H as [s N| |n o|k n o I|n o|n|n q Hq|n q r more Hq Hr|n|n o|n o chars E|n o chars E|k n o chars I E].
  - cbn [conv1]. destruct s; [contradiction|]. apply R.
  - apply R.
  - apply R.
  - cbn in I. destruct I as [<-|[<-|[<-|[<-|[<-|[]]]]]]; apply R.
  - apply R.
  - apply R.
  - cbn [conv1]. destruct (first_char_app q [] Hq) as [A B]. rewrite app_nil_r in A, B. rewrite A, B. apply R.
  - cbn [conv1]. destruct (first_char_app q (r ++ more) Hq) as [-> ->]. destruct (first_char_app r more Hr) as [-> _].
    assert (is_empty (r ++ more) = false) as ->.
    { pose proof (utf8_char_nonempty r Hr). destruct r; [contradiction|reflexivity]. }
    apply R.
  - apply R.
  - apply R.
  - cbn [conv1]. constructor; [|constructor]. apply same_set. apply (same_trans _ _ _) with (2 := E).
    destruct (truthy o) eqn:T.
    + destruct o as [o|]; [|discriminate]. cbn [interpolated]. apply same_app, alnum_same.
    + destruct o as [o|]; [|rewrite app_nil_r; apply alnum_same]. cbn [truthy] in T. apply negb_false_iff, orb_true_iff in T.
      destruct T as [T|T]; [apply is_empty_true in T; subst; rewrite app_nil_r; apply alnum_same|].
      apply str_eqb_eq in T. subst. apply bytes_eq; vm_compute; reflexivity.
  - cbn [conv1]. constructor; [|constructor]. apply same_set. apply (same_trans _ _ _) with (2 := E).
    apply same_app, alnum_same.
  - assert (same_bytes ($"1234567890.") chars) as F.
    { apply (same_trans _ _ _) with (2 := E). apply bytes_eq; vm_compute; reflexivity. }
    cbn in I. destruct I as [<-|[<-|[]]]; (constructor; [apply same_set, F|constructor]).
Qed.

Lemma converted_all items iss : Forall2 converted items iss -> Forall2 same_item (flat_map conv1 items) (concat iss).
Proof.
  induction 1 as [|i is items iss Hi Hl IH]; [constructor|]. cbn [flat_map concat]. apply Forall2_app; [|exact IH].
  apply conv1_converted, Hi.
Qed.
Lemma converted_given items iss : Forall2 converted items iss -> Forall set_given items.
Proof.
  induction 1 as [|i is items iss Hi Hl IH]; constructor; [|exact IH].
  destruct Hi as [s N| |n o|k n o I|n o|n|n q Hq|n q r more Hq Hr|n|n o|n o chars E|n o chars E|k n o chars I E]; try exact I.
  - cbn in I. destruct I as [<-|[<-|[<-|[<-|[<-|[]]]]]]; exact Logic.I.
  - cbn in I. destruct I as [<-|[<-|[]]]; exact Logic.I.
Qed.

Theorem conversion_faithful items iss :
  Forall convertible items -> Forall2 converted items iss -> Forall expressible (merge (concat iss)) ->
  exists s, p2p (flat_map pdb_text items) = Some s /\
    (concat iss = [] -> s = []) /\
    (concat iss <> [] -> (exists ts, compile s = Ret (Ok ts)) /\
                         forall ts, compile s = Ret (Ok ts) <-> meaning (merge (concat iss)) ts).
Proof.
  intros Hc Hv He. pose proof (converted_all _ _ Hv) as Hs. pose proof (same_merge _ _ Hs) as Hm.
  exists (flat_map show (flat_map conv1 items)). split; [|split].
  - unfold p2p. rewrite (p2p_items items Hc (converted_given _ _ Hv) [] ltac:(intros [])). reflexivity.
  - intros E. rewrite E in Hs. inversion Hs as [A B|]. reflexivity.
  - intros N. set (l := flat_map conv1 items) in *.
    assert (Forall shown l) as Hl.
    { unfold l. clear - Hc. induction Hc as [|i items Hi Hc IH]; [constructor|]. cbn [flat_map].
      apply Forall_app. split; [apply conv1_shown, Hi|exact IH]. }
    pose proof (same_expressible _ _ Hm He) as He'. pose proof (merge_shown l Hl) as Hl'.
    assert (utf8 (flat_map show l)) as U by (apply shown_utf8, Hl).
    assert (pattern_text (flat_map show l) (merge l)) as P.
    { split; [rewrite <- show_merge; apply shown_texts; assumption|]. split; [|apply merge_apart].
      intros E. apply merge_nil in E. rewrite E in Hs. inversion Hs. congruence. }
    assert (forall ts, meaning (merge l) ts -> compile (flat_map show l) = Ret (Ok ts)) as C.
    { intros ts M. apply compile_accepts; [exact U|]. eauto. }
    split; [destruct (Grammar_syntax.meaning_total (merge l)) as (ts & M); eauto|].
    intros ts. split.
    + intros E. destruct (Grammar_syntax.meaning_total (merge l)) as (ts' & M). pose proof (C ts' M) as E'.
      assert (ts = ts') as -> by congruence. apply (same_meaning _ _ M _ Hm).
    + intros M. apply C. apply (same_meaning _ _ M). apply same_flip, Hm.
Qed.

(** Every item that can be converted has a conversion, but SET needs an option. *)
Theorem converted_exists i : convertible i ->
  ((exists is, converted i is) <-> ~ exists n, i = PdbParser SET n None).
Proof.
  intros H. split.
  - intros (is & Hi) (n & ->). inversion Hi; subst;
      match goal with I : In SET _ |- _ => cbn in I; repeat (destruct I as [I|I]; [discriminate I|]); contradiction end.
  - intros N. destruct i as [s|k n o].
    + destruct s as [|b s]; [eexists; apply conv_empty|]. eexists. apply conv_text. discriminate.
    + assert (forall k, In k [ANYSTRING; IPvANY; IPv4; MACADDR; LLADDR] -> exists is, converted (PdbParser k n o) is) as G
        by (intros j J; eexists; apply conv_greedy, J).
      assert (forall k, In k [FLOAT; DOUBLE] -> exists is, converted (PdbParser k n o) is) as F
        by (intros j J; eexists; apply conv_float; [exact J|intros x; reflexivity]).
      destruct k; try (apply G; cbn; tauto); try (apply F; cbn; tauto).
      * eexists. apply conv_number.
      * destruct o; eexists; [apply conv_estring|apply conv_estring_open].
      * destruct o as [o|]; [|eexists; apply conv_qstring_open]. destruct H as [_ Ho].
        assert (utf8 o /\ o <> []) as [U E].
        { destruct (Ho o eq_refl) as [(A & B & _)|[K _]]; [auto|discriminate]. }
        destruct U as [|q s Hq Hs]; [contradiction|]. destruct Hs as [|r s Hr Hs].
        -- rewrite app_nil_r. eexists. apply conv_qstring_one. exact Hq.
        -- eexists. apply conv_qstring; assumption.
      * destruct o as [o|]; [eexists; apply conv_set|]. exfalso. apply N. eauto.
      * eexists. apply conv_string. intros x. reflexivity.
      * eexists. apply conv_hostname. intros x. reflexivity.
Qed.

(** ** Which patterns are dropped *)
Lemma parts_exist s : exists ps, parts s ps.
Proof.
  remember (length s) as n eqn:En. revert s En. induction n as [n IH] using lt_wf_ind. intros s ->.
  assert (forall s : str, ~ In x40 s \/ exists t r, s = t ++ x40 :: r /\ ~ In x40 t) as cut.
  { induction s0 as [|b s0 IHs]; [left; intros []|]. destruct (byte_eqb b x40) eqn:E.
    - apply byte_eqb_eq in E. subst. right. exists [], s0. split; [reflexivity|intros []].
    - destruct IHs as [N|(t & r & -> & N)].
      + left. intros [H|H]; [subst; rewrite byte_eqb_refl in E; discriminate|contradiction].
      + right. exists (b :: t), r. split; [reflexivity|].
        intros [H|H]; [subst; rewrite byte_eqb_refl in E; discriminate|contradiction]. }
  destruct (cut s) as [N|(t & r & -> & N)]; [eexists; apply parts_text, N|].
  destruct (cut r) as [N'|(p & r' & -> & N')].
  - destruct r as [|b r]; [exists []; apply parts_dangling, N|].
    eexists. apply (parts_open t (b :: r)); [exact N|exact N'|discriminate].
  - destruct (IH (length r')) with (s := r') as (ps & H); [rewrite !app_length; simpl; rewrite app_length; simpl; lia|reflexivity|].
    exists (p :: ps). apply (parts_more t p r' ps); assumption.
Qed.

Lemma p2p_false_text t l : ~ In x40 t -> p2p_fields false (t :: l) = option_map (app t) (p2p_fields false l).
Proof. intros N. cbn [p2p_fields]. rewrite (not_at_text t N), (unescape_plain t N). reflexivity. Qed.
Lemma p2p_at b l : p2p_fields b ([x40] :: l) = p2p_fields (negb b) l.
Proof. reflexivity. Qed.
Lemma p2p_true p l : ~ In x40 p -> p2p_fields true (p :: l) =
  if truthy (validate_pattern p) then option_map (app (interpolated (validate_pattern p))) (p2p_fields true l) else None.
Proof. intros N. cbn [p2p_fields]. rewrite (not_at_text p N). reflexivity. Qed.

Lemma p2p_parts s ps : parts s ps ->
  (p2p s = None <-> exists p, In p ps /\ truthy (validate_pattern p) = false).
Proof.
  unfold p2p. induction 1 as [t N|t N|t p N Np E|t p s ps N Np H IH].
  - rewrite <- (app_nil_r t) at 1. rewrite split_capture_text by exact N. cbn [app split_capture].
    split; [|intros (p & [] & _)]. destruct t; [discriminate|]. rewrite drop_cons_full by discriminate.
    rewrite p2p_false_text by exact N. discriminate.
  - rewrite split_capture_text by exact N. rewrite split_capture_sep. cbn [app split_capture].
    split; [|intros (p & [] & _)].
    match goal with |- context [drop_empty_tail ?l] => replace (drop_empty_tail l) with [t; [x40]] by reflexivity end.
    rewrite p2p_false_text by exact N. discriminate.
  - change ([x40] ++ p) with (x40 :: p). rewrite split_capture_text by exact N. rewrite split_capture_sep.
    rewrite <- (app_nil_r p) at 1. rewrite split_capture_text by exact Np. cbn [app split_capture].
    match goal with |- context [drop_empty_tail ?l] =>
      replace (drop_empty_tail l) with [t; [x40]; p] by (destruct p; [contradiction|reflexivity]) end.
    rewrite p2p_false_text by exact N. rewrite p2p_at, p2p_true by exact Np. cbn [negb]. split.
    + intros H. exists p. split; [left; reflexivity|]. destruct (truthy (validate_pattern p)); [discriminate|reflexivity].
    + intros (q & [<-|[]] & ->). reflexivity.
  - change ([x40] ++ p ++ [x40] ++ s) with (x40 :: p ++ x40 :: s).
    rewrite split_capture_text by exact N. rewrite split_capture_sep, split_capture_text by exact Np.
    rewrite split_capture_sep. cbn [app].
    assert (drop_empty_tail (t :: [x40] :: p :: [x40] :: split_capture x40 [] s) =
            t :: [x40] :: p :: [x40] :: drop_empty_tail (split_capture x40 [] s)) as Ed.
    { assert (drop_empty_tail ([x40] :: split_capture x40 [] s) = [x40] :: drop_empty_tail (split_capture x40 [] s)) as E1
        by (apply drop_cons_full; discriminate).
      assert (drop_empty_tail (p :: [x40] :: split_capture x40 [] s) = p :: [x40] :: drop_empty_tail (split_capture x40 [] s)) as E2
        by (rewrite drop_cons; rewrite E1; [reflexivity|discriminate]).
      rewrite drop_cons; (rewrite drop_cons_full by discriminate); [|discriminate]. rewrite E2. reflexivity. }
    match goal with |- context [drop_empty_tail ?l] => replace (drop_empty_tail l) with
      (t :: [x40] :: p :: [x40] :: drop_empty_tail (split_capture x40 [] s)) by (symmetry; exact Ed) end.
    rewrite (p2p_false_text t _ N), p2p_at. cbn [negb]. rewrite (p2p_true p _ Np), p2p_at. cbn [negb].
    destruct (truthy (validate_pattern p)) eqn:T.
    + destruct (p2p_fields false (drop_empty_tail (split_capture x40 [] s))) as [x|].
      * split; [discriminate|]. intros (q & [<-|I] & F); [congruence|].
        destruct IH as [_ IH]. discriminate IH. eauto.
      * split; [|reflexivity]. intros _. destruct IH as [IH _]. destruct (IH eq_refl) as (q & I & F).
        exists q. split; [right; exact I|exact F].
    + split; [|reflexivity]. intros _. exists p. split; [left; reflexivity|exact T].
Qed.

Lemma type_field p t : type_part p t ->
  or_assign (nth_error (drop_empty_tail (split_on x3a [] p)) 0) [] = if truthy (Some t) then t else [].
Proof.
  intros [N H]. assert (exists l, split_on x3a [] p = t :: l) as (l & E).
  { destruct H as [->|(r & ->)].
    - rewrite split_on_end by exact N. eauto.
    - rewrite split_on_text by exact N. rewrite split_on_sep. eauto. }
  rewrite E. cbn [drop_empty_tail]. destruct (drop_empty_tail l) as [|x l'].
  - destruct t as [|b t]; reflexivity.
  - cbn [nth_error or_assign]. reflexivity.
Qed.

Lemma re_whole_spec x s : re_whole x s = true <-> or_line x s.
Proof. unfold re_whole, or_line. rewrite orb_true_iff, !str_eqb_eq. tauto. Qed.
Lemma re_starts_spec x s : re_starts x s = true <-> begins_with x s.
Proof. unfold re_starts, begins_with. apply prefixb_app. Qed.
Lemma re_has_spec x s : re_has x s = true <-> occurs_in x s.
Proof.
  unfold re_has, occurs_in. destruct (str_find x s) as [i|] eqn:E.
  - split; [|reflexivity]. intros _. apply str_find_some in E as ((r & E) & _). exists (firstn i s), r.
    exact E.
  - rewrite str_find_none in E. split; [discriminate|]. intros (a & b & ->). exfalso. apply (E a b). reflexivity.
Qed.
Lemma ends_with_spec x s : ends_with x s = true <-> exists a, s = a ++ x.
Proof.
  unfold ends_with. rewrite prefixb_app. split.
  - intros (r & E). exists (rev r). rewrite <- (rev_involutive s), E, rev_app_distr, rev_involutive. reflexivity.
  - intros (a & ->). exists (rev a). apply rev_app_distr.
Qed.
Lemma re_ends_spec x s : re_ends x s = true <-> ends_in x s.
Proof.
  unfold re_ends, ends_in, or_line. rewrite orb_true_iff, !ends_with_spec. split.
  - intros [(a & ->)|(a & ->)]; exists a; [left; reflexivity|right; apply app_assoc].
  - intros (a & [->| ->]); [left|right]; exists a; [reflexivity|symmetry; apply app_assoc].
Qed.
Definition acceptedb (t : str) : bool :=
  re_whole ($"ESTRING") t || (re_has ($"QSTRING") t || (re_whole ($"NUMBER") t || (re_whole ($"HOSTNAME") t ||
  (re_starts ($"FLOAT") t || (re_ends ($"DOUBLE") t || (re_whole ($"STRING") t || (re_whole ($"ANYSTRING") t ||
  (re_whole ($"SET") t ||
  (re_starts ($"IPvANY") t || (re_starts ($"MACADDR") t || (re_starts ($"IPv4") t || re_starts ($"LLADDR") t))))))))))).
Lemma acceptedb_spec t : acceptedb t = true <-> accepted_type t.
Proof. unfold acceptedb, accepted_type. rewrite !orb_true_iff, !re_whole_spec, !re_starts_spec, re_has_spec, re_ends_spec. reflexivity. Qed.
Lemma accepted_long t : accepted_type t -> 2 <= length t.
Proof.
  unfold accepted_type, or_line, begins_with, prefix_of, ends_in, occurs_in, or_line. intros H.
  repeat (destruct H as [H|H]);
    repeat match goal with
    | H : exists _, _ |- _ => destruct H as (? & H)
    | H : _ \/ _ |- _ => destruct H as [H|H]
    end; subst; rewrite ?app_length; cbn [length String.list_byte_of_string];
    match goal with |- context [length (String.list_byte_of_string ?x)] =>
      let n := eval vm_compute in (length (String.list_byte_of_string x)) in
      change (length (String.list_byte_of_string x)) with n end; lia.
Qed.

Lemma piece_truthy a key b : truthy (Some (a ++ greedy_of key ++ b)) = true.
Proof. apply long_truthy. unfold greedy_of. rewrite !app_length. change (length ($"%{GREEDY:")) with 9. lia. Qed.
Lemma set_truthy c key : truthy (Some (set_of c key)) = true.
Proof. apply long_truthy. unfold set_of. rewrite !app_length. change (length ($"%{SET(""")) with 7. lia. Qed.
Lemma validate_accepts p t : type_part p t -> truthy (validate_pattern p) = acceptedb t.
Proof.
  intros H. unfold validate_pattern. rewrite (type_field p t H). clear H. cbv zeta.
  destruct (acceptedb t) eqn:A.
  - pose proof A as L. apply acceptedb_spec, accepted_long in L.
    assert (truthy (Some t) = true) as -> by (apply long_truthy, L).
    assert (re_whole [] t = false) as -> by (destruct t as [|a [|b t]]; simpl in L; [lia|lia|destruct a; reflexivity]).
    destruct (re_whole ($"ESTRING") t) eqn:E1; [apply (piece_truthy [])|].
    destruct (re_has ($"QSTRING") t) eqn:E2; [apply piece_truthy|].
    destruct (re_whole ($"NUMBER") t) eqn:E3.
    { apply long_truthy. rewrite app_length. change (length ($"%{INT:")) with 6. lia. }
    destruct (re_whole ($"HOSTNAME") t) eqn:E4; [apply set_truthy|].
    destruct (re_starts ($"FLOAT") t) eqn:E5; [apply set_truthy|].
    destruct (re_ends ($"DOUBLE") t) eqn:E6; [apply set_truthy|]. cbn [orb].
    destruct (re_whole ($"STRING") t) eqn:E7.
    { destruct (truthy (nth_error _ 2)); apply set_truthy. }
    destruct (re_whole ($"PCRE") t) eqn:E8.
    { apply re_whole_spec in E8 as [->| ->]; vm_compute in A; discriminate. }
    unfold acceptedb in A. rewrite E1, E2, E3, E4, E5, E6, E7 in A. cbn [orb] in A.
    destruct (re_whole ($"ANYSTRING") t).
    { rewrite <- (app_nil_r (greedy_of _)). apply (piece_truthy []). }
    destruct (re_whole ($"SET") t); [apply set_truthy|]. cbn [orb] in A. rewrite <- !orb_assoc. rewrite A.
    rewrite <- (app_nil_r (greedy_of _)). apply (piece_truthy []).
  - destruct (truthy (Some t)) eqn:T; [|reflexivity].
    destruct (re_whole [] t); [reflexivity|].
    unfold acceptedb in A. repeat (apply orb_false_iff in A as [? A]).
    repeat match goal with H : _ = false |- _ => rewrite H; clear H end. cbn [orb].
    destruct (re_whole ($"PCRE") t); reflexivity.
Qed.

Theorem dropped_patterns s ps : parts s ps ->
  (p2p s = None <-> exists p t, In p ps /\ type_part p t /\ ~ accepted_type t).
Proof.
  intros H. rewrite (p2p_parts s ps H). split.
  - intros (p & I & F). assert (exists t, type_part p t) as (t & Ht).
    { clear. induction p as [|b p (t & N & H)]; [exists []; split; [intros []|left; reflexivity]|].
      destruct (byte_eqb b x3a) eqn:E.
      - apply byte_eqb_eq in E. subst. exists []. split; [intros []|]. right. exists p. reflexivity.
      - exists (b :: t). split.
        + intros [J|J]; [subst; rewrite byte_eqb_refl in E; discriminate|contradiction].
        + destruct H as [->|(r & ->)]; [left|right; exists r]; reflexivity. }
    exists p, t. split; [exact I|]. split; [exact Ht|]. rewrite (validate_accepts p t Ht) in F.
    rewrite <- acceptedb_spec. congruence.
  - intros (p & t & I & Ht & N). exists p. split; [exact I|]. rewrite (validate_accepts p t Ht).
    destruct (acceptedb t) eqn:A; [|reflexivity]. apply acceptedb_spec in A. contradiction.
Qed.

(** ** The end of ESTRING *)
Lemma parser_next_head rest iss : parser_next rest -> Forall2 converted rest iss ->
  match merge (concat iss) with i :: _ => is_text i = false | [] => True end.
Proof.
  intros P H. destruct H as [|i is rest iss Hi Hr]; [exact I|]. cbn [concat].
  destruct i as [t|k n o]; [contradiction|]. cbn [parser_next] in P.
  inversion Hi; subst; try reflexivity; contradiction.
Qed.
Theorem estring_first_delimiter n o rest iss s ts text caps :
  Forall convertible (PdbParser ESTRING n (Some o) :: rest) -> parser_next rest ->
  Forall2 converted (PdbParser ESTRING n (Some o) :: rest) iss -> Forall expressible (merge (concat iss)) ->
  p2p (flat_map pdb_text (PdbParser ESTRING n (Some o) :: rest)) = Some s -> compile s = Ret (Ok ts) ->
  walk ts text caps ->
  exists v text' q caps', text = v ++ o ++ text' /\ before_first o text v /\ caps = (q, v) :: caps' /\
    name_of q = Some (match n with Some x => x | None => unnamed end).
Proof.
  intros Hc P Hv He Hp C W. destruct (conversion_faithful _ _ Hc Hv He) as (s' & E & _ & F).
  assert (s' = s) as -> by congruence.
  inversion Hv as [|? is ? iss' Hi Hr]; subst.
  assert (is = [IGreedy (Some (match n with Some x => x | None => unnamed end)); IText o]) as ->.
  { inversion Hi; subst; try reflexivity; match goal with I : In ESTRING _ |- _ =>
      cbn in I; repeat (destruct I as [I|I]; [discriminate I|]); contradiction end. }
  destruct F as [_ F]; [discriminate|]. apply F in C. clear F. cbn [concat app merge] in C.
  pose proof (parser_next_head rest iss' P Hr) as Hh.
  assert (exists ts', ts = Parser (PGreedy {| gp_name := Some (match n with Some x => x | None => unnamed end);
                                             gp_end_string := Some o |}) :: Literal o :: ts') as (ts' & ->).
  { destruct (merge (concat iss')) as [|j r]; [|destruct j; [discriminate| | |]];
      inversion C as [| |? ? ? ? M|? ? ? D M| |]; subst; try discriminate; eauto. }
  inversion W as [| |? ? v t0 caps' Hcap W']; subst. inversion W' as [|? ? t1 ? W''|]; subst.
  exists v, t1. eexists. exists caps'. split; [reflexivity|]. split; [exact Hcap|]. split; reflexivity.
Qed.

(** ** Doubled at signs *)
Lemma doubled_plain t : ~ In x40 t -> doubled t = t.
Proof.
  induction t as [|b t IH]; [reflexivity|]. intros N. unfold doubled. cbn [flat_map]. fold (doubled t).
  rewrite IH by (intros H; apply N; right; exact H).
  destruct (byte_eqb b x40) eqn:E; [|reflexivity]. apply byte_eqb_eq in E. subst. exfalso. apply N. left. reflexivity.
Qed.
Theorem at_signs t : (~ In x40 t -> p2p (doubled t) = Some t) /\ (In x40 t -> p2p (doubled t) = None).
Proof.
  split.
  - intros N. rewrite (doubled_plain t N). unfold p2p. rewrite <- (app_nil_r t) at 1.
    rewrite split_capture_text by exact N. cbn [app split_capture]. destruct t; [reflexivity|].
    rewrite drop_cons_full by discriminate. rewrite p2p_false_text by exact N. cbn. rewrite app_nil_r. reflexivity.
  - intros I. assert (exists a b, t = a ++ x40 :: b /\ ~ In x40 a) as (a & b & -> & N).
    { clear - I. induction t as [|c t IH]; [destruct I|]. destruct (byte_eqb c x40) eqn:E.
      - apply byte_eqb_eq in E. subst. exists [], t. split; [reflexivity|intros []].
      - destruct I as [->|I]; [rewrite byte_eqb_refl in E; discriminate|]. destruct (IH I) as (a & b & -> & N).
        exists (c :: a), b. split; [reflexivity|]. intros [->|J]; [rewrite byte_eqb_refl in E; discriminate|contradiction]. }
    unfold doubled. rewrite flat_map_app. cbn [flat_map]. rewrite byte_eqb_refl. fold (doubled a) (doubled b).
    rewrite (doubled_plain a N). destruct (parts_exist (doubled b)) as (ps & P).
    assert (parts (a ++ [x40; x40] ++ doubled b) ([] :: ps)) as Q.
    { apply (parts_more a [] (doubled b) ps N); [intros []|exact P]. }
    apply (dropped_patterns _ _ Q). exists [], []. split; [left; reflexivity|]. split; [split; [intros []|left; reflexivity]|].
    intros A. apply accepted_long in A. simpl in A. lia.
Qed.

(** ** Colons in options *)
Lemma p2p_single p : ~ In x40 p -> p <> [] -> p2p ($"@" ++ p ++ $"@") =
  if truthy (validate_pattern p) then validate_pattern p else None.
Proof.
  intros N E. unfold p2p. change ($"@" ++ p ++ $"@") with (x40 :: p ++ [x40]). rewrite split_capture_sep.
  rewrite split_capture_text by exact N. rewrite split_capture_sep. cbn [app split_capture].
  match goal with |- context [drop_empty_tail ?l] => replace (drop_empty_tail l) with [[]; [x40]; p; [x40]] by reflexivity end.
  rewrite p2p_false_text by (intros []). rewrite p2p_at. cbn [negb]. rewrite p2p_true by exact N. rewrite p2p_at. cbn [negb p2p_fields].
  destruct (validate_pattern p) as [s|]; [|reflexivity]. destruct (truthy (Some s)); [|reflexivity].
  cbn [option_map app interpolated]. rewrite app_nil_r. reflexivity.
Qed.
Theorem option_cut k n a b : name n -> plain_option a -> ~ In x40 b -> ~ prefix_of ($":") (rev b) ->
  p2p (pdb_text (PdbParser k (Some n) (Some (a ++ $":" ++ b)))) = p2p (pdb_text (PdbParser k (Some n) (Some a))).
Proof.
  intros Hn (_ & Ea & Ca & Aa) Ab Nb.
  destruct (kind_plain k) as (K1 & K2 & K3). destruct (name_avoids n Hn) as [C1 C2]. destruct (name_bytes n Hn) as [En _].
  assert (forall o, ~ In x40 o -> ~ In x40 (pdb_body k (Some n) (Some o))) as At.
  { intros o No. unfold pdb_body. intros I. repeat (apply in_app_or in I as [I|I]); try contradiction;
      cbn in I; intuition discriminate. }
  assert (forall o, pdb_body k (Some n) (Some o) <> []) as Ne.
  { intros o. unfold pdb_body. destruct (kind_name k); [contradiction|discriminate]. }
  assert (~ In x40 (a ++ $":" ++ b)) as Aab.
  { intros I. apply in_app_or in I as [I|I]; [contradiction|]. destruct I as [I|I]; [discriminate|contradiction]. }
  cbn [pdb_text]. etransitivity; [apply (p2p_single _ (At _ Aab) (Ne _))|].
  symmetry. etransitivity; [apply (p2p_single _ (At _ Aa) (Ne _))|]. symmetry.
  assert (validate_pattern (pdb_body k (Some n) (Some (a ++ $":" ++ b))) = validate_pattern (pdb_body k (Some n) (Some a))) as Ev; [|rewrite Ev; reflexivity].
  assert (forall x, drop_empty_tail (split_on x3a [] (pdb_body k (Some n) (Some (a ++ x)))) =
                    kind_name k :: n :: drop_empty_tail (split_on x3a [] (a ++ x))) as F.
  { intros x. unfold pdb_body. rewrite split_on_text by exact K1. change ($":" ++ n ++ $":" ++ a ++ x) with (x3a :: n ++ x3a :: a ++ x).
    rewrite split_on_sep, split_on_text by exact C1. rewrite split_on_sep. cbn [app].
    rewrite drop_cons_full by exact K3. rewrite drop_cons_full by exact En. reflexivity. }
  unfold validate_pattern. rewrite F.
  rewrite (split_body k (Some n) (Some a)); [|intros x E; injection E as <-; exact Hn|intros x E; injection E as <-; auto].
  cbn [body_fields].
  assert (exists l, drop_empty_tail (split_on x3a [] (a ++ $":" ++ b)) = a :: l) as (l & ->).
  { rewrite split_on_text by exact Ca. change ($":" ++ b) with (x3a :: b). rewrite split_on_sep. cbn [app].
    rewrite drop_cons_full by exact Ea. eauto. }
  cbn [nth_error].
  assert (ends_with ($"::") (pdb_body k (Some n) (Some a)) = false) as ->.
  { unfold pdb_body. rewrite !app_assoc. apply ends_not; assumption. }
  assert (ends_with ($"::") (pdb_body k (Some n) (Some (a ++ $":" ++ b))) = false) as ->.
  { destruct (ends_with _ _) eqn:E; [|reflexivity]. apply ends_with_spec in E as (c & E). unfold pdb_body in E.
    destruct b as [|x b'] eqn:Eb.
    - assert (a = [] \/ exists a' y, a = a' ++ [y]) as [->|(a' & y & ->)]; [|contradiction|].
      { destruct a as [|z a] using rev_ind; [left; reflexivity|right; eauto]. }
      rewrite !app_assoc in E. change ($"::") with ([x3a] ++ [x3a]) in E. rewrite !app_assoc in E. rewrite app_nil_r in E.
      apply app_inj_tail in E as [E _]. apply app_inj_tail in E as [_ E]. subst y. exfalso. apply Ca.
      apply in_or_app. right. left. reflexivity.
    - rewrite <- Eb in *. exfalso. apply Nb. assert (b <> []) as Nn by (rewrite Eb; discriminate).
      destruct (exists_last Nn) as (b0 & y & E0). rewrite E0 in *. rewrite !app_assoc in E.
      change ($"::") with ([x3a] ++ [x3a]) in E. rewrite !app_assoc in E. apply app_inj_tail in E as [_ E]. subst y.
      rewrite rev_app_distr. eexists. reflexivity. }
  reflexivity.
Qed.

(** ** Texts *)
Theorem plain_text_kept t : utf8 t -> t <> [] -> ~ In x40 t -> ~ occurs_in ($"%{") t -> ~ occurs_in escape_seq t ->
  p2p t = Some t /\ compile t = Ret (Ok [Literal t]).
Proof.
  intros U N A O O'. destruct (at_signs t) as [H _]. specialize (H A). rewrite (doubled_plain t A) in H. split; [exact H|].
  apply compile_accepts; [exact U|]. exists [IText t]. split.
  - split; [|split; [discriminate|exact I]]. rewrite <- (app_nil_r t) at 1. constructor; [|constructor]. constructor; assumption.
  - constructor; [constructor; exact O'|constructor].
Qed.
