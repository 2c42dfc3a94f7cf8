(** * Changing the characters *)
From Coq Require Import Sorted Permutation.
From Verif Require Import Base Base_facts Utils Utils_facts Parsers Parsers_facts Pattern Spec TrieSpec TrieSpec_facts
  TrieSpec_props TrieSpec_cases Table_content Grammar_syntax Spec_panics Trie_main Trie_panics Rename_claims Spec_bytes.
From Verif Require Trie.

(** ** Options *)
Inductive orel {A B} (R : A -> B -> Prop) : option A -> option B -> Prop :=
| orel_none : orel R None None
| orel_some a b : R a b -> orel R (Some a) (Some b).

Lemma forall2_flip {A B} (R : A -> B -> Prop) l l' : Forall2 R l l' -> Forall2 (fun y x => R x y) l' l.
Proof. induction 1; constructor; assumption. Qed.

(** ** Parsers *)
Definition sorted_sets (q : parser) : Prop :=
  match q with PSet s | PInt s => StronglySorted byte_lt (sp_character_set s) | PGreedy _ => True end.
Definition twin (f : byte -> byte) (q q' : parser) : Prop := exchanged_parser f q q' /\ sorted_sets q /\ sorted_sets q'.

Section Exchange.
Variables f g : byte -> byte.
Hypothesis X : exchange f g.
Notation ch := (map f).

Lemma f_one a b : f a = f b -> a = b.
Proof. destruct X as (G & _). intros E. rewrite <- (G a), <- (G b), E. reflexivity. Qed.
Lemma f_eqb a b : byte_eqb (f a) (f b) = byte_eqb a b.
Proof.
  destruct (byte_eqb a b) eqn:E.
  - apply byte_eqb_eq in E. subst. apply byte_eqb_eq. reflexivity.
  - destruct (byte_eqb (f a) (f b)) eqn:E'; [|reflexivity]. apply byte_eqb_eq in E'. apply f_one in E'. subst.
    assert (byte_eqb b b = true) by (apply byte_eqb_eq; reflexivity). congruence.
Qed.
Lemma f_ascii b : ascii_byte (f b) = ascii_byte b.
Proof.
  destruct X as (_ & _ & K). destruct (ascii_byte b) eqn:E.
  - destruct (ascii_byte (f b)) eqn:E'; [reflexivity|]. pose proof (f_one _ _ (K _ E')) as E2. congruence.
  - rewrite (K b E). exact E.
Qed.
Lemma f_keep b : ascii_byte b = false -> f b = b.
Proof. apply X. Qed.
Lemma cont_ascii b : ascii_byte b = true -> is_cont b = false.
Proof. unfold ascii_byte, is_cont. intros E. apply N.ltb_lt in E. apply andb_false_intro1. apply N.leb_gt. exact E. Qed.
Lemma f_cont b : is_cont (f b) = is_cont b.
Proof.
  destruct (ascii_byte b) eqn:E; [|rewrite (f_keep b E); reflexivity].
  rewrite (cont_ascii b E), cont_ascii; [reflexivity|]. rewrite f_ascii. exact E.
Qed.

Lemma ch_one a : forall b, ch a = ch b -> a = b.
Proof.
  induction a as [|x a IH]; intros [|y b] E; try discriminate E; [reflexivity|]. injection E as E1 E2.
  apply f_one in E1. apply IH in E2. congruence.
Qed.
Lemma ch_prefixb a : forall b, prefixb (ch a) (ch b) = prefixb a b.
Proof. induction a as [|x a IH]; intros [|y b]; try reflexivity. simpl. rewrite f_eqb, IH. reflexivity. Qed.
Lemma ch_proper a b : proper_prefixb (ch a) (ch b) = proper_prefixb a b.
Proof. unfold proper_prefixb. rewrite ch_prefixb, !map_length. reflexivity. Qed.
Lemma ch_blcp a : forall b, blcp (ch a) (ch b) = ch (blcp a b).
Proof. induction a as [|x a IH]; intros [|y b]; try reflexivity. simpl. rewrite f_eqb. destruct (byte_eqb x y); [|reflexivity]. simpl. rewrite IH. reflexivity. Qed.
Lemma ch_wide a : wide (ch a) = wide a.
Proof.
  destruct a as [|x a]; [reflexivity|]. simpl. pose proof (f_ascii x) as E. unfold ascii_byte in E.
  rewrite !N.leb_antisym, E. reflexivity.
Qed.
Lemma ch_nil a : ch a = [] <-> a = [].
Proof. destruct a; simpl; split; congruence. Qed.
Lemma ch_skipn n a : skipn n (ch a) = ch (skipn n a).
Proof. apply skipn_map. Qed.
Lemma ch_skip k l : skipn (length (ch k)) (ch l) = ch (skipn (length k) l).
Proof. rewrite map_length. apply skipn_map. Qed.
Lemma ch_app_inv a : forall w r, ch a = w ++ r -> exists w0 r0, a = w0 ++ r0 /\ w = ch w0 /\ r = ch r0.
Proof. intros w r E. apply map_eq_app in E. destruct E as (w0 & r0 & -> & <- & <-). eauto. Qed.

(** UTF-8 stays UTF-8. *)
Lemma range_wide lo hi b : (128 <= lo)%N -> in_rng lo hi b = true -> ascii_byte b = false.
Proof. unfold in_rng, ascii_byte. intros L E. apply andb_prop in E. destruct E as (E & _). apply N.leb_le in E. apply N.ltb_ge. lia. Qed.
Lemma cont_wide b : is_cont b = true -> ascii_byte b = false.
Proof. unfold is_cont, ascii_byte. intros E. apply andb_prop in E. destruct E as (E & _). apply N.leb_le in E. apply N.ltb_ge. lia. Qed.
Lemma ch_char c : utf8_char c = true -> utf8_char (ch c) = true.
Proof.
  intros U. destruct c as [|a [|b [|c [|d [|e r]]]]]; try discriminate U.
  - cbn [map utf8_char] in *. pose proof (f_ascii a) as E. unfold in_rng, ascii_byte in *.
    apply andb_prop in U. destruct U as (_ & U). apply N.leb_le in U.
    assert (Byte.to_N a <? 128 = true)%N as E1 by (apply N.ltb_lt; lia). rewrite E1 in E. apply N.ltb_lt in E.
    apply andb_true_intro. split; apply N.leb_le; lia.
  - assert (ch [a; b] = [a; b]) as ->; [|exact U]. cbn [map utf8_char] in *. apply andb_prop in U. destruct U as (U1 & U2).
    apply range_wide in U1; [|lia]. apply cont_wide in U2. rewrite !f_keep by assumption. reflexivity.
  - assert (ch [a; b; c] = [a; b; c]) as ->; [|exact U]. cbn [map utf8_char] in *.
    repeat match goal with
    | H : (_ || _)%bool = true |- _ => apply orb_prop in H; destruct H as [H|H]
    | H : (_ && _)%bool = true |- _ => apply andb_prop in H; destruct H
    end;
    repeat match goal with
    | H : in_rng _ _ _ = true |- _ => apply range_wide in H; [|lia]
    | H : is_cont _ = true |- _ => apply cont_wide in H
    end; rewrite !f_keep by assumption; reflexivity.
  - assert (ch [a; b; c; d] = [a; b; c; d]) as ->; [|exact U]. cbn [map utf8_char] in *.
    repeat match goal with
    | H : (_ || _)%bool = true |- _ => apply orb_prop in H; destruct H as [H|H]
    | H : (_ && _)%bool = true |- _ => apply andb_prop in H; destruct H
    end;
    repeat match goal with
    | H : in_rng _ _ _ = true |- _ => apply range_wide in H; [|lia]
    | H : is_cont _ = true |- _ => apply cont_wide in H
    end; rewrite !f_keep by assumption; reflexivity.
Qed.
Lemma ch_utf8 s : utf8 s -> utf8 (ch s).
Proof. induction 1 as [|c s U H IH]; [constructor|]. rewrite map_app. constructor; [apply ch_char; exact U|exact IH]. Qed.

(** ** Parsing *)
Lemma ch_boundary s n : is_char_boundary (ch s) n = is_char_boundary s n.
Proof.
  unfold is_char_boundary. rewrite map_length, nth_error_map. destruct (nth_error s n); cbn [option_map]; [rewrite f_cont|]; reflexivity.
Qed.
Lemma ch_slice s n : slice_to (ch s) n = match slice_to s n with Ret v => Ret (ch v) | Panic => Panic | OutOfFuel => OutOfFuel end.
Proof. unfold slice_to. rewrite ch_boundary. destruct (is_char_boundary s n); [|reflexivity]. rewrite firstn_map. reflexivity. Qed.
Lemma ch_contains S S' b : (forall b, In (f b) S' <-> In b S) -> bset_contains S' (f b) = bset_contains S b.
Proof.
  intros H. unfold bset_contains. apply eq_true_iff_eq. rewrite !existsb_exists. split.
  - intros (y & I & E). apply byte_eqb_eq in E. subst y. exists b. split; [apply H; exact I|apply byte_eqb_eq; reflexivity].
  - intros (y & I & E). apply byte_eqb_eq in E. subst y. exists (f b). split; [apply H; exact I|apply byte_eqb_eq; reflexivity].
Qed.
Lemma ch_cml S S' v : (forall b, In (f b) S' <-> In b S) -> calculate_match_length S' (ch v) = calculate_match_length S v.
Proof. intros H. induction v as [|b v IH]; [reflexivity|]. simpl. rewrite (ch_contains S S' b H), IH. reflexivity. Qed.
Lemma ch_set s s' v : exchanged_set f s s' ->
  set_parse s' (ch v) = match set_parse s v with Ret o => Ret (option_map ch o) | Panic => Panic | OutOfFuel => OutOfFuel end.
Proof.
  intros (_ & Mn & Mx & H). unfold set_parse, is_match_length_ok, is_min_length_ok, is_max_length_ok.
  rewrite Mn, Mx, (ch_cml _ _ v H), ch_slice.
  match goal with |- context [if ?c then _ else _] => destruct c end; [|reflexivity].
  destruct (slice_to v _); reflexivity.
Qed.
Lemma ch_find e v : str_find (ch e) (ch v) = str_find e v.
Proof.
  induction v as [|b v IH].
  - pose proof (ch_prefixb e []) as E. simpl in *. rewrite E. reflexivity.
  - pose proof (ch_prefixb e (b :: v)) as E. cbn [str_find map] in *. rewrite E, IH. reflexivity.
Qed.
Lemma ch_parse q q' v : exchanged_parser f q q' ->
  parser_parse q' (ch v) = match parser_parse q v with Ret o => Ret (option_map ch o) | Panic => Panic | OutOfFuel => OutOfFuel end.
Proof.
  destruct q as [s|s|x], q' as [s'|s'|x']; cbn [exchanged_parser parser_parse]; intros E; try contradiction; try (apply ch_set; exact E).
  destruct E as (_ & E). unfold greedy_parse. rewrite E. destruct (gp_end_string x) as [e|]; cbn [option_map]; [|reflexivity].
  rewrite ch_find. destruct (str_find e v) as [n|]; [|reflexivity]. rewrite ch_slice. destruct (slice_to v n); reflexivity.
Qed.
Lemma ch_capture q q' v : exchanged_parser f q q' -> capture q' (ch v) = option_map ch (capture q v).
Proof. intros E. unfold capture. rewrite (ch_parse q q' v E). destruct (parser_parse q v); reflexivity. Qed.
Lemma ch_panic q q' v : exchanged_parser f q q' -> parser_parse q v = Panic -> parser_parse q' (ch v) = Panic.
Proof. intros E P. rewrite (ch_parse q q' v E), P. reflexivity. Qed.
Lemma ch_name q q' : exchanged_parser f q q' -> parser_name q' = parser_name q.
Proof. destruct q, q'; simpl; intros E; try contradiction; apply E. Qed.

Lemma set_same s s' t t' : exchanged_set f s s' -> exchanged_set f t t' ->
  StronglySorted byte_lt (sp_character_set s) -> StronglySorted byte_lt (sp_character_set s') ->
  StronglySorted byte_lt (sp_character_set t) -> StronglySorted byte_lt (sp_character_set t') -> (s = t <-> s' = t').
Proof.
  intros (A1 & A2 & A3 & A4) (B1 & B2 & B3 & B4) S1 S2 S3 S4.
  destruct s as [n S m x], s' as [n' S' m' x'], t as [o T k y], t' as [o' T' k' y']; cbn [sp_name sp_character_set sp_min_length sp_max_length] in *.
  subst n' m' x' o' k' y'. destruct X as (G & F & _). split; intros E; injection E as E1 E2 E3 E4; subst; f_equal.
  - apply sorted_ext; [exact S2|exact S4|]. intros b. rewrite <- (F b), A4, B4. reflexivity.
  - apply sorted_ext; [exact S1|exact S3|]. intros b. rewrite <- A4, <- B4. reflexivity.
Qed.
Lemma twin_same q q' r r' : twin f q q' -> twin f r r' -> (q = r <-> q' = r').
Proof.
  intros (E & S & S') (E' & T & T').
  destruct q as [s|s|x], q' as [s'|s'|x']; cbn [exchanged_parser] in E; try contradiction;
    destruct r as [t|t|y], r' as [t'|t'|y']; cbn [exchanged_parser] in E'; try contradiction;
    cbn [sorted_sets] in *; try (split; intros; discriminate).
  - pose proof (set_same s s' t t' E E' S S' T T') as H. split; intros Z; injection Z as Z; f_equal; apply H; exact Z.
  - pose proof (set_same s s' t t' E E' S S' T T') as H. split; intros Z; injection Z as Z; f_equal; apply H; exact Z.
  - destruct x as [n e], x' as [n' e'], y as [o d], y' as [o' d']; cbn [gp_name gp_end_string] in *.
    destruct E as (-> & ->), E' as (-> & ->). split; intros Z; injection Z as Z1 Z2; subst; [reflexivity|].
    repeat f_equal. destruct e as [e|], d as [d|]; cbn [option_map] in Z2; try discriminate Z2; [|reflexivity].
    injection Z2 as Z2. f_equal. apply ch_one. exact Z2.
Qed.

(** ** Levels *)
Variable R : pattern -> pattern -> Prop.

Inductive lrel : level -> level -> Prop :=
| lrel_level K K1 K' P P' :
    Forall2 (fun x y => fst y = ch (fst x) /\ orel R (fst (snd x)) (fst (snd y)) /\ orel lrel (snd (snd x)) (snd (snd y))) K K1 ->
    Permutation K1 K' -> sorted_keys K -> sorted_keys K' ->
    Forall2 (fun x y => twin f (fst x) (fst y) /\ orel R (fst (snd x)) (fst (snd y)) /\ orel lrel (snd (snd x)) (snd (snd y))) P P' ->
    lrel (Level K P) (Level K' P').

Definition erel (e e' : entry) : Prop := orel R (fst e) (fst e') /\ orel lrel (snd e) (snd e').
Definition krel (x y : str * entry) : Prop := fst y = ch (fst x) /\ erel (snd x) (snd y).
Definition prel (x y : parser * entry) : Prop := twin f (fst x) (fst y) /\ erel (snd x) (snd y).
Definition ksrel (K K' : list (str * entry)) : Prop :=
  exists K1, Forall2 krel K K1 /\ Permutation K1 K'.

Lemma lrel_iff K P K' P' : lrel (Level K P) (Level K' P') <->
  ksrel K K' /\ sorted_keys K /\ sorted_keys K' /\ Forall2 prel P P'.
Proof.
  split.
  - intros H. inversion H as [? K1 ? ? ? F Pm S S' FP]; subst. split; [exists K1; auto|]. auto.
  - intros ((K1 & F & Pm) & S & S' & FP). econstructor; eassumption.
Qed.
Lemma lrel_inv L L' : lrel L L' -> exists K P K' P', L = Level K P /\ L' = Level K' P' /\
  ksrel K K' /\ sorted_keys K /\ sorted_keys K' /\ Forall2 prel P P'.
Proof. destruct L as [K P], L' as [K' P']. intros H. apply lrel_iff in H. exists K, P, K', P'. auto. Qed.
Lemma lrel_empty : lrel level_empty level_empty.
Proof. apply lrel_iff. split; [exists []; split; constructor|]. split; [constructor|]. split; constructor. Qed.

Lemma ksrel_in K K' : ksrel K K' -> forall k e, In (k, e) K -> exists e', In (ch k, e') K' /\ erel e e'.
Proof.
  intros (K1 & F & Pm) k e I. apply in_split in I. destruct I as (A & B & ->).
  apply Forall2_app_inv_l in F. destruct F as (A1 & r & _ & F & ->). inversion F as [|? (k', e') ? B1 (E1 & E2) _]; subst.
  cbn [fst snd] in *. subst k'. exists e'. split; [|exact E2]. apply (Permutation_in _ Pm). apply in_elt.
Qed.
Lemma ksrel_back K K' : ksrel K K' -> forall k' e', In (k', e') K' -> exists k e, k' = ch k /\ In (k, e) K /\ erel e e'.
Proof.
  intros (K1 & F & Pm) k' e' I. apply (Permutation_in _ (Permutation_sym Pm)) in I. apply in_split in I. destruct I as (A & B & ->).
  apply Forall2_app_inv_r in F. destruct F as (A1 & r & _ & F & ->). inversion F as [|(k, e) ? B1 ? (E1 & E2) _]; subst.
  cbn [fst snd] in *. exists k, e. split; [exact E1|]. split; [apply in_elt|exact E2].
Qed.
Lemma ksrel_keys K K' : ksrel K K' -> forall k, In (ch k) (keys K') <-> In k (keys K).
Proof.
  intros H k. unfold keys. rewrite !in_map_iff. split.
  - intros ((k', e') & E & I). cbn [fst] in E. subst k'. destruct (ksrel_back K K' H _ _ I) as (k0 & e & E & I' & _).
    apply ch_one in E. subst k0. exists (k, e). auto.
  - intros ((k0, e) & E & I). cbn [fst] in E. subst k0. destruct (ksrel_in K K' H _ _ I) as (e' & I' & _). exists (ch k, e'). auto.
Qed.
Lemma ksrel_keys_back K K' : ksrel K K' -> forall k', In k' (keys K') -> exists k, k' = ch k /\ In k (keys K).
Proof.
  intros H k' I. unfold keys in I. apply in_map_iff in I. destruct I as ((k1, e') & E & I). cbn [fst] in E. subst k1.
  destruct (ksrel_back K K' H _ _ I) as (k & e & -> & I' & _). exists k. split; [reflexivity|]. apply in_map_iff. exists (k, e). auto.
Qed.

Lemma ch_routes K K' k l : ksrel K K' -> routes (keys K') (ch k) (ch l) = routes (keys K) k l.
Proof.
  intros H. apply eq_true_iff_eq. rewrite !routes_spec, ch_nil. split.
  - intros (N & (r & E & Nr) & F). split; [exact N|]. split.
    + apply ch_app_inv in E. destruct E as (k0 & r0 & -> & E1 & ->). apply ch_one in E1. subst k0. exists r0. split; [reflexivity|].
      intros ->. apply Nr. reflexivity.
    + intros k' I. rewrite <- (ch_proper k k'). apply F. apply (ksrel_keys K K' H). exact I.
  - intros (N & (r & -> & Nr) & F). split; [exact N|]. split.
    + exists (ch r). split; [apply map_app|]. rewrite ch_nil. exact Nr.
    + intros k' I. destruct (ksrel_keys_back K K' H k' I) as (k0 & -> & I0). rewrite ch_proper. apply F. exact I0.
Qed.
Lemma ch_blocked K K' l : ksrel K K' -> blocked (keys K') (ch l) = blocked (keys K) l.
Proof.
  intros H. apply eq_true_iff_eq. rewrite !blocked_spec. split.
  - intros (k1 & k2 & r & I1 & I2 & N & Nb & E). destruct (ksrel_keys_back K K' H k1 I1) as (c1 & -> & J1).
    destruct (ksrel_keys_back K K' H k2 I2) as (c2 & -> & J2). rewrite ch_blcp in Nb, E.
    apply ch_app_inv in E. destruct E as (w & r0 & -> & E1 & ->). apply ch_one in E1. subst w. rewrite ch_nil in Nb.
    exists c1, c2, r0. repeat split; try assumption. congruence.
  - intros (k1 & k2 & r & I1 & I2 & N & Nb & ->). exists (ch k1), (ch k2), (ch r). rewrite ch_blcp, ch_nil, map_app.
    split; [apply (ksrel_keys K K' H); exact I1|]. split; [apply (ksrel_keys K K' H); exact I2|].
    split; [intros E; apply ch_one in E; congruence|]. auto.
Qed.

(** At most one key leads on. *)
Lemma routes_unique ks k k' l : In k ks -> In k' ks -> routes ks k l = true -> routes ks k' l = true -> k = k'.
Proof.
  intros I I' H H'. apply routes_spec in H, H'. destruct H as (_ & (r & E & _) & F), H' as (_ & (r' & E' & _) & F').
  specialize (F k' I'). specialize (F' k I). rewrite E in E'. clear E I I'.
  unfold proper_prefixb in F, F'. apply app_eq_app in E'. destruct E' as (m & [(-> & _)|(-> & _)]).
  - destruct m as [|b m]; [apply app_nil_r|]. exfalso. apply andb_false_iff in F'. destruct F' as [F'|F'].
    + assert (prefixb k' (k' ++ b :: m) = true) by (clear; induction k' as [|c k' IH]; simpl; [reflexivity|rewrite IH; assert (byte_eqb c c = true) as -> by (apply byte_eqb_eq; reflexivity); reflexivity]). congruence.
    + apply Nat.ltb_ge in F'. rewrite app_length in F'. simpl in F'. lia.
  - destruct m as [|b m]; [symmetry; apply app_nil_r|]. exfalso. apply andb_false_iff in F. destruct F as [F|F].
    + assert (prefixb k (k ++ b :: m) = true) by (clear; induction k as [|c k' IH]; simpl; [reflexivity|rewrite IH; assert (byte_eqb c c = true) as -> by (apply byte_eqb_eq; reflexivity); reflexivity]). congruence.
    + apply Nat.ltb_ge in F. rewrite app_length in F. simpl in F. lia.
Qed.
Lemma keys_nodup K : sorted_keys K -> NoDup (keys K).
Proof.
  unfold sorted_keys. induction 1 as [|k ks S IH F]; constructor; [|exact IH]. intros I. rewrite Forall_forall in F.
  specialize (F k I). unfold str_lt in F. rewrite str_cmp_refl in F. discriminate F.
Qed.
Lemma entry_unique (K : list (str * entry)) k e e' : sorted_keys K -> In (k, e) K -> In (k, e') K -> e = e'.
Proof. intros S I I'. apply keys_nodup in S. apply (in_lookup _ _ _ S) in I, I'. congruence. Qed.
Lemma in_key (K : list (str * entry)) k e : In (k, e) K -> In k (keys K).
Proof. intros I. apply in_map_iff. exists (k, e). auto. Qed.

Lemma ch_lookup K K' l : ksrel K K' -> sorted_keys K -> sorted_keys K' ->
  orel erel (lookup l K) (lookup (ch l) K').
Proof.
  intros H S S'. apply keys_nodup in S, S'. destruct (lookup l K) as [e|] eqn:E.
  - apply lookup_in in E. destruct (ksrel_in K K' H _ _ E) as (e' & I & Re). apply (in_lookup _ _ _ S') in I. rewrite I. constructor. exact Re.
  - destruct (lookup (ch l) K') as [e'|] eqn:E'; [|constructor]. apply lookup_in in E'.
    destruct (ksrel_back K K' H _ _ E') as (k & e & Ek & I & _). apply ch_one in Ek. subst k. apply (in_lookup _ _ _ S) in I. congruence.
Qed.

(** ** Adding *)
Definition fagree (h h' : entry -> entry) : Prop := forall e e', erel e e' -> erel (h e) (h' e').
Lemma erel_none : erel (None, None) (None, None).
Proof. split; constructor. Qed.

Lemma ksrel_perm K K1 K' : Forall2 krel K K1 -> Permutation K1 K' -> ksrel K K'.
Proof. intros F Pm. exists K1. auto. Qed.

(** Splitting related entries at a key. *)
Lemma ksrel_split A k e B K' : ksrel (A ++ (k, e) :: B) K' -> exists A' e' B', K' = A' ++ (ch k, e') :: B' /\ erel e e' /\ ksrel (A ++ B) (A' ++ B').
Proof.
  intros (K1 & F & Pm). apply Forall2_app_inv_l in F. destruct F as (A1 & r & FA & F & ->).
  inversion F as [|? (k', e') ? B1 (E1 & E2) FB]; subst. cbn [fst snd] in *. subst k'.
  assert (In (ch k, e') K') as I by (apply (Permutation_in _ Pm); apply in_elt).
  apply in_split in I. destruct I as (A' & B' & ->). exists A', e', B'. split; [reflexivity|]. split; [exact E2|].
  exists (A1 ++ B1). split; [apply Forall2_app; assumption|]. apply Permutation_app_inv in Pm. exact Pm.
Qed.
Lemma ksrel_join A k e B A' e' B' : ksrel (A ++ B) (A' ++ B') -> erel e e' -> ksrel (A ++ (k, e) :: B) (A' ++ (ch k, e') :: B').
Proof.
  intros (K1 & F & Pm) E. apply Forall2_app_inv_l in F. destruct F as (A1 & B1 & FA & FB & ->).
  exists (A1 ++ (ch k, e') :: B1). split.
  - apply Forall2_app; [exact FA|]. constructor; [split; [reflexivity|exact E]|exact FB].
  - apply Permutation_elt. exact Pm.
Qed.

Lemma ch_upsert K K' l h h' : ksrel K K' -> sorted_keys K -> sorted_keys K' -> fagree h h' ->
  ksrel (upsert l h K) (upsert (ch l) h' K').
Proof.
  intros H S S' A. pose proof (keys_nodup _ (upsert_sorted l h K S)) as N.
  pose proof (keys_nodup _ (upsert_sorted (ch l) h' K' S')) as N'.
  destruct (upsert_split l h K) as (X1 & Y1 & [(Eu & Ek)|(e & Eu & Ek)]);
    destruct (upsert_split (ch l) h' K') as (X2 & Y2 & [(Eu' & Ek')|(e' & Eu' & Ek')]); rewrite Eu, Eu'.
  - subst K K'. apply ksrel_join; [exact H|]. apply A, erel_none.
  - exfalso. rewrite Eu in N. unfold keys in N. rewrite map_app in N. apply NoDup_remove_2 in N. apply N. rewrite <- map_app, <- Ek.
    apply (ksrel_keys K K' H). rewrite Ek'. apply in_map_iff. exists (ch l, e'). split; [reflexivity|apply in_elt].
  - exfalso. rewrite Eu' in N'. unfold keys in N'. rewrite map_app in N'. apply NoDup_remove_2 in N'. apply N'. rewrite <- map_app, <- Ek'.
    apply (ksrel_keys K K' H). rewrite Ek. apply in_map_iff. exists (l, e). split; [reflexivity|apply in_elt].
  - rewrite Ek in H, S. rewrite Ek' in S'. destruct (ksrel_split _ _ _ _ _ H) as (A' & e1 & B' & E1 & Ee & H').
    rewrite Ek' in E1.
    assert (X2 = A' /\ e' = e1 /\ Y2 = B') as (<- & <- & <-).
    { apply keys_nodup in S'. clear -E1 S'. revert A' E1. induction X2 as [|x X2 IH]; intros [|y A'] E1; cbn [app] in E1.
      - injection E1 as -> ->. auto.
      - exfalso. injection E1 as E2 E3. subst. cbn [app keys map fst] in S'. inversion S' as [|? ? N1 _]; subst. apply N1.
        apply in_map_iff. exists (ch l, e1). split; [reflexivity|apply in_elt].
      - exfalso. injection E1 as E2 E3. subst. cbn [app keys map fst] in S'. inversion S' as [|? ? N1 _]; subst. apply N1.
        apply in_map_iff. exists (ch l, e'). split; [reflexivity|apply in_elt].
      - injection E1 as -> E1. cbn [app keys map] in S'. inversion S' as [|? ? _ S2]; subst.
        destruct (IH S2 A' E1) as (-> & -> & ->). auto. }
    apply ksrel_join; [exact H'|]. apply A. exact Ee.
Qed.

Lemma ch_at_parser P P' q q' h h' : Forall2 prel P P' -> twin f q q' -> fagree h h' ->
  Forall2 prel (at_parser P q h) (at_parser P' q' h').
Proof.
  intros F T A. induction F as [|(r, e) (r', e') P P' (Tr & Er) F IH]; cbn [at_parser].
  - constructor; [|constructor]. split; [exact T|]. apply A, erel_none.
  - cbn [fst snd] in *. pose proof (twin_same r r' q q' Tr T) as Same.
    destruct (parser_eq_dec r q) as [D|D], (parser_eq_dec r' q') as [D'|D']; try (exfalso; tauto).
    + constructor; [|exact F]. split; [exact Tr|]. apply A. exact Er.
    + constructor; [|exact IH]. split; assumption.
Qed.

Lemma enter_found K l h : sorted_keys K -> forall A k po c B, K = A ++ (k, (po, Some c)) :: B -> routes (keys K) k l = true ->
  enter_literals enter (keys K) K l h = Some (A ++ (k, (po, Some (enter c (skipn (length k) l) h))) :: B).
Proof.
  intros S A k po c B E Hr. assert (In (k, (po, Some c)) K) as I by (rewrite E; apply in_elt).
  rewrite E at 2. rewrite enter_literals_app. cbn [enter_literals]. rewrite Hr.
  rewrite enter_literals_none; [reflexivity|]. intros k' I'.
  destruct (routes (keys K) k' l) eqn:Hr'; [|reflexivity]. exfalso.
  assert (In k' (keys K)) as I2 by (rewrite E, keys_app; apply in_or_app; left; exact I').
  pose proof (routes_unique _ _ _ _ (in_key _ _ _ I) I2 Hr Hr') as <-.
  apply keys_nodup in S. rewrite E in S. unfold keys in S. rewrite map_app in S. apply NoDup_remove_2 in S. apply S.
  apply in_or_app. left. exact I'.
Qed.
Lemma enter_not_found K l h : no_route K l -> enter_literals enter (keys K) K l h = None.
Proof.
  unfold no_route. generalize (keys K). intros ks. induction K as [|(k, (po, [c|])) K IH]; intros H; cbn [enter_literals]; [reflexivity| |].
  - rewrite (H k po c (or_introl eq_refl)), IH; [reflexivity|]. intros k' po' c' I. apply (H k' po' c'). right. exact I.
  - rewrite IH; [reflexivity|]. intros k' po' c' I. apply (H k' po' c'). right. exact I.
Qed.
Lemma no_route_ch K K' l : ksrel K K' -> no_route K l -> no_route K' (ch l).
Proof.
  intros H N k' po' c' I. destruct (ksrel_back K K' H _ _ I) as (k & (po & co) & -> & I0 & (_ & Ec)). cbn [snd] in Ec.
  inversion Ec as [|c ? Rc]; subst. rewrite (ch_routes K K' k l H). apply (N k po c I0).
Qed.
Lemma route_dec K l : no_route K l \/ exists A k po c B, K = A ++ (k, (po, Some c)) :: B /\ routes (keys K) k l = true.
Proof.
  destruct (enter_literals enter (keys K) K l (fun e => e)) as [K2|] eqn:E.
  - right. apply enter_literals_some in E. destruct E as (A & k & po & c & C & E1 & E2 & _). exists A, k, po, c, C. auto.
  - left. exact (enter_literals_no_route K l _ E).
Qed.

Lemma ch_enter L : forall L' l h h', lrel L L' -> fagree h h' -> lrel (enter L l h) (enter L' (ch l) h').
Proof.
  induction L as [K P IHK _] using level_nested_ind. intros [K' P'] l h h' H A. apply lrel_iff in H.
  destruct H as (H & S & S' & FP). rewrite !enter_unfold. destruct (route_dec K l) as [N|(B & k & po & c & C & E & Hr)].
  - rewrite (enter_not_found K l h N), (enter_not_found K' (ch l) h' (no_route_ch K K' l H N)).
    apply lrel_iff. split; [apply ch_upsert; assumption|]. split; [apply upsert_sorted; exact S|]. split; [apply upsert_sorted; exact S'|exact FP].
  - rewrite (enter_found K l h S _ _ _ _ _ E Hr).
    assert (routes (keys K') (ch k) (ch l) = true) as Hr' by (rewrite (ch_routes K K' k l H); exact Hr).
    pose proof H as H0. rewrite E in H0. destruct (ksrel_split _ _ _ _ _ H0) as (A' & (po' & co') & C' & E' & (Rp & Rc) & H1).
    cbn [fst snd] in *. inversion Rc as [|? c' Rcc]; subst co'.
    rewrite (enter_found K' (ch l) h' S' _ _ _ _ _ E' Hr'). apply lrel_iff. split; [|split; [|split; [|exact FP]]].
    + apply ksrel_join; [exact H1|]. split; [exact Rp|]. cbn [snd]. constructor. rewrite ch_skip. apply (IHK k po c); [|exact Rcc|exact A].
      rewrite E. apply in_elt.
    + unfold sorted_keys in *. rewrite E in S. rewrite keys_app in *. exact S.
    + unfold sorted_keys in *. rewrite E' in S'. rewrite keys_app in *. exact S'.
Qed.

Definition tokens_rel (ts ts' : list token) : Prop :=
  Forall2 (fun t t' => match t, t' with Literal l, Literal l' => l' = ch l | Parser q, Parser q' => twin f q q' | _, _ => False end) ts ts'.

Lemma ch_insert ts : forall ts' L L' p p', tokens_rel ts ts' -> lrel L L' -> R p p' -> lrel (s_insert ts L p) (s_insert ts' L' p').
Proof.
  induction ts as [|t ts IH]; intros ts' L L' p p' F HL Rp; inversion F as [|? t' ? ts2 Rt F2]; subst; [exact HL|]. cbn [s_insert].
  assert (fagree (fun e => if is_empty ts then (Some p, snd e) else (fst e, Some (s_insert ts level_empty p)))
                 (fun e => if is_empty ts2 then (Some p', snd e) else (fst e, Some (s_insert ts2 level_empty p')))) as A.
  { intros e e' (E1 & E2). replace (is_empty ts2) with (is_empty ts) by (inversion F2; reflexivity).
    destruct (is_empty ts); split; cbn [fst snd]; try assumption; constructor; [exact Rp|]. apply IH; [exact F2|exact lrel_empty|exact Rp]. }
  destruct t as [q|l], t' as [q'|l']; try contradiction.
  - destruct L as [K P], L' as [K' P']. apply lrel_iff in HL. destruct HL as (H & S & S' & FP). cbn [lits_of pars_of]. apply lrel_iff.
    split; [exact H|]. split; [exact S|]. split; [exact S'|]. apply ch_at_parser; assumption.
  - subst l'. apply ch_enter; assumption.
Qed.

(** ** Matching *)
Definition vals (m : bmap) : bmap := map (fun x => (fst x, ch (snd x))) m.
Definition rrel (r r' : match_result) : Prop := R (mr_pattern r) (mr_pattern r') /\ mr_values r' = vals (mr_values r).

Lemma vals_insert k v m : bmap_insert k (ch v) (vals m) = vals (bmap_insert k v m).
Proof.
  unfold vals. induction m as [|(k0, v0) m IH]; cbn [bmap_insert map fst snd]; [reflexivity|].
  destruct (str_cmp k k0); cbn [map fst snd]; [reflexivity|reflexivity|]. rewrite IH. reflexivity.
Qed.
Lemma rrel_insert r r' q q' v : rrel r r' -> exchanged_parser f q q' -> rrel (match_result_insert r (q, v)) (match_result_insert r' (q', ch v)).
Proof.
  intros (E & V) T. unfold match_result_insert. cbn [fst snd]. rewrite (ch_name q q' T). destruct (parser_name q) as [n|]; [|split; assumption].
  split; [exact E|]. cbn [mr_values]. rewrite V. apply vals_insert.
Qed.
Lemma rrel_new o o' : orel R o o' -> orel rrel (option_map match_result_new o) (option_map match_result_new o').
Proof. intros [|p p' Rp]; constructor. split; [exact Rp|reflexivity]. Qed.

Lemma ch_try_parser e e' q q' l :
  (forall c c', snd e = Some c -> lrel c c' -> forall l, orel rrel (s_parse c l) (s_parse c' (ch l))) ->
  twin f q q' -> erel e e' -> orel rrel (try_parser s_parse q e l) (try_parser s_parse q' e' (ch l)).
Proof.
  intros H (T & _) (Ep & Ec). unfold try_parser. rewrite (ch_capture q q' l T). destruct (capture q l) as [v|]; cbn [option_map]; [|constructor].
  rewrite ch_skip. destruct e as (po, co), e' as (po', co'). cbn [fst snd] in *. inversion Ec as [|c c' Rc]; subst.
  - replace (is_empty (ch (skipn (length v) l))) with (is_empty (skipn (length v) l)) by (destruct (skipn (length v) l); reflexivity).
    destruct (is_empty (skipn (length v) l)); [|constructor]. inversion Ep as [|p p' Rp]; subst; cbn [option_map]; constructor.
    apply rrel_insert; [|exact T]. split; [exact Rp|reflexivity].
  - destruct (H c c' eq_refl Rc (skipn (length v) l)) as [|r r' Rr]; cbn [option_map]; constructor. apply rrel_insert; assumption.
Qed.
Lemma ch_try_parsers P P' l :
  (forall q po c c', In (q, (po, Some c)) P -> lrel c c' -> forall l, orel rrel (s_parse c l) (s_parse c' (ch l))) ->
  Forall2 prel P P' -> orel rrel (try_parsers s_parse P l) (try_parsers s_parse P' (ch l)).
Proof.
  intros H F. induction F as [|(q, e) (q', e') P P' (T & E) F IH]; cbn [try_parsers]; [constructor|]. cbn [fst snd] in *.
  assert (orel rrel (try_parser s_parse q e l) (try_parser s_parse q' e' (ch l))) as Z.
  { apply ch_try_parser; [|exact T|exact E]. intros c c' Ec Rc. destruct e as (po, co). cbn [snd] in Ec. subst co.
    apply (H q po c c'); [left; reflexivity|exact Rc]. }
  destruct Z as [|r r' Rr]; [|constructor; exact Rr]. apply IH. intros q0 po c c' I. apply (H q0 po c c'). right. exact I.
Qed.

Lemma try_found K l : sorted_keys K -> forall A k po c B, K = A ++ (k, (po, Some c)) :: B -> routes (keys K) k l = true ->
  try_literals s_parse (keys K) K l = Some (s_parse c (skipn (length k) l)).
Proof.
  intros S A k po c B E Hr. assert (In (k, (po, Some c)) K) as I by (rewrite E; apply in_elt).
  destruct (try_literals s_parse (keys K) K l) as [r|] eqn:T.
  - apply try_literals_some in T. destruct T as (k' & po' & c' & I' & Hr' & ->).
    pose proof (routes_unique _ _ _ _ (in_key _ _ _ I) (in_key _ _ _ I') Hr Hr') as <-.
    pose proof (entry_unique _ _ _ _ S I I') as Ee. injection Ee as -> ->. reflexivity.
  - exfalso. rewrite E in T at 2. rewrite try_literals_app in T. destruct (try_literals s_parse (keys K) A l); [discriminate T|].
    cbn [try_literals] in T. rewrite Hr in T. discriminate T.
Qed.
Lemma try_not_found K l : no_route K l -> try_literals s_parse (keys K) K l = None.
Proof.
  intros N. destruct (try_literals s_parse (keys K) K l) as [r|] eqn:T; [|reflexivity].
  apply try_literals_some in T. destruct T as (k' & po' & c' & I' & Hr' & ->). rewrite (N _ _ _ I') in Hr'. discriminate Hr'.
Qed.

Lemma ch_s_parse L : forall L' l, lrel L L' -> orel rrel (s_parse L l) (s_parse L' (ch l)).
Proof.
  induction L as [K P IHK IHP] using level_nested_ind. intros [K' P'] l H. apply lrel_iff in H.
  destruct H as (H & S & S' & FP). rewrite !s_parse_unfold. destruct (route_dec K l) as [N|(A & k & po & c & B & E & Hr)].
  - rewrite (try_not_found K l N), (try_not_found K' (ch l) (no_route_ch K K' l H N)).
    destruct (ch_lookup K K' l H S S') as [|e e' (Ep & _)]; [|apply rrel_new; exact Ep].
    rewrite (ch_blocked K K' l H). destruct (blocked (keys K) l); [constructor|]. apply ch_try_parsers; [|exact FP].
    intros q po c c' I Rc l0. apply (IHP q po c I). exact Rc.
  - rewrite (try_found K l S _ _ _ _ _ E Hr).
    assert (routes (keys K') (ch k) (ch l) = true) as Hr' by (rewrite (ch_routes K K' k l H); exact Hr).
    pose proof H as H0. rewrite E in H0. destruct (ksrel_split _ _ _ _ _ H0) as (A' & (po' & co') & C' & E' & (Rp & Rc) & H1).
    cbn [fst snd] in *. inversion Rc as [|? c' Rcc]; subst co'.
    rewrite (try_found K' (ch l) S' _ _ _ _ _ E' Hr'), ch_skip. apply (IHK k po c); [rewrite E; apply in_elt|exact Rcc].
Qed.

(** ** Panics *)
Lemma ch_reaches L l M m : reaches L l M m -> forall L', lrel L L' -> exists M', lrel M M' /\ reaches L' (ch l) M' (ch m).
Proof.
  induction 1 as [L l|K P k po c l M m I Hr H IH]; intros L' HL; [exists L'; split; [exact HL|constructor]|].
  destruct L' as [K' P']. apply lrel_iff in HL. destruct HL as (HK & S & S' & FP).
  destruct (ksrel_in K K' HK _ _ I) as ((po' & co') & I' & (_ & Rc)). cbn [snd] in Rc. inversion Rc as [|? c' Rcc]; subst co'.
  destruct (IH c' Rcc) as (M' & RM & HM). exists M'. split; [exact RM|].
  apply (reaches_below K' P' (ch k) po' c'); [exact I'|rewrite (ch_routes K K' k l HK); exact Hr|rewrite ch_skip; exact HM].
Qed.
Lemma ch_fork K K' w : ksrel K K' -> fork (keys K) w -> fork (keys K') (ch w).
Proof.
  intros H [->|(k1 & k2 & I1 & I2 & N & <-)]; [left; reflexivity|]. right. exists (ch k1), (ch k2).
  split; [apply (ksrel_keys K K' H); exact I1|]. split; [apply (ksrel_keys K K' H); exact I2|].
  split; [intros E; apply ch_one in E; congruence|apply ch_blcp].
Qed.
Lemma ch_stuck K K' l : ksrel K K' -> stuck (keys K) l -> stuck (keys K') (ch l).
Proof.
  intros H (w & r & k & s & Fk & -> & Nr & I & -> & Ns & W). exists (ch w), (ch r), (ch (w ++ s)), (ch s).
  rewrite !ch_nil, !ch_wide. split; [apply (ch_fork K K' w H Fk)|]. split; [apply map_app|]. split; [exact Nr|].
  split; [apply (ksrel_keys K K' H); exact I|]. split; [apply map_app|]. auto.
Qed.
Lemma ch_torn K K' l : ksrel K K' -> torn (keys K) l -> torn (keys K') (ch l).
Proof.
  intros H (k & w & a & s & I & Ew & Nw & El & Ek & W). exists (ch k), (ch w), (ch a), (ch s).
  rewrite !ch_nil, !ch_wide, ch_blcp. split; [apply (ksrel_keys K K' H); exact I|]. split; [congruence|]. split; [exact Nw|].
  split; [rewrite El; apply map_app|]. split; [rewrite Ek at 1; apply map_app|]. exact W.
Qed.
Lemma ch_no_literal K K' l : ksrel K K' -> no_literal K l -> no_literal K' (ch l).
Proof.
  intros H (N & I & B). split; [exact (no_route_ch K K' l H N)|]. split; [rewrite (ksrel_keys K K' H); exact I|].
  rewrite (ch_blocked K K' l H). exact B.
Qed.
Lemma ch_try_none A A' l : Forall2 prel A A' -> try_parsers s_parse A l = None -> try_parsers s_parse A' (ch l) = None.
Proof.
  intros F E. assert (orel rrel (try_parsers s_parse A l) (try_parsers s_parse A' (ch l))) as Z.
  { apply ch_try_parsers; [|exact F]. intros q po c c' _ Rc l0. apply ch_s_parse. exact Rc. }
  rewrite E in Z. inversion Z. reflexivity.
Qed.

Lemma ch_parse_panics L text : parse_panics L text -> forall L', lrel L L' -> parse_panics L' (ch text).
Proof.
  induction 1 as [L text K P l Re S|L text K A q e B l Re NL T E|L text K A q po c B l v Re NL T E H IH];
    intros L' HL; destruct (ch_reaches _ _ _ _ Re L' HL) as ([K' P'] & HM & Re'); apply lrel_iff in HM; destruct HM as (HK & _ & _ & FP).
  - exact (pp_literal _ _ _ _ _ Re' (ch_stuck K K' l HK S)).
  - apply Forall2_app_inv_l in FP. destruct FP as (A' & r & FA & FP & ->). inversion FP as [|? (q', e') ? B' (Tq & Ee) FB]; subst.
    cbn [fst snd] in *. destruct Tq as (Tq & _).
    exact (pp_parser _ _ _ _ _ _ _ _ Re' (ch_no_literal K K' l HK NL) (ch_try_none A A' l FA T) (ch_panic q q' l Tq E)).
  - apply Forall2_app_inv_l in FP. destruct FP as (A' & r & FA & FP & ->). inversion FP as [|? (q', (po', co')) ? B' (Tq & Ep & Ec) FB]; subst.
    cbn [fst snd] in *. destruct Tq as (Tq & _). inversion Ec as [|? c' Rc]; subst co'.
    apply (pp_below _ _ _ _ _ _ _ _ _ (ch v) Re' (ch_no_literal K K' l HK NL) (ch_try_none A A' l FA T)).
    + rewrite (ch_capture q q' l Tq), E. reflexivity.
    + rewrite ch_skip. apply IH. exact Rc.
Qed.
Lemma ch_literal_panics L l : literal_panics L l -> forall L', lrel L L' -> literal_panics L' (ch l).
Proof.
  intros H L' HL. inversion H as [? ? K P m Re S|? ? K P m Re N T]; subst;
    destruct (ch_reaches _ _ _ _ Re L' HL) as ([K' P'] & HM & Re'); apply lrel_iff in HM; destruct HM as (HK & _).
  - exact (lp_stuck _ _ _ _ _ Re' (ch_stuck K K' m HK S)).
  - exact (lp_torn _ _ _ _ _ Re' (no_route_ch K K' m HK N) (ch_torn K K' m HK T)).
Qed.
End Exchange.

(** ** The other way round *)
Lemma exchange_sym f g : exchange f g -> exchange g f.
Proof.
  intros X. pose proof (f_one f g X) as O. destruct X as (G & F & K). split; [exact F|]. split; [exact G|].
  intros b E. apply O. rewrite F. symmetry. apply K. exact E.
Qed.
Lemma map_back f g s : exchange f g -> map g (map f s) = s.
Proof. intros (G & _). rewrite map_map, (map_ext _ (fun b => b)) by exact G. apply map_id. Qed.
Lemma set_back f g s s' : exchange f g -> exchanged_set f s s' -> exchanged_set g s' s.
Proof.
  intros (G & F & _) (A1 & A2 & A3 & A4). repeat split; try congruence; intros I.
  - apply A4 in I. rewrite F in I. exact I.
  - apply A4. rewrite F. exact I.
Qed.
Lemma twin_back f g q q' : exchange f g -> twin f q q' -> twin g q' q.
Proof.
  intros X (E & S & S'). split; [|auto]. destruct q, q'; cbn [exchanged_parser] in *; try contradiction; try exact (set_back f g _ _ X E).
  destruct E as (E1 & E2). split; [congruence|]. rewrite E2. destruct (gp_end_string p); cbn [option_map]; [|reflexivity].
  rewrite (map_back f g _ X). reflexivity.
Qed.
Lemma orel_flip {A B} (P : A -> B -> Prop) (Q : B -> A -> Prop) o o' : (forall a b, o = Some a -> P a b -> Q b a) -> orel P o o' -> orel Q o' o.
Proof. intros H E. destruct E as [|a b E]; constructor. apply H; [reflexivity|exact E]. Qed.
Lemma forall2_flip_in {A B} (P : A -> B -> Prop) (Q : B -> A -> Prop) l l' :
  (forall a b, In a l -> P a b -> Q b a) -> Forall2 P l l' -> Forall2 Q l' l.
Proof.
  intros H F. induction F as [|a b l l' E F IH]; constructor; [apply H; [left; reflexivity|exact E]|].
  apply IH. intros a0 b0 I. apply H. right. exact I.
Qed.
Lemma lrel_back f g R (X : exchange f g) L : forall L', lrel f R L L' -> lrel g (fun y x => R x y) L' L.
Proof.
  induction L as [K P IHK IHP] using level_nested_ind. intros [K' P'] H. apply lrel_iff in H.
  destruct H as ((K1 & F & Pm) & S & S' & FP). apply lrel_iff. split; [|split; [exact S'|split; [exact S|]]].
  - assert (Forall2 (krel g (fun y x => R x y)) K1 K) as F1.
    { apply (forall2_flip_in (krel f R)); [|exact F]. intros (k, (po, co)) (k', e') I (E & Ep & Ec). cbn [fst snd] in *. split; [|split].
      - cbn [fst]. rewrite E, (map_back f g _ X). reflexivity.
      - cbn [fst snd]. apply (orel_flip R); [auto|exact Ep].
      - cbn [fst snd]. apply (orel_flip (lrel f R)); [|exact Ec]. intros c c' -> Rc. exact (IHK k po c I c' Rc). }
    destruct (Permutation_Forall2 Pm F1) as (K2 & Pm2 & F2). exists K2. split; [exact F2|]. apply Permutation_sym. exact Pm2.
  - apply (forall2_flip_in (prel f R)); [|exact FP]. intros (q, (po, co)) (q', e') I (E & Ep & Ec). cbn [fst snd] in *. split; [|split].
    + apply (twin_back f g); [exact X|exact E].
    + cbn [fst snd]. apply (orel_flip R); [auto|exact Ep].
    + cbn [fst snd]. apply (orel_flip (lrel f R)); [|exact Ec]. intros c c' -> Rc. exact (IHP q po c I c' Rc).
Qed.

(** ** Lists of patterns *)
Definition same_place (ps ps' : list pattern) (x x' : pattern) : Prop :=
  exists i p p', nth_error ps i = Some p /\ nth_error ps' i = Some p' /\ x = stripped p /\ x' = stripped p'.

Lemma tokens_twin f p p' : exchanged f p p' -> valid_pattern p -> valid_pattern p' -> tokens_rel f (pat_tokens p) (pat_tokens p').
Proof.
  unfold exchanged, valid_pattern, tokens_rel. intros F V V'. revert V V'.
  induction F as [|t t' ts ts' E F IH]; intros V V'; constructor; inversion V; inversion V'; subst; [|apply IH; assumption].
  destruct t as [q|l], t' as [q'|l']; cbn [exchanged_token] in E; try contradiction; [|exact E]. split; [exact E|].
  assert (forall q, valid_parser q -> sorted_sets q) as VS by (intros [s|s|x] VV; cbn [valid_parser sorted_sets] in *; try apply VV; exact I).
  split; apply VS; assumption.
Qed.

Lemma s_adds_rel f g (X : exchange f g) R ps : forall ps', Forall2 (exchanged f) ps ps' -> Forall valid_pattern ps -> Forall valid_pattern ps' ->
  Forall2 (fun p p' => R (stripped p) (stripped p')) ps ps' -> lrel f R (s_adds ps) (s_adds ps').
Proof.
  unfold s_adds. assert (lrel f R level_empty level_empty) as H0 by apply lrel_empty. revert H0.
  generalize level_empty at 1 3. generalize level_empty. intros L' L HL ps' F V V' FR. revert L L' HL V V' FR.
  induction F as [|p p' ps ps' E F IH]; intros L L' HL V V' FR; cbn [fold_left]; [exact HL|].
  inversion V; inversion V'; inversion FR; subst. apply IH; try assumption. unfold s_add.
  apply (ch_insert f g X); [apply tokens_twin; assumption|exact HL|assumption].
Qed.
Lemma same_places ps ps' : length ps = length ps' -> Forall2 (fun p p' => same_place ps ps' (stripped p) (stripped p')) ps ps'.
Proof.
  intros E. assert (forall a b qs qs', ps = a ++ qs -> ps' = b ++ qs' -> length a = length b -> length qs = length qs' ->
    Forall2 (fun p p' => same_place ps ps' (stripped p) (stripped p')) qs qs') as H.
  { intros a b qs. revert a b. induction qs as [|q qs IH]; intros a b [|q' qs'] Ea Eb El Eq0; try discriminate Eq0; constructor.
    - exists (length a), q, q'. split; [rewrite Ea, nth_error_app2, Nat.sub_diag; [reflexivity|lia]|].
      split; [rewrite Eb, El, nth_error_app2, Nat.sub_diag; [reflexivity|lia]|]. auto.
    - apply (IH (a ++ [q]) (b ++ [q'])); [rewrite <- app_assoc; exact Ea|rewrite <- app_assoc; exact Eb|rewrite !app_length; simpl; lia|].
      simpl in Eq0. lia. }
  apply (H [] []); auto.
Qed.
Lemma adding_exchanged f g (X : exchange f g) ps ps' : Forall2 (exchanged f) ps ps' -> Forall valid_pattern ps -> Forall valid_pattern ps' ->
  (exists A p B, ps = A ++ p :: B /\ add_panics (s_adds A) p) -> exists A p B, ps' = A ++ p :: B /\ add_panics (s_adds A) p.
Proof.
  intros F V V' (A & p & B & -> & l & rest & Et & H). apply Forall2_app_inv_l in F. destruct F as (A' & r & FA & F & ->).
  inversion F as [|? p' ? B' E FB]; subst. exists A', p', B'. split; [reflexivity|]. unfold exchanged in E. rewrite Et in E.
  inversion E as [|? t' ? ts' Ht Hts]; subst. destruct t' as [q'|l']; cbn [exchanged_token] in Ht; [contradiction|]. subst l'.
  exists (map f l), ts'. split; [congruence|]. apply Forall_app in V, V'. apply (ch_literal_panics f g X (fun _ _ => True) (s_adds A)); [exact H|].
  apply (s_adds_rel f g X); [exact FA|apply V|apply V'|]. clear -FA. induction FA; constructor; auto.
Qed.
Lemma exchanged_back f g ps ps' : exchange f g -> Forall2 (exchanged f) ps ps' -> Forall2 (exchanged g) ps' ps.
Proof.
  intros X F. apply (forall2_flip_in (exchanged f)); [|exact F]. intros p p' _ E. unfold exchanged in *.
  apply (forall2_flip_in (exchanged_token f)); [|exact E]. intros [q|l] [q'|l'] _ Et; cbn [exchanged_token] in *; try contradiction.
  - destruct q, q'; cbn [exchanged_parser] in *; try contradiction; try exact (set_back f g _ _ X Et).
    destruct Et as (E1 & E2). split; [congruence|]. rewrite E2. destruct (gp_end_string p0); cbn [option_map]; [|reflexivity].
    rewrite (map_back f g _ X). reflexivity.
  - subst l'. rewrite (map_back f g _ X). reflexivity.
Qed.

Theorem trie_exchanged f g sip sip' ps ps' :
  exchange f g -> Forall2 (exchanged f) ps ps' -> Forall valid_pattern ps -> Forall valid_pattern ps' ->
  collision_free sip ps -> collision_free sip' ps' ->
  match Trie.add_patterns sip Trie.tree_new ps, Trie.add_patterns sip' Trie.tree_new ps' with
  | Ret t, Ret t' => forall text, utf8 text -> answers_exchanged f ps ps' (Trie.parse t text) (Trie.parse t' (map f text))
  | Panic, Panic => True
  | _, _ => False
  end.
Proof.
  intros X F V V' C C'. pose proof (exchange_sym f g X) as Y. pose proof (exchanged_back f g ps ps' X F) as F'.
  destruct (adding_panics sip ps V C) as (P & N), (adding_panics sip' ps' V' C') as (P' & N').
  pose proof (adding_exchanged f g X ps ps' F V V') as H1. pose proof (adding_exchanged g f Y ps' ps F' V' V) as H2.
  destruct (Trie.add_patterns sip Trie.tree_new ps) as [t| |] eqn:E.
  - destruct (Trie.add_patterns sip' Trie.tree_new ps') as [t'| |] eqn:E';
      [|exfalso; pose proof (proj1 P' eq_refl) as Z; apply H2 in Z; apply P in Z; discriminate Z|destruct (N' ltac:(discriminate)) as (? & Z); discriminate Z].
    intros text U. pose proof (ch_utf8 f g X text U) as U'.
    destruct (matching_panics sip ps t text V C E U) as (Q & G), (matching_panics sip' ps' t' (map f text) V' C' E' U') as (Q' & G').
    pose proof (s_adds_rel f g X (same_place ps ps') ps ps' F V V' (same_places ps ps' (forall2_len _ _ _ F))) as L.
    pose proof (lrel_back f g _ X _ _ L) as L'.
    destruct (Trie.parse t text) as [o| |] eqn:T.
    + assert (~ parse_panics (s_adds ps) text) as NP by (intros Z; apply Q in Z; discriminate Z).
      assert (~ parse_panics (s_adds ps') (map f text)) as NP'.
      { intros Z. apply NP. rewrite <- (map_back f g text X). exact (ch_parse_panics g f Y _ _ _ Z _ L'). }
      rewrite (G' NP'). specialize (G NP). injection G as ->. pose proof (ch_s_parse f g X _ _ _ text L) as M.
      destruct M as [|r r' (M1 & M2)]; [exact I|]. split; [exact M1|exact M2].
    + pose proof (ch_parse_panics f g X _ _ _ (proj1 Q eq_refl) _ L) as Z. apply Q' in Z. rewrite Z. exact I.
    + exfalso. exact (Trie_total.parse_terminates t text T).
  - rewrite (proj2 P' (H1 (proj1 P eq_refl))). exact I.
  - destruct (N ltac:(discriminate)) as (? & Z). discriminate Z.
Qed.
