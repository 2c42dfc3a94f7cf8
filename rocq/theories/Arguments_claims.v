(** * Argument lists of parsers *)
From Verif Require Import Base Base_facts Parsers Pattern Grammar Spec Spec_grammar Grammar_claims Spec_arguments.

Lemma last_split : forall (c : byte) a u b v, a ++ c :: u = b ++ c :: v -> ~ In c u -> ~ In c v -> a = b /\ u = v.
Proof.
  intros c a. induction a as [|x a IH]; intros u b v E Hu Hv; destruct b as [|y b]; simpl in E.
  - injection E as E. auto.
  - injection E as -> E. exfalso. apply Hu. rewrite E. apply in_or_app. right. left. reflexivity.
  - injection E as -> E. exfalso. apply Hv. rewrite <- E. apply in_or_app. right. left. reflexivity.
  - injection E as -> E. destruct (IH _ _ _ E Hu Hv) as [-> ->]. auto.
Qed.

Lemma name_char_plain : forall b, name_char b \/ b = x2d -> b <> x28 /\ b <> x29 /\ b <> x7d.
Proof.
  intros b [[[[H|H]|[->| ->]]|H]| ->].
  all: try (repeat split; discriminate).
  all: repeat split; intros ->; simpl in H; revert H; unfold digit; vm_compute; intros [A B]; try (apply A; reflexivity); try (apply B; reflexivity).
Qed.
Lemma name_plain : forall n b, name n -> In b n -> b <> x28 /\ b <> x29 /\ b <> x7d.
Proof.
  intros n b H I0. apply name_char_plain. destruct H as [c Hc|c d s Hc Hd Hs].
  - destruct I0 as [<-|[]]. left. left. exact Hc.
  - destruct I0 as [<-|[<-|I0]]; [left; left; exact Hc|exact Hd|]. left. rewrite Forall_forall in Hs. apply Hs, I0.
Qed.
Lemma name_text_plain : forall t n b, name_text t n -> In b t -> b <> x28 /\ b <> x29 /\ b <> x7d.
Proof.
  intros t n b H I0. destruct H as [|n Hn]; [destruct I0|]. simpl in I0. destruct I0 as [<-|I0]; [repeat split; discriminate|]. exact (name_plain _ _ Hn I0).
Qed.
Lemma name_text_one : forall t n n', name_text t n -> name_text t n' -> n = n'.
Proof.
  intros t n n' H H'. inversion H; subst; inversion H'; subst; congruence.
Qed.

(** The first item of a text that begins with %{ is a parser. *)
Lemma first_item : forall r is, items_text ($"%{" ++ r) is -> texts_apart is -> is <> [] ->
  exists t i s is', is = i :: is' /\ items_text s is' /\ t ++ s = $"%{" ++ r /\ item_text t i /\ is_text i = false.
Proof.
  intros r is H Ha Hne. inversion H as [E|t i s is' Hi Hs E]; subst.
  exists t, i, s, is'. split; [reflexivity|]. split; [exact Hs|]. split; [exact E|]. split; [exact Hi|].
  destruct Hi as [raw Hr Ho|nt n _|chars bt bs nt n _ _ _ _|bt bs nt n _ _]; try reflexivity.
  exfalso. destruct raw as [|a raw]; [congruence|]. simpl in E. injection E as -> E.
  destruct raw as [|b raw].
  - simpl in E. inversion Hs as [E'|t' i' s' is'' Hi' Hs' E']; subst; [discriminate|].
    destruct Hi'; simpl in E'; try discriminate E'. apply (proj1 Ha). split; reflexivity.
  - injection E as -> E. apply Ho. exists [], raw. reflexivity.
Qed.

(** What can follow %{ *)
Lemma parser_types : forall r ts, utf8 r -> compile ($"%{" ++ r) = Ret (Ok ts) ->
  prefix_of ($"GREEDY:") r \/ prefix_of ($"GREEDY}") r \/ prefix_of ($"SET(""") r \/
  prefix_of ($"INT(") r \/ prefix_of ($"INT:") r \/ prefix_of ($"INT}") r.
Proof.
  intros r ts U E. apply compile_accepts in E; [|apply utf8_app; [apply ascii_utf8; reflexivity|exact U]].
  destruct E as (is & (Hi & Hn & Ha) & _).
  destruct (first_item _ _ Hi Ha Hn) as (t & i & s & is' & _ & _ & Et & Ht & Hx).
  destruct Ht as [raw _ _|nt n Hnt|chars bt bs nt n _ _ _ _|bt bs nt n Hb Hnt]; [discriminate Hx| | |].
  - destruct Hnt as [|n _].
    + right. left. exists s. simpl in Et. injection Et as Et. rewrite <- Et. reflexivity.
    + left. exists ((n ++ $"}") ++ s). simpl in Et. injection Et as Et. rewrite <- Et. reflexivity.
  - right. right. left. exists ((chars ++ $"""" ++ bt ++ $")" ++ nt ++ $"}") ++ s). simpl in Et. injection Et as Et. rewrite <- Et. reflexivity.
  - right. right. right. destruct Hb as [|b bs _].
    + right. destruct Hnt as [|n _].
      * right. exists s. simpl in Et. injection Et as Et. rewrite <- Et. reflexivity.
      * left. exists ((n ++ $"}") ++ s). simpl in Et. injection Et as Et. rewrite <- Et. reflexivity.
    + left. exists (((b ++ $")") ++ nt ++ $"}") ++ s). simpl in Et. injection Et as Et. rewrite <- Et. reflexivity.
Qed.

(** A text whose only closing brace is its last character is one item. *)
Lemma one_brace : forall r is, ~ In x7d r -> items_text ($"%{" ++ r ++ $"}") is -> texts_apart is -> is <> [] ->
  exists i, is = [i] /\ item_text ($"%{" ++ r ++ $"}") i /\ is_text i = false.
Proof.
  intros r is Hr Hi Ha Hn. destruct (first_item _ _ Hi Ha Hn) as (t & i & s & is' & -> & Hs & Et & Ht & Hx).
  assert (exists t', t = t' ++ $"}") as (t' & Et').
  { destruct Ht as [raw _ _|nt n Hnt|chars bt bs nt n _ _ _ _|bt bs nt n Hb Hnt]; [discriminate Hx| | |]; eexists; rewrite ?app_assoc; reflexivity. }
  assert (s = []) as ->.
  { destruct s as [|x s]; [reflexivity|]. exfalso.
    destruct (exists_last (l := x :: s)) as (s' & y & Es); [discriminate|]. rewrite Es, Et' in Et.
    rewrite app_assoc in Et. change ($"%{" ++ r ++ $"}") with ($"%{" ++ r ++ [x7d]) in Et. rewrite (app_assoc _ r) in Et.
    apply app_inj_tail in Et. destruct Et as [Et _].
    assert (In x7d ($"%{" ++ r)) as Hb. { rewrite <- Et. apply in_or_app. left. apply in_or_app. right. left. reflexivity. }
    simpl in Hb. destruct Hb as [Hb|[Hb|Hb]]; try discriminate. contradiction. }
  rewrite app_nil_r in Et. subst t. inversion Hs as [E|t1 i1 s1 is1 Hi1 _ E]; subst.
  - exists i. auto.
  - exfalso. destruct t1; [|discriminate E]. inversion Hi1; congruence.
Qed.

Lemma item_one : forall t i, item_text t i -> is_text i = false -> pattern_text t [i].
Proof.
  intros t i H Hx. split; [|split; [discriminate|exact I]]. rewrite <- (app_nil_r t). constructor; [exact H|constructor].
Qed.

Lemma name_text_brace : forall t n, name_text t n -> ~ In x29 t /\ ~ In x7d t /\ ~ In x28 t.
Proof. intros t n H. repeat split; intros I0; apply (name_text_plain _ _ _ H) in I0; tauto. Qed.

Lemma int_accepted : forall a nt n ts, utf8 a -> ~ In x7d a -> name_text nt n ->
  (compile ($"%{INT(" ++ a ++ $")" ++ nt ++ $"}") = Ret (Ok ts) <->
   exists bs p, int_arguments a bs /\ set_with digit bs n p /\ ts = [Parser (PInt p)]).
Proof.
  intros a nt n ts U Ha Hn. destruct (name_text_brace _ _ Hn) as (Hp & Hb & Ho).
  rewrite compile_accepts.
  2:{ apply utf8_app; [apply ascii_utf8; reflexivity|]. apply utf8_app; [exact U|]. apply ascii_utf8. rewrite !ascii_app, (name_text_ascii _ _ Hn). reflexivity. }
  split.
  - intros (is & (Hi & Hne & Hta) & Hm).
    replace ($"%{INT(" ++ a ++ $")" ++ nt ++ $"}") with ($"%{" ++ ($"INT(" ++ a ++ $")" ++ nt) ++ $"}") in Hi by (rewrite <- !app_assoc; reflexivity).
    assert (~ In x7d ($"INT(" ++ a ++ $")" ++ nt)) as Hno.
    { intros I0. apply in_app_or in I0 as [I0|I0]; [simpl in I0; intuition discriminate|]. apply in_app_or in I0 as [I0|I0]; [contradiction|].
      simpl in I0. destruct I0 as [I0|I0]; [discriminate|contradiction]. }
    destruct (one_brace _ _ Hno Hi Hta Hne) as (i & -> & Ht & Hx).
    remember ($"%{" ++ ($"INT(" ++ a ++ $")" ++ nt) ++ $"}") as T eqn:ET.
    destruct Ht as [raw _ _|nt' n' Hnt|chars bt bs nt' n' _ _ _ _|bt bs nt' n' Hbt Hnt]; [discriminate Hx|discriminate ET|discriminate ET|].
    destruct (name_text_brace _ _ Hnt) as (Hp' & Hb' & Ho').
    destruct Hbt as [|b bs Hbs].
    + exfalso. destruct Hnt; discriminate ET.
    + simpl in ET. injection ET as ET. rewrite <- !app_assoc in ET.
      rewrite !app_assoc in ET. apply app_inj_tail in ET. destruct ET as [ET _]. rewrite <- !app_assoc in ET. simpl in ET.
      destruct (last_split _ _ _ _ _ ET Hp' Hp) as [-> ->]. pose proof (name_text_one _ _ _ Hn Hnt) as <-.
      inversion Hm as [| | | | |bs' n'' p is' ts' Hset Hm']; subst. inversion Hm'; subst.
      exists bs, p. split; [destruct Hbs; [left|right; assumption]|]. split; [exact Hset|reflexivity].
  - intros (bs & p & Hargs & Hset & ->). exists [IInt bs n]. split.
    + apply item_one; [|reflexivity].
      replace ($"%{INT(" ++ a ++ $")" ++ nt ++ $"}") with ($"%{INT" ++ ($"(" ++ a ++ $")") ++ nt ++ $"}") by (rewrite <- !app_assoc; reflexivity).
      apply text_int; [|exact Hn]. constructor. destruct Hargs; [left|right; assumption].
    + constructor; [exact Hset|constructor].
Qed.

Lemma set_accepted : forall a nt n ts, utf8 a -> ~ In x7d a -> name_text nt n ->
  (compile ($"%{SET(" ++ a ++ $")" ++ nt ++ $"}") = Ret (Ok ts) <->
   exists chars bs p, set_arguments a chars bs /\ set_with (fun b => In b chars) bs n p /\ ts = [Parser (PSet p)]).
Proof.
  intros a nt n ts U Ha Hn. destruct (name_text_brace _ _ Hn) as (Hp & Hb & Ho).
  rewrite compile_accepts.
  2:{ apply utf8_app; [apply ascii_utf8; reflexivity|]. apply utf8_app; [exact U|]. apply ascii_utf8. rewrite !ascii_app, (name_text_ascii _ _ Hn). reflexivity. }
  split.
  - intros (is & (Hi & Hne & Hta) & Hm).
    replace ($"%{SET(" ++ a ++ $")" ++ nt ++ $"}") with ($"%{" ++ ($"SET(" ++ a ++ $")" ++ nt) ++ $"}") in Hi by (rewrite <- !app_assoc; reflexivity).
    assert (~ In x7d ($"SET(" ++ a ++ $")" ++ nt)) as Hno.
    { intros I0. apply in_app_or in I0 as [I0|I0]; [simpl in I0; intuition discriminate|]. apply in_app_or in I0 as [I0|I0]; [contradiction|].
      simpl in I0. destruct I0 as [I0|I0]; [discriminate|contradiction]. }
    destruct (one_brace _ _ Hno Hi Hta Hne) as (i & -> & Ht & Hx).
    remember ($"%{" ++ ($"SET(" ++ a ++ $")" ++ nt) ++ $"}") as T eqn:ET.
    destruct Ht as [raw _ _|nt' n' Hnt|chars bt bs nt' n' Hc Hq Hbt Hnt|bt bs nt' n' Hbt Hnt]; [discriminate Hx|discriminate ET| |discriminate ET].
    destruct (name_text_brace _ _ Hnt) as (Hp' & Hb' & Ho').
    simpl in ET. injection ET as ET.
    assert ((($"""" ++ chars ++ $"""" ++ bt) ++ x29 :: nt') = a ++ x29 :: nt) as ET'.
    { apply (app_inv_tail ($"}")). cbn [app]. rewrite <- !app_assoc. cbn [app]. rewrite <- !app_assoc in ET. cbn [app] in ET. exact ET. }
    destruct (last_split _ _ _ _ _ ET' Hp' Hp) as [<- ->]. pose proof (name_text_one _ _ _ Hn Hnt) as <-.
    inversion Hm as [| | | |chars' bs' n'' p is' ts' Hset Hm'|]; subst. inversion Hm'; subst.
    exists chars, bs, p. split; [|split; [exact Hset|reflexivity]].
    destruct Hbt as [|c t bs Hcm Hob]; [rewrite app_nil_r; apply set_arguments_alone; assumption|].
    destruct Hob as [|t bs Hob]; [rewrite app_nil_r; apply set_arguments_comma; assumption|apply set_arguments_more; assumption].
  - intros (chars & bs & p & Hargs & Hset & ->). exists [ISet chars bs n]. split; [|constructor; [exact Hset|constructor]].
    apply item_one; [|reflexivity].
    destruct Hargs as [chars Hc Hq|chars c Hc Hq Hcm|chars c t bs Hc Hq Hcm Hob].
    + replace ($"%{SET(" ++ ($"""" ++ chars ++ $"""") ++ $")" ++ nt ++ $"}") with ($"%{SET(""" ++ chars ++ $"""" ++ [] ++ $")" ++ nt ++ $"}") by (simpl; repeat (rewrite <- !app_assoc; simpl); reflexivity).
      apply text_set; try assumption. constructor.
    + replace ($"%{SET(" ++ ($"""" ++ chars ++ $"""" ++ c) ++ $")" ++ nt ++ $"}") with ($"%{SET(""" ++ chars ++ $"""" ++ (c ++ []) ++ $")" ++ nt ++ $"}") by (simpl; repeat (rewrite <- !app_assoc; simpl); reflexivity).
      apply text_set; try assumption. constructor; [assumption|constructor].
    + replace ($"%{SET(" ++ ($"""" ++ chars ++ $"""" ++ c ++ t) ++ $")" ++ nt ++ $"}") with ($"%{SET(""" ++ chars ++ $"""" ++ (c ++ t) ++ $")" ++ nt ++ $"}") by (simpl; repeat (rewrite <- !app_assoc; simpl); reflexivity).
      apply text_set; try assumption. constructor; [assumption|constructor; assumption].
Qed.

(** A double quote in the bounds is never accepted. *)
Lemma readme_quoted_refused : exists a bs, readme_arguments a bs /\ utf8 a /\
  (exists e, compile ($"%{INT(" ++ a ++ $")}") = Ret (Err e)) /\
  (exists e, compile ($"%{SET(""ab""," ++ a ++ $")}") = Ret (Err e)).
Proof.
  exists ($"min_len=""1"""), [MinLen 1]. split; [|split; [apply ascii_utf8; reflexivity|split; eexists; vm_compute; reflexivity]].
  apply readme_one. apply (readme_quoted_min ($"1")). apply (number_digits ($"1")); [discriminate| |vm_compute; reflexivity].
  constructor; [vm_compute; split; discriminate|constructor].
Qed.
