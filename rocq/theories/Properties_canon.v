(** * Property C141: the shape of loaded tries *)
From Verif Require Import Base Parsers Pattern Spec Spec_canon Trie Canon_claims Anyhash_claims Siphash Deciders Tests.

(** ** C141: a loaded trie has no idle nodes: literals side by side differ in their
    first byte and are ordered by it, parsers side by side differ, a node ends a
    literal of some pattern or is where at least two of them part, and every node
    holds a pattern or has nodes below; whatever the hash function *)
Theorem C141_compact :
  forall sip ps t, Forall valid_pattern ps -> add_patterns sip tree_new ps = Ret t -> compact t.
Proof. exact loaded_compact_any. Qed.
Print Assumptions C141_compact.

(** So it is determined by the literals and parsers it holds. *)
Theorem C141_determined :
  forall t t', compact t -> compact t' -> content_of t = content_of t' -> t = t'.
Proof. exact compact_determined. Qed.
Print Assumptions C141_determined.

(** "ab" and "ac" part after "a", which is no literal of any pattern. *)
Definition canon_demo : list pattern := [tpat 1 ($"ab"); tpat 2 ($"ac%{INT:n}"); tpat 3 ($"b"); tpat 4 ($"%{INT:n}")].
Example C141_example :
  Forall valid_pattern canon_demo /\
  match trie canon_demo with
  | Ret (Tree [LNode a false None (Some (Tree [LNode b true (Some _) None; LNode c true None (Some _)] []));
               LNode b' true (Some _) None] [PNode _ (Some _) None]) =>
      a = $"a" /\ b = $"b" /\ c = $"c" /\ b' = $"b"
  | _ => False
  end.
Proof. split; [apply valid_patterns_sound; vm_compute; reflexivity|vm_compute; repeat split; reflexivity]. Qed.

(** A trie that is not compact answers alike but is another one. *)
Example C141_not_compact :
  let p := stripped (tpat 1 ($"ab")) in
  let t := Tree [LNode ($"a") false None (Some (Tree [LNode ($"b") true (Some p) None] []))] [] in
  let t' := Tree [LNode ($"ab") true (Some p) None] [] in
  content_of t = content_of t' /\ t <> t' /\ ~ compact t /\ compact t'.
Proof.
  cbv zeta. split; [vm_compute; reflexivity|]. split; [discriminate|]. split.
  - intros H.
    assert (forall lcs pcs, compact (Tree lcs pcs) -> forall n, In n lcs -> compact_literal n) as Hl
      by (intros lcs pcs C; inversion C; assumption).
    destruct (Hl _ _ H _ (or_introl eq_refl)) as (_ & _ & a & b & more & E). discriminate E.
  - constructor.
    + intros i j x y L Hi Hj. destruct j as [|[|j]]; [inversion L|discriminate|discriminate].
    + intros i j x y L Hi. destruct i; discriminate.
    + intros n [<-|[]]. left. discriminate.
    + intros n [].
    + intros n c [<-|[]] E. discriminate E.
    + intros n c [].
Qed.
