(** * How loading ends (C140) *)
From Verif Require Import Base Utils Parsers Pattern Spec Source Spec_source TrieSpec TableSpec
  Spec_panics Spec_table_panics.
From Verif Require Trie SuffixArray.

Section Ending.
  Context {M : Type} (ops : matcher_ops M).

  (** The pattern [p] breaks the matcher [m']: it cannot be added, or
      one of its test messages cannot be matched.  They are tried from the back, as
      far as they pass. *)
  Inductive breaks (m' : M) (p : pattern) : Prop :=
  | breaks_adding : mo_add_pattern ops m' (untested p) = Panic -> breaks m' p
  | breaks_test m'' a t b :
      mo_add_pattern ops m' (untested p) = Ret m'' -> tests p = a ++ t :: b ->
      (forall t', In t' b -> passes ops m'' p t') -> mo_parse ops m'' (tm_message t) = Panic -> breaks m' p.

  (** Checked loading of [src] meets such a pattern before any error. *)
  Definition checked_breaks (src : list build_result) : Prop :=
    exists before p after m', src = before ++ Ok p :: after /\ loads ops (mo_new ops) before m' /\ breaks m' p.

  (** With errors ignored all patterns before it were added. *)
  Definition ignoring_breaks (src : list build_result) : Prop :=
    exists before p after m', src = before ++ Ok p :: after /\
      adds ops (mo_new ops) (map untested (patterns_of before)) = Ret m' /\ breaks m' p.

  (** The matcher answers or panics. *)
  Definition matcher_ends : Prop :=
    (forall m text, mo_parse ops m text <> OutOfFuel) /\ (forall m p, mo_add_pattern ops m p <> OutOfFuel).
End Ending.

(** ** In terms of the patterns

    [p] breaks a trie of [qs]: its first literal meets another one inside a
    character, or a test message does or reaches a parser that panics. *)
Definition breaks_trie (sip : list byte -> N) (qs : list pattern) (m : Trie.tree) (p : pattern) : Prop :=
  add_panics (s_adds (map untested qs)) (untested p) \/
  ~ add_panics (s_adds (map untested qs)) (untested p) /\
  exists m' a t b,
    mo_add_pattern (trie_ops sip) m (untested p) = Ret m' /\ tests p = a ++ t :: b /\
    (forall t', In t' b -> passes (trie_ops sip) m' p t') /\
    parse_panics (s_adds (map untested (qs ++ [p]))) (tm_message t).

(** Adding to a suffix table does not panic. *)
Definition breaks_table (sip : list byte -> N) (qs : list pattern) (m : SuffixArray.table) (p : pattern) : Prop :=
  exists m' a t b,
    mo_add_pattern (table_ops sip) m (untested p) = Ret m' /\ tests p = a ++ t :: b /\
    (forall t', In t' b -> passes (table_ops sip) m' p t') /\
    table_panics (t_adds (map untested (qs ++ [p]))) (tm_message t).
