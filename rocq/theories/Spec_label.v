(** * Other uuids and names, for C158 and C159 *)
From Verif Require Import Base Pattern Source.

Section Relabel.
  (** [f] changes the uuids, [h] the names of patterns. *)
  Variables (f : uuid -> uuid) (h : option str -> option str).

  Definition relabel (p : pattern) : pattern :=
    {| pat_name := h (pat_name p); pat_uuid := f (pat_uuid p); pat_tokens := pat_tokens p;
       pat_values := pat_values p; pat_tags := pat_tags p; pat_test_messages := pat_test_messages p |}.

  (** The same error about the pattern with the other uuid. *)
  Definition relabel_test_error (e : tm_error) : tm_error :=
    match e with
    | ValueNotMatch u key expected got => ValueNotMatch (f u) key expected got
    | KeyNotFound u key => KeyNotFound (f u) key
    | TestMessageDoesntMatch u message => TestMessageDoesntMatch (f u) message
    | MatchedToOtherPattern u u' message => MatchedToOtherPattern (f u) (f u') message
    | UnexpectedTags u expected got => UnexpectedTags (f u) expected got
    end.
  Definition relabel_error (e : build_error) : build_error :=
    match e with TestMessageError e => TestMessageError (relabel_test_error e) | _ => e end.
  Definition relabel_item (x : build_result) : build_result :=
    match x with Ok p => Ok (relabel p) | Err e => Err (relabel_error e) end.

  (** The same answer with the other labels of the pattern. *)
  Definition relabel_answer (o : outcome (option match_result)) : outcome (option match_result) :=
    match o with
    | Ret (Some r) => Ret (Some {| mr_pattern := relabel (mr_pattern r); mr_values := mr_values r |})
    | Ret None => Ret None
    | Panic => Panic
    | OutOfFuel => OutOfFuel
    end.

  Definition answers_relabelled {M} (ops : matcher_ops M) (m m' : M) : Prop :=
    forall text, mo_parse ops m' text = relabel_answer (mo_parse ops m text).

  Definition loading_relabelled {M} (ops : matcher_ops M) (o o' : outcome (result M build_error)) : Prop :=
    match o, o' with
    | Ret (Ok m), Ret (Ok m') => answers_relabelled ops m m'
    | Ret (Err e), Ret (Err e') => e' = relabel_error e
    | Panic, Panic => True
    | OutOfFuel, OutOfFuel => True
    | _, _ => False
    end.

  Definition adding_relabelled {M} (ops : matcher_ops M) (o o' : outcome M) : Prop :=
    match o, o' with
    | Ret m, Ret m' => answers_relabelled ops m m'
    | Panic, Panic => True
    | OutOfFuel, OutOfFuel => True
    | _, _ => False
    end.
End Relabel.

(** Different uuids stay different. *)
Definition uuids_apart (f : uuid -> uuid) : Prop := forall u u', f u = f u' -> u = u'.
