(** * Specification of test messages and of loading *)
From Verif Require Import Base Utils Parsers Pattern Spec Source.

(** ** Association lists: the last binding of a key counts

    In a map (no key occurs twice) this is the only one. *)
Definition binds {A} (m : list (str * A)) (k : str) (v : A) : Prop :=
  exists a b, m = a ++ (k, v) :: b /\ ~ In k (map fst b).

(** ** Test messages *)
Definition has_tags (expected got : option (list str)) : Prop :=
  match expected with
  | None => True
  | Some es => exists gs, got = Some gs /\ forall t, In t es -> In t gs
  end.
(** Values of a match: what was parsed, otherwise what the pattern brings along. *)
Definition static_value (p : pattern) (k v : str) : Prop :=
  exists m, pat_values p = Some m /\ binds m k v.
Definition value_of (r : match_result) (k v : str) : Prop :=
  binds (mr_values r) k v \/ (~ In k (map fst (mr_values r)) /\ static_value (mr_pattern r) k v).
Definition satisfies (m : test_message) (r : match_result) : Prop :=
  has_tags (tm_tags m) (pat_tags (mr_pattern r)) /\
  forall k v, In (k, v) (tm_values m) -> value_of r k v.

(** Why it does not: tags come first, then the expected values in key order. *)
Inductive mismatch (m : test_message) (r : match_result) : tm_error -> Prop :=
| mismatch_tags :
    ~ has_tags (tm_tags m) (pat_tags (mr_pattern r)) ->
    mismatch m r (UnexpectedTags (pat_uuid (mr_pattern r)) (tm_tags m) (pat_tags (mr_pattern r)))
| mismatch_value a k v b w :
    has_tags (tm_tags m) (pat_tags (mr_pattern r)) -> tm_values m = a ++ (k, v) :: b ->
    (forall k' v', In (k', v') a -> value_of r k' v') -> value_of r k w -> v <> w ->
    mismatch m r (ValueNotMatch (pat_uuid (mr_pattern r)) k v w)
| mismatch_key a k v b :
    has_tags (tm_tags m) (pat_tags (mr_pattern r)) -> tm_values m = a ++ (k, v) :: b ->
    (forall k' v', In (k', v') a -> value_of r k' v') -> (forall w, ~ value_of r k w) ->
    mismatch m r (KeyNotFound (pat_uuid (mr_pattern r)) k).

(** ** Loading *)
Definition tests (p : pattern) : list test_message :=
  match pat_test_messages p with Some l => l | None => [] end.
(** The pattern as it is given to the matcher. *)
Definition untested (p : pattern) : pattern :=
  {| pat_name := pat_name p; pat_uuid := pat_uuid p; pat_tokens := pat_tokens p;
     pat_values := pat_values p; pat_tags := pat_tags p;
     pat_test_messages := match pat_test_messages p with Some _ => Some [] | None => None end |}.

Section Loading.
  Context {M : Type} (ops : matcher_ops M).

  (** Test message [t] of pattern [p] passes or fails on matcher [m]. *)
  Definition passes (m : M) (p : pattern) (t : test_message) : Prop :=
    exists r, mo_parse ops m (tm_message t) = Ret (Some r) /\
      pat_uuid (mr_pattern r) = pat_uuid p /\ satisfies t r.
  Inductive fails (m : M) (p : pattern) (t : test_message) : tm_error -> Prop :=
  | fails_unmatched :
      mo_parse ops m (tm_message t) = Ret None ->
      fails m p t (TestMessageDoesntMatch (pat_uuid p) (tm_message t))
  | fails_other r :
      mo_parse ops m (tm_message t) = Ret (Some r) -> pat_uuid (mr_pattern r) <> pat_uuid p ->
      fails m p t (MatchedToOtherPattern (pat_uuid p) (pat_uuid (mr_pattern r)) (tm_message t))
  | fails_mismatch r e :
      mo_parse ops m (tm_message t) = Ret (Some r) -> pat_uuid (mr_pattern r) = pat_uuid p ->
      mismatch t r e -> fails m p t e.

  (** Loading [src] into [m] without any error gives [m']. *)
  Inductive loads : M -> list build_result -> M -> Prop :=
  | loads_nil m : loads m [] m
  | loads_cons m p m' src m'' :
      mo_add_pattern ops m (untested p) = Ret m' ->
      (forall t, In t (tests p) -> passes m' p t) ->
      loads m' src m'' -> loads m (Ok p :: src) m''.

  (** Loading [src] into [m] stops with error [e]: the source has one, or the last
      failing test message of the pattern (they are tried from the back). *)
  Inductive stops : M -> list build_result -> build_error -> Prop :=
  | stops_source m before m' e after :
      loads m before m' -> stops m (before ++ Err e :: after) e
  | stops_test m before m' p after m'' a t b e :
      loads m before m' -> mo_add_pattern ops m' (untested p) = Ret m'' ->
      tests p = a ++ t :: b -> (forall t', In t' b -> passes m'' p t') -> fails m'' p t e ->
      stops m (before ++ Ok p :: after) (TestMessageError e).

  (** Adding patterns one by one. *)
  Fixpoint adds (m : M) (ps : list pattern) : outcome M :=
    match ps with
    | [] => Ret m
    | p :: ps' => let* m' := mo_add_pattern ops m p in adds m' ps'
    end.
End Loading.

(** The patterns of a source. *)
Fixpoint patterns_of (src : list build_result) : list pattern :=
  match src with
  | [] => []
  | Ok p :: src' => p :: patterns_of src'
  | Err _ :: src' => patterns_of src'
  end.

(** ** File names

    A path has extension [ext] when its last component (not counting [.] and
    trailing slashes) is a non-empty text, a dot and [ext], and is not [..]. *)
Inductive slashes : str -> Prop :=
| slashes_nil : slashes []
| slashes_slash s : slashes s -> slashes ($"/" ++ s)
| slashes_dot s : slashes s -> slashes ($"/." ++ s).
Definition has_extension (path ext : str) : Prop :=
  exists dir stem trail,
    path = dir ++ stem ++ $"." ++ ext ++ trail /\
    (dir = [] \/ exists d, dir = d ++ $"/") /\ stem <> [] /\ ~ In x2f stem /\
    ~ In x2f ext /\ ~ In x2e ext /\ stem ++ $"." ++ ext <> $".." /\ slashes trail.

(** ** Files

    [open_file] as in [Source]; [dj] and [dy] read JSON and YAML texts. *)
Section Files.
  Variable open_file : str -> result (str * option str) str.
  Variable dj dy : str -> outcome (result (list pattern) str).

  (** Reading a file as one format; [mk] marks the errors of the format. *)
  Definition reading (de : str -> outcome (result (list pattern) str)) (mk : str -> build_error) (path : str)
    : outcome (result (list pattern) build_error) :=
    match open_file path with
    | Err e => Ret (Err (Io e))
    | Ok (buffer, _) => match de buffer with
                        | Ret (Ok ps) => Ret (Ok ps)
                        | Ret (Err e) => Ret (Err (mk e))
                        | Panic => Panic
                        | OutOfFuel => OutOfFuel
                        end
    end.

  (** What is in the file. *)
  Definition file_has (path : str) (ps : list pattern) : Prop :=
    exists buffer e, open_file path = Ok (buffer, e) /\
      ((has_extension path ($"json") /\ dj buffer = Ret (Ok ps)) \/
       (exists x, In x [$"yaml"; $"yml"; $"YAML"; $"YML"] /\ has_extension path x /\ dy buffer = Ret (Ok ps))).

End Files.

(** ** Test messages in the domain of the matchers *)
Definition ascii_tests (ps : list pattern) : Prop :=
  forall p t, In p ps -> In t (tests p) -> ascii (tm_message t) = true.
Definition utf8_tests (ps : list pattern) : Prop :=
  forall p t, In p ps -> In t (tests p) -> utf8 (tm_message t).
