(** * The two formats of pattern files: C148 *)
From Verif Require Import Base Pattern Source Spec_source Loading_claims Deser Spec_formats.

Section Formats.
  Variable parse_uuid : str -> option uuid.
  Variable say_json say_yaml : de_error -> str.
  Variable open_file : str -> result (str * option str) str.
  Variable dj dy : str -> outcome (result (list pattern) str).
  Variable jpath ypath x jtext ytext : str.
  Variable je ye : option str.
  Variable v : value.
  Hypothesis J : has_extension jpath ($"json").
  Hypothesis Y : has_extension ypath x.
  Hypothesis X : In x [$"yaml"; $"yml"; $"YAML"; $"YML"].
  Hypothesis OJ : open_file jpath = Ok (jtext, je).
  Hypothesis OY : open_file ypath = Ok (ytext, ye).
  Hypothesis RJ : reads parse_uuid say_json dj jtext v.
  Hypothesis RY : reads parse_uuid say_yaml dy ytext v.

  Lemma same_load : same_result say_json say_yaml (load_file open_file dj dy jpath) (load_file open_file dj dy ypath).
  Proof.
    rewrite (load_json open_file dj dy jpath J).
    rewrite (load_yaml open_file dj dy ypath x Y) by (simpl in X; intuition).
    unfold reading. rewrite OJ, OY. unfold reads in RJ, RY. rewrite RJ, RY.
    destruct (de_pattern_file parse_uuid v) as [[ps|e]| |]; try apply same_any. apply same_error.
  Qed.

  Lemma same_from_file {M} (ops : matcher_ops M) :
    same_result say_json say_yaml (from_file ops open_file dj dy jpath) (from_file ops open_file dj dy ypath).
  Proof.
    unfold from_file. destruct same_load as [r|e]; [apply same_any|apply same_error].
  Qed.
  Lemma same_from_file_ignoring {M} (ops : matcher_ops M) :
    same_result say_json say_yaml (from_file_ignore_errors ops open_file dj dy jpath) (from_file_ignore_errors ops open_file dj dy ypath).
  Proof.
    unfold from_file_ignore_errors. destruct same_load as [r|e]; [apply same_any|apply same_error].
  Qed.

  Lemma same_matcher {M} (ops : matcher_ops M) m :
    (from_file ops open_file dj dy jpath = Ret (Ok m) <-> from_file ops open_file dj dy ypath = Ret (Ok m)) /\
    (from_file_ignore_errors ops open_file dj dy jpath = Ret (Ok m) <->
     from_file_ignore_errors ops open_file dj dy ypath = Ret (Ok m)).
  Proof.
    split; [destruct (same_from_file ops)|destruct (same_from_file_ignoring ops)];
      try tauto; split; intros K; discriminate.
  Qed.
End Formats.
