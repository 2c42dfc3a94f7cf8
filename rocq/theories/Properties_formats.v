(** * Property C148: JSON and YAML pattern files with the same content *)
From Verif Require Import Base Pattern Spec_source Source Deser Spec_formats Formats_claims Source_claims Siphash Tests.

(** ** C148 *)
Theorem C148_loaded_alike :
  forall parse_uuid say_json say_yaml open_file dj dy jpath ypath x jtext ytext je ye v,
    has_extension jpath ($"json") -> has_extension ypath x -> In x [$"yaml"; $"yml"; $"YAML"; $"YML"] ->
    open_file jpath = Ok (jtext, je) -> open_file ypath = Ok (ytext, ye) ->
    reads parse_uuid say_json dj jtext v -> reads parse_uuid say_yaml dy ytext v ->
    forall M (ops : matcher_ops M),
      same_result say_json say_yaml (from_file ops open_file dj dy jpath) (from_file ops open_file dj dy ypath).
Proof. exact @same_from_file. Qed.
Print Assumptions C148_loaded_alike.
Theorem C148_loaded_alike_ignoring :
  forall parse_uuid say_json say_yaml open_file dj dy jpath ypath x jtext ytext je ye v,
    has_extension jpath ($"json") -> has_extension ypath x -> In x [$"yaml"; $"yml"; $"YAML"; $"YML"] ->
    open_file jpath = Ok (jtext, je) -> open_file ypath = Ok (ytext, ye) ->
    reads parse_uuid say_json dj jtext v -> reads parse_uuid say_yaml dy ytext v ->
    forall M (ops : matcher_ops M),
      same_result say_json say_yaml (from_file_ignore_errors ops open_file dj dy jpath)
                  (from_file_ignore_errors ops open_file dj dy ypath).
Proof. exact @same_from_file_ignoring. Qed.
Print Assumptions C148_loaded_alike_ignoring.
Theorem C148_same_matcher :
  forall parse_uuid say_json say_yaml open_file dj dy jpath ypath x jtext ytext je ye v,
    has_extension jpath ($"json") -> has_extension ypath x -> In x [$"yaml"; $"yml"; $"YAML"; $"YML"] ->
    open_file jpath = Ok (jtext, je) -> open_file ypath = Ok (ytext, ye) ->
    reads parse_uuid say_json dj jtext v -> reads parse_uuid say_yaml dy ytext v ->
    forall M (ops : matcher_ops M) m,
      (from_file ops open_file dj dy jpath = Ret (Ok m) <-> from_file ops open_file dj dy ypath = Ret (Ok m)) /\
      (from_file_ignore_errors ops open_file dj dy jpath = Ret (Ok m) <->
       from_file_ignore_errors ops open_file dj dy ypath = Ret (Ok m)).
Proof. exact @same_matcher. Qed.
Print Assumptions C148_same_matcher.

(** A disk with the repository's ssh_ok file in both formats and two files
    without a "patterns" field.  The texts stand for the serialized documents. *)
Definition two_disk (path : str) : result (str * option str) str :=
  if str_eqb path ($"ssh.json") then Ok ($"{ssh", None) else if str_eqb path ($"ssh.yml") then Ok ($"- ssh", None)
  else if str_eqb path ($"bad.json") then Ok ($"{bad", None) else if str_eqb path ($"bad.YAML") then Ok ($"- bad", None)
  else Err ($"no such file").
Definition two_reader (say : de_error -> str) (text : str) : outcome (result (list pattern) str) :=
  let v := if str_eqb text ($"{ssh") || str_eqb text ($"- ssh") then ssh_ok else VMap [] in
  let* r := de_pattern_file parse_uuid_ex v in
  Ret (match r with Ok ps => Ok ps | Err e => Err (say e) end).
Definition in_json (e : de_error) : str := match e with MissingField f => $"json: missing " ++ f | _ => $"json" end.
Definition in_yaml (e : de_error) : str := match e with MissingField f => $"yaml: missing " ++ f | _ => $"yaml" end.

Example C148_example_hypotheses :
  has_extension ($"ssh.json") ($"json") /\ has_extension ($"ssh.yml") ($"yml") /\
  reads parse_uuid_ex in_json (two_reader in_json) ($"{ssh") ssh_ok /\
  reads parse_uuid_ex in_yaml (two_reader in_yaml) ($"- ssh") ssh_ok /\
  reads parse_uuid_ex in_json (two_reader in_json) ($"{bad") (VMap []) /\
  reads parse_uuid_ex in_yaml (two_reader in_yaml) ($"- bad") (VMap []).
Proof.
  split; [apply Source_claims.extension_spec; vm_compute; reflexivity|].
  split; [apply Source_claims.extension_spec; vm_compute; reflexivity|].
  unfold reads. repeat split; vm_compute; reflexivity.
Qed.
Example C148_example :
  exists m, from_file (trie_ops siphash) two_disk (two_reader in_json) (two_reader in_yaml) ($"ssh.json") = Ret (Ok m) /\
            from_file (trie_ops siphash) two_disk (two_reader in_json) (two_reader in_yaml) ($"ssh.yml") = Ret (Ok m).
Proof. eexists. split; vm_compute; reflexivity. Qed.
Example C148_example_error :
  from_file (trie_ops siphash) two_disk (two_reader in_json) (two_reader in_yaml) ($"bad.json")
    = Ret (Err (DeserJson ($"json: missing patterns"))) /\
  from_file (trie_ops siphash) two_disk (two_reader in_json) (two_reader in_yaml) ($"bad.YAML")
    = Ret (Err (DeserYaml ($"yaml: missing patterns"))).
Proof. split; vm_compute; reflexivity. Qed.
