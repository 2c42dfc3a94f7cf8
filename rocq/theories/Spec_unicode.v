(** * UTF-8 by arithmetic (RFC 3629), for C146

    A [&str] is the encoding of a sequence of [char]s, that is of Unicode scalar
    values.  The model works with bytes; this file says which, without its
    tables. *)
From Verif Require Import Base.
Local Open Scope N_scope.

(** [char]: every code point except the surrogates. *)
Definition scalar (n : N) : Prop := n < 55296 \/ 57344 <= n <= 1114111.

Definition octet (n : N) : byte := match Byte.of_N n with Some b => b | None => x00 end.

(** [char::encode_utf8] *)
Definition encode (n : N) : str :=
  if n <? 128 then [octet n]
  else if n <? 2048 then [octet (192 + n / 64); octet (128 + n mod 64)]
  else if n <? 65536 then [octet (224 + n / 4096); octet (128 + n / 64 mod 64); octet (128 + n mod 64)]
  else [octet (240 + n / 262144); octet (128 + n / 4096 mod 64); octet (128 + n / 64 mod 64); octet (128 + n mod 64)].
Definition encode_all (l : list N) : str := flat_map encode l.
