(** * SipHash-2-4, the function behind std's [SipHasher]

    [hash_os] (src/parsers/set.rs:101-108, int.rs:60-67, greedy.rs:43-50) calls
    [SipHasher::new()], i.e. SipHash-2-4 with both keys 0.  Used to evaluate
    concrete cases; general theorems take the hash function as an argument. *)
From Verif Require Import Base Parsers.

Local Open Scope N_scope.

Definition mask : N := N.ones 64.
Definition add64 (a b : N) : N := N.land (a + b) mask.
Definition rotl (x : N) (k : N) : N :=
  N.land (N.lor (N.shiftl x k) (N.shiftr x (64 - k))) mask.

Definition sip_state := (N * N * N * N)%type.

Definition sip_round (s : sip_state) : sip_state :=
  let '(v0, v1, v2, v3) := s in
  let v0 := add64 v0 v1 in
  let v1 := N.lxor (rotl v1 13) v0 in
  let v0 := rotl v0 32 in
  let v2 := add64 v2 v3 in
  let v3 := N.lxor (rotl v3 16) v2 in
  let v0 := add64 v0 v3 in
  let v3 := N.lxor (rotl v3 21) v0 in
  let v2 := add64 v2 v1 in
  let v1 := N.lxor (rotl v1 17) v2 in
  let v2 := rotl v2 32 in
  (v0, v1, v2, v3).

Definition sip_block (s : sip_state) (m : N) : sip_state :=
  let '(v0, v1, v2, v3) := s in
  let '(v0, v1, v2, v3) := sip_round (sip_round (v0, v1, v2, N.lxor v3 m)) in
  (N.lxor v0 m, v1, v2, v3).

(** Little-endian number of a byte list. *)
Fixpoint le_number (l : list byte) : N :=
  match l with
  | [] => 0
  | b :: l' => Byte.to_N b + 256 * le_number l'
  end.

(** Absorb 8-byte blocks; the last block carries the length in its top byte. *)
Fixpoint sip_blocks (fuel : nat) (s : sip_state) (l : list byte) (len : N) : sip_state :=
  match fuel with
  | O => s
  | S f =>
      if Nat.leb 8 (length l)
      then sip_blocks f (sip_block s (le_number (firstn 8 l))) (skipn 8 l) len
      else sip_block s (le_number l + N.shiftl (N.land len 255) 56)
  end.

Definition siphash24 (k0 k1 : N) (l : list byte) : N :=
  let s := (N.lxor k0 0x736f6d6570736575, N.lxor k1 0x646f72616e646f6d,
            N.lxor k0 0x6c7967656e657261, N.lxor k1 0x7465646279746573) in
  let '(v0, v1, v2, v3) := sip_blocks (S (length l)) s l (N.of_nat (length l)) in
  let '(v0, v1, v2, v3) :=
    sip_round (sip_round (sip_round (sip_round (v0, v1, N.lxor v2 255, v3)))) in
  N.lxor (N.lxor v0 v1) (N.lxor v2 v3).

(** std [SipHasher::new()] *)
Definition siphash : list byte -> N := siphash24 0 0.

(** The test vector of the SipHash paper: key 00..0f, message 00..0e. *)
Example siphash_reference_vector :
  siphash24 0x0706050403020100 0x0f0e0d0c0b0a0908
            (map byte_of_N [0;1;2;3;4;5;6;7;8;9;10;11;12;13;14])
  = 0xa129ca6149be45e5.
Proof. vm_compute. reflexivity. Qed.
