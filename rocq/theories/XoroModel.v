(** Model of include/obake/detail/xoroshiro128_plus.hpp.  64-bit unsigned values are the integers of [0, 2^64). *)
From Coq Require Import ZArith List.
Import ListNotations.
Open Scope Z_scope.

(** A value as an unsigned integer of n bits. *)
Definition ubits (n z : Z) : Z := z mod 2 ^ n.

(** xoroshiro128_plus.hpp:35-38: [rotl]. *)
Definition rotl (x k : Z) : Z := Z.lor (ubits 64 (Z.shiftl x k)) (Z.shiftr x (64 - k)).

(** xoroshiro128_plus.hpp:104: [m_state]. *)
Definition xstate : Type := (Z * Z)%type.

(** xoroshiro128_plus.hpp:44-56: [next]: the value and the new state. *)
Definition xnext (st : xstate) : Z * xstate :=
  let s0 := fst st in
  let s1 := snd st in
  let result := ubits 64 (s0 + s1) in
  let s1 := Z.lxor s1 s0 in
  (result, (Z.lxor (Z.lxor (rotl s0 24) s1) (ubits 64 (Z.shiftl s1 16)), rotl s1 37)).

(** xoroshiro128_plus.hpp:73-81: the chunks of 64 bits after the first; [n] is the number of iterations: (tot_nbits - 64) / 64 rounded up. *)
Fixpoint xchunks (bits : Z) (n : nat) (u : Z) (st : xstate) : Z * xstate :=
  match n with
  | O => (u, st)
  | S n' =>
      let u := ubits bits (Z.shiftl u 64) in
      let '(v, st) := xnext st in
      xchunks bits n' (ubits bits (u + ubits bits v)) st
  end.

(** xoroshiro128_plus.hpp:60-87: [random<Int>] for an integral type of the given signedness with [bits] bits in its unsigned counterpart. *)
Definition xrandom (signed : bool) (bits : Z) (st : xstate) : Z * xstate :=
  let '(v, st) := xnext st in
  let '(u, st) := xchunks bits (if 64 <? bits then Z.to_nat ((bits - 64 + 63) / 64) else 0) (ubits bits v) st in
  ((if signed && (2 ^ (bits - 1) <=? u) then u - 2 ^ bits else u)%bool, st).

(** The states after n calls of next. *)
Fixpoint xiter (n : nat) (st : xstate) : xstate := match n with O => st | S n' => xiter n' (snd (xnext st)) end.

(** polynomial.hpp:678-682: the generator of trial i of the estimate of the number of terms of a product. *)
Definition seed_trial (i : Z) : xstate := (ubits 64 (i + 14295768699618639914), ubits 64 (i + 12042842946850383048)).
(** polynomial.hpp:402-405: the generator of the estimate of the average size of a term. *)
Definition seed_size (n1 n2 : Z) : xstate := (ubits 64 (18379758338774109289 + n1), ubits 64 (15967298767098049689 + n2)).
