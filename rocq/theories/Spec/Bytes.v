(** * Independent meaning of byte strings (little endian, two's complement) *)
From Coq Require Import ZArith List.
Import ListNotations.
Local Open Scope Z_scope.

(** [is_byte b], and the value of a little-endian byte string as a power sum *)
Definition is_byte (b : Z) : Prop := 0 <= b < 256.
Definition le_value (l : list Z) : Z :=
  fold_right Z.add 0 (map (fun '(i, b) => b * 256 ^ Z.of_nat i) (combine (seq 0 (length l)) l)).

(** the integer v is what an n-byte two's complement field holding bytes l means *)
Definition denotes (l : list Z) (v : Z) : Prop :=
  Forall is_byte l /\
  - 2 ^ (8 * Z.of_nat (length l) - 1) <= v < 2 ^ (8 * Z.of_nat (length l) - 1) /\
  exists k, le_value l = v + k * 2 ^ (8 * Z.of_nat (length l)).
