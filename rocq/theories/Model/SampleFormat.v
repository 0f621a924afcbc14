(** * Sample conversions: /repo/src/sample_format/mod.rs:101-155

    Machine integers are [Z] values; theorems restrict them to the type's range.  Byte arrays are
    lists of [Z] in [0,256). *)

From Coq Require Import ZArith List Bool.
From Flocq Require Import IEEE754.BinarySingleNaN.
From Verif Require Import Model.Floats.
Import ListNotations.
Local Open Scope Z_scope.

(** literals [128.0], [(1 << 15) as SampleT - 1.0], [(1 << 23) as SampleT - 1.0] *)
Definition c128 : f32 := of_Z 128.
Definition k16 : f32 := fsub (of_Z (Z.shiftl 1 15)) (of_Z 1).
Definition k24 : f32 := fsub (of_Z (Z.shiftl 1 23)) (of_Z 1).

(** Rust [to_le_bytes] of an n-byte integer (two's complement) and [from_le_bytes]. *)
Fixpoint to_le (n : nat) (v : Z) : list Z :=
  match n with O => [] | S n' => v mod 256 :: to_le n' (v / 256) end.
Fixpoint from_le_u (l : list Z) : Z :=
  match l with [] => 0 | b :: l' => b + 256 * from_le_u l' end.
(** signed reading of an n-byte little-endian integer *)
Definition from_le_s (l : list Z) : Z :=
  let m := 2 ^ (8 * Z.of_nat (length l)) in
  let u := from_le_u l in if u <? m / 2 then u else u - m.

(** mod.rs:102-104 *)
Definition sample_from_u8 (v : Z) : f32 := fdiv (fsub (of_Z v) c128) c128.
(** mod.rs:106-108; the argument is a 1-byte array *)
Definition sample_from_u8_bytes (b : list Z) : f32 := fdiv (fsub (of_Z (nth 0 b 0)) c128) c128.
(** mod.rs:111-113 *)
Definition sample_to_u8 (s : f32) : Z := to_u8 (fround (fadd (fmul s c128) c128)).
(** mod.rs:115-117 *)
Definition sample_to_u8_bytes (s : f32) : list Z := [sample_to_u8 s].

(** mod.rs:120-122 *)
Definition sample_from_i16 (v : Z) : f32 := fdiv (of_Z v) k16.
(** mod.rs:124-126 *)
Definition sample_from_i16_bytes (b : list Z) : f32 := fdiv (of_Z (from_le_s b)) k16.
(** mod.rs:129-131 *)
Definition sample_to_i16 (s : f32) : Z := to_i16 (fround (fmul s k16)).
(** mod.rs:133-135 *)
Definition sample_to_i16_bytes (s : f32) : list Z := to_le 2 (sample_to_i16 s).

(** mod.rs:138-140 *)
Definition sample_from_i24 (v : Z) : f32 := fdiv (of_Z v) k24.
(** mod.rs:142-144: [i32::from_le_bytes([v[0],v[1],v[2],0])] *)
Definition sample_from_i24_bytes (b : list Z) : f32 :=
  fdiv (of_Z (from_le_s [nth 0 b 0; nth 1 b 0; nth 2 b 0; 0])) k24.
(** mod.rs:147-149 *)
Definition sample_to_i24 (s : f32) : Z := to_i32 (fround (fmul s k24)).
(** mod.rs:151-155: the first three of the four bytes of the i32 *)
Definition sample_to_i24_bytes (s : f32) : list Z := firstn 3 (to_le 4 (sample_to_i24 s)).
