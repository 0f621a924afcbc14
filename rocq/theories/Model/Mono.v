(** * Mono samples: /repo/src/sample_format/mono.rs *)

From Coq Require Import ZArith List Bool.
From Flocq Require Import IEEE754.BinarySingleNaN.
From Verif Require Import Model.Floats Model.SampleFormat.
Import ListNotations.
Local Open Scope Z_scope.

(** mono.rs:13-17 *)
Record Mono := mkMono { mono : f32 }.

Definition mono_new : Mono := mkMono f0.                       (* mono.rs:21-23 *)
Definition mono_from (s : f32) : Mono := mkMono s.             (* mono.rs:26-30 *)
Definition mono_from_sample (x : f32) : Mono := mkMono x.      (* mono.rs:34-38 *)
Definition mono_into_sample (m : Mono) : f32 := mono m.        (* mono.rs:40-42 *)
Definition mono_num_samples : nat := 1%nat.                    (* mono.rs:44-46 *)
Definition mono_to_sample_format {T} (s : f32) (_ : T) : Mono := mkMono s.  (* mono.rs:49-55 *)

Definition mono_neg (a : Mono) : Mono := mkMono (fneg (mono a)).                 (* mono.rs:62-66 *)
Definition mono_add (a b : Mono) : Mono := mkMono (fadd (mono a) (mono b)).      (* mono.rs:72-76 *)
Definition mono_add_assign (a b : Mono) : Mono := mkMono (fadd (mono a) (mono b)). (* mono.rs:79-81 *)
(** mono.rs:87-91: the source adds *)
Definition mono_sub (a b : Mono) : Mono := mkMono (fadd (mono a) (mono b)).
Definition mono_sub_assign (a b : Mono) : Mono := mkMono (fsub (mono a) (mono b)). (* mono.rs:94-96 *)
Definition mono_mul (a b : Mono) : Mono := mkMono (fmul (mono a) (mono b)).      (* mono.rs:102-106 *)
Definition mono_mul_assign (a b : Mono) : Mono := mkMono (fmul (mono a) (mono b)). (* mono.rs:109-111 *)
Definition mono_mul_s (a : Mono) (r : f32) : Mono := mkMono (fmul (mono a) r).   (* mono.rs:117-121 *)
Definition mono_mul_s_assign (a : Mono) (r : f32) : Mono := mkMono (fmul (mono a) r). (* mono.rs:124-126 *)
Definition mono_mul_m (a : Mono) (r : f64) : Mono :=                              (* mono.rs:132-136 *)
  mkMono (to32 (fmul (to64 (mono a)) r)).
Definition mono_mul_m_assign (a : Mono) (r : f64) : Mono :=                       (* mono.rs:139-141 *)
  mkMono (to32 (fmul (to64 (mono a)) r)).

(** mono.rs:155-216: [TryFrom<Vec<_>>] ([None] is the [Err] string) and [Into<Vec<_>>]. *)
Definition mono_try_from (dec : Z -> f32) (v : list Z) : option Mono :=
  if Nat.ltb (length v) 1 then None else Some (mkMono (dec (nth 0 v 0))).
Definition mono_try_from_u8 := mono_try_from sample_from_u8.
Definition mono_try_from_i16 := mono_try_from sample_from_i16.
Definition mono_try_from_i32 := mono_try_from sample_from_i24.
Definition mono_into_u8 (a : Mono) : list Z := [sample_to_u8 (mono a)].
Definition mono_into_i16 (a : Mono) : list Z := [sample_to_i16 (mono a)].
Definition mono_into_i32 (a : Mono) : list Z := [sample_to_i24 (mono a)].
