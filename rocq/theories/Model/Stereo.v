(** * Stereo samples: /repo/src/sample_format/stereo.rs *)

From Coq Require Import ZArith List Bool.
From Flocq Require Import IEEE754.BinarySingleNaN.
From Verif Require Import Model.Floats Model.SampleFormat Model.Utils.
Import ListNotations.
Local Open Scope Z_scope.

(** stereo.rs:14-20 *)
Record Stereo := mkStereo { left : f32; right : f32 }.

Definition stereo_new : Stereo := mkStereo f0 f0.                 (* stereo.rs:24-26 *)
Definition stereo_from (l r : f32) : Stereo := mkStereo l r.      (* stereo.rs:35-40 *)

(** [SampleT::sqrt(0.5)] *)
Definition sqrt_half : f32 := fsqrt (lit 1 (-1)).
(** stereo.rs:45-50 *)
Definition stereo_from_sample (x : f32) : Stereo := mkStereo (fmul x sqrt_half) (fmul x sqrt_half).
(** stereo.rs:52-54 *)
Definition stereo_into_sample (s : Stereo) : f32 := fdiv (fadd (left s) (right s)) sqrt_half.
Definition stereo_num_samples : nat := 2%nat.                     (* stereo.rs:56-58 *)

(** dB values of the two channels, stereo.rs:67-76 (f32 position) and 86-95 (f64 position) *)
Definition pan_l_db (neg_or_zero : bool) (g : f64) : f64 :=
  if neg_or_zero then clerp num64 g (of_Z (-1)) f0 (of_Z (-3)) (of_Z (-120))
  else clerp num64 g f0 (of_Z 1) f0 (of_Z (-3)).
Definition pan_r_db (pos_or_zero : bool) (g : f64) : f64 :=
  if pos_or_zero then clerp num64 g f0 (of_Z 1) (of_Z (-3)) (of_Z (-120))
  else clerp num64 g (of_Z (-1)) f0 f0 (of_Z (-3)).
Definition pan_apply (m : libm) (s : f32) (l r : f64) : Stereo :=
  mkStereo (to32 (fmul (db_to_linear m l) (to64 s))) (to32 (fmul (db_to_linear m r) (to64 s))).
(** stereo.rs:66-82 *)
Definition pan32 (m : libm) (s g : f32) : Stereo :=
  pan_apply m s (pan_l_db (fle g f0) (to64 g)) (pan_r_db (fge g f0) (to64 g)).
(** stereo.rs:85-101 *)
Definition pan64 (m : libm) (s : f32) (g : f64) : Stereo :=
  pan_apply m s (pan_l_db (fle g f0) g) (pan_r_db (fge g f0) g).

Definition stereo_neg (a : Stereo) : Stereo := mkStereo (fneg (left a)) (fneg (right a)).  (* 107-112 *)
Definition stereo_add (a b : Stereo) : Stereo :=                                           (* 118-123 *)
  mkStereo (fadd (left a) (left b)) (fadd (right a) (right b)).
Definition stereo_add_assign (a b : Stereo) : Stereo :=                                    (* 126-129 *)
  mkStereo (fadd (left a) (left b)) (fadd (right a) (right b)).
Definition stereo_sub (a b : Stereo) : Stereo :=                                           (* 135-140 *)
  mkStereo (fsub (left a) (left b)) (fsub (right a) (right b)).
Definition stereo_sub_assign (a b : Stereo) : Stereo :=                                    (* 143-146 *)
  mkStereo (fsub (left a) (left b)) (fsub (right a) (right b)).
Definition stereo_mul (a b : Stereo) : Stereo :=                                           (* 152-157 *)
  mkStereo (fmul (left a) (left b)) (fmul (right a) (right b)).
Definition stereo_mul_assign (a b : Stereo) : Stereo :=                                    (* 160-163 *)
  mkStereo (fmul (left a) (left b)) (fmul (right a) (right b)).
Definition stereo_mul_s (a : Stereo) (r : f32) : Stereo :=                                 (* 169-174 *)
  mkStereo (fmul (left a) r) (fmul (right a) r).
Definition stereo_mul_s_assign (a : Stereo) (r : f32) : Stereo :=                          (* 177-180 *)
  mkStereo (fmul (left a) r) (fmul (right a) r).
Definition stereo_mul_m (a : Stereo) (r : f64) : Stereo :=                                 (* 186-191 *)
  mkStereo (to32 (fmul (to64 (left a)) r)) (to32 (fmul (to64 (right a)) r)).
(** stereo.rs:194-197: the factor itself is rounded to f32 *)
Definition stereo_mul_m_assign (a : Stereo) (r : f64) : Stereo :=
  mkStereo (fmul (left a) (to32 r)) (fmul (right a) (to32 r)).

(** stereo.rs:211-275 *)
Definition stereo_try_from (dec : Z -> f32) (v : list Z) : option Stereo :=
  if Nat.ltb (length v) 2 then None else Some (mkStereo (dec (nth 0 v 0)) (dec (nth 1 v 0))).
Definition stereo_try_from_u8 := stereo_try_from sample_from_u8.
Definition stereo_try_from_i16 := stereo_try_from sample_from_i16.
Definition stereo_try_from_i32 := stereo_try_from sample_from_i24.
Definition stereo_into_u8 (a : Stereo) : list Z := [sample_to_u8 (left a); sample_to_u8 (right a)].
Definition stereo_into_i16 (a : Stereo) : list Z := [sample_to_i16 (left a); sample_to_i16 (right a)].
Definition stereo_into_i32 (a : Stereo) : list Z := [sample_to_i24 (left a); sample_to_i24 (right a)].
