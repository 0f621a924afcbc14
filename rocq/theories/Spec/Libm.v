(** * What theorems may assume about the platform's libm

    Nothing is assumed globally; a theorem that needs accuracy of [powf] etc. takes one of the
    predicates below as a hypothesis.  [ideal_libm], the correctly rounded library, shows that they
    are satisfiable. *)
From Coq Require Import ZArith Reals.
From Flocq Require Import Core.Core IEEE754.BinarySingleNaN.
From Verif Require Import Model.Floats.
Local Open Scope R_scope.

(** correctly rounded conversion of a real number *)
Definition BofR (p e : Z) {Hp : Prec_gt_0 p} {He : Prec_lt_emax p e} (r : R) : binary_float p e :=
  binary_normalize p e Hp He mode_NE
    (ZnearestE (scaled_mantissa radix2 (SpecFloat.fexp p e) r)) (cexp radix2 (SpecFloat.fexp p e) r) false.

Definition log10R (x : R) : R := ln x / ln 10.
Definition ideal_libm : libm :=
  {| sin64 := fun x => BofR 53 1024 (sin (B2R x));
     cos64 := fun x => BofR 53 1024 (cos (B2R x));
     tan64 := fun x => BofR 53 1024 (tan (B2R x));
     tan32 := fun x => BofR 24 128 (tan (B2R x));
     pow64 := fun x y => BofR 53 1024 (Rpower (B2R x) (B2R y));
     log10_64 := fun x => BofR 53 1024 (log10R (B2R x)) |}.

(** 10^y accurate to a relative 2^-40 for |y| <= 100 *)
Definition pow10_accurate (m : libm) : Prop :=
  forall y : f64, is_finite y = true -> Rabs (B2R y) <= 100 ->
    is_finite (pow64 m (of_Z 10) y) = true /\
    Rabs (B2R (pow64 m (of_Z 10) y) - Rpower 10 (B2R y)) <= Rpower 10 (B2R y) * bpow radix2 (-40).

(** sine in [-1,1], never NaN or infinite, on finite arguments *)
Definition sin_bounded (m : libm) : Prop :=
  forall x : f64, is_finite x = true ->
    is_finite (sin64 m x) = true /\ Rabs (B2R (sin64 m x)) <= 1.

(** sin(0) = 0 *)
Definition sin_zero (m : libm) : Prop := sin64 m f0 = f0.

(** sine accurate to 2^-50 on [-8,8] *)
Definition sin_accurate (m : libm) : Prop :=
  forall x : f64, is_finite x = true -> Rabs (B2R x) <= 8 ->
    is_finite (sin64 m x) = true /\ Rabs (B2R (sin64 m x) - sin (B2R x)) <= bpow radix2 (-50).

(** 10^y in [0,1] for y <= 0 *)
Definition pow10_unit (m : libm) : Prop :=
  forall y : f64, is_finite y = true -> B2R y <= 0 ->
    is_finite (pow64 m (of_Z 10) y) = true /\ 0 <= B2R (pow64 m (of_Z 10) y) <= 1.

(** f32 tangent accurate to 2^-20 on [0, 2/3], and not negative there *)
Definition tan32_accurate (m : libm) : Prop :=
  forall x : f32, is_finite x = true -> 0 <= B2R x <= 2 / 3 ->
    is_finite (tan32 m x) = true /\ 0 <= B2R (tan32 m x) /\ Rabs (B2R (tan32 m x) - tan (B2R x)) <= bpow radix2 (-20).

(** cosine accurate to 2^-50 on [-8,8] *)
Definition cos_accurate (m : libm) : Prop :=
  forall x : f64, is_finite x = true -> Rabs (B2R x) <= 8 ->
    is_finite (cos64 m x) = true /\ Rabs (B2R (cos64 m x) - cos (B2R x)) <= bpow radix2 (-50).

(** squares and cubes by [powf] accurate to a relative 2^-50, for arguments in [2^-100, 8] *)
Definition pow_int_accurate (m : libm) : Prop :=
  forall (x : f64) (n : Z), is_finite x = true -> bpow radix2 (-100) <= B2R x <= 8 -> (2 <= n <= 3)%Z ->
    is_finite (pow64 m x (of_Z n)) = true /\
    Rabs (B2R (pow64 m x (of_Z n)) - B2R x ^ Z.to_nat n) <= B2R x ^ Z.to_nat n * bpow radix2 (-50).

(** f64 tangent accurate to a relative 2^-40 on [2^-20, 7/5] *)
Definition tan_accurate (m : libm) : Prop :=
  forall x : f64, is_finite x = true -> bpow radix2 (-20) <= B2R x <= 7 / 5 ->
    is_finite (tan64 m x) = true /\ Rabs (B2R (tan64 m x) - tan (B2R x)) <= tan (B2R x) * bpow radix2 (-40).
