(** * IEEE-754 numbers as used by BAE

    Rust's [f32] and [f64] are modelled bit-exactly (up to NaN payloads, which Rust does not
    specify) by Flocq's [BinarySingleNaN.binary_float].  All operators round to nearest, ties to
    even, as Rust's operators do.

    /repo/src/lib.rs:48-58 fixes the numeric vocabulary:
      pub type MathT = f64;  pub type SampleT = f32;
      pub const SAMPLE_RATE:u64 = 48_000;  pub const INV_SAMPLE_RATE:MathT = 1.0/(SAMPLE_RATE as MathT); *)

From Coq Require Import ZArith List Bool.
From Flocq Require Import Core.Core IEEE754.BinarySingleNaN.
Import ListNotations.
Local Open Scope Z_scope.

#[global] Instance prec32 : Prec_gt_0 24. Proof. reflexivity. Qed.
#[global] Instance emax32 : Prec_lt_emax 24 128. Proof. reflexivity. Qed.
#[global] Instance prec64 : Prec_gt_0 53. Proof. reflexivity. Qed.
#[global] Instance emax64 : Prec_lt_emax 53 1024. Proof. reflexivity. Qed.

(** [SampleT], lib.rs:51 *)
Notation f32 := (binary_float 24 128).
(** [MathT], lib.rs:49 *)
Notation f64 := (binary_float 53 1024).

Section Ops.
Context {prec emax : Z} {Hp : Prec_gt_0 prec} {He : Prec_lt_emax prec emax}.
Notation fl := (binary_float prec emax).

(** Rust operators [+ - * /], unary minus, [sqrt], [abs]. *)
Definition fadd (x y : fl) : fl := Bplus mode_NE x y.
Definition fsub (x y : fl) : fl := Bminus mode_NE x y.
Definition fmul (x y : fl) : fl := Bmult mode_NE x y.
Definition fdiv (x y : fl) : fl := Bdiv mode_NE x y.
Definition fneg (x : fl) : fl := Bopp x.
Definition fabs (x : fl) : fl := Babs x.
Definition fsqrt (x : fl) : fl := Bsqrt mode_NE x.

(** Rust [<], [<=], [>], [>=], [==] on floats: false when an operand is NaN. *)
Definition flt (x y : fl) : bool := Bltb x y.
Definition fle (x y : fl) : bool := Bleb x y.
Definition fgt (x y : fl) : bool := Bltb y x.
Definition fge (x y : fl) : bool := Bleb y x.
Definition feq (x y : fl) : bool := Beqb x y.

(** Rust [f64::min] / [f64::max]: a NaN operand is ignored.  (When the operands are zeros of
    opposite sign Rust leaves the result's sign open; here the second one is returned.) *)
Definition fmin (x y : fl) : fl :=
  if is_nan x then y else if is_nan y then x else if flt x y then x else y.
Definition fmax (x y : fl) : fl :=
  if is_nan x then y else if is_nan y then x else if flt y x then x else y.

(** Rust [floor], [trunc], [round] (ties away from zero), [fract]. *)
Definition ffloor (x : fl) : fl := Bnearbyint mode_DN x.
Definition ftrunc (x : fl) : fl := Bnearbyint mode_ZR x.
Definition fround (x : fl) : fl := Bnearbyint mode_NA x.
Definition ffract (x : fl) : fl := fsub x (ftrunc x).

(** Integer-to-float [as] cast (nearest even). *)
Definition of_Z (z : Z) : fl := binary_normalize prec emax Hp He mode_NE z 0 false.

(** The float m * 2^e (rounded; exact whenever m*2^e is representable). *)
Definition lit (m e : Z) : fl := binary_normalize prec emax Hp He mode_NE m e false.

(** Float-to-integer [as] cast: truncation, saturating at the type's bounds, NaN becomes 0
    (Rust >= 1.45). *)
Definition to_int (lo hi : Z) (x : fl) : Z :=
  match x with
  | B754_nan => 0
  | B754_infinity true => lo
  | B754_infinity false => hi
  | _ => Z.max lo (Z.min hi (Btrunc x))
  end.

Definition f0 : fl := B754_zero false.   (* [Default::default()], the literal 0.0 *)
Definition f1 : fl := of_Z 1.
End Ops.

(** Float-to-float [as] casts. *)
Definition fcast {p1 e1 : Z} (p2 e2 : Z) {Hp : Prec_gt_0 p2} {He : Prec_lt_emax p2 e2}
  (x : binary_float p1 e1) : binary_float p2 e2 :=
  match x with
  | B754_zero s => B754_zero s
  | B754_infinity s => B754_infinity s
  | B754_nan => B754_nan
  | B754_finite s m e _ => binary_normalize p2 e2 Hp He mode_NE (cond_Zopp s (Zpos m)) e s
  end.

(** [x as SampleT] for [x : MathT] and [x as MathT] for [x : SampleT]. *)
Definition to32 (x : f64) : f32 := fcast 24 128 x.
Definition to64 (x : f32) : f64 := fcast 53 1024 x.

(** Integer ranges used by the casts ([usize] is 64 bit). *)
Definition u64_max : Z := 2 ^ 64 - 1.
Definition to_usize {p e} (x : binary_float p e) : Z := to_int 0 u64_max x.
Definition to_u8 {p e} (x : binary_float p e) : Z := to_int 0 255 x.
Definition to_i16 {p e} (x : binary_float p e) : Z := to_int (-32768) 32767 x.
Definition to_i32 {p e} (x : binary_float p e) : Z := to_int (- 2 ^ 31) (2 ^ 31 - 1) x.

(** lib.rs:56,58 *)
Definition SAMPLE_RATE : Z := 48000.
Definition SR64 : f64 := of_Z SAMPLE_RATE.               (* SAMPLE_RATE as MathT *)
Definition INV_SAMPLE_RATE : f64 := fdiv (of_Z 1) SR64.

(** [std::f64::consts::PI] = 0x400921FB54442D18 and [std::f32::consts::PI] = 0x40490FDB. *)
Definition PI64 : f64 := lit 7074237752028440 (-51).
Definition PI32 : f32 := lit 13176795 (-22).

(** Results of operations that may panic. *)
Inductive res (A : Type) : Type := Ok (a : A) | Panic.
Arguments Ok {A} _.
Arguments Panic {A}.
Definition bind {A B} (x : res A) (f : A -> res B) : res B :=
  match x with Ok a => f a | Panic => Panic end.
Notation "'do' x <- e ; f" := (bind e (fun x => f))
  (at level 200, x pattern, e at level 100, f at level 200).
Definition unwrap {A} (o : option A) : res A :=
  match o with Some a => Ok a | None => Panic end.

(** Rust slice/Vec/VecDeque indexing [v[i]] with a [usize] index: panics out of bounds. *)
Definition index {A} (l : list A) (i : Z) : res A :=
  if (0 <=? i) && (i <? Z.of_nat (length l)) then unwrap (nth_error l (Z.to_nat i)) else Panic.

(** libm functions are parameters: nothing is assumed about them here. *)
Record libm := {
  sin64 : f64 -> f64;      (* f64::sin *)
  cos64 : f64 -> f64;      (* f64::cos *)
  tan64 : f64 -> f64;      (* f64::tan *)
  tan32 : f32 -> f32;      (* f32::tan *)
  pow64 : f64 -> f64 -> f64;  (* f64::powf *)
  log10_64 : f64 -> f64    (* f64::log10 *)
}.

(** Generic numeric operations, for the code that is generic in the number type
    (utils/mod.rs:13-42) and to read float-typed filters in exact arithmetic. *)
Record num := {
  carrier : Type;
  nzero : carrier;
  nadd : carrier -> carrier -> carrier;
  nsub : carrier -> carrier -> carrier;
  nmul : carrier -> carrier -> carrier;
  ndiv : carrier -> carrier -> carrier;
  nneg : carrier -> carrier;
  nabs : carrier -> carrier;
  nlt : carrier -> carrier -> bool;   (* PartialOrd's < *)
}.
Definition num32 : num :=
  {| carrier := f32; nzero := f0; nadd := fadd; nsub := fsub; nmul := fmul; ndiv := fdiv;
     nneg := fneg; nabs := fabs; nlt := flt |}.
Definition num64 : num :=
  {| carrier := f64; nzero := f0; nadd := fadd; nsub := fsub; nmul := fmul; ndiv := fdiv;
     nneg := fneg; nabs := fabs; nlt := flt |}.
