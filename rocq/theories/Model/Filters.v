(** * LowPass, HighPass, BandPass: /repo/src/modifiers/{lowpass,highpass,bandpass}.rs

    The coefficient formulas and the recurrences are written once over arbitrary arithmetic: the
    program is the instance at f64/f32 ([A64], [to32]); the instance at the reals ([AR]) is used to
    state what the filters compute "in exact arithmetic". *)

From Coq Require Import ZArith List Bool Reals.
From Flocq Require Import Core.Raux IEEE754.BinarySingleNaN.
From Verif Require Import Model.Floats Model.Modifiers.
Import ListNotations.
Local Open Scope Z_scope.

Record arith (T : Type) := {
  a_add : T -> T -> T; a_sub : T -> T -> T; a_mul : T -> T -> T; a_div : T -> T -> T;
  a_neg : T -> T; a_abs : T -> T; a_sqrt : T -> T; a_cos : T -> T; a_tan : T -> T;
  a_pow : T -> Z -> T;          (* powf with a small integer literal as exponent *)
  a_Z : Z -> T; a_pi : T; a_inv : T;      (* literals, PI, INV_SAMPLE_RATE *)
  a_lt : T -> T -> bool
}.
Arguments a_add {T}. Arguments a_sub {T}. Arguments a_mul {T}. Arguments a_div {T}. Arguments a_neg {T}.
Arguments a_abs {T}. Arguments a_sqrt {T}. Arguments a_cos {T}. Arguments a_tan {T}. Arguments a_pow {T}.
Arguments a_Z {T}. Arguments a_pi {T}. Arguments a_inv {T}. Arguments a_lt {T}.

Definition A64 (m : libm) : arith f64 :=
  {| a_add := fadd; a_sub := fsub; a_mul := fmul; a_div := fdiv; a_neg := fneg; a_abs := fabs;
     a_sqrt := fsqrt; a_cos := cos64 m; a_tan := tan64 m; a_pow := fun x n => pow64 m x (of_Z n);
     a_Z := of_Z; a_pi := PI64; a_inv := INV_SAMPLE_RATE; a_lt := flt |}.
Definition AR : arith R :=
  {| a_add := Rplus; a_sub := Rminus; a_mul := Rmult; a_div := Rdiv; a_neg := Ropp; a_abs := Rabs;
     a_sqrt := R_sqrt.sqrt; a_cos := cos; a_tan := tan; a_pow := fun x n => (x ^ Z.to_nat n)%R;
     a_Z := IZR; a_pi := PI; a_inv := (/ 48000)%R; a_lt := Rlt_bool |}.

(** the reals as operations for [Envelope] *)
Definition numR : num :=
  {| carrier := R; nzero := 0%R; nadd := Rplus; nsub := Rminus; nmul := Rmult; ndiv := Rdiv;
     nneg := Ropp; nabs := Rabs; nlt := Rlt_bool |}.

Section Coeff.
Context {T : Type} (A : arith T).
Local Notation "x + y" := (a_add A x y). Local Notation "x - y" := (a_sub A x y).
Local Notation "x * y" := (a_mul A x y). Local Notation "x / y" := (a_div A x y).
Local Notation "# n" := (a_Z A n) (at level 1).

(** lowpass.rs:68 and highpass.rs:92 (associated differently) *)
Definition lp_theta (r : T) : T := (a_pi A / #6) * (#4 - r).
Definition hp_theta (r : T) : T := a_pi A * (#4 - r) / #6.
(** lowpass.rs:69-72 = highpass.rs:93-96 *)
Definition bw_k (theta : T) : T := #1 - #2 * a_cos A theta.
Definition bw_t (fc : T) : T := #2 * a_pi A * fc * a_inv A.
Definition bw_g (k t : T) : T := a_pow A t 3 + k * a_pow A t 2 + k * t + #1.
(** lowpass.rs:75-77 = highpass.rs:103-105: feedback coefficients *)
Definition bw_b1 (k t : T) : T := (k * a_pow A t 2 + #2 * k * t + #3) / bw_g k t.
Definition bw_b2 (k t : T) : T := (a_neg A k * t - #3) / bw_g k t.
Definition bw_b3 (k t : T) : T := #1 / bw_g k t.
(** lowpass.rs:74 *)
Definition lp_c0 (k t : T) : T := a_pow A t 3 / bw_g k t.
(** highpass.rs:98-101 *)
Definition hp_a0 (k t : T) : T := #1 / bw_g k t.
Definition hp_a1 (k t : T) : T := a_neg A #3 / bw_g k t.
Definition hp_a2 (k t : T) : T := #3 / bw_g k t.
Definition hp_a3 (k t : T) : T := a_neg A #1 / bw_g k t.

(** bandpass.rs:148-153 *)
Definition quadratic (a b c : T) : T * T :=
  ((a_neg A b + a_sqrt A (b * b - #4 * a * c)) / (#2 * a), (a_neg A b - a_sqrt A (b * b - #4 * a * c)) / (#2 * a)).
(** bandpass.rs:89-105 *)
Definition bp_corners (f q : T) : T * T :=
  let b := a_neg A f / q in
  let '(p, n) := quadratic #1 b (a_neg A f * f) in
  let fl := if a_lt A #0 p then p else n in
  let fh := fl + b in
  if a_lt A fl fh then (fl, fh) else (fh, fl).
(** bandpass.rs:45-46 and 109-110 *)
Definition bp_from_f (c : T * T) : T := a_sqrt A (a_abs A (fst c * snd c)).
Definition bp_from_q (c : T * T) : T := a_sqrt A (a_abs A (fst c * snd c)) / a_abs A (snd c - fst c).
Definition bp_set_f (c : T * T) : T := a_sqrt A (fst c * snd c).
Definition bp_set_q (c : T * T) : T := a_sqrt A (fst c * snd c) / a_abs A (fst c - snd c).
(** bandpass.rs:116-129, from the corner pair (note the swapped names) *)
Definition bp_theta (f : T) : T := a_tan A (a_pi A * f * a_inv A).
Definition bp_al (theta : T) : T := #1 / (#1 + theta).
Definition bp_bl (theta : T) : T := (#1 - theta) / (#1 + theta).
Definition bp_a0 (fh fl : T) : T := (#1 - bp_al (bp_theta fl)) * bp_al (bp_theta fh).
Definition bp_b1 (fh fl : T) : T := bp_bl (bp_theta fl) + bp_bl (bp_theta fh).
Definition bp_b2 (fh fl : T) : T := bp_bl (bp_theta fl) * bp_bl (bp_theta fh).
End Coeff.

(** ** LowPass *)
Section LP.
Context {S : Type} (add mul : S -> S -> S).
(** lowpass.rs:83-86 *)
Definition lp_out (c0 c1 c2 c3 o0 o1 o2 x : S) : S :=
  add (add (add (mul c0 x) (mul c1 o0)) (mul c2 o1)) (mul c3 o2).
(** highpass.rs:111-112 *)
Definition hp_out (a0 a1 a2 a3 b1 b2 b3 x x1 x2 x3 y1 y2 y3 : S) : S :=
  add (add (add (add (add (add (mul a0 x) (mul a1 x1)) (mul a2 x2)) (mul a3 x3)) (mul b1 y1)) (mul b2 y2)) (mul b3 y3).
End LP.

(** lowpass.rs:9-14; [coeff] and [outs] as records of scalars *)
Record coeffs (S : Type) := mkC { c0 : S; c1 : S; c2 : S; c3 : S }.
Arguments mkC {S}. Arguments c0 {S}. Arguments c1 {S}. Arguments c2 {S}. Arguments c3 {S}.
Record hist (S : Type) := mkH { h0 : S; h1 : S; h2 : S }.
Arguments mkH {S}. Arguments h0 {S}. Arguments h1 {S}. Arguments h2 {S}.

(** lowpass.rs:67-78, in the arithmetic [A], with the final cast [cast] *)
Definition lp_coeffs {T S} (A : arith T) (cast : T -> S) (fc r : T) : coeffs S :=
  let k := bw_k A (lp_theta A r) in let t := bw_t A fc in
  mkC (cast (lp_c0 A k t)) (cast (bw_b1 A k t)) (cast (bw_b2 A k t)) (cast (bw_b3 A k t)).
(** lowpass.rs:82-93 *)
Definition lp_step {S} (add mul : S -> S -> S) (c : coeffs S) (h : hist S) (x : S) : S * hist S :=
  let y := lp_out add mul (c0 c) (c1 c) (c2 c) (c3 c) (h0 h) (h1 h) (h2 h) x in
  (y, mkH y (h0 h) (h1 h)).

Record lowpass := mkLP { lp_fc : f64; lp_r : f64; lp_coeff : coeffs f32; lp_outs : hist f32 }.
Definition NYQUIST : f64 := fdiv SR64 (of_Z 2).                                  (* SAMPLE_RATE as MathT / 2.0 *)
Definition clamp_fc (fc : f64) : f64 := fmin fc NYQUIST.                         (* lowpass.rs:26,48 highpass.rs:40,72 *)
Definition clamp_r (r : f64) : f64 := fmax (fmin r (of_Z 1)) f0.                 (* lowpass.rs:27,61 highpass.rs:41,85 *)
Definition hist0 {S} (z : S) : hist S := mkH z z z.
Definition lp_reset (m : libm) (s : lowpass) : lowpass :=                        (* lowpass.rs:67-78 *)
  mkLP (lp_fc s) (lp_r s) (lp_coeffs (A64 m) to32 (lp_fc s) (lp_r s)) (lp_outs s).
Definition lp_new (m : libm) (fc r : f64) : lowpass :=                           (* lowpass.rs:25-39 *)
  lp_reset m (mkLP (clamp_fc fc) (clamp_r r) (mkC f0 f0 f0 f0) (hist0 f0)).
Definition lp_set_fc (m : libm) (s : lowpass) (fc : f64) : lowpass :=            (* lowpass.rs:47-52 *)
  lp_reset m (mkLP (clamp_fc fc) (lp_r s) (lp_coeff s) (lp_outs s)).
Definition lp_set_r (m : libm) (s : lowpass) (r : f64) : lowpass :=              (* lowpass.rs:60-65 *)
  lp_reset m (mkLP (lp_fc s) (clamp_r r) (lp_coeff s) (lp_outs s)).
Definition lp_process (s : lowpass) (x : f32) : f32 * lowpass :=
  let '(y, o) := lp_step fadd fmul (lp_coeff s) (lp_outs s) x in (y, mkLP (lp_fc s) (lp_r s) (lp_coeff s) o).
Definition lp_clone (s : lowpass) : lowpass := mkLP (lp_fc s) (lp_r s) (lp_coeff s) (hist0 f0). (* lowpass.rs:96-105 *)

(** ** HighPass: highpass.rs:10-28 *)
Record hpc (S : Type) := mkHPC { hc_a : coeffs S; hc_b1 : S; hc_b2 : S; hc_b3 : S }.
Arguments mkHPC {S}. Arguments hc_a {S}. Arguments hc_b1 {S}. Arguments hc_b2 {S}. Arguments hc_b3 {S}.
(** highpass.rs:91-106 *)
Definition hp_coeffs {T S} (A : arith T) (cast : T -> S) (fc r : T) : hpc S :=
  let k := bw_k A (hp_theta A r) in let t := bw_t A fc in
  mkHPC (mkC (cast (hp_a0 A k t)) (cast (hp_a1 A k t)) (cast (hp_a2 A k t)) (cast (hp_a3 A k t)))
        (cast (bw_b1 A k t)) (cast (bw_b2 A k t)) (cast (bw_b3 A k t)).
(** highpass.rs:110-122; state: input history and output history *)
Definition hp_step {S} (add mul : S -> S -> S) (c : hpc S) (st : hist S * hist S) (x : S) : S * (hist S * hist S) :=
  let '(xs, ys) := st in
  let y := hp_out add mul (c0 (hc_a c)) (c1 (hc_a c)) (c2 (hc_a c)) (c3 (hc_a c)) (hc_b1 c) (hc_b2 c) (hc_b3 c)
                  x (h0 xs) (h1 xs) (h2 xs) (h0 ys) (h1 ys) (h2 ys) in
  (y, (mkH x (h0 xs) (h1 xs), mkH y (h0 ys) (h1 ys))).

Record highpass := mkHP { hp_fc : f64; hp_r : f64; hp_coeff : hpc f32; hp_hist : hist f32 * hist f32 }.
Definition hp_reset (m : libm) (s : highpass) : highpass :=                      (* highpass.rs:91-106 *)
  mkHP (hp_fc s) (hp_r s) (hp_coeffs (A64 m) to32 (hp_fc s) (hp_r s)) (hp_hist s).
Definition hp_new (m : libm) (fc r : f64) : highpass :=                          (* highpass.rs:39-63 *)
  hp_reset m (mkHP (clamp_fc fc) (clamp_r r) (mkHPC (mkC f0 f0 f0 f0) f0 f0 f0) (hist0 f0, hist0 f0)).
Definition hp_set_fc (m : libm) (s : highpass) (fc : f64) : highpass :=          (* highpass.rs:71-76 *)
  hp_reset m (mkHP (clamp_fc fc) (hp_r s) (hp_coeff s) (hp_hist s)).
Definition hp_set_r (m : libm) (s : highpass) (r : f64) : highpass :=            (* highpass.rs:84-89 *)
  hp_reset m (mkHP (hp_fc s) (clamp_r r) (hp_coeff s) (hp_hist s)).
Definition hp_process (s : highpass) (x : f32) : f32 * highpass :=
  let '(y, h) := hp_step fadd fmul (hp_coeff s) (hp_hist s) x in (y, mkHP (hp_fc s) (hp_r s) (hp_coeff s) h).
Definition hp_clone (s : highpass) : highpass := mkHP (hp_fc s) (hp_r s) (hp_coeff s) (hist0 f0, hist0 f0). (* highpass.rs:125-145 *)

(** ** BandPass: bandpass.rs:6-16 *)
Record bpc (T : Type) := mkBPC { bc_a0 : T; bc_b1 : T; bc_b2 : T }.
Arguments mkBPC {T}. Arguments bc_a0 {T}. Arguments bc_b1 {T}. Arguments bc_b2 {T}.
Record bph (S : Type) := mkBPH { bh_x1 : S; bh_x2 : S; bh_y1 : S; bh_y2 : S }.
Arguments mkBPH {S}. Arguments bh_x1 {S}. Arguments bh_x2 {S}. Arguments bh_y1 {S}. Arguments bh_y2 {S}.
(** bandpass.rs:115-130 *)
Definition bp_coeffs {T} (A : arith T) (f q : T) : bpc T :=
  let '(fh, fl) := bp_corners A f q in mkBPC (bp_a0 A fh fl) (bp_b1 A fh fl) (bp_b2 A fh fl).
(** bandpass.rs:134-145; [x - x2] is a subtraction of samples, the rest is in the coefficient type *)
Definition bp_step {T S} (A : arith T) (subS : S -> S -> S) (up : S -> T) (down : T -> S)
  (c : bpc T) (h : bph S) (x : S) : S * bph S :=
  let y := down (a_sub A (a_add A (a_mul A (bc_a0 c) (up (subS x (bh_x2 h)))) (a_mul A (bc_b1 c) (up (bh_y1 h))))
                         (a_mul A (bc_b2 c) (up (bh_y2 h)))) in
  (y, mkBPH x (bh_x1 h) y (bh_y1 h)).

Record bandpass := mkBP { bp_f : f64; bp_q : f64; bp_coeff : bpc f64; bp_hist : bph f32 }.
Definition bph0 : bph f32 := mkBPH f0 f0 f0 f0.
Definition bp_reset (m : libm) (s : bandpass) : bandpass :=                      (* bandpass.rs:115-130 *)
  mkBP (bp_f s) (bp_q s) (bp_coeffs (A64 m) (bp_f s) (bp_q s)) (bp_hist s).
Definition bp_new (m : libm) (f q : f64) : bandpass :=                           (* bandpass.rs:24-40 *)
  bp_reset m (mkBP f q (mkBPC f0 f0 f0) bph0).
Definition bp_from_corners (m : libm) (c : f64 * f64) : bandpass :=              (* bandpass.rs:43-59 *)
  bp_new m (bp_from_f (A64 m) c) (bp_from_q (A64 m) c).
Definition bp_set_corners (m : libm) (s : bandpass) (c : f64 * f64) : bandpass := (* bandpass.rs:108-113 *)
  bp_reset m (mkBP (bp_set_f (A64 m) c) (bp_set_q (A64 m) c) (bp_coeff s) (bp_hist s)).
Definition bp_set_f64 (m : libm) (s : bandpass) (f : f64) : bandpass :=          (* bandpass.rs:67-71 *)
  bp_reset m (mkBP f (bp_q s) (bp_coeff s) (bp_hist s)).
Definition bp_set_quality (m : libm) (s : bandpass) (q : f64) : bandpass :=      (* bandpass.rs:82-86 *)
  bp_reset m (mkBP (bp_f s) q (bp_coeff s) (bp_hist s)).
Definition bp_get_corners (m : libm) (s : bandpass) : f64 * f64 := bp_corners (A64 m) (bp_f s) (bp_q s). (* bandpass.rs:89-105 *)
Definition bp_process (m : libm) (s : bandpass) (x : f32) : f32 * bandpass :=
  let '(y, h) := bp_step (A64 m) fsub to64 to32 (bp_coeff s) (bp_hist s) x in (y, mkBP (bp_f s) (bp_q s) (bp_coeff s) h).
Definition bp_clone (s : bandpass) : bandpass := mkBP (bp_f s) (bp_q s) (bp_coeff s) bph0. (* bandpass.rs:155-169 *)
