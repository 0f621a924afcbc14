(** * C119: Generic filters with little feedback: difference equation, response, convolution *)

From Coq Require Import ZArith List Bool Reals Lra Lia.
From Flocq Require Import Core.Core IEEE754.BinarySingleNaN.
From Verif Require Import Model.Floats Model.Utils Model.Modifiers Spec.Response Spec.Chain Spec.Convolve Spec.Taps
  Proof.FloatFacts Proof.TapsP Proof.TapsP2 Proof.TapsP3.
Import ListNotations.
Local Open Scope R_scope.

(** ** C119 *)
(** the difference equation has one solution for every input, whatever the coefficients *)
Theorem C119_one_solution : forall (z p : list (Z * f32)) (x : nat -> R),
  solves z p x (sol z p x) /\ forall y, solves z p x y -> forall n, y n = sol z p x n.
Proof. exact one_solution. Qed.
(** with feedback weights of sum below 1 the filter never panics, stays finite and bounded, and plays the solution to within rounding errors, for ever *)
Theorem C119_tracks : forall (z p : list (Z * f32)) (X : R) (xs : list f32), taps_ok z p -> bpow radix2 (-100) <= X <= bpow radix2 90 ->
  (forall x, In x xs -> is_finite x = true /\ Rabs (B2R x) <= X) ->
  exists ys s, run_res generic_process (generic_new z p) xs = Ok (ys, s) /\ length ys = length xs /\
    forall y, solves z p (fun i => B2R (nth i xs f0)) y -> forall n, (n < length xs)%nat ->
      is_finite (nth n ys f0) = true /\ Rabs (B2R (nth n ys f0) - y n) <= taps_drift z p * X /\
      Rabs (B2R (nth n ys f0)) <= (taps_gain z p + taps_drift z p) * X.
Proof. exact taps_run. Qed.
(** the solution is the convolution of the input with the solution for an impulse *)
Theorem C119_convolution : forall (z p : list (Z * f32)) (x : nat -> R) (n : nat), sol z p x n = conv (sol z p impulse) x n.
Proof. exact sol_conv. Qed.
(** the solution for a tone settles on the tone times the transfer function sum z_i e^(-j om i) / (1 - sum p_j e^(-j om (j + 1))) *)
Theorem C119_tone : forall (z p : list (Z * f32)) (om : R) (w : C), taps_ok z p ->
  settles (sol z p (fun n => tone om w n)) (fun n => tone om (cmul (taps_H z p om) w) n).
Proof. exact sol_settles. Qed.
(** the same in floats, for any samples near a tone *)
Theorem C119_tone_floats : forall (z p : list (Z * f32)) (om : R) (w : C) (K rho X : R), taps_ok z p -> 0 <= K -> 0 <= rho < 1 -> bpow radix2 (-100) <= X <= bpow radix2 90 ->
  exists K' rho', 0 <= K' /\ 0 <= rho' < 1 /\ forall (eps : R) (xs : list f32), 0 <= eps -> near_tone om w eps K rho X xs ->
    exists ys s, run_res generic_process (generic_new z p) xs = Ok (ys, s) /\ length ys = length xs /\
      near_tone om (cmul (taps_H z p om) w) (taps_drift z p * X + taps_gain z p * eps) K' rho' ((1 + taps_gain z p + taps_drift z p) * X) ys.
Proof. exact taps_tone. Qed.
(** feedback of sum 1 is out of reach of any such bound: the running sum of its input; fed 1s it counts to 2^24 *)
Theorem C119_unit_feedback_refuted : forall N : nat, (Z.of_nat N <= 2 ^ 24)%Z ->
  exists ys s, run_res generic_process (generic_new [(0%Z, of_Z 1)] [(0%Z, of_Z 1)]) (repeat (of_Z 1) N) = Ok (ys, s) /\
    length ys = N /\ forall n, (n < N)%nat -> is_finite (nth n ys f0) = true /\ B2R (nth n ys f0) = INR (S n).
Proof. exact counter. Qed.

(** y[n] = x[n]/4 + x[n-1]/2 + x[n-2]/4 + y[n-1]/2: constants are doubled, the highest frequency is removed; an impulse in floats *)
Example C119_ex : let z := [(0%Z, lit 1 (-2)); (1%Z, lit 1 (-1)); (2%Z, lit 1 (-2))] in let p := [(0%Z, lit 1 (-1))] in
  taps_ok z p /\ taps_H z p 0 = cre 2 /\ taps_H z p PI = cre 0 /\ taps_gain z p = 2 /\ taps_drift z p < / 100000 /\
  match run_res generic_process (generic_new z p) (map of_Z [16; 0; 0; 0; 0]%Z) with Ok (ys, _) => map B2SF ys = map (fun k => B2SF (of_Z k : f32)) [4; 10; 9]%Z ++ map B2SF [lit 9 (-1) : f32; lit 9 (-2)] | _ => False end.
Proof. exact taps_example. Qed.
