(** * Generic filters over the reals: difference equation, response, bounds *)
From Coq Require Import ZArith List Arith Reals.
From Flocq Require Import Core.Core IEEE754.BinarySingleNaN.
From Verif Require Import Model.Floats Model.Modifiers Spec.Response.
Import ListNotations.
Local Open Scope R_scope.

(** the value of [x] taken [k] places before place [n], zero before the start *)
Definition before (x : nat -> R) (n k : nat) : R := if (n <? k)%nat then 0 else x (n - k)%nat.
(** weighted sum of past values, and the sum of the weights' magnitudes *)
Definition tapped (cs : list (Z * f32)) (h : nat -> R) : R := fold_right (fun c a => B2R (snd c) * h (Z.to_nat (fst c)) + a) 0 cs.
Definition weight (cs : list (Z * f32)) : R := fold_right (fun c a => Rabs (B2R (snd c)) + a) 0 cs.
(** y[n] = sum of z_i x[n - i] + sum of p_j y[n - 1 - j] *)
Definition solves (z p : list (Z * f32)) (x y : nat -> R) : Prop :=
  forall n, y n = tapped z (before x n) + tapped p (fun k => before y n (S k)).
(** the solution, computed sample by sample; [sol_hist]: the outputs so far, newest first *)
Fixpoint sol_hist (z p : list (Z * f32)) (x : nat -> R) (n : nat) : list R :=
  match n with O => [] | S k => let h := sol_hist z p x k in (tapped z (before x k) + tapped p (fun j => nth j h 0)) :: h end.
Definition sol (z p : list (Z * f32)) (x : nat -> R) (n : nat) : R := hd 0 (sol_hist z p x (S n)).
(** sum of c_i e^(-j om (i + o)), and the transfer function *)
Definition taps_sum (cs : list (Z * f32)) (o : nat) (om : R) : C :=
  fold_right (fun c a => cadd (cmul (cre (B2R (snd c))) (zi (om * INR (o + Z.to_nat (fst c))))) a) (cre 0) cs.
Definition taps_H (z p : list (Z * f32)) (om : R) : C := cdiv (taps_sum z 0 om) (csub (cre 1) (taps_sum p 1 om)).
(** no index is beyond the last one, the coefficients are numbers, feed-forward of at most 4096, feedback that leaves room for rounding below 1 *)
Definition taps_ok (z p : list (Z * f32)) : Prop :=
  (forall c, In c z -> (0 <= fst c < back_len z)%Z /\ is_finite (snd c) = true) /\ (forall c, In c p -> (0 <= fst c < back_len p)%Z /\ is_finite (snd c) = true) /\
  weight z <= bpow radix2 12 /\ weight p < 1 /\ 6 * INR (length z + length p) * bpow radix2 (-24) <= 1 - weight p.
Definition taps_gain (z p : list (Z * f32)) : R := weight z / (1 - weight p).
Definition taps_drift (z p : list (Z * f32)) : R :=
  6 * INR (length z + length p) * bpow radix2 (-24) * (weight z + bpow radix2 (-20)) / ((1 - weight p) * (1 - weight p)).
