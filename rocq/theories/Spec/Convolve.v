(** * Impulse responses and convolution *)
From Coq Require Import ZArith List Reals.
From Flocq Require Import Core.Core IEEE754.BinarySingleNaN.
From Verif Require Import Model.Floats Model.Utils Model.Modifiers Model.Filters Spec.Response Spec.Track Spec.Taps Spec.Chain.
Import ListNotations.
Local Open Scope R_scope.

(** one, then silence; the same [d] samples later *)
Definition impulse (n : nat) : R := if (n =? 0)%nat then 1 else 0.
Definition late (d : nat) (n : nat) : R := if (n =? d)%nat then 1 else 0.
Definition conv (h x : nat -> R) (n : nat) : R := sum_f_R0 (fun k => h k * x (n - k)%nat) n.
(** impulse response of a modifier; of the filters: what the exact filter answers to an impulse *)
Definition l_h (m : libm) (p : lpart) : nat -> R :=
  match p with
  | LPass => impulse
  | LGain a => fun n => B2R a * impulse n
  | LDelay d => late (length (delay_new d))
  | LEcho d g => let D := length (e_delay (echo_new d g)) in fun n => if (n mod D =? 0)%nat then B2R (to32 g) ^ (n / D) else 0
  | LLow fc r => let s := lp_new m fc r in response (lp_step Rplus Rmult (lp_coeffs AR (fun x : R => x) (B2R (lp_fc s)) (B2R (lp_r s)))) (hist0 0) impulse
  | LHigh fc r => let s := hp_new m fc r in response (hp_step Rplus Rmult (hp_coeffs AR (fun x : R => x) (B2R (hp_fc s)) (B2R (hp_r s)))) (hist0 0, hist0 0) impulse
  | LBand f q => let c := bp_get_corners m (bp_new m f q) in
      response (bp_step AR Rminus (fun x : R => x) (fun x : R => x) (bp_at (B2R (fst c)) (B2R (snd c)))) (mkBPH 0 0 0 0) impulse
  | LTaps z p => sol z p impulse
  end.
Fixpoint chain_h (m : libm) (ps : list lpart) : nat -> R :=
  match ps with [] => impulse | p :: r => conv (chain_h m r) (l_h m p) end.
(** [xs] is the signal [x], to within [eps], with samples of at most [X] *)
Definition near_signal (x : nat -> R) (eps X : R) (xs : list f32) : Prop :=
  forall j v, nth_error xs j = Some v -> is_finite v = true /\ Rabs (B2R v) <= X /\ Rabs (B2R v - x j) <= eps.
(** the Fourier sum of [h], up to term [n] *)
Definition fourier (h : nat -> R) (om : R) (n : nat) : C :=
  (sum_f_R0 (fun k => h k * cos (om * INR k)) n, sum_f_R0 (fun k => - (h k * sin (om * INR k))) n).
(** the same sample, a zero of either sign being a zero *)
Definition same_sample (x y : f32) : Prop := x = y \/ (is_finite x = true /\ is_finite y = true /\ B2R x = 0 /\ B2R y = 0).
