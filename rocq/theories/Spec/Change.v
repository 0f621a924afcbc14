(** * Filters whose parameters are changed while they run *)
From Coq Require Import List Reals.
From Flocq Require Import Core.Core IEEE754.BinarySingleNaN.
From Verif Require Import Model.Floats Model.Modifiers Model.Filters Spec.Libm Spec.Response Spec.Track.
Import ListNotations.
Local Open Scope R_scope.

(** everything a filter remembers is a finite sample of at most [B] *)
Definition lp_past (s : lowpass) : list f32 := [h0 (lp_outs s); h1 (lp_outs s); h2 (lp_outs s)].
Definition hp_past (s : highpass) : list f32 :=
  [h0 (fst (hp_hist s)); h1 (fst (hp_hist s)); h2 (fst (hp_hist s)); h0 (snd (hp_hist s)); h1 (snd (hp_hist s)); h2 (snd (hp_hist s))].
Definition bp_past (s : bandpass) : list f32 := [bh_x1 (bp_hist s); bh_x2 (bp_hist s); bh_y1 (bp_hist s); bh_y2 (bp_hist s)].
Definition within (l : list f32) (B : R) : Prop := forall x, In x l -> is_finite x = true /\ Rabs (B2R x) <= B.
(** the same history, as numbers *)
Definition nums (h : hist f32) : hist R := mkH (B2R (h0 h)) (B2R (h1 h)) (B2R (h2 h)).
Definition bnums (h : bph f32) : bph R := mkBPH (B2R (bh_x1 h)) (B2R (bh_x2 h)) (B2R (bh_y1 h)) (B2R (bh_y2 h)).
(** how much louder than the history the input must be allowed to be, for a cutoff of [f] hertz *)
Definition pad_for (f : R) : R := (1 + 2 / rad f) * (1 + 2 / rad f).
(** the exact band pass *)
Definition bp_real (lo hi : R) : bph R -> R -> R * bph R := bp_step AR Rminus (fun x : R => x) (fun x : R => x) (bp_at lo hi).
(** [y] is within [D] of [z1] all the time, and in the end within [D] of [z2] *)
Definition moves_over (y : nat -> f32) (z1 z2 : nat -> R) (D : R) : Prop :=
  (forall n, is_finite (y n) = true /\ Rabs (B2R (y n) - z1 n) <= D) /\
  exists K rho, 0 <= rho < 1 /\ forall n, Rabs (B2R (y n) - z2 n) <= D + K * rho ^ n.

(** the corners are set before every sample, alternately to [a] and to [b] *)
Fixpoint wobble (m : libm) (a b : f64 * f64) (xs : list f32) (s : bandpass) : list f32 :=
  match xs with
  | [] => []
  | x :: xs => let '(y, s) := bp_process m (bp_set_corners m s a) x in y :: wobble m b a xs s
  end.
