(** * Chords and repeating waveforms *)
From Coq Require Import ZArith List Reals.
From Flocq Require Import Core.Core IEEE754.BinarySingleNaN.
From Verif Require Import Model.Floats Model.Generators Model.Modifiers Model.Sounds Model.Parts Spec.Response Spec.Track Spec.Chain.
Import ListNotations.
Local Open Scope R_scope.

(** several tones at once: angular frequency per sample and complex amplitude of each *)
Definition chord (ts : list (R * C)) (n : nat) : R := fold_right (fun t a => tone (fst t) (snd t) n + a) 0 ts.
(** each tone multiplied by the frequency response of the chain at its own frequency *)
Definition chord_thru (m : libm) (ps : list lpart) (ts : list (R * C)) : list (R * C) := map (fun t => (fst t, chain_w m ps (fst t) (snd t))) ts.
(** [x] repeats every [P] samples, multiplied by [s] (1, or -1 for waves whose second half is the first one upside down) *)
Definition repeats (P : nat) (s : R) (x : nat -> R) : Prop := forall n, x (n + P)%nat = s * x n.
(** product of the gains of a chain *)
Definition total_gain (m : libm) (ps : list lpart) : R := fold_right (fun p a => l_gain m p * a) 1 ps.
(** finite samples, [z] to within [eps] and an error that dies out *)
Definition ends_up (z : nat -> R) (eps K rho : R) (ys : list f32) : Prop :=
  forall i y, nth_error ys i = Some y -> is_finite y = true /\ Rabs (B2R y - z i) <= eps + K * rho ^ i.
Definition square_block (f : f64) : block kit := User kit (kit_generator (GSq (sq_new f))).
(** the harmonics of a waveform of period [P]: its discrete Fourier transform *)
Definition harmonic (P : nat) (x : nat -> R) (k : nat) : R * C :=
  let om := 2 * PI * INR k / INR P in
  (om, (sum_f_R0 (fun j => x j * cos (om * INR j)) (Nat.pred P) / INR P, - (sum_f_R0 (fun j => x j * sin (om * INR j)) (Nat.pred P) / INR P))).
Definition harmonics (P : nat) (x : nat -> R) : list (R * C) := map (harmonic P x) (seq 0 P).
(** the square wave of half period [m] samples *)
Definition square_wave (m : nat) (n : nat) : R := if (n mod (2 * m) <? m)%nat then 1 else -1.
Definition triangle_block (f : f64) : block kit := User kit (kit_generator (GTri (tri_new f))).
