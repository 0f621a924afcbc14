(** * Frequency responses: complex numbers as pairs, tones, settling, transfer functions *)
From Coq Require Import List Reals.
From Verif Require Import Model.Modifiers.
Local Open Scope R_scope.

Definition C : Type := (R * R)%type.
Definition cre (a : R) : C := (a, 0).
Definition cadd (x y : C) : C := (fst x + fst y, snd x + snd y).
Definition cmul (x y : C) : C := (fst x * fst y - snd x * snd y, fst x * snd y + snd x * fst y).
Definition copp (x : C) : C := (- fst x, - snd x).
Definition csub (x y : C) : C := (fst x - fst y, snd x - snd y).
(** squared modulus *)
Definition cn2 (x : C) : R := fst x * fst x + snd x * snd x.
Definition cinv (x : C) : C := (fst x / cn2 x, - snd x / cn2 x).
Definition cdiv (x y : C) : C := cmul x (cinv y).

(** the tone of complex amplitude [w] at [om] radians per sample: the real part of w e^(j om n) *)
Definition tone (om : R) (w : C) (n : nat) : R := fst w * cos (om * INR n) - snd w * sin (om * INR n).
(** radians per sample of a frequency in Hz *)
Definition rad (f : R) : R := 2 * PI * f / 48000.
(** [n]-th output of a machine fed with the signal [x] *)
Definition response {St} (step : St -> R -> R * St) (s : St) (x : nat -> R) (n : nat) : R :=
  nth n (fst (run step s (map x (seq 0 (S n))))) 0.
(** [y] tends to [z], geometrically *)
Definition settles (y z : nat -> R) : Prop := exists K rho, 0 <= rho < 1 /\ forall n, Rabs (y n - z n) <= K * rho ^ n.

(** the unit delay e^(-j om) *)
Definition zi (om : R) : C := (cos om, - sin om).
(** backward difference over t: the s of the continuous-time prototype *)
Definition s_of (t om : R) : C := cmul (cre (/ t)) (csub (cre 1) (zi om)).
(** s^3 + k s^2 + k s + 1 *)
Definition butter (k : R) (s : C) : C :=
  cadd (cadd (cadd (cmul s (cmul s s)) (cmul (cre k) (cmul s s))) (cmul (cre k) s)) (cre 1).
(** k for a resonance: 2 at resonance 0 (Butterworth), 1 at resonance 1 *)
Definition k_of (r : R) : R := 1 - 2 * cos (PI / 6 * (4 - r)).
Definition lp_H (fc r om : R) : C := cinv (butter (k_of r) (s_of (rad fc) om)).
Definition hp_H (fc r om : R) : C := let s := s_of (rad fc) om in cdiv (cmul s (cmul s s)) (butter (k_of r) s).
(** band pass with corners lo and hi: th z+/(z- + th z+) for the low-pass half, z-/(z- + th z+) for the high-pass half,
    where z- = 1 - e^(-j om), z+ = 1 + e^(-j om) *)
Definition warp (f : R) : R := tan (PI * f / 48000).
Definition bp_H (lo hi om : R) : C :=
  let m := csub (cre 1) (zi om) in let p := cadd (cre 1) (zi om) in
  cdiv (cmul (cre (warp hi)) (cmul p m)) (cmul (cadd m (cmul (cre (warp hi)) p)) (cadd m (cmul (cre (warp lo)) p))).
(** the prototype's angular frequency (cutoff = 1) met at [om] *)
Definition proto (fc om : R) : R := 2 * sin (om / 2) / rad fc.
