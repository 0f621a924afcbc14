(** * Chains of linear modifiers, heard by a tone *)
From Coq Require Import ZArith List Reals.
From Flocq Require Import Core.Core IEEE754.BinarySingleNaN.
From Verif Require Import Model.Floats Model.Utils Model.Generators Model.Modifiers Model.Filters Model.Sounds Model.Parts Spec.Response Spec.Track Spec.Parts Spec.Taps.
Import ListNotations.
Local Open Scope R_scope.

(** the linear modifiers of the library, with the arguments of their constructors *)
Inductive lpart :=
| LPass | LGain (a : f32) | LDelay (d : duration) | LEcho (d : duration) (g : f64)
| LLow (fc r : f64) | LHigh (fc r : f64) | LBand (f q : f64)
| LTaps (z p : list (Z * f32)).
Definition l_part (m : libm) (p : lpart) : mpart :=
  match p with
  | LPass => MPass | LGain a => MGain a | LDelay d => MDelay (delay_new d) | LEcho d g => MEcho (echo_new d g)
  | LLow fc r => MLow (lp_new m fc r) | LHigh fc r => MHigh (hp_new m fc r) | LBand f q => MBand (bp_new m f q)
  | LTaps z p => MGeneric (generic_new z p)
  end.
(** arguments in range: echo of at least a sample with a gain below 1, cutoffs of 600 Hz or more, corners from 20 to 20000 Hz,
    a Generic of little feedback (Spec/Taps.v) *)
Definition l_ok (m : libm) (p : lpart) : Prop :=
  match p with
  | LPass | LDelay _ => True
  | LGain a => is_finite a = true /\ Rabs (B2R a) <= bpow radix2 30
  | LEcho d g => e_delay (echo_new d g) <> [] /\ is_finite (to32 g) = true /\ Rabs (B2R (to32 g)) < 1
  | LLow fc r => fle (of_Z 600) (lp_fc (lp_new m fc r)) = true
  | LHigh fc r => fle (of_Z 600) (hp_fc (hp_new m fc r)) = true
  | LBand f q => let c := bp_get_corners m (bp_new m f q) in
      (fle (of_Z 20) (fst c) = true /\ fle (fst c) (of_Z 20000) = true) /\ (fle (of_Z 20) (snd c) = true /\ fle (snd c) (of_Z 20000) = true)
  | LTaps z p => taps_ok z p
  end.
(** frequency response *)
Definition l_H (m : libm) (p : lpart) (om : R) : C :=
  match p with
  | LPass => cre 1
  | LGain a => cre (B2R a)
  | LDelay d => zi (om * INR (length (delay_new d)))
  | LEcho d g => cinv (csub (cre 1) (cmul (cre (B2R (to32 g))) (zi (om * INR (length (e_delay (echo_new d g)))))))
  | LLow fc r => let s := lp_new m fc r in lp_H (B2R (lp_fc s)) (B2R (lp_r s)) om
  | LHigh fc r => let s := hp_new m fc r in hp_H (B2R (hp_fc s)) (B2R (hp_r s)) om
  | LBand f q => let c := bp_get_corners m (bp_new m f q) in bp_H (B2R (fst c)) (B2R (snd c)) om
  | LTaps z p => taps_H z p om
  end.
(** how much an error already in the signal may grow, and the error added per unit of amplitude *)
Definition l_gain (m : libm) (p : lpart) : R :=
  match p with
  | LPass | LDelay _ => 1
  | LGain a => Rabs (B2R a)
  | LEcho d g => / (1 - Rabs (B2R (to32 g)))
  | LLow fc r => 6 / rad (B2R (lp_fc (lp_new m fc r))) + 3
  | LHigh fc r => 12 / rad (B2R (hp_fc (hp_new m fc r))) + 8
  | LBand f q => let c := bp_get_corners m (bp_new m f q) in 2 / ((1 - Rabs (pole_at (B2R (fst c)))) * (1 - Rabs (pole_at (B2R (snd c)))))
  | LTaps z p => taps_gain z p
  end.
Definition l_drift (m : libm) (p : lpart) : R :=
  match p with
  | LPass | LDelay _ => 0
  | LGain a => bpow radix2 (-24) * (Rabs (B2R a) + 1)
  | LEcho d g => let e := 1 - Rabs (B2R (to32 g)) in bpow radix2 (-21) / (e * e)
  | LLow fc r => lp_drift (B2R (lp_fc (lp_new m fc r)))
  | LHigh fc r => hp_drift (B2R (hp_fc (hp_new m fc r)))
  | LBand f q => let c := bp_get_corners m (bp_new m f q) in bp_drift (B2R (fst c)) (B2R (snd c))
  | LTaps z p => taps_drift z p
  end.
(** the chain: complex amplitude, error and largest sample after it *)
Fixpoint chain_w (m : libm) (ps : list lpart) (om : R) (w : C) : C :=
  match ps with [] => w | p :: r => chain_w m r om (cmul (l_H m p om) w) end.
Fixpoint chain_err (m : libm) (ps : list lpart) (eps X : R) : R :=
  match ps with [] => eps | p :: r => chain_err m r (l_drift m p * X + l_gain m p * eps) ((1 + l_gain m p + l_drift m p) * X) end.
Fixpoint chain_amp (m : libm) (ps : list lpart) (X : R) : R :=
  match ps with [] => X | p :: r => chain_amp m r ((1 + l_gain m p + l_drift m p) * X) end.

(** a signal that is the tone to within [eps] and an error that dies out, of amplitude at most [X] *)
Definition near_tone (om : R) (w : C) (eps K rho X : R) (xs : list f32) : Prop :=
  forall j x, nth_error xs j = Some x -> is_finite x = true /\ Rabs (B2R x) <= X /\ Rabs (B2R x - tone om w j) <= eps + K * rho ^ j.
(** blocks in a row, the whole signal through the first, then through the second, ... *)
Fixpoint pipeline {B} (prime : B -> f32 -> B) (process : B -> res (f32 * B)) (bs : list B) (xs : list f32) : res (list f32) :=
  match bs with
  | [] => Ok xs
  | b :: r => do (ys, _) <- run_res (cycle prime process) b (map (fun x => [x]) xs); pipeline prime process r ys
  end.
(** the blocks of a chain *)
Definition tone_block (f : f64) : block kit := User kit (kit_generator (GSin (sin_new f))).
Definition chain_block (m : libm) (p : lpart) : block kit := User kit (kit_modifier (l_part m p)).
