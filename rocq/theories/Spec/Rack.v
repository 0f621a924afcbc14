(** * Parts side by side: racks of modifiers, chords of sines *)
From Coq Require Import ZArith List Reals.
From Flocq Require Import Core.Core IEEE754.BinarySingleNaN.
From Verif Require Import Model.Floats Model.Sounds Spec.SoundSpec Spec.Response Spec.Chain.
Import ListNotations.
Local Open Scope R_scope.

(** blocks moved in one after the other, then each connected between the input gain and the output gain *)
Definition build_rack (hs : list handle) : list cop :=
  map CAddBlock hs ++ flat_map (fun i => [CConnect 0 i; CConnect i 1]) (seq 2 (length hs)).

Definition rsum (l : list R) : R := fold_right Rplus 0 l.
(** the parts of a rack all hear the same tone: their complex amplitudes add *)
Definition rack_w (m : libm) (ps : list lpart) (om : R) (w : C) : C := fold_right (fun p a => cadd (cmul (l_H m p om) w) a) (cre 0) ps.
(** largest sample, error, without the additions *)
Definition rack_amp (m : libm) (ps : list lpart) (X : R) : R := rsum (map (fun p => (1 + l_gain m p + l_drift m p) * X) ps).
Definition rack_err (m : libm) (ps : list lpart) (eps X : R) : R := rsum (map (fun p => l_drift m p * X + l_gain m p * eps) ps).
(** adding [n] samples in f32 may make them larger by this factor *)
Definition adding (n : nat) : R := (1 + bpow radix2 (-24)) ^ n.
