(** * Sounds mixed in any order *)
From Coq Require Import ZArith List Reals.
From Flocq Require Import Core.Core IEEE754.BinarySingleNaN.
From Verif Require Import Model.Floats Model.Channel Spec.Rack.
Import ListNotations.
Local Open Scope R_scope.

(** the same channel, its map of sounds yielding its entries in another order *)
Definition reordered {SF} (c : channel SF) (l : list (Z * nat)) : channel SF := mkChannel SF (ch_output SF c) l (ch_gain SF c) (ch_counter SF c).
(** what is in the buffer plus the samples, times the gain, without rounding: no order involved *)
Definition exact_mix (g b : f32) (vs : list f32) : R := B2R g * (B2R b + rsum (map B2R vs)).
Definition mix_weight (b : f32) (vs : list f32) : R := Rabs (B2R b) + rsum (map (fun x => Rabs (B2R x)) vs).
Definition mix_room (g b : f32) (vs : list f32) : Prop :=
  is_finite g = true /\ is_finite b = true /\ Forall (fun x => is_finite x = true) vs /\
  adding (length vs) * mix_weight b vs <= bpow radix2 120 /\ adding (length vs) * mix_weight b vs * Rabs (B2R g) <= bpow radix2 127.
(** one rounding per sound and one for the gain *)
Definition mix_err (g b : f32) (vs : list f32) : R := (adding (S (length vs)) - 1) * mix_weight b vs * Rabs (B2R g) + bpow radix2 (-150).
Definition near_mix (g b : f32) (vs : list f32) (y : f32) : Prop := is_finite y = true /\ Rabs (B2R y - exact_mix g b vs) <= mix_err g b vs.
