(** * What a file keeps of a sample *)
From Coq Require Import ZArith List Reals.
From Flocq Require Import Core.Core IEEE754.BinarySingleNaN.
From Verif Require Import Model.Floats.
Import ListNotations.
Local Open Scope R_scope.

(** at most this is lost in a file of 8, 16 or 24 bits per sample *)
Definition quantum (bps : Z) : R := if (bps =? 8)%Z then / 128 else if (bps =? 16)%Z then / 65000 else / 8000000.
(** clipping to [-1, 1], in the reals *)
Definition clip1 (x : R) : R := Rmax (-1) (Rmin 1 x).
(** lists of the same length, related place by place *)
Definition close (q : R) (f : f32 -> R) (xs ys : list f32) : Prop :=
  Forall2 (fun x y => is_finite y = true /\ Rabs (B2R y) <= 1 /\ Rabs (B2R y - f x) <= q) xs ys.
