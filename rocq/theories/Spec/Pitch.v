(** * Recordings played at another speed *)
From Coq Require Import List Reals.
From Flocq Require Import Core.Core IEEE754.BinarySingleNaN.
From Verif Require Import Model.Floats Model.Mono Spec.Response.
Import ListNotations.
Local Open Scope R_scope.

(** a curve whose slope is at most [L] and whose curvature is at most [M], per sample and per sample squared *)
Definition smooth (L M : R) (g : R -> R) : Prop := exists g1 g2 : R -> R,
  (forall t, derivable_pt_lim g t (g1 t) /\ derivable_pt_lim g1 t (g2 t)) /\ forall t, Rabs (g1 t) <= L /\ Rabs (g2 t) <= M.
(** a track whose samples are the curve at the integers, to within [eps] *)
Definition recording (eps : R) (g : R -> R) (data : list Mono) : Prop :=
  forall j d, nth_error data j = Some d -> Rabs (B2R (mono d) - g (INR j)) <= eps.
(** the tone of Spec/Response at any real time *)
Definition rtone (om : R) (w : C) (t : R) : R := fst w * cos (om * t) - snd w * sin (om * t).
(** peak of a tone *)
Definition modulus (w : C) : R := sqrt (cn2 w).
