(** * Linear modifiers in a feedback loop of a ComplexSound *)
From Coq Require Import List Arith Reals.
From Flocq Require Import Core.Core IEEE754.BinarySingleNaN.
From Verif Require Import Model.Floats Model.Modifiers Model.Filters Spec.Response Spec.Chain Spec.Convolve.
Import ListNotations.
Local Open Scope R_scope.

(** the blocks of [L] in a row, the input gain before the first, the last one back to the first, the output gain after block
    number [t] of the row *)
Definition ring_link (L : list nat) (t a b : nat) : Prop :=
  (a = 0%nat /\ nth_error L 0 = Some b) \/ (exists i, nth_error L i = Some a /\ nth_error L (S i) = Some b) \/
  (nth_error L t = Some a /\ b = 1%nat) \/ (nth_error L (length L - 1) = Some a /\ nth_error L 0 = Some b).
Definition ring (n : nat) (L : list nat) (t : nat) : Prop :=
  NoDup L /\ (forall x, In x L <-> (2 <= x < n)%nat) /\ (2 <= length L)%nat /\ (t < length L)%nat.
(** the sample before, nothing before the start *)
Definition one_late (y : nat -> R) (n : nat) : R := match n with O => 0 | S k => y k end.
(** [u] goes round a loop of impulse response [h], [x] is added on the way *)
Definition ring_solves (h x u : nat -> R) : Prop := forall n, u n = x n + one_late (conv h u) n.
(** gain of the parts in a row; rounding errors of a whole round, for signals up to [U] *)
Definition ring_gain (m : libm) (ps : list lpart) : R := fold_right (fun p a => l_gain m p * a) 1 ps.
Definition ring_noise (m : libm) (ps : list lpart) (U : R) : R := chain_err m ps 0 U + bpow radix2 (-24) * U.
(** the tone that goes round if the tone [w] is put in *)
Definition ring_w (m : libm) (ps : list lpart) (om : R) (w : C) : C :=
  cdiv w (csub (cre 1) (cmul (zi om) (chain_w m ps om (cre 1)))).
