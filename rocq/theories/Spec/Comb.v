(** * The feedback comb filter y(k) = x(k) + g y(k - n), solved *)

From Coq Require Import ZArith List Reals.
From Verif Require Import Model.Floats.
Local Open Scope R_scope.

(** the output number k: the sum over j of g^j x(k - j n) *)
Definition comb (n : nat) (g : R) (x : nat -> R) (k : nat) : R :=
  sum_f_R0 (fun j => g ^ j * x (k - j * n)%nat) (k / n).
