(** * The square wave, and the phase of a generator whose frequency changes *)

From Coq Require Import ZArith List Reals.
From Flocq Require Import Core.Raux IEEE754.BinarySingleNaN.
From Verif Require Import Model.Floats Model.Generators.
Import ListNotations.
Local Open Scope R_scope.

(** 1 for the first half of every period, -1 for the second *)
Definition square_wave (p : R) : R := if Rlt_dec (p - IZR (Zfloor p)) (/ 2) then 1 else -1.
(** the frequency in force at each sample of a call history that starts with frequency [f] *)
Fixpoint heard (f : f64) (ops : list gop) : list f64 :=
  match ops with
  | [] => []
  | GFreq g :: ops => heard g ops
  | GNext :: ops => f :: heard f ops
  end.
(** the number of periods elapsed before sample [i], each sample lasting 1/48000 s *)
Fixpoint periods (fs : list f64) (i : nat) : R :=
  match fs, i with
  | f :: fs, S i => B2R f / 48000 + periods fs i
  | _, _ => 0
  end.
