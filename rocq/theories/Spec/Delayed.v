(** * The sample [k] places before place [n] of a signal that starts from silence *)
From Coq Require Import List Arith.
From Verif Require Import Model.Floats.
Definition ago (k : nat) (l : list f32) (n : nat) : f32 := if n <? k then f0 else nth (n - k) l f0.
