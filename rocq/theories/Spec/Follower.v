(** * What an envelope follower should do *)

From Coq Require Import ZArith List Reals.
From Flocq Require Import Core.Core IEEE754.BinarySingleNaN.
From Verif Require Import Model.Floats Model.Modifiers Model.Filters.
Local Open Scope R_scope.

(** an envelope follower in mid-run: coefficients from the two tangents (envelope.rs:26-31), last input, last output *)
Definition env_at (N : num) (one thu thd x1 y1 : carrier N) : envelope_g N :=
  let e := env_of_theta N one thu thd in mkEnv (en_au e) (en_bu e) (en_ad e) (en_bd e) x1 y1.

(** the share of the old envelope kept per sample by a first-order low pass whose corner has tangent th *)
Definition kept (th : R) : R := (1 - th) / (1 + th).
(** how far y is below m, above m *)
Definition short (m y : R) : R := Rmax 0 (m - y).
Definition excess (m y : R) : R := Rmax 0 (y - m).
