(** * Utilities: /repo/src/utils/mod.rs *)

From Coq Require Import ZArith List Bool.
From Flocq Require Import Core.Core IEEE754.BinarySingleNaN.
From Verif Require Import Model.Floats Model.SampleFormat.
Import ListNotations.
Local Open Scope Z_scope.

Section Generic.
Variable N : num.
Notation T := (carrier N).

(** mod.rs:13-17 *)
Definition lerp (x x1 x2 y1 y2 : T) : T :=
  nadd N (nmul N (ndiv N (nsub N y2 y1) (nsub N x2 x1)) (nsub N x x1)) y1.

(** mod.rs:19-33 *)
Definition clamp (x x1 x2 : T) : T :=
  let '(a, b) := if nlt N x2 x1 then (x2, x1) else (x1, x2) in
  if nlt N b x then b else if nlt N x a then a else x.

(** mod.rs:38-42 *)
Definition clerp (x x1 x2 y1 y2 : T) : T := lerp (clamp x x1 x2) x1 x2 y1 y2.
End Generic.

(** ** std::time::Duration: whole seconds and nanoseconds below 10^9 *)
Record duration := mkDur { secs : Z; nanos : Z }.
Definition GIGA : Z := 1000000000.

(** [Duration::as_secs_f64]: (secs as f64) + (nanos as f64) / (1e9 as f64) *)
Definition as_secs_f64 (d : duration) : f64 :=
  fadd (of_Z (secs d)) (fdiv (of_Z (nanos d)) (of_Z GIGA)).

(** [Duration::from_secs_f64] changed across Rust releases: multiply in f64 and truncate; exact
    value truncated; exact value rounded to nearest even nanosecond.  All three are modelled. *)
Inductive dur_mode := MulTrunc | ExactTrunc | ExactNearest.

(** round num / 2^k to an integer, ties to even *)
Definition div_ne (a : Z) (k : Z) : Z :=
  let q := a / 2 ^ k in let r := a mod 2 ^ k in
  if 2 * r <? 2 ^ k then q else if 2 ^ k <? 2 * r then q + 1 else if Z.even q then q else q + 1.

Definition nanos_of_f64 (md : dur_mode) (x : f64) : res Z :=
  match md with
  | MulTrunc =>
      let y := fmul x (of_Z GIGA) in
      if is_finite y && fle f0 y then Ok (Btrunc y) else Panic
  | ExactTrunc =>
      match x with
      | B754_zero _ => Ok 0
      | B754_finite false m e _ =>
          Ok (if 0 <=? e then Zpos m * 2 ^ e * GIGA else (Zpos m * GIGA) / 2 ^ (- e))
      | _ => Panic
      end
  | ExactNearest =>
      match x with
      | B754_zero _ => Ok 0
      | B754_finite false m e _ =>
          Ok (if 0 <=? e then Zpos m * 2 ^ e * GIGA else div_ne (Zpos m * GIGA) (- e))
      | _ => Panic
      end
  end.
Definition from_secs_f64 (md : dur_mode) (x : f64) : res duration :=
  do n <- nanos_of_f64 md x;
  if n <? 2 ^ 64 * GIGA then Ok (mkDur (n / GIGA) (n mod GIGA)) else Panic.

(** mod.rs:45-47 *)
Definition samples_to_seconds (md : dur_mode) (s : Z) : res duration :=
  from_secs_f64 md (fmul (of_Z s) SR64).
(** mod.rs:50-52 *)
Definition seconds_to_samples (d : duration) : Z :=
  to_usize (fround (fmul (as_secs_f64 d) SR64)).

(** mod.rs:55-57 and 60-62, over any multiplication/division/power (used with f64 and with the
    reals) *)
Definition linear_to_db_g {T} (mul : T -> T -> T) (log10 : T -> T) (c20 : T) (g : T) : T :=
  mul c20 (log10 g).
Definition db_to_linear_g {T} (div : T -> T -> T) (pow : T -> T -> T) (c10 c20 : T) (db : T) : T :=
  pow c10 (div db c20).
Definition linear_to_db (m : libm) : f64 -> f64 := linear_to_db_g fmul (log10_64 m) (of_Z 20).
Definition db_to_linear (m : libm) : f64 -> f64 := db_to_linear_g fdiv (pow64 m) (of_Z 10) (of_Z 20).

(** mod.rs:66-89 *)
Definition norm_dc (t : list f32) : f32 :=
  fdiv (fold_left fadd t f0) (of_Z (Z.of_nat (length t))).
Definition norm_max (dc : f32) (t : list f32) : f32 :=
  fold_left (fun mx s => if fgt (fabs (fsub s dc)) mx then fabs (fsub s dc) else mx) t f0.
Definition norm_factor (m : libm) (db : f64) (t : list f32) : f32 :=
  fdiv (to32 (db_to_linear m db)) (norm_max (norm_dc t) t).
Definition normalize (m : libm) (db : f64) (t : list f32) : list f32 :=
  map (fun s => fmul (fsub s (norm_dc t)) (norm_factor m db t)) t.
