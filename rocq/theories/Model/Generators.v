(** * Generators: /repo/src/generators/*.rs *)

From Coq Require Import ZArith List Bool.
From Flocq Require Import IEEE754.BinarySingleNaN.
From Verif Require Import Model.Floats.
Import ListNotations.
Local Open Scope Z_scope.

(** ** Zero: zero.rs:8-23 *)
Definition zero_process (u : unit) : f32 * unit := (f0, u).

(** ** Noise: noise.rs:23-28.  [u] is the value drawn from the random engine
    ([gen::<f32>()], external: a multiple of 2^-24 in [0,1)) *)
Definition noise_process (u : f32) : f32 := fsub (fmul u (of_Z 2)) (of_Z 1).

(** ** Sawtooth: sawtooth.rs *)
Record sawtooth := mkSaw { saw_irate : f64; saw_inc : f64 }.          (* sawtooth.rs:10-13 *)
Definition saw_rate (f : f64) : f64 := fmul (fmul (of_Z 2) f) INV_SAMPLE_RATE.
Definition saw_new (f : f64) : sawtooth := mkSaw (saw_rate f) f0.     (* sawtooth.rs:16-21 *)
Definition saw_set_frequency (s : sawtooth) (f : f64) : sawtooth := mkSaw (saw_rate f) (saw_inc s). (* 23-25 *)
Definition saw_get_frequency (s : sawtooth) : f64 :=                  (* sawtooth.rs:27-29 *)
  fdiv (saw_irate s) (fmul (of_Z 2) INV_SAMPLE_RATE).
(** sawtooth.rs:33-43 *)
Definition saw_process (s : sawtooth) : f32 * sawtooth :=
  let y := saw_inc s in
  let inc := fadd (saw_inc s) (saw_irate s) in
  let inc := if fge inc (of_Z 1) then fsub inc (of_Z 2) else inc in
  (to32 y, mkSaw (saw_irate s) inc).
Definition saw_clone (s : sawtooth) : sawtooth := mkSaw (saw_irate s) f0. (* sawtooth.rs:46-53 *)

(** ** Triangle: triangle.rs *)
Record triangle := mkTri { tri_irate : f64; tri_inc : f64 }.          (* triangle.rs:8-11 *)
Definition tri_rate (f : f64) : f64 := fmul (fmul (of_Z 4) f) INV_SAMPLE_RATE.
Definition tri_new (f : f64) : triangle := mkTri (tri_rate f) f0.     (* triangle.rs:14-19 *)
Definition tri_set_frequency (s : triangle) (f : f64) : triangle := mkTri (tri_rate f) (tri_inc s). (* 21-23 *)
Definition tri_get_frequency (s : triangle) : f64 :=                  (* triangle.rs:25-27 *)
  fdiv (tri_irate s) (fmul (of_Z 4) INV_SAMPLE_RATE).
(** triangle.rs:31-47 *)
Definition tri_process (s : triangle) : f32 * triangle :=
  let y := tri_inc s in
  let inc := fadd (tri_inc s) (tri_irate s) in
  if fge inc (of_Z 1) || fle inc (of_Z (-1)) then
    (to32 y, mkTri (fneg (tri_irate s))
               (if fge inc (of_Z 1) then fsub (of_Z 2) inc else fsub (of_Z (-2)) inc))
  else (to32 y, mkTri (tri_irate s) inc).
Definition tri_clone (s : triangle) : triangle := mkTri (tri_irate s) f0. (* triangle.rs:50-57 *)

(** ** Square: square.rs *)
Record square := mkSq { sq_ind : f64; sq_inv : f64 }.                 (* square.rs:8-11 *)
Definition sq_half (f : f64) : f64 := fdiv SR64 (fmul (of_Z 2) f).
Definition sq_new (f : f64) : square := mkSq f0 (sq_half f).          (* square.rs:14-19 *)
Definition sq_set_frequency (s : square) (f : f64) : square := mkSq (sq_ind s) (sq_half f). (* square.rs:21-23 *)
Definition sq_get_frequency (s : square) : f64 := fdiv SR64 (fmul (of_Z 2) (sq_inv s)). (* square.rs:25-27 *)
(** square.rs:31-45 *)
Definition sq_process (s : square) : f32 * square :=
  let two_inv := fmul (of_Z 2) (sq_inv s) in
  let y := if fge (sq_ind s) (sq_inv s) && flt (sq_ind s) two_inv then of_Z (-1) else of_Z 1 in
  let ind := if fge (sq_ind s) two_inv then fsub (sq_ind s) two_inv else sq_ind s in
  (y, mkSq (fadd ind (of_Z 1)) (sq_inv s)).
Definition sq_clone (s : square) : square := mkSq f0 (sq_inv s).      (* square.rs:48-55 *)

(** ** Sine: sine.rs *)
Definition WAVETABLE_FREQ : Z := 10.                                  (* sine.rs:9 *)
Definition WAVETABLE_SIZE : Z := SAMPLE_RATE / WAVETABLE_FREQ.        (* sine.rs:11 *)
(** sine.rs:13-22; element [i] of the table *)
Definition wavetable_entry (m : libm) (i : Z) : f64 :=
  sin64 m (fmul (fmul (fmul (fmul (of_Z 2) PI64) INV_SAMPLE_RATE) (of_Z WAVETABLE_FREQ)) (of_Z i)).
(** [WAVETABLE[i]]: an array of [WAVETABLE_SIZE] elements, indexing panics outside *)
Definition wavetable (m : libm) (i : Z) : res f64 :=
  if (0 <=? i) && (i <? WAVETABLE_SIZE) then Ok (wavetable_entry m i) else Panic.

Record sine := mkSine { sin_ind : f64; sin_inc : f64 }.               (* sine.rs:25-28 *)
Definition sin_rate (f : f64) : f64 := fdiv f (of_Z WAVETABLE_FREQ).
Definition sin_new (f : f64) : sine := mkSine f0 (sin_rate f).        (* sine.rs:31-36 *)
Definition sin_set_frequency (s : sine) (f : f64) : sine := mkSine (sin_ind s) (sin_rate f). (* sine.rs:38-40 *)
Definition sin_get_frequency (s : sine) : f64 := fmul (sin_inc s) (of_Z WAVETABLE_FREQ). (* sine.rs:42-44 *)
(** sine.rs:48-67 *)
Definition sin_process (m : libm) (s : sine) : res (f32 * sine) :=
  let k := ffloor (sin_ind s) in
  let g := fsub (sin_ind s) k in
  let k1 := to_usize (if fge (fadd k (of_Z 1)) (of_Z WAVETABLE_SIZE : f64) then f0 else fadd k (of_Z 1)) in
  do a <- wavetable m (to_usize k);
  do b <- wavetable m k1;
  let y := to32 (fadd (fmul (fsub (of_Z 1) g) a) (fmul g b)) in
  let ind := fadd (sin_ind s) (sin_inc s) in
  let ind := if fge ind (fsub (of_Z WAVETABLE_SIZE) (of_Z 1)) then fsub ind (of_Z WAVETABLE_SIZE) else ind in
  Ok (y, mkSine ind (sin_inc s)).
Definition sin_clone (s : sine) : sine := mkSine f0 (sin_inc s).      (* sine.rs:70-77 *)

(** ** Call histories: frequency changes and samples in any order *)
Inductive gop := GFreq (f : f64) | GNext.
Section History.
Context {S : Type} (setf : S -> f64 -> S) (step : S -> res (f32 * S)).
Fixpoint grun (ops : list gop) (s : S) : res (list f32 * S) :=
  match ops with
  | [] => Ok ([], s)
  | GFreq f :: ops => grun ops (setf s f)
  | GNext :: ops =>
      do (y, s') <- step s;
      do (ys, s'') <- grun ops s';
      Ok (y :: ys, s'')
  end.
End History.
Definition saw_run := grun saw_set_frequency (fun s => Ok (saw_process s)).
Definition tri_run := grun tri_set_frequency (fun s => Ok (tri_process s)).
Definition sq_run := grun sq_set_frequency (fun s => Ok (sq_process s)).
Definition sin_run (m : libm) := grun sin_set_frequency (sin_process m).

(** the state after [n] samples *)
Fixpoint nsteps {S : Type} (step : S -> f32 * S) (n : nat) (s : S) : S :=
  match n with O => s | S n => nsteps step n (snd (step s)) end.
(** the [n]-th sample (counting from 0) *)
Definition nth_out {S : Type} (step : S -> f32 * S) (n : nat) (s : S) : f32 := fst (step (nsteps step n s)).
