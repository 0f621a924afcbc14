(** * MonoResampler: /repo/src/utils/mono_resampler.rs *)

From Coq Require Import ZArith List Bool.
From Flocq Require Import IEEE754.BinarySingleNaN.
From Verif Require Import Model.Floats Model.Mono Model.Wav.
Import ListNotations.
Local Open Scope Z_scope.

(** mono_resampler.rs:14-21 *)
Record resampler := mkRes {
  r_data : list Mono; r_ind : f32; r_inc : f32; r_speed : f64; r_ls : Z; r_le : Z }.

(** mono_resampler.rs:34-47 *)
Definition resampler_new (data : list Mono) (source_sample_rate : f64) (loop_start loop_end : Z) : resampler :=
  let '(loop_start, loop_end) :=
    if loop_end <? loop_start then (loop_end, loop_start) else (loop_start, loop_end) in
  mkRes data f0 (to32 (fmul source_sample_rate INV_SAMPLE_RATE)) (of_Z 1) loop_start loop_end.

(** mono_resampler.rs:50-57 *)
Definition set_playback_speed (r : resampler) (speed : f64) : resampler :=
  mkRes (r_data r) (r_ind r) (r_inc r) speed (r_ls r) (r_le r).
Definition get_playback_speed (r : resampler) : f64 := r_speed r.

(** checked [usize] addition (debug builds panic on overflow; in release builds the wrapped index
    is out of bounds or unused here) *)
Definition usize_add (a b : Z) : res Z := if a + b <=? u64_max then Ok (a + b) else Panic.
(** checked [usize] subtraction *)
Definition usize_sub (a b : Z) : res Z := if b <=? a then Ok (a - b) else Panic.

(** the position update, mono_resampler.rs:78-82 *)
Definition advance (r : resampler) : resampler :=
  let ind := fadd (r_ind r) (fmul (r_inc r) (to32 (r_speed r))) in
  let ind := if fge ind (of_Z (r_le r)) && negb (r_le r =? 0)
             then fsub ind (of_Z (r_le r - r_ls r)) else ind in
  mkRes (r_data r) ind (r_inc r) (r_speed r) (r_ls r) (r_le r).

(** mono_resampler.rs:60-85 *)
Definition resampler_process (r : resampler) : res (f32 * resampler) :=
  let len := Z.of_nat (length (r_data r)) in
  if (len <=? to_usize (r_ind r)) && (r_le r =? 0) then Ok (f0, r)
  else
    do nxt <- usize_add (to_usize (ftrunc (r_ind r))) 1;
    do p1 <- (if (len <=? nxt) && negb (r_le r =? 0) then
                do l <- usize_sub (r_le r) (r_ls r);
                index (r_data r) (to_usize (fsub (r_ind r) (of_Z l)))
              else if len <=? nxt then index (r_data r) (to_usize (ftrunc (r_ind r)))
              else index (r_data r) (to_usize (ftrunc (fadd (r_ind r) (of_Z 1)))));
    do x1 <- index (r_data r) (to_usize (ftrunc (r_ind r)));
    let x1 := mono_into_sample x1 in
    let x2 := mono_into_sample p1 in
    let y := fadd x1 (fmul (ffract (r_ind r)) (fsub x2 x1)) in
    Ok (y, advance r).

(** [impl Clone], mono_resampler.rs:88-99 *)
Definition resampler_clone (r : resampler) : resampler :=
  mkRes (r_data r) f0 (r_inc r) (r_speed r) (r_ls r) (r_le r).

(** Call histories: set_playback_speed and process in any order *)
Inductive rop := RSpeed (s : f64) | RProcess.
Fixpoint rrun (ops : list rop) (r : resampler) : res (list f32 * resampler) :=
  match ops with
  | [] => Ok ([], r)
  | RSpeed s :: ops => rrun ops (set_playback_speed r s)
  | RProcess :: ops =>
      do (y, r') <- resampler_process r;
      do (ys, r'') <- rrun ops r';
      Ok (y :: ys, r'')
  end.
(** n process calls *)
Definition rcalls (n : nat) (r : resampler) : res (list f32 * resampler) := rrun (repeat RProcess n) r.

(** * MonoWav: /repo/src/generators/mono_wav.rs *)
(** mono_wav.rs:30-34 *)
Definition monowav_from_track (sampling_rate : f64) (t : list Mono) : resampler :=
  resampler_new t sampling_rate 0 0.
(** mono_wav.rs:16-27, given what [utils::read_wav] returned; [expect] panics *)
Definition monowav_from_source (src : option (header * bit_depth)) : res resampler :=
  do o <- read_wav src;
  do (h, t) <- unwrap o;
  do first <- unwrap (hd_error t);
  Ok (monowav_from_track (of_Z (sampling_rate h)) (map mono_from_sample first)).
(** mono_wav.rs:47-51 *)
Definition monowav_process : resampler -> res (f32 * resampler) := resampler_process.
