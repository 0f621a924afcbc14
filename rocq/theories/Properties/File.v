(** * C110: a sound rendered to a file, read back and played *)
From Coq Require Import ZArith List Reals Lra Lia.
From Flocq Require Import Core.Core IEEE754.BinarySingleNaN.
From Verif Require Import Model.Floats Model.SampleFormat Model.Mono Model.Wav Model.Resampler Model.Generators Spec.Libm Spec.Playback Spec.Response Spec.Pitch Spec.Quantum
  Proof.WavP Proof.ResamplerP2 Proof.ResamplerP3 Proof.FileP.
Import ListNotations.
Local Open Scope R_scope.

(** what writing and reading a sample of at most 1 costs: 1/128 at 8 bits, 1/65000 at 16, 1/8000000 at 24 *)
Theorem C110_quantum : forall (bps : Z) (s : f32), bps = 8%Z \/ bps = 16%Z \/ bps = 24%Z -> is_finite s = true -> Rabs (B2R s) <= 1 ->
  let y := decz_of bps (enc_of bps s) in is_finite y = true /\ Rabs (B2R y) <= 1 /\ Rabs (B2R y - B2R s) <= quantum bps.
Proof. exact quantised. Qed.
(** reading a file gives back as many tracks, as long, whose samples are those written (clipped, if asked), to within that *)
Theorem C110_file : forall (wr : header -> bit_depth -> bool) (ts : list (list f32)) (bps : Z) (clip : bool) (h : header) (bd : bit_depth),
  (Z.of_nat (length ts) <= 65535)%Z -> write_wav wr ts bps clip = Ok (Some (h, bd)) ->
  (forall t s, In t ts -> In s t -> is_finite s = true /\ (clip = true \/ Rabs (B2R s) <= 1)) ->
  exists us, read_wav (Some (h, bd)) = Ok (Some (h, us)) /\ Forall2 (close (quantum bps) (fun s => clip1 (B2R s))) ts us.
Proof. exact file_close. Qed.
(** so a track that records a curve does so after the detour, and C108 applies to playing the file at any speed *)
Theorem C110_recording : forall (wr : header -> bit_depth -> bool) (t : list f32) (bps : Z) (clip : bool) (h : header) (bd : bit_depth) (eps : R) (g : R -> R) (speed : f64),
  write_wav wr [t] bps clip = Ok (Some (h, bd)) ->
  Forall (fun s => is_finite s = true /\ Rabs (B2R s) <= 1) t -> recording eps g (map mkMono t) ->
  exists data r, monowav_from_source (Some (h, bd)) = Ok r /\ set_playback_speed r speed = player data (of_Z 48000) speed /\
    length data = length t /\ within 0 data /\ recording (eps + quantum bps) g data.
Proof. exact file_recording. Qed.
(** a Sine rendered, written, opened as a MonoWav and played at any speed: the sine of the multiplied frequency *)
Theorem C110_sine_through_file : forall (m : libm) (f : f64) (N : nat) (k bps : Z) (clip : bool) (speed : f64) (n : nat),
  sin_bounded m -> sin_zero m -> sin_accurate m -> is_finite f = true -> 0 <= B2R f <= 48000 ->
  (0 <= k <= 24)%Z -> (Z.of_nat N <= 2 ^ k)%Z -> (forall q, (0 <= q <= 22)%Z -> Z.of_nat N <> (2 ^ q + 1)%Z) ->
  bps = 8%Z \/ bps = 16%Z \/ bps = 24%Z -> is_finite speed = true -> / 1048576 <= B2R speed <= 1048576 ->
  exists ts s h bd r ys r', sin_run m (repeat GNext N) (sin_new f) = Ok (ts, s) /\
    write_wav (fun _ _ => true) [ts] bps clip = Ok (Some (h, bd)) /\ monowav_from_source (Some (h, bd)) = Ok r /\
    rcalls n (set_playback_speed r speed) = Ok (ys, r') /\
  let c := B2R speed in let drift := c * bpow radix2 (-22) + bpow radix2 (k - 25) in let om := rad (B2R f) in
  forall i, (i < n)%nat -> INR i * (c + drift) < INR N - 1 ->
    exists p, Rabs (p - INR i * c) <= INR i * drift /\
    let D := bpow radix2 (-8) + quantum bps + om * om / 8 + om * (INR i * drift) in
    (~ below_power p -> Rabs (B2R (nth i ys f0) - sin (2 * PI * (B2R f * B2R speed) * INR i / 48000)) <= D) /\
    Rabs (B2R (nth i ys f0) - sin (2 * PI * (B2R f * B2R speed) * INR i / 48000)) <= D + om.
Proof. exact sine_file. Qed.

Definition tracks_of (x : res (option (header * list (list f32)))) : option (list (list SpecFloat.spec_float)) :=
  match x with Ok (Some (_, us)) => Some (map (map B2SF) us) | _ => None end.
(** at 8 bits the bound is reached: 1 comes back as 127/128.  A stereo file of 16 bits with a clipped sample: 1/2 comes back as 16384/32767 *)
Example C110_ex : B2SF (decz_of 8 (enc_of 8 f1)) = B2SF (lit 127 (-7) : f32)
  /\ tracks_of (do o <- write_wav (fun _ _ => true) [[f1; of_Z (-3)]; [lit 1 (-1); f0]] 16 true; read_wav o)
    = Some [[B2SF (f1 : f32); B2SF (of_Z (-1) : f32)]; [B2SF (lit 8388864 (-24) : f32); B2SF (f0 : f32)]].
Proof. split; vm_compute; reflexivity. Qed.
