(** * C19-C23: WAV input and output (the container of the wav crate being external) *)

From Coq Require Import ZArith List Bool Reals Lra Lia.
From Flocq Require Import Core.Core IEEE754.BinarySingleNaN.
From Verif Require Import Model.Floats Model.SampleFormat Model.Wav
  Proof.FloatFacts Proof.SampleFormatP Proof.WavP.
Import ListNotations.

(** C19 *)
Theorem C19_write_errors : forall (wr : header -> bit_depth -> bool) (ts : list (list f32)) (bps : Z) (clip : bool),
  (forall h bd, wr h bd = true) ->
  (write_wav wr ts bps clip = Ok None <->
     ts = [] \/ ~ (forall t u, In t ts -> In u ts -> length t = length u)
     \/ ~ (bps = 8%Z \/ bps = 16%Z \/ bps = 24%Z)) /\
  write_wav wr ts bps clip <> Panic.
Proof. exact write_errors. Qed.

Theorem C19_writer_failure : forall (wr : header -> bit_depth -> bool) (ts : list (list f32)) (bps : Z) (clip : bool),
  (forall h bd, wr h bd = false) -> write_wav wr ts bps clip = Ok None.
Proof. exact write_writer_failure. Qed.

(** relied-on ("the given vector contains no data" is an error): refuted for any number of empty tracks *)
Theorem C19_no_data_refuted : forall (n : nat) (clip : bool),
  exists h bd, write_wav (fun _ _ => true) (repeat [] (S n)) 16 clip = Ok (Some (h, bd)) /\ data_of bd = [].
Proof.
  intros n clip.
  assert (S1 : same_lengths (repeat [] (S n))).
  { intros t u Ht Hu. rewrite (repeat_spec _ _ _ Ht), (repeat_spec _ _ _ Hu). reflexivity. }
  destruct (write_ok (fun _ _ => true) (repeat [] (S n)) 16 clip ltac:(discriminate) S1 ltac:(right; left; reflexivity))
    as (v & E & L & _).
  eexists. eexists. split; [exact E|]. destruct v; [reflexivity|discriminate L].
Qed.

Example C19_ex : write_wav (fun _ _ => true) [[f0; f1]; [f1]] 16 false = Ok None
  /\ write_wav (fun _ _ => true) [[f1]] 12 false = Ok None
  /\ write_wav (fun _ _ => true) [[f0; f1]; [f1; f0]] 16 false
     = Ok (Some (mkHeader 1 2 48000 16, Sixteen [0; 32767; 32767; 0]%Z)).
Proof. repeat split; vm_compute; reflexivity. Qed.

(** C20 *)
Theorem C20_round_trip : forall (wr : header -> bit_depth -> bool) (ts : list (list f32)) (bps : Z) (clip : bool) h bd,
  (Z.of_nat (length ts) <= 65535)%Z ->
  write_wav wr ts bps clip = Ok (Some (h, bd)) ->
  read_wav (Some (h, bd)) =
    Ok (Some (h, map (fun t => map (fun s => decz_of bps (enc_of bps s)) (clipped clip t)) ts)) /\
  channel_count h = Z.of_nat (length ts) /\ sampling_rate h = 48000%Z /\ bits_per_sample h = bps.
Proof. exact round_trip. Qed.

(** re-encoding a decoded sample gives the same integer *)
Theorem C20_reencode : forall (bps : Z) (s : f32), bps = 8%Z \/ bps = 16%Z \/ bps = 24%Z ->
  (bps = 24%Z -> (- 2 ^ 23 <= sample_to_i24 s <= 2 ^ 23 - 1)%Z) ->
  enc_of bps (decz_of bps (enc_of bps s)) = enc_of bps s.
Proof. exact reencode. Qed.

(** hence writing what was read emits the same file *)
Theorem C20_rewrite_stable : forall (wr : header -> bit_depth -> bool) (ts ts' : list (list f32)) (bps : Z) h bd,
  (Z.of_nat (length ts) <= 65535)%Z -> (forall h bd, wr h bd = true) ->
  (bps = 24%Z -> Forall (Forall (fun s => (- 2 ^ 23 <= sample_to_i24 s <= 2 ^ 23 - 1)%Z)) ts) ->
  write_wav wr ts bps false = Ok (Some (h, bd)) -> read_wav (Some (h, bd)) = Ok (Some (h, ts')) ->
  write_wav wr ts' bps false = Ok (Some (h, bd)).
Proof. exact rewrite_stable. Qed.

Example C20_ex : let ts := [[lit 1 (-1); f0; of_Z (-1)]; [lit 3 (-3); f1; lit (-1) (-2)]] in
  exists h bd, write_wav (fun _ _ => true) ts 8 false = Ok (Some (h, bd)) /\
    data_of bd = [192; 176; 128; 255; 0; 96]%Z /\ channel_count h = 2%Z.
Proof. eexists. eexists. split; [vm_compute; reflexivity|]. split; vm_compute; reflexivity. Qed.

(** C21 *)
Theorem C21_read_round_robin : forall (h : header) (bd : bit_depth), (0 < channel_count h)%Z ->
  exists ts, read_wav (Some (h, bd)) = Ok (Some (h, ts)) /\
    length ts = Z.to_nat (channel_count h) /\
    (forall c k, (c < length ts)%nat ->
       nth_error (nth c ts []) k = option_map (dec_of bd) (nth_error (data_of bd) (c + k * length ts))).
Proof. exact read_round_robin. Qed.

Theorem C21_read_lengths : forall (h : header) (bd : bit_depth) (ts : list (list f32)) (c c' : nat),
  (0 < channel_count h)%Z -> read_wav (Some (h, bd)) = Ok (Some (h, ts)) ->
  (c < length ts)%nat -> (c' < length ts)%nat ->
  (length (nth c ts []) <= length (nth c' ts []) + 1)%nat.
Proof. exact read_lengths. Qed.

Theorem C21_read_zero_channels : forall (h : header) (bd : bit_depth), channel_count h = 0%Z ->
  (data_of bd <> [] -> read_wav (Some (h, bd)) = Panic) /\
  (data_of bd = [] -> read_wav (Some (h, bd)) = Ok (Some (h, []))).
Proof. exact read_zero_channels. Qed.

Example C21_ex : exists a b c d e : f32,
  read_wav (Some (mkHeader 1 2 48000 16, Sixteen [1; 2; 3; 4; 5]%Z)) =
    Ok (Some (mkHeader 1 2 48000 16, [[a; b; c]; [d; e]])) /\
  map sample_to_i16 [a; b; c; d; e] = [1; 3; 5; 2; 4]%Z.
Proof. do 5 eexists. split; [reflexivity|]. vm_compute. reflexivity. Qed.

(** C22 *)
Theorem C22_clip_range : forall s : f32, is_nan s = false ->
  is_finite (clip_sample s) = true /\ (Rabs (B2R (clip_sample s)) <= 1)%R /\
  (is_finite s = true -> (Rabs (B2R s) <= 1)%R -> clip_sample s = s) /\
  (fge s (of_Z 1) = true -> clip_sample s = of_Z 1) /\
  (fle s (of_Z (-1)) = true -> clip_sample s = of_Z (-1)).
Proof. exact clip_range. Qed.

Theorem C22_write_clip_fits : forall wr (ts : list (list f32)) (bps : Z) h bd,
  write_wav wr ts bps true = Ok (Some (h, bd)) ->
  Forall (fun z => if Z.eqb bps 8 then (0 <= z <= 255)%Z
                   else (- 2 ^ (bps - 1) <= z <= 2 ^ (bps - 1) - 1)%Z) (data_of bd).
Proof. exact write_clip_fits. Qed.

Theorem C22_no_clip_fits_refuted : exists (s : f32) h bd z,
  write_wav (fun _ _ => true) [[s]] 24 false = Ok (Some (h, bd)) /\ In z (data_of bd) /\ (2 ^ 23 <= z)%Z.
Proof.
  exists (of_Z 2). do 3 eexists. split; [vm_compute; reflexivity|]. split; [left; reflexivity|]. vm_compute. discriminate.
Qed.

Example C22_ex : clip_sample (of_Z 7) = of_Z 1 /\ clip_sample (B754_infinity true) = of_Z (-1)
  /\ clip_sample B754_nan = B754_nan
  /\ write_wav (fun _ _ => true) [[of_Z 2]] 24 true = Ok (Some (mkHeader 1 1 48000 24, TwentyFour [8388607]%Z)).
Proof. repeat split; vm_compute; reflexivity. Qed.

(** C23 *)
Theorem C23_channel_count : forall wr (ts : list (list f32)) (bps : Z) (clip : bool) h bd,
  write_wav wr ts bps clip = Ok (Some (h, bd)) ->
  channel_count h = (Z.of_nat (length ts) mod 65536)%Z.
Proof. exact write_channel_count. Qed.

Theorem C23_wrap_panics : forall wr (ts : list (list f32)) (bps : Z) (clip : bool) h bd,
  Z.of_nat (length ts) = 65536%Z -> (exists t s, In t ts /\ In s t) ->
  write_wav wr ts bps clip = Ok (Some (h, bd)) ->
  channel_count h = 0%Z /\ read_wav (Some (h, bd)) = Panic.
Proof. exact wrap_panics. Qed.

(** 65536 one-sample tracks are written without an error *)
Example C23_ex : exists ts h bd, Z.of_nat (length ts) = 65536%Z /\ (exists t s, In t ts /\ In s t) /\
  write_wav (fun _ _ => true) ts 16 false = Ok (Some (h, bd)).
Proof.
  set (n := Z.to_nat 65536). exists (repeat [f1] n).
  assert (N0 : n <> O) by (unfold n; lia).
  assert (S1 : same_lengths (repeat [f1] n)).
  { intros t u Ht Hu. rewrite (repeat_spec _ _ _ Ht), (repeat_spec _ _ _ Hu). reflexivity. }
  assert (NE : repeat [f1 : f32] n <> []) by (destruct n; [congruence|discriminate]).
  destruct (write_ok (fun _ _ => true) (repeat [f1] n) 16 false NE S1 ltac:(right; left; reflexivity)) as (v & E & _).
  eexists. eexists. split; [rewrite repeat_length; unfold n; lia|]. split; [|exact E].
  exists [f1], f1. split; [destruct n; [congruence|left; reflexivity]|left; reflexivity].
Qed.
