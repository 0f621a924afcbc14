(** * Proofs about MonoWav: write, read and play *)

From Coq Require Import ZArith List Bool Reals Lra Lia.
From Flocq Require Import Core.Core IEEE754.BinarySingleNaN.
From Verif Require Import Model.Floats Model.Mono Model.SampleFormat Model.Wav Model.Resampler
  Proof.FloatFacts Proof.SampleFormatP Proof.FormatsP Proof.WavP Proof.ResamplerP Proof.ResamplerP2.
Import ListNotations.
Local Open Scope R_scope.

Lemma of_Z_31 z : (Z.abs z <= 2 ^ 31)%Z -> fin (of_Z z : f32) /\ Rabs (B2R (of_Z z : f32)) <= bpow radix2 31.
Proof.
  intro H. unfold of_Z. pose proof (binary_normalize_correct 24 128 _ _ mode_NE z 0 false) as C.
  cbv zeta in C. simpl round_mode in C.
  assert (E : F2R (Float radix2 z 0) = IZR z) by (unfold F2R; simpl; ring). rewrite E in C.
  assert (B : Rabs (rnd32 (IZR z)) <= bpow radix2 31).
  { apply rnd_abs_le; [apply fmt32_b; lia|]. rewrite <- abs_IZR, <- IZR_pow2 by lia. apply IZR_le. exact H. }
  rewrite Rlt_bool_true in C; [|eapply Rle_lt_trans; [exact B|apply bpow_lt; lia]].
  destruct C as (C1 & C2 & _). split; [exact C2|]. rewrite C1. exact B.
Qed.

Lemma dec_within bps s : bps = 8%Z \/ bps = 16%Z \/ bps = 24%Z ->
  fin (decz_of bps (enc_of bps s)) /\ Rabs (B2R (decz_of bps (enc_of bps s))) <= bpow radix2 31.
Proof.
  intros [ -> | [ -> | -> ] ]; unfold decz_of, enc_of; cbn [Z.eqb Pos.eqb].
  - assert (R : (0 <= sample_to_u8 s <= 255)%Z) by apply encoders_range.
    destruct (from_u8_ok _ R) as [A B]. split; [exact A|]. rewrite B.
    assert (0 <= IZR (sample_to_u8 s) <= 255) by (split; apply IZR_le; lia).
    change (bpow radix2 31) with 2147483648. apply Rabs_le. lra.
  - assert (R : (-32768 <= sample_to_i16 s <= 32767)%Z) by apply encoders_range.
    unfold sample_from_i16. destruct (of_Z_31 (sample_to_i16 s) ltac:(lia)) as [A B]. destruct k16_ok as [K1 K2].
    destruct (fdiv_le (of_Z (sample_to_i16 s)) k16 (bpow radix2 31) A) as (P & _ & Q); try assumption.
    + rewrite K2. lra.
    + apply fmt32_b. lia.
    + apply bpow_lt. lia.
    + rewrite K2. unfold Rdiv. rewrite Rabs_mult, (Rabs_pos_eq (/ 32767)) by lra.
      pose proof (Rabs_pos (B2R (of_Z (sample_to_i16 s) : f32))). nra.
    + auto.
  - assert (R : (Z.abs (sample_to_i24 s) <= 2 ^ 31)%Z).
    { unfold sample_to_i24, to_i32. pose proof (to_int_range (- 2 ^ 31) (2 ^ 31 - 1) (fround (fmul s k24)) ltac:(lia)). lia. }
    unfold sample_from_i24. destruct (of_Z_31 (sample_to_i24 s) R) as [A B]. destruct k24_ok as [K1 K2].
    destruct (fdiv_le (of_Z (sample_to_i24 s)) k24 (bpow radix2 31) A) as (P & _ & Q); try assumption.
    + rewrite K2. lra.
    + apply fmt32_b. lia.
    + apply bpow_lt. lia.
    + rewrite K2. unfold Rdiv. rewrite Rabs_mult, (Rabs_pos_eq (/ 8388607)) by lra.
      pose proof (Rabs_pos (B2R (of_Z (sample_to_i24 s) : f32))). nra.
    + auto.
Qed.

(** playing a file that was just written gives the first track, quantised *)
Lemma wav_playback wr t ts bps clip h bd n : (Z.of_nat (length (t :: ts)) <= 65535)%Z -> (Z.of_nat (length t) <= 2 ^ 24)%Z ->
  write_wav wr (t :: ts) bps clip = Ok (Some (h, bd)) ->
  exists r ys r', monowav_from_source (Some (h, bd)) = Ok r /\ rcalls n r = Ok (ys, r') /\ length ys = n /\
    forall i, (i < n)%nat ->
      ((i < length t)%nat -> is_finite (nth i ys f0) = true /\
         B2R (nth i ys f0) = B2R (decz_of bps (enc_of bps (nth i (clipped clip t) f0)))) /\
      ((length t <= i)%nat -> nth i ys f0 = f0).
Proof.
  intros Hc Hl E.
  assert (Hb : bps = 8%Z \/ bps = 16%Z \/ bps = 24%Z).
  { unfold write_wav in E. cbv zeta in E. destruct (check_clip _ _ _); [|discriminate].
    destruct (Z.eqb_spec bps 8); [auto|]. destruct (Z.eqb_spec bps 16); [auto|]. destruct (Z.eqb_spec bps 24); [auto|discriminate]. }
  destruct (round_trip wr (t :: ts) bps clip h bd Hc E) as (R & _ & S & _).
  unfold monowav_from_source. rewrite R. cbn [bind unwrap map hd_error]. rewrite S.
  set (g := fun s => decz_of bps (enc_of bps s)).
  set (data := map mono_from_sample (map g (clipped clip t))).
  assert (Ld : length data = length t) by (unfold data; rewrite !map_length; apply clipped_length).
  assert (W : within 31 data).
  { unfold within, data. rewrite map_map. apply Forall_forall. intros m Hm. apply in_map_iff in Hm.
    destruct Hm as (s & <- & _). exact (dec_within bps s Hb). }
  destruct (unity_playback 31 data n ltac:(lia) W ltac:(lia)) as (ys & r' & P & L & N).
  exists (resampler_new data (of_Z 48000) 0 0), ys, r'. split; [reflexivity|]. split; [exact P|]. split; [exact L|].
  intros i Hi. destruct (N i Hi) as [N1 N2]. rewrite Ld in N1, N2. split; [|exact N2].
  intro Q. destruct (N1 Q) as [A B]. split; [exact A|]. rewrite B. unfold sample_at, mono_into_sample.
  unfold data. rewrite map_map. rewrite (nth_indep _ mono_new ((fun x => mono_from_sample (g x)) f0)).
  - rewrite (map_nth (fun x => mono_from_sample (g x))). reflexivity.
  - rewrite map_length, clipped_length. exact Q.
Qed.

(** files without channels make the constructor panic, unreadable ones too *)
Lemma wav_source_panics h bd : channel_count h = 0%Z -> monowav_from_source (Some (h, bd)) = Panic.
Proof.
  intro H. unfold monowav_from_source, read_wav. rewrite H. change (Z.to_nat 0) with 0%nat. cbn [repeat].
  destruct bd as [d|d|d|]; try reflexivity; destruct d; reflexivity.
Qed.
