(** * C01-C07: sample conversions *)

From Coq Require Import ZArith List Bool Reals Lra Lia.
From Flocq Require Import Core.Core IEEE754.BinarySingleNaN.
From Verif Require Import Model.Floats Model.SampleFormat Spec.Bytes
  Proof.FloatFacts Proof.SampleFormatP Proof.SampleFormatP2.
Import ListNotations.

(** C01 *)
Theorem C01_u8_round_trip : forall v : Z, (0 <= v <= 255)%Z ->
  sample_to_u8 (sample_from_u8 v) = v.
Proof. exact u8_round_trip. Qed.

Theorem C01_u8_bytes : forall (v : Z) (s : f32), (0 <= v <= 255)%Z ->
  sample_from_u8_bytes [v] = sample_from_u8 v /\
  sample_to_u8_bytes s = [sample_to_u8 s] /\
  sample_to_u8_bytes (sample_from_u8_bytes [v]) = [v].
Proof. exact u8_bytes. Qed.

(** decoded values are what the documentation says: (v-128)/128, exactly *)
Theorem C01_u8_value : forall v : Z, (0 <= v <= 255)%Z ->
  is_finite (sample_from_u8 v) = true /\ B2R (sample_from_u8 v) = ((IZR v - 128) / 128)%R.
Proof. exact from_u8_ok. Qed.

Example C01_ex : (0 <= 200 <= 255)%Z /\ sample_to_u8 (sample_from_u8 200) = 200%Z
  /\ B2SF (sample_from_u8 200) = SpecFloat.S754_finite false 9437184 (-24).
Proof. split; [lia|]. split; vm_compute; reflexivity. Qed.

(** C02 *)
Theorem C02_i16_round_trip : forall v : Z, (-32768 <= v <= 32767)%Z ->
  sample_to_i16 (sample_from_i16 v) = v.
Proof. exact i16_round_trip. Qed.

Theorem C02_i16_bytes_round_trip : forall a b : Z, is_byte a -> is_byte b ->
  sample_to_i16_bytes (sample_from_i16_bytes [a; b]) = [a; b].
Proof. exact i16_bytes_round_trip. Qed.

(** both byte functions speak little-endian two's complement *)
Theorem C02_i16_bytes_meaning : forall s : f32,
  denotes (sample_to_i16_bytes s) (sample_to_i16 s) /\
  (forall a b v, denotes [a; b] v -> sample_from_i16_bytes [a; b] = sample_from_i16 v).
Proof. exact i16_bytes_meaning. Qed.

Example C02_ex : sample_to_i16 (sample_from_i16 (-32768)) = (-32768)%Z
  /\ sample_to_i16_bytes (sample_from_i16_bytes [57; 48]%Z) = [57; 48]%Z
  /\ denotes [255; 255]%Z (-1).
Proof.
  split; [vm_compute; reflexivity|]. split; [vm_compute; reflexivity|].
  split; [repeat (apply Forall_cons; [unfold is_byte; lia|]); apply Forall_nil|].
  split; [simpl; lia|]. exists 1%Z. reflexivity.
Qed.

(** C03 *)
Theorem C03_i24_round_trip : forall v : Z, (- 2 ^ 23 <= v <= 2 ^ 23 - 1)%Z ->
  sample_to_i24 (sample_from_i24 v) = v.
Proof. exact i24_round_trip. Qed.

Example C03_ex : (- 2 ^ 23 <= -5592405 <= 2 ^ 23 - 1)%Z /\
  sample_to_i24 (sample_from_i24 (-5592405)) = (-5592405)%Z.
Proof. split; [lia|]. vm_compute; reflexivity. Qed.

(** C04: three bytes written for a decoded 24-bit integer denote that integer, but reading them
    back gives the same sample exactly when the integer is non-negative. *)
Theorem C04_i24_bytes_written : forall v : Z, (- 2 ^ 23 <= v <= 2 ^ 23 - 1)%Z ->
  denotes (sample_to_i24_bytes (sample_from_i24 v)) v.
Proof. exact i24_bytes_written. Qed.

Theorem C04_i24_bytes_read_iff : forall v : Z, (- 2 ^ 23 <= v <= 2 ^ 23 - 1)%Z ->
  (sample_from_i24_bytes (sample_to_i24_bytes (sample_from_i24 v)) = sample_from_i24 v
   <-> (0 <= v)%Z).
Proof. exact i24_bytes_read_iff. Qed.

Theorem C04_i24_bytes_negative : forall v : Z, (- 2 ^ 23 <= v < 0)%Z ->
  sample_from_i24_bytes (sample_to_i24_bytes (sample_from_i24 v)) = sample_from_i24 (v + 2 ^ 24)
  /\ (0 < B2R (sample_from_i24 (v + 2 ^ 24)))%R /\ (B2R (sample_from_i24 v) < 0)%R.
Proof. exact i24_bytes_negative. Qed.

Theorem C04_i24_bytes_round_trip_refuted : exists v : Z, (- 2 ^ 23 <= v <= 2 ^ 23 - 1)%Z /\
  sample_from_i24_bytes (sample_to_i24_bytes (sample_from_i24 v)) <> sample_from_i24 v.
Proof. exact i24_bytes_refuted. Qed.

Example C04_ex : sample_to_i24_bytes (sample_from_i24 (-2)) = [254; 255; 255]%Z.
Proof. vm_compute. reflexivity. Qed.

(** C05 *)
Theorem C05_i16_accuracy : forall s : f32, is_finite s = true -> (Rabs (B2R s) <= 1)%R ->
  (Rabs (IZR (sample_to_i16 s) - 32767 * B2R s) <= / 2 + / 1024)%R.
Proof. exact acc_i16'. Qed.

Theorem C05_u8_accuracy : forall s : f32, is_finite s = true -> (Rabs (B2R s) <= 1)%R ->
  exists k : Z, sample_to_u8 s = Z.min 255 k /\
    (Rabs (IZR k - (128 * B2R s + 128)) <= / 2 + / 131072)%R.
Proof. exact acc_u8'. Qed.

Theorem C05_i24_accuracy : forall s : f32, is_finite s = true -> (Rabs (B2R s) <= 1)%R ->
  (Rabs (IZR (sample_to_i24 s) - 8388607 * B2R s) <= / 2 + / 4)%R.
Proof. exact acc_i24. Qed.

Example C05_ex : let s : f32 := lit 11184811 (-25) in   (* 1/3 in f32 *)
  is_finite s = true /\ sample_to_i16 s = 10922%Z /\ sample_to_u8 s = 171%Z
  /\ sample_to_i24 s = 2796203%Z.
Proof. vm_compute. auto. Qed.

(** C06 *)
Theorem C06_encoders_monotone : forall s t : f32, fle s t = true ->
  (sample_to_u8 s <= sample_to_u8 t)%Z /\ (sample_to_i16 s <= sample_to_i16 t)%Z /\
  (sample_to_i24 s <= sample_to_i24 t)%Z.
Proof. exact encoders_monotone. Qed.

Theorem C06_encoders_in_type_range : forall s : f32,
  (0 <= sample_to_u8 s <= 255)%Z /\ (-32768 <= sample_to_i16 s <= 32767)%Z.
Proof. exact encoders_range. Qed.

(** out-of-range input saturates at the end of the range *)
Theorem C06_saturation : forall s : f32,
  (fge s (of_Z 1) = true -> sample_to_u8 s = 255%Z) /\
  (fle s (of_Z (-1)) = true -> sample_to_u8 s = 0%Z) /\
  (fge s (of_Z 1) = true -> sample_to_i16 s = 32767%Z) /\
  (fle s (of_Z (-2)) = true -> sample_to_i16 s = (-32768)%Z).
Proof. exact saturation. Qed.

Theorem C06_nan : sample_to_u8 B754_nan = 0%Z /\ sample_to_i16 B754_nan = 0%Z /\
  sample_to_i24 B754_nan = 0%Z /\ sample_from_u8 0 = fneg f1 /\ sample_to_u8 f0 = 128%Z.
Proof. exact encode_nan. Qed.

Example C06_ex : fle (B754_infinity true : f32) (lit 3 (-2)) = true
  /\ fge (B754_infinity false : f32) (of_Z 1) = true.
Proof. vm_compute. auto. Qed.

(** C07 *)
Theorem C07_i24_in_range : forall s : f32, is_finite s = true -> (Rabs (B2R s) <= 1)%R ->
  (- (2 ^ 23 - 1) <= sample_to_i24 s <= 2 ^ 23 - 1)%Z /\
  denotes (sample_to_i24_bytes s) (sample_to_i24 s).
Proof. exact i24_in_range_bytes. Qed.

Theorem C07_i24_saturation_refuted : exists (s : f32) (v : Z),
  is_finite s = true /\ (0 < B2R s)%R /\ (2 ^ 23 <= sample_to_i24 s)%Z /\
  denotes (sample_to_i24_bytes s) v /\ (v < 0)%Z.
Proof. exact i24_saturation_refuted. Qed.

(** not an isolated witness: every sample from 1.5 to 1.99 is written as a negative integer *)
Theorem C07_i24_wraps : forall s : f32, is_finite s = true -> (3/2 <= B2R s <= 199/100)%R ->
  exists v : Z, denotes (sample_to_i24_bytes s) v /\ (v < 0)%Z.
Proof. exact i24_wraps. Qed.

(** the three bytes always mean the integer modulo 2^24, and exactly the samples of [-1, 1] fit *)
Theorem C07_i24_range_iff : forall s : f32, is_nan s = false ->
  ((- (2 ^ 23 - 1) <= sample_to_i24 s <= 2 ^ 23 - 1)%Z <-> is_finite s = true /\ (Rabs (B2R s) <= 1)%R).
Proof. exact i24_range_iff. Qed.

Theorem C07_i24_bytes_modulo : forall s : f32, exists v k : Z,
  denotes (sample_to_i24_bytes s) v /\ sample_to_i24 s = (v + k * 2 ^ 24)%Z.
Proof. exact i24_bytes_wrap. Qed.

Example C07_ex : sample_to_i24 (lit 8388609 (-23)) = (2 ^ 23)%Z /\ sample_to_i24 (of_Z 1) = (2 ^ 23 - 1)%Z
  /\ sample_to_i24_bytes (lit 8388609 (-23)) = [0; 0; 128]%Z.
Proof. vm_compute. auto. Qed.
