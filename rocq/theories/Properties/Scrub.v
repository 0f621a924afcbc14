(** * C125: MonoResampler at speeds set before every sample *)

From Coq Require Import ZArith List Bool Reals Lra Lia.
From Flocq Require Import Core.Core IEEE754.BinarySingleNaN.
From Verif Require Import Model.Floats Model.Mono Model.Resampler Spec.Playback Spec.Loop Spec.Scrub
  Proof.FloatFacts Proof.SampleFormatP Proof.ResamplerP2 Proof.PlayP Proof.ScrubP.
Import ListNotations.
Local Open Scope R_scope.

(** ** C125 *)
(** speeds whose steps lie on the grid of the track's length, changed before every call in any way: no drift at all, no panic,
    the sample itself at whole positions, silence exactly from the end on *)
Theorem C125_any_rate : forall (e k : Z) (data : list Mono) (rate : f64) (ss : list f64),
  (-124 <= e <= 125)%Z -> within e data -> (0 <= k <= 23)%Z -> (Z.of_nat (length data) <= 2 ^ k)%Z ->
  (forall s, In s ss -> is_finite (speed_step rate s) = true /\ dyadic k (B2R (speed_step rate s))) ->
  let len := IZR (Z.of_nat (length data)) in
  exists ys r', rrun (turning ss) (resampler_new data rate 0 0) = Ok (ys, r') /\ length ys = length ss /\
    forall i, (i < length ss)%nat -> let p := travelled rate (firstn i ss) in
      (p < len -> is_finite (nth i ys f0) = true /\ Rabs (B2R (nth i ys f0) - interpolated data p) <= bpow radix2 (e - 22) /\
         (forall z, p = IZR z -> B2R (nth i ys f0) = held data z)) /\
      (len <= p -> nth i ys f0 = f0).
Proof. exact scrub. Qed.
(** a track of 48000 Hz: the position is the sum of the speeds so far *)
Theorem C125_own_rate : forall (e k : Z) (data : list Mono) (ss : list f64),
  (-124 <= e <= 125)%Z -> within e data -> (0 <= k <= 23)%Z -> (Z.of_nat (length data) <= 2 ^ k)%Z ->
  (forall s, In s ss -> is_finite s = true /\ dyadic k (B2R s)) ->
  let len := IZR (Z.of_nat (length data)) in
  exists ys r', rrun (turning ss) (resampler_new data (of_Z 48000) 0 0) = Ok (ys, r') /\ length ys = length ss /\
    forall i, (i < length ss)%nat -> let p := fold_right (fun s a => B2R s + a) 0 (firstn i ss) in
      (p < len -> is_finite (nth i ys f0) = true /\ Rabs (B2R (nth i ys f0) - interpolated data p) <= bpow radix2 (e - 22) /\
         (forall z, p = IZR z -> B2R (nth i ys f0) = held data z)) /\
      (len <= p -> nth i ys f0 = f0).
Proof. exact scrub_own. Qed.
(** at a whole speed m: every m-th sample, then silence *)
Theorem C125_whole_speed : forall (e : Z) (data : list Mono) (m : Z) (n : nat),
  (-124 <= e <= 125)%Z -> within e data -> (0 <= m <= 2 ^ 23)%Z -> (Z.of_nat (length data) <= 2 ^ 23)%Z ->
  exists ys r', rcalls n (player data (of_Z 48000) (of_Z m)) = Ok (ys, r') /\ length ys = n /\
    forall i, (i < n)%nat -> let j := (Z.of_nat i * m)%Z in
      ((j < Z.of_nat (length data))%Z -> is_finite (nth i ys f0) = true /\ B2R (nth i ys f0) = B2R (mono (nth (Z.to_nat j) data mono_new))) /\
      ((Z.of_nat (length data) <= j)%Z -> nth i ys f0 = f0).
Proof. exact whole_speed. Qed.
(** at half speed: the samples and the points halfway between them *)
Theorem C125_half_speed : forall (e : Z) (data : list Mono) (n : nat), (-124 <= e <= 125)%Z -> within e data -> (Z.of_nat (length data) <= 2 ^ 22)%Z ->
  exists ys r', rcalls n (player data (of_Z 48000) (fdiv f1 (of_Z 2))) = Ok (ys, r') /\ length ys = n /\
    (forall j, (2 * j < n)%nat -> (j < length data)%nat -> B2R (nth (2 * j) ys f0) = B2R (mono (nth j data mono_new))) /\
    (forall j, (2 * j + 1 < n)%nat -> (j + 1 < length data)%nat ->
       Rabs (B2R (nth (2 * j + 1) ys f0) - (B2R (mono (nth j data mono_new)) + B2R (mono (nth (j + 1) data mono_new))) / 2) <= bpow radix2 (e - 22)) /\
    (forall i, (i < n)%nat -> (2 * length data <= i)%nat -> nth i ys f0 = f0).
Proof. exact half_speed. Qed.
(** relied on: ten calls at a tenth of the speed move on by one sample *)
Theorem C125_tenths_refuted : exists ys r', rcalls 10 (player [mkMono f0; mkMono f1; mkMono f0] (of_Z 48000) (fdiv f1 (of_Z 10))) = Ok (ys, r') /\ B2R (r_ind r') <> 1.
Proof. exact tenths. Qed.
(** five samples at the speeds 1/2, 2, 1/2, 1, 1, 1: positions 0, 1/2, 5/2, 3, 4 and the end *)
Example C125_ex :
  match rrun (turning [fdiv f1 (of_Z 2); of_Z 2; fdiv f1 (of_Z 2); of_Z 1; of_Z 1; of_Z 1])
          (resampler_new (map (fun z => mkMono (of_Z z)) [0; 4; 8; 12; 20]%Z) (of_Z 48000) 0 0) with
  | Ok (ys, _) => map to_i32 ys | Panic => [] end = [0; 2; 10; 12; 20; 0]%Z.
Proof. vm_compute. reflexivity. Qed.
