(** * C117: looped recordings *)
From Coq Require Import ZArith List Reals Lra Lia Psatz.
From Flocq Require Import Core.Core IEEE754.BinarySingleNaN.
From Verif Require Import Model.Floats Model.Mono Model.Wav Model.Resampler Spec.Playback Spec.Response Spec.Pitch Spec.Loop
  Proof.FloatFacts Proof.SampleFormatP Proof.ResamplerP2 Proof.PlayP Proof.PitchP Proof.LoopP2 Properties.Playback.
Import ListNotations.
Local Open Scope R_scope.

(** C117: a track that records a curve which repeats after the length of the loop, the loop ending before the last
    sample, is heard as that curve without end: no call panics and there is no click at the seam.
    The n calls are any number of calls, so this holds of every run. *)
Theorem C117_curve : forall (e k : Z) (data : list Mono) (rate speed : f64) (ls le : Z) (L M : R) (g : R -> R) (eps : R) (n : nat),
  let len := Z.of_nat (length data) in
  (-124 <= e <= 125)%Z -> within e data -> (0 <= ls < le)%Z -> (le < len)%Z -> (len <= 2 ^ 23)%Z -> (0 <= k <= 23)%Z -> (le <= 2 ^ k)%Z ->
  (forall q, (0 <= q <= 22)%Z -> le = (2 ^ q)%Z -> len <> (2 ^ q + 1)%Z) ->
  is_finite rate = true -> 1 <= B2R rate <= 1048576 -> is_finite speed = true -> / 1048576 <= B2R speed <= 1048576 ->
  let c := B2R rate * B2R speed / 48000 in let drift := c * bpow radix2 (-22) + bpow radix2 (k - 24) in
  c * (1 + bpow radix2 (-22)) <= IZR (le - ls - 1) ->
  smooth L M g -> recording eps g data -> repeats (le - ls) g ->
  exists ys r', rcalls n (looper data rate ls le speed) = Ok (ys, r') /\ length ys = n /\
    forall i, (i < n)%nat -> exists p m, 0 <= p < IZR le /\ Rabs (p - (INR i * c - IZR m * IZR (le - ls))) <= INR i * drift /\
      is_finite (nth i ys f0) = true /\
      let D := bpow radix2 (e - 22) + eps + M / 8 + L * (INR i * drift) in
      (~ below_power p -> Rabs (B2R (nth i ys f0) - g (INR i * c)) <= D) /\ Rabs (B2R (nth i ys f0) - g (INR i * c)) <= D + L.
Proof. exact loop_drift. Qed.
(** a tone of F Hz with a whole number of periods in the loop is heard as a tone of F times the speed *)
Theorem C117_tone : forall (e k : Z) (data : list Mono) (rate speed : f64) (ls le : Z) (F : R) (w : C) (eps : R) (j : Z) (n : nat),
  let len := Z.of_nat (length data) in
  (-124 <= e <= 125)%Z -> within e data -> (0 <= ls < le)%Z -> (le < len)%Z -> (len <= 2 ^ 23)%Z -> (0 <= k <= 23)%Z -> (le <= 2 ^ k)%Z ->
  (forall q, (0 <= q <= 22)%Z -> le = (2 ^ q)%Z -> len <> (2 ^ q + 1)%Z) ->
  is_finite rate = true -> 1 <= B2R rate <= 1048576 -> is_finite speed = true -> / 1048576 <= B2R speed <= 1048576 -> 0 <= F ->
  let om := 2 * PI * F / B2R rate in let c := B2R rate * B2R speed / 48000 in
  let drift := c * bpow radix2 (-22) + bpow radix2 (k - 24) in
  c * (1 + bpow radix2 (-22)) <= IZR (le - ls - 1) ->
  recording eps (rtone om w) data -> F * IZR (le - ls) = IZR j * B2R rate ->
  exists ys r', rcalls n (looper data rate ls le speed) = Ok (ys, r') /\ length ys = n /\
    forall i, (i < n)%nat -> exists p m, 0 <= p < IZR le /\ Rabs (p - (INR i * c - IZR m * IZR (le - ls))) <= INR i * drift /\
      is_finite (nth i ys f0) = true /\
      let D := bpow radix2 (e - 22) + eps + modulus w * (om * om / 8 + om * (INR i * drift)) in
      (~ below_power p -> Rabs (B2R (nth i ys f0) - tone (rad (F * B2R speed)) w i) <= D) /\
      Rabs (B2R (nth i ys f0) - tone (rad (F * B2R speed)) w i) <= D + modulus w * om.
Proof. exact loop_tone. Qed.
(** a step that is a multiple of the spacing of the floats at the end of the loop never drifts: the bound is the same after any time *)
Theorem C117_no_drift : forall (e k : Z) (data : list Mono) (rate speed : f64) (ls le : Z) (L M : R) (g : R -> R) (eps : R) (n : nat),
  let len := Z.of_nat (length data) in
  (-124 <= e <= 125)%Z -> within e data -> (0 <= ls < le)%Z -> (le < len)%Z -> (len <= 2 ^ 23)%Z -> (0 <= k <= 23)%Z -> (le <= 2 ^ k)%Z ->
  (forall q, (0 <= q <= 22)%Z -> le = (2 ^ q)%Z -> len <> (2 ^ q + 1)%Z) ->
  let r := looper data rate ls le speed in let s := B2R (step r) in
  is_finite (step r) = true -> 0 <= s <= IZR (le - ls - 1) -> on_grid (k - 23) s ->
  smooth L M g -> recording eps g data -> repeats (le - ls) g ->
  exists ys r', rcalls n r = Ok (ys, r') /\ length ys = n /\
    forall i, (i < n)%nat -> is_finite (nth i ys f0) = true /\ Rabs (B2R (nth i ys f0) - g (INR i * s)) <= bpow radix2 (e - 22) + eps + M / 8.
Proof. exact loop_grid. Qed.
Theorem C117_endless_tone : forall (e k : Z) (data : list Mono) (speed : f64) (ls le : Z) (F : R) (w : C) (eps : R) (j : Z) (n : nat),
  let len := Z.of_nat (length data) in
  (-124 <= e <= 125)%Z -> within e data -> (0 <= ls < le)%Z -> (le < len)%Z -> (len <= 2 ^ 23)%Z -> (0 <= k <= 23)%Z -> (le <= 2 ^ k)%Z ->
  (forall q, (0 <= q <= 22)%Z -> le = (2 ^ q)%Z -> len <> (2 ^ q + 1)%Z) ->
  is_finite speed = true -> 0 <= B2R speed <= IZR (le - ls - 1) -> on_grid (k - 23) (B2R speed) -> 0 <= F ->
  recording eps (rtone (rad F) w) data -> F * IZR (le - ls) = IZR j * 48000 ->
  exists ys r', rcalls n (looper data (of_Z 48000) ls le speed) = Ok (ys, r') /\ length ys = n /\
    forall i, (i < n)%nat -> is_finite (nth i ys f0) = true /\
      Rabs (B2R (nth i ys f0) - tone (rad (F * B2R speed)) w i) <= bpow radix2 (e - 22) + eps + modulus w * (rad F * rad F / 8).
Proof. exact loop_tone_grid. Qed.

Lemma cos_quarter : rtone (rad 12000) (1, 0) 0 = 1 /\ rtone (rad 12000) (1, 0) 1 = 0 /\ rtone (rad 12000) (1, 0) 2 = -1 /\ rtone (rad 12000) (1, 0) 3 = 0
  /\ repeats 4 (rtone (rad 12000) (1, 0)).
Proof.
  assert (Sn : forall t, rtone (rad 12000) (1, 0) t = cos (t * (PI / 2))).
  { intro t. unfold rtone, rad. cbn [fst snd]. replace (2 * PI * 12000 / 48000 * t) with (t * (PI / 2)) by field. ring. }
  split; [rewrite Sn, Rmult_0_l; apply cos_0|]. split; [rewrite Sn, Rmult_1_l; apply cos_PI2|].
  split; [rewrite Sn; replace (2 * (PI / 2)) with PI by field; apply cos_PI|]. split; [rewrite Sn; apply cos_3PI2|].
  intro t. rewrite !Sn. replace ((t + 4) * (PI / 2)) with (t * (PI / 2) + 2 * INR 1 * PI) by (simpl; field). apply cos_period.
Qed.
Lemma quarter_track : recording 0 (rtone (rad 12000) (1, 0)) (samples [1; 0; -1; 0; 1; 0; -1; 0]%Z).
Proof.
  destruct cos_quarter as (C0 & C1 & C2 & C3 & Cp).
  assert (V : forall z, (-1 <= z <= 1)%Z -> B2R (mono (mkMono (of_Z z))) = IZR z).
  { intros z Hz. exact (proj2 (of_Z32 z ltac:(lia))). }
  assert (C4 : rtone (rad 12000) (1, 0) 4 = 1) by (replace 4 with (0 + 4) by lra; exact (eq_trans (Cp 0) C0)).
  assert (C5 : rtone (rad 12000) (1, 0) 5 = 0) by (replace 5 with (1 + 4) by lra; exact (eq_trans (Cp 1) C1)).
  assert (C6 : rtone (rad 12000) (1, 0) 6 = -1) by (replace 6 with (2 + 4) by lra; exact (eq_trans (Cp 2) C2)).
  assert (C7 : rtone (rad 12000) (1, 0) 7 = 0) by (replace 7 with (3 + 4) by lra; exact (eq_trans (Cp 3) C3)).
  assert (NI : forall (a : nat) z, INR a = z -> rtone (rad 12000) (1, 0) (INR a) = rtone (rad 12000) (1, 0) z) by (intros a z H; rewrite H; reflexivity).
  assert (Z0 : forall x y, x = y -> Rabs (x - y) <= 0) by (intros x y H; rewrite H, Rminus_diag_eq, Rabs_R0 by reflexivity; apply Rle_refl).
  intros j d E.
  destruct j as [|[|[|[|[|[|[|[|j]]]]]]]]; cbn [nth_error samples map] in E; try (destruct j; discriminate E);
    apply (f_equal (fun o => match o with Some x => x | None => d end)) in E; cbn beta iota in E; rewrite <- E, V by lia; apply Z0.
  - rewrite (NI _ 0) by (simpl; lra). symmetry. exact C0.
  - rewrite (NI _ 1) by (simpl; lra). symmetry. exact C1.
  - rewrite (NI _ 2) by (simpl; lra). symmetry. exact C2.
  - rewrite (NI _ 3) by (simpl; lra). symmetry. exact C3.
  - rewrite (NI _ 4) by (simpl; lra). symmetry. exact C4.
  - rewrite (NI _ 5) by (simpl; lra). symmetry. exact C5.
  - rewrite (NI _ 6) by (simpl; lra). symmetry. exact C6.
  - rewrite (NI _ 7) by (simpl; lra). symmetry. exact C7.
Qed.
(** two periods of 12 kHz, the first of them looped, at half speed: 1, 1/2, 0, -1/2, -1, -1/2, 0, 1/2 over and over *)
Example C117_ex : let data := samples [1; 0; -1; 0; 1; 0; -1; 0]%Z in
  recording 0 (rtone (rad 12000) (1, 0)) data /\ repeats 4 (rtone (rad 12000) (1, 0)) /\ on_grid (2 - 23) (/ 2) /\
  outputs (rcalls 18 (looper data (of_Z 48000) 0 4 (lit 1 (-1))))
    = Some [part 1 0; part 1 (-1); part 0 0; part (-1) (-1); part (-1) 0; part (-1) (-1); part 0 0; part 1 (-1);
            part 1 0; part 1 (-1); part 0 0; part (-1) (-1); part (-1) 0; part (-1) (-1); part 0 0; part 1 (-1); part 1 0; part 1 (-1)].
Proof.
  split; [exact quarter_track|]. split; [apply cos_quarter|]. split; [|vm_compute; reflexivity].
  exists (2 ^ 20)%Z. rewrite IZR_pow2 by lia. rewrite <- bpow_plus. reflexivity.
Qed.
(** relied on: the loop may end with the track.  It may not: with the second period looped instead, half way between the
    last sample and the first of the loop comes 0 instead of a value near sqrt(2)/2, further off than the bound of C117_endless_tone *)
Theorem C117_loop_to_the_end_refuted : exists (data : list Mono) (ls le : Z) (speed : f64) (ys : list f32) (r' : resampler),
  le = Z.of_nat (length data) /\ (0 <= ls < le)%Z /\ within 0 data /\ recording 0 (rtone (rad 12000) (1, 0)) data /\
  repeats (le - ls) (rtone (rad 12000) (1, 0)) /\ B2R speed = / 2 /\
  rcalls 24 (looper data (of_Z 48000) ls le speed) = Ok (ys, r') /\
  bpow radix2 (-22) + 0 + modulus (1, 0) * (rad 12000 * rad 12000 / 8) < Rabs (B2R (nth 15 ys f0) - tone (rad (12000 * / 2)) (1, 0) 15).
Proof.
  set (data := samples [1; 0; -1; 0; 1; 0; -1; 0]%Z).
  destruct (rcalls 24 (looper data (of_Z 48000) 4 8 (lit 1 (-1)))) as [[ys r']|] eqn:E.
  2:{ exfalso. apply (f_equal outputs) in E. vm_compute in E. discriminate E. }
  exists data, 4%Z, 8%Z, (lit 1 (-1)), ys, r'. split; [reflexivity|]. split; [lia|]. split; [|split; [exact quarter_track|split; [exact (proj2 (proj2 (proj2 (proj2 cos_quarter))))|split; [|split; [exact E|]]]]].
  - apply Forall_forall. intros d Hd. unfold data, samples in Hd. apply in_map_iff in Hd. destruct Hd as (z & <- & Hz).
    destruct (of_Z32 z) as [F V]; [cbn in Hz; lia|]. split; [exact F|]. cbn [mono]. rewrite V. apply Rabs_le. change (bpow radix2 0) with 1.
    assert (-1 <= z <= 1)%Z by (cbn in Hz; lia). split; [apply (IZR_le (-1))|apply (IZR_le _ 1)]; lia.
  - destruct (B2R_of_SF (lit 1 (-1) : f64) false 4503599627370496 (-53)) as [_ ->]; [vm_compute; reflexivity|cbn; lra].
  - assert (Y : B2R (nth 15 ys f0) = 0).
    { assert (H : nth 15 (map B2SF ys) (B2SF (f0 : f32)) = SpecFloat.S754_zero false).
      { assert (O : outputs (rcalls 24 (looper data (of_Z 48000) 4 8 (lit 1 (-1)))) = Some (map B2SF ys)) by (rewrite E; reflexivity).
        apply (f_equal (fun o => match o with Some l => nth 15 l (B2SF (f0 : f32)) | None => SpecFloat.S754_zero false end)) in O. cbn beta iota in O. rewrite <- O. vm_compute. reflexivity. }
      rewrite map_nth in H. destruct (nth 15 ys f0) as [s|s| |s m x b]; try discriminate H. reflexivity. }
    rewrite Y.
    assert (T : tone (rad (12000 * / 2)) (1, 0) 15 = / sqrt 2).
    { unfold tone, rad. cbn [fst snd]. rewrite Rmult_1_l, Rmult_0_l, Rminus_0_r.
      replace (2 * PI * (12000 * / 2) / 48000 * INR 15) with (- (PI / 4) + 2 * INR 2 * PI) by (simpl; field).
      rewrite cos_period, cos_neg, cos_PI4. field. apply Rgt_not_eq, sqrt_lt_R0. lra. }
    rewrite T. assert (S2 : 0 < sqrt 2 < 1.42) by (split; [apply sqrt_lt_R0; lra|apply Rsqr_incrst_0; [rewrite Rsqr_sqrt by lra; unfold Rsqr; lra|apply sqrt_pos|lra]]).
    assert (I2 : 0.7 < / sqrt 2) by (apply Rlt_trans with (/ 1.42); [lra|apply Rinv_lt_contravar; lra]).
    assert (M1 : modulus (1, 0) = 1) by (unfold modulus, cn2; cbn [fst snd]; replace (1 * 1 + 0 * 0) with 1 by ring; apply sqrt_1).
    rewrite M1. assert (Q : rad 12000 = PI / 2) by (unfold rad; field). rewrite Q. pose proof PI_RGT_0 as P0. pose proof PI_4 as P4.
    assert (PI / 2 * (PI / 2) <= 2 * 2) by (apply Rmult_le_compat; lra).
    change (bpow radix2 (-22)) with (/ 4194304). rewrite Rminus_0_l, Rabs_Ropp, Rabs_pos_eq by lra. lra.
Qed.
