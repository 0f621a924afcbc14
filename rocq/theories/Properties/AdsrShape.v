(** * C101: the ADSR follows the envelope that was asked for *)

From Coq Require Import ZArith List Bool Reals Lra Lia.
From Flocq Require Import Core.Core IEEE754.BinarySingleNaN.
From Verif Require Import Model.Floats Model.Utils Model.Modifiers Spec.Libm Spec.Decibel
  Proof.FloatFacts Proof.FormatsP Proof.LibmP Proof.UtilsP Proof.AdsrP Proof.AdsrP2 Proof.AdsrP3 Proof.AdsrP4 Proof.AdsrShapeP.
Import ListNotations.
Local Open Scope R_scope.

(** ** C101.  [after_n e xs]: after processing [xs]; [adsr_after e h]: after any history of process and release calls *)
(** the gain rises linearly to 1 over A samples, up to an error that grows linearly; the attack ends when it should, up to that error *)
Theorem C101_attack : forall (m : libm) (a d : duration) (s : f64) (r : duration) (xs : list f32), pow10_unit m -> s <> B754_infinity true ->
  pos_dur a -> pos_dur d -> pos_dur r ->
  let A := 48000 * dur_R a in let n := INR (length xs) in let err := n * (bpow radix2 (-25) + bpow radix2 (-22) / A) in
  let e := after_n (adsr_new m a d s r) xs in
  (n / A + err < 1 -> ad_state e = Attack /\ Rabs (B2R (ad_g e) - n / A) <= err) /\ (1 <= n / A - err -> ad_state e <> Attack).
Proof. exact attack_shape. Qed.
(** then falls linearly from 1 to the sustain level L over D samples, where it stays *)
Theorem C101_decay : forall (m : libm) (a d : duration) (s : f64) (r : duration) (h : list ev) (xs : list f32), pow10_unit m -> pow10_accurate m ->
  is_finite s = true -> Rabs (B2R s) <= 2000 -> pos_dur a -> pos_dur d -> pos_dur r ->
  let e := adsr_after (adsr_new m a d s r) h in ad_state e = Decay -> ad_g e = of_Z 1 ->
  let L := dB (Rmin (B2R s) 0) in let D := 48000 * dur_R d in let n := INR (length xs) in
  let v := 1 - n * (1 - L) / D in let err := n * (bpow radix2 (-25) + bpow radix2 (-22) / D) in let e' := after_n e xs in
  (L + bpow radix2 (-22) < v - err -> ad_state e' = Decay /\ Rabs (B2R (ad_g e') - v) <= err) /\
  (v + err < L - bpow radix2 (-22) -> ad_state e' = Sustain /\ Rabs (B2R (ad_g e') - L) <= L * bpow radix2 (-23) + bpow radix2 (-149)).
Proof. exact decay_shape. Qed.
(** released at any moment, it falls from the present gain at the rate of L per release time *)
Theorem C101_release : forall (m : libm) (a d : duration) (s : f64) (r : duration) (h : list ev) (k : Z) (xs : list f32), pow10_unit m -> pow10_accurate m ->
  is_finite s = true -> Rabs (B2R s) <= 2000 -> pos_dur a -> pos_dur d -> pos_dur r ->
  let e := adsr_after (adsr_new m a d s r) h in (-100 <= k <= 0)%Z -> B2R (ad_g e) <= bpow radix2 k ->
  let L := dB (Rmin (B2R s) 0) in let T := 48000 * dur_R r in let n := INR (length xs) in
  let v := B2R (ad_g e) - n * L / T in let err := n * (bpow radix2 (k - 24) + L / T * bpow radix2 (-22)) in let e' := after_n (adsr_release e) xs in
  (0 < v - err -> ad_state e' = Release /\ Rabs (B2R (ad_g e') - v) <= err) /\ (v + err <= 0 -> xs <> [] -> ad_state e' = Stopped).
Proof. exact release_shape. Qed.
(** relied on: the release takes the release time.  From full gain, with a sustain level of at most one half, it is not over by then *)
Theorem C101_release_time_refuted : forall (m : libm) (a d : duration) (s : f64) (r : duration) (h : list ev) (xs : list f32), pow10_unit m -> pow10_accurate m ->
  is_finite s = true -> Rabs (B2R s) <= 2000 -> pos_dur a -> pos_dur d -> pos_dur r ->
  let e := adsr_after (adsr_new m a d s r) h in ad_g e = of_Z 1 -> dB (Rmin (B2R s) 0) <= / 2 -> 48000 * dur_R r <= 1048576 -> INR (length xs) <= 48000 * dur_R r ->
  ad_state (after_n (adsr_release e) xs) = Release /\ 3 / 8 <= B2R (ad_g (after_n (adsr_release e) xs)).
Proof. exact release_late. Qed.

Lemma INR_length (xs : list f32) z : length xs = Z.to_nat z -> (0 <= z)%Z -> INR (length xs) = IZR z.
Proof. intros E H. rewrite E, INR_IZR_INZ, Z2Nat.id by exact H. reflexivity. Qed.
Lemma one_sec : dur_R (mkDur 1 0) = 1. Proof. unfold dur_R. cbn [secs nanos]. lra. Qed.
Lemma minus20 : is_finite (of_Z (-20) : f64) = true /\ Rabs (B2R (of_Z (-20) : f64)) <= 2000 /\ dB (Rmin (B2R (of_Z (-20) : f64)) 0) = / 10.
Proof.
  destruct (of_Z64 (-20) ltac:(lia)) as [F ->]. split; [exact F|]. split; [apply Rabs_le; lra|]. rewrite Rmin_left by lra. unfold dB.
  replace (-20 / 20) with (- (1)) by field. rewrite Rpower_Ropp, Rpower_1 by lra. reflexivity.
Qed.
(** an attack of one second is half way up after half a second *)
Example C101_ex : forall xs : list f32, length xs = Z.to_nat 24000 ->
  let e := after_n (adsr_new ideal_libm (mkDur 1 0) (mkDur 1 0) (of_Z (-20)) (mkDur 1 0)) xs in
  ad_state e = Attack /\ Rabs (B2R (ad_g e) - / 2) <= / 1000.
Proof.
  intros xs HL e. assert (P : pos_dur (mkDur 1 0)) by (apply secs_pos; lia).
  assert (NI : (of_Z (-20) : f64) <> B754_infinity true) by (intro C; pose proof (proj1 minus20) as F; rewrite C in F; discriminate F).
  destruct (C101_attack ideal_libm _ _ _ _ xs ideal_pow10_unit NI P P P) as [T _]. fold e in T. rewrite (INR_length xs 24000 HL ltac:(lia)), one_sec in T.
  change (bpow radix2 (-25)) with (/ 33554432) in T. change (bpow radix2 (-22)) with (/ 4194304) in T.
  destruct T as [S1 B]; [lra|]. split; [exact S1|]. apply Rabs_le_inv in B. apply Rabs_le. lra.
Qed.
(** 20 us of attack, sustain -20 dB, released at the peak: one second of release time later the gain is still above 3/8 *)
Example C101_late_ex : forall (x : f32) (xs : list f32), length xs = Z.to_nat 48000 ->
  let e := snd (adsr_process (adsr_new ideal_libm us20 (mkDur 1 0) (of_Z (-20)) (mkDur 1 0)) x) in
  us20 = mkDur 0 20000 /\ ad_state (after_n (adsr_release e) xs) = Release /\ 3 / 8 <= B2R (ad_g (after_n (adsr_release e) xs)).
Proof.
  intros x xs HL e. split; [reflexivity|]. destruct minus20 as (F & H & E). assert (P : pos_dur (mkDur 1 0)) by (apply secs_pos; lia).
  apply (C101_release_time_refuted ideal_libm us20 (mkDur 1 0) (of_Z (-20)) (mkDur 1 0) [Proc x] xs ideal_pow10_unit ideal_pow10 F H us20_pos P P).
  - exact (proj1 (proj2 (fast_attack ideal_libm (mkDur 1 0) (of_Z (-20)) (mkDur 1 0) x))).
  - rewrite E. lra.
  - rewrite one_sec. lra.
  - rewrite (INR_length xs 48000 HL ltac:(lia)), one_sec. lra.
Qed.
