(** * C112, C113: the square wave at any frequency; frequencies that change while the generator runs *)

From Coq Require Import ZArith List Bool Reals Lra Lia.
From Flocq Require Import Core.Core IEEE754.BinarySingleNaN.
From Verif Require Import Model.Floats Model.Generators Spec.Libm Spec.Waves Spec.Sweep
  Proof.FloatFacts Proof.SampleFormatP Proof.FormatsP Proof.GeneratorsP Proof.LibmP Proof.SweepP Proof.SweepP2.
Import ListNotations.
Local Open Scope R_scope.

Definition heard_out {S} (x : res (list f32 * S)) : option (list SpecFloat.spec_float) :=
  match x with Ok (ys, _) => Some (map B2SF ys) | Panic => None end.

(** ** C112: away from the edges, by as much as the phase may have drifted *)
Theorem C112_square_accuracy : forall (n : nat) (f : f64), is_finite f = true -> bpow radix2 (-20) <= B2R f <= 24000 ->
  let p := B2R f * INR n / 48000 in
  (forall k : Z, INR n * bpow radix2 (-50) < Rabs (p - IZR k / 2)) ->
  B2R (nth_out sq_process n (sq_new f)) = square_wave p.
Proof. exact square_accuracy. Qed.
(** 7000 Hz does not divide the sample rate: sample 17 is 2 periods and 0.479 of a third, sample 18 is at 0.625 *)
Example C112_ex : B2SF (nth_out sq_process 17 (sq_new (of_Z 7000))) = B2SF (of_Z 1 : f32)
  /\ B2SF (nth_out sq_process 18 (sq_new (of_Z 7000))) = B2SF (of_Z (-1) : f32)
  /\ square_wave (7000 * 17 / 48000) = 1 /\ square_wave (7000 * 18 / 48000) = -1
  /\ (forall k : Z, 18 * bpow radix2 (-50) < Rabs (7000 * 18 / 48000 - IZR k / 2)).
Proof.
  split; [vm_compute; reflexivity|]. split; [vm_compute; reflexivity|].
  split; [apply (square_wave_pos _ 2); simpl; lra|]. split; [apply (square_wave_neg _ 2); simpl; lra|].
  intro k. change (bpow radix2 (-50)) with (/ 1125899906842624).
  destruct (Z_le_gt_dec k 5) as [K|K].
  - apply IZR_le in K. rewrite Rabs_pos_eq; lra.
  - assert (6 <= k)%Z as K' by lia. apply IZR_le in K'. rewrite Rabs_left1; lra.
Qed.

(** ** C113: [heard f ops] lists the frequency in force at each sample, [periods] adds them up *)
Theorem C113_sine_sweep : forall (m : libm) (f : f64) (ops : list gop), sin_bounded m -> sin_zero m -> sin_accurate m ->
  is_finite f = true -> 0 <= B2R f <= 48000 -> freqs (fun f => is_finite f = true /\ 0 <= B2R f <= 48000) ops ->
  exists ys s, sin_run m ops (sin_new f) = Ok (ys, s) /\ length ys = length (heard f ops) /\
    forall i y, nth_error ys i = Some y -> is_finite y = true /\
      Rabs (B2R y - sin (2 * PI * periods (heard f ops) i)) <= bpow radix2 (-9) + INR i * bpow radix2 (-48).
Proof. exact sin_sweep. Qed.
Theorem C113_sawtooth_sweep : forall (f : f64) (ops : list gop), is_finite f = true -> 0 <= B2R f <= 24000 ->
  freqs (fun f => is_finite f = true /\ 0 <= B2R f <= 24000) ops ->
  exists ys s, saw_run ops (saw_new f) = Ok (ys, s) /\ length ys = length (heard f ops) /\
    forall i y, nth_error ys i = Some y -> let w := sawtooth_wave (periods (heard f ops) i) in is_finite y = true /\
      (Rabs w < 1 - INR i * bpow radix2 (-51) -> Rabs (B2R y - w) <= bpow radix2 (-25) + INR i * bpow radix2 (-51)).
Proof. exact saw_sweep. Qed.
(** relied on: the same for the triangle.  Setting its frequency before every sample, even to the value it
    has, leaves it stuck at the top for ever once a quarter of a period has passed. *)
Theorem C113_triangle_sweep_refuted : forall (f : f64) (n : nat), is_finite f = true -> bpow radix2 (-20) <= B2R f <= 24000 ->
  let ops := concat (repeat [GFreq f; GNext] n) in heard f ops = repeat f n /\
  exists ys s, tri_run ops (tri_new f) = Ok (ys, s) /\ length ys = n /\
    forall i y, nth_error ys i = Some y -> 12001 <= B2R f * INR i ->
      is_finite y = true /\ 1 - 4 * B2R f / 48000 - bpow radix2 (-24) <= B2R y <= 1.
Proof. intros f n F H. split; [exact (heard_nag f f n)|exact (tri_nag_stuck f n F H)]. Qed.

Example C113_ex : heard (of_Z 6000) [GNext; GNext; GFreq (of_Z 3000); GNext; GNext] = [of_Z 6000; of_Z 6000; of_Z 3000; of_Z 3000]
  /\ periods [of_Z 6000; of_Z 6000; of_Z 3000; of_Z 3000] 3 = 5 / 16
  /\ sawtooth_wave (5 / 16) = 5 / 8
  /\ heard_out (saw_run [GNext; GNext; GFreq (of_Z 3000); GNext; GNext] (saw_new (of_Z 6000)))
     = Some (map B2SF [f0; lit 1 (-2); lit 1 (-1); lit 5 (-3) : f32])
  /\ heard_out (tri_run (concat (repeat [GFreq (of_Z 3000); GNext] 9)) (tri_new (of_Z 3000)))
     = Some (map B2SF [f0; lit 1 (-2); lit 1 (-1); lit 3 (-2); lit 1 0; lit 3 (-2); lit 1 0; lit 3 (-2); lit 1 0 : f32]).
Proof.
  split; [reflexivity|]. split.
  { destruct (of_Z64 6000 ltac:(lia)) as [_ V1]. destruct (of_Z64 3000 ltac:(lia)) as [_ V2]. cbn [periods]. rewrite V1, V2. lra. }
  split.
  { unfold sawtooth_wave. assert (E : Zfloor (5 / 16 + / 2) = 0%Z) by (apply Zfloor_imp; simpl; lra). rewrite E. simpl. lra. }
  split; vm_compute; reflexivity.
Qed.
Example C113_sine_ex : sin_bounded ideal_libm /\ sin_zero ideal_libm /\ sin_accurate ideal_libm
  /\ freqs (fun f => is_finite f = true /\ 0 <= B2R f <= 48000) [GNext; GFreq (of_Z 880); GNext]
  /\ length (heard (of_Z 440) [GNext; GFreq (of_Z 880); GNext]) = 2%nat.
Proof.
  split; [exact ideal_sin_bounded|]. split; [exact ideal_sin_zero|]. split; [exact ideal_sin_accurate|]. split; [|reflexivity].
  destruct (of_Z64 880 ltac:(lia)) as [F V]. repeat apply Forall_cons; try apply Forall_nil; try exact I.
  split; [exact F|]. rewrite V. lra.
Qed.
