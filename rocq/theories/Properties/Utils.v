(** * C14-C18: utils *)

From Coq Require Import ZArith List Bool Reals Lra Lia.
From Flocq Require Import Core.Core IEEE754.BinarySingleNaN.
From Verif Require Import Model.Floats Model.Utils Spec.RealNum Spec.Libm
  Proof.FloatFacts Proof.SampleFormatP Proof.FormatsP Proof.LibmP Proof.UtilsP.
Import ListNotations.

(** C14 *)
Theorem C14_clamp : forall x x1 x2 : f64,
  is_nan x = false -> is_nan x1 = false -> is_nan x2 = false ->
  let c := clamp num64 x x1 x2 in
  (fle x1 x2 = true -> fle x1 c = true /\ fle c x2 = true) /\
  (fle x2 x1 = true -> fle x2 c = true /\ fle c x1 = true) /\
  (fle x1 x = true -> fle x x2 = true -> c = x) /\
  (fle x2 x = true -> fle x x1 = true -> c = x) /\
  feq c (clamp num64 x x2 x1) = true.
Proof. exact clamp64_spec. Qed.

Theorem C14_clerp_outside : forall x x1 x2 y1 y2 : f64, is_nan x = false -> fle x1 x2 = true ->
  (flt x2 x = true -> clerp num64 x x1 x2 y1 y2 = clerp num64 x2 x1 x2 y1 y2) /\
  (flt x x1 = true -> clerp num64 x x1 x2 y1 y2 = clerp num64 x1 x1 x2 y1 y2).
Proof. exact clerp_outside. Qed.

Theorem C14_clerp_at_x1 : forall x1 x2 y1 y2 : f64,
  is_finite x1 = true -> is_finite x2 = true -> is_finite y1 = true -> (B2R x1 < B2R x2)%R ->
  is_finite (fdiv (fsub y2 y1) (fsub x2 x1)) = true ->
  is_finite (clerp num64 x1 x1 x2 y1 y2) = true /\ B2R (clerp num64 x1 x1 x2 y1 y2) = B2R y1.
Proof. exact clerp_at_x1. Qed.

Theorem C14_clerp_exact : forall x x' x1 x2 y1 y2 : R, x1 <> x2 ->
  (Rmin y1 y2 <= clerp numR x x1 x2 y1 y2 <= Rmax y1 y2)%R /\
  clerp numR x1 x1 x2 y1 y2 = y1 /\ clerp numR x2 x1 x2 y1 y2 = y2 /\
  ((x1 < x2)%R -> (y1 <= y2)%R -> (x <= x')%R -> (clerp numR x x1 x2 y1 y2 <= clerp numR x' x1 x2 y1 y2)%R).
Proof. exact clerpR_exact. Qed.

Example C14_ex : clamp num64 (B754_infinity false) (of_Z 3) (of_Z (-2)) = of_Z 3
  /\ clerp num64 (of_Z 0) (of_Z 1) (of_Z 2) (of_Z 10) (of_Z 20) = of_Z 10
  /\ clerp num64 (lit 3 (-1)) (of_Z 1) (of_Z 2) (of_Z 10) (of_Z 20) = of_Z 15
  /\ is_finite (fdiv (fsub (of_Z 20) (of_Z 10)) (fsub (of_Z 2) (of_Z 1)) : f64) = true.
Proof. repeat split; apply B2SF_inj; vm_compute; reflexivity. Qed.

(** C15: whichever rounding the standard library applies when building a Duration *)
Theorem C15_samples_seconds_round_trip : forall (md : dur_mode) (n : Z), (0 < n <= 2 ^ 20)%Z ->
  exists d, samples_to_seconds md n = Ok d /\ secs d = (48000 * n)%Z /\ nanos d = 0%Z /\
    seconds_to_samples d = (48000 * 48000 * n)%Z.
Proof. exact samples_seconds_round_trip. Qed.

Theorem C15_round_trip_refuted : forall (md : dur_mode) (n : Z) (d : duration), (0 < n <= 2 ^ 20)%Z ->
  samples_to_seconds md n = Ok d -> seconds_to_samples d <> n.
Proof.
  intros md n d Hn E. destruct (samples_seconds_round_trip md n Hn) as (d' & E' & _ & _ & H).
  rewrite E in E'. injection E' as ->. rewrite H. lia.
Qed.

Example C15_ex : samples_to_seconds ExactNearest 1 = Ok (mkDur 48000 0)
  /\ seconds_to_samples (mkDur 48000 0) = 2304000000%Z.
Proof. split; vm_compute; reflexivity. Qed.

(** C16 *)
Theorem C16_seconds_to_samples_accurate : forall d : duration,
  (0 <= secs d < 2 ^ 32)%Z /\ (0 <= nanos d < 1000000000)%Z ->
  (Rabs (IZR (seconds_to_samples d) - 48000 * (IZR (secs d) + IZR (nanos d) / 1000000000)) <= / 2 + / 32)%R.
Proof. exact s2s_accurate. Qed.

Theorem C16_seconds_to_samples_monotone : forall d d' : duration,
  (0 <= secs d < 2 ^ 32)%Z /\ (0 <= nanos d < 1000000000)%Z ->
  (0 <= secs d' < 2 ^ 32)%Z /\ (0 <= nanos d' < 1000000000)%Z ->
  (IZR (secs d) + IZR (nanos d) / 1000000000 <= IZR (secs d') + IZR (nanos d') / 1000000000)%R ->
  (seconds_to_samples d <= seconds_to_samples d')%Z.
Proof. exact s2s_mono. Qed.

Example C16_ex : seconds_to_samples (mkDur 1 500000000) = 72000%Z
  /\ seconds_to_samples (mkDur 0 10417) = 1%Z /\ seconds_to_samples (mkDur 0 10416) = 0%Z.
Proof. repeat split; vm_compute; reflexivity. Qed.

(** C17, exact arithmetic *)
Theorem C17_db_laws_exact :
  (forall x, linear_to_db_R (db_to_linear_R x) = x) /\
  (forall g, (0 < g)%R -> db_to_linear_R (linear_to_db_R g) = g) /\
  (forall x, (0 < db_to_linear_R x)%R) /\
  (forall x y, (x < y)%R -> (db_to_linear_R x < db_to_linear_R y)%R) /\
  db_to_linear_R 0 = 1%R /\
  (forall x y, db_to_linear_R (x + y) = (db_to_linear_R x * db_to_linear_R y)%R).
Proof. exact db_R_laws. Qed.

Example C17_ex : db_to_linear_R 20 = 10%R.
Proof.
  unfold db_to_linear_R, db_to_linear_g. replace (20 / 20)%R with 1%R by field.
  apply Rpower_1. lra.
Qed.

(** C18 *)
Theorem C18_normalize_peak : forall (m : libm) (db : f64) (t : list f32) (a b : f32),
  let target := to32 (db_to_linear m db) in
  (Z.of_nat (length t) <= 2 ^ 24)%Z ->
  (forall s, In s t -> is_finite s = true /\ (Rabs (B2R s) <= bpow radix2 60)%R) ->
  In a t -> In b t -> (bpow radix2 (-59) <= Rabs (B2R a - B2R b))%R ->
  is_finite target = true -> (bpow radix2 (-60) <= B2R target <= bpow radix2 60)%R ->
  exists p : R, (0 < p)%R /\ (Rabs (p - B2R target) <= bpow radix2 (-22) * B2R target)%R /\
    (forall o, In o (normalize m db t) -> is_finite o = true /\ (Rabs (B2R o) <= p)%R) /\
    (exists o, In o (normalize m db t) /\ Rabs (B2R o) = p).
Proof. exact normalize_peak. Qed.

Theorem C18_normalize_flat : forall (m : libm) (db : f64) (t : list f32),
  (forall s, In s t -> is_finite s = true /\ feq s (norm_dc t) = true) ->
  forall o, In o (normalize m db t) -> is_nan o = true.
Proof. exact normalize_flat. Qed.

(** the flat case covers silence of any length and every one-sample track *)
Theorem C18_normalize_silence : forall (m : libm) (db : f64) (n : nat) o,
  (Z.of_nat n <= 2 ^ 24)%Z -> In o (normalize m db (repeat f0 n)) -> is_nan o = true.
Proof. exact (fun m db n o H => normalize_flat m db _ (fun s => silence_dc n s H) o). Qed.

Theorem C18_normalize_single : forall (m : libm) (db : f64) (s : f32), is_finite s = true ->
  exists o, normalize m db [s] = [o] /\ is_nan o = true.
Proof.
  intros m db s F. eexists. split; [reflexivity|]. apply (normalize_flat m db [s]).
  - intros x [<-|[]]. split; [exact F|apply single_dc, F].
  - left. reflexivity.
Qed.

Theorem C18_normalize_length : forall (m : libm) (db : f64) (t : list f32),
  length (normalize m db t) = length t.
Proof. intros. apply map_length. Qed.

(** a libm whose pow is the constant 1, a track [0.5; -0.25; 0.25]: hypotheses hold, peak is 1 *)
Example C18_ex :
  let m := {| sin64 := fun x => x; cos64 := fun x => x; tan64 := fun x => x; tan32 := fun x => x;
              pow64 := fun _ _ => of_Z 1; log10_64 := fun x => x |} in
  let t : list f32 := [lit 1 (-1); lit (-1) (-2); lit 1 (-2)] in
  (forall s, In s t -> is_finite s = true /\ (Rabs (B2R s) <= bpow radix2 60)%R) /\
  (bpow radix2 (-59) <= Rabs (B2R (lit 1 (-1) : f32) - B2R (lit (-1) (-2) : f32)))%R /\
  nth 1 (map B2SF (normalize m f0 t)) SpecFloat.S754_nan = SpecFloat.S754_finite true 8388608 (-23).
Proof.
  cbv zeta.
  destruct (B2R_of_SF (lit 1 (-1) : f32) false 8388608 (-24)) as [F1 V1]; [vm_compute; reflexivity|].
  destruct (B2R_of_SF (lit (-1) (-2) : f32) true 8388608 (-25)) as [F2 V2]; [vm_compute; reflexivity|].
  destruct (B2R_of_SF (lit 1 (-2) : f32) false 8388608 (-25)) as [F3 V3]; [vm_compute; reflexivity|].
  change (bpow radix2 (-24)) with (/ 16777216)%R in *. change (bpow radix2 (-25)) with (/ 33554432)%R in *.
  simpl cond_Zopp in *.
  assert (B0 : (1 <= bpow radix2 60)%R) by (change 1%R with (bpow radix2 0); apply bpow_le; lia).
  split; [|split].
  - intros s [<-|[<-|[<-|[]]]]; (split; [assumption|]); rewrite ?V1, ?V2, ?V3; apply Rabs_le; lra.
  - rewrite V1, V2. apply Rle_trans with (bpow radix2 (-1)); [apply bpow_le; lia|].
    change (bpow radix2 (-1)) with (/ 2)%R. rewrite Rabs_pos_eq; lra.
  - vm_compute. reflexivity.
Qed.
