(** * C127: what normalising does to the waveform *)

From Coq Require Import ZArith List Bool Reals Lra Lia.
From Flocq Require Import Core.Core IEEE754.BinarySingleNaN.
From Verif Require Import Model.Floats Model.SampleFormat Model.Utils Spec.Rack Spec.Normalise Proof.FloatFacts Proof.NormaliseP Proof.ResamplerP3.
Import ListNotations.
Local Open Scope R_scope.

(** ** C127 *)
(** every sample less the same constant, times the same positive number; the constant is the mean of the track up to one
    rounding per sample and one for the division, and the number is the one that brings the loudest sample to the target *)
Theorem C127_waveform : forall (m : libm) (db : f64) (t : list f32) (a b : f32), let target := to32 (db_to_linear m db) in
  (Z.of_nat (length t) <= 2 ^ 24)%Z -> (forall s, In s t -> is_finite s = true /\ Rabs (B2R s) <= bpow radix2 60) ->
  In a t -> In b t -> bpow radix2 (-59) <= Rabs (B2R a - B2R b) ->
  is_finite target = true -> bpow radix2 (-60) <= B2R target <= bpow radix2 60 ->
  exists c g : R, 0 < g /\ Rabs (c - mean t) <= (adding (S (length t)) - 1) * mean_abs t + bpow radix2 (-150) /\
    Forall2 (levelled g c) t (normalize m db t) /\
    (forall s, In s t -> g * Rabs (B2R s - c) <= B2R target * (1 + bpow radix2 (-22))) /\
    (exists s, In s t /\ B2R target * (1 - bpow radix2 (-22)) <= g * Rabs (B2R s - c)).
Proof. exact waveform_mean. Qed.
(** a track from a file of 8 bits: the sum is exact, so the mean is right to the last bit *)
Theorem C127_waveform_8_bit : forall (m : libm) (db : f64) (vs : list Z),
  let target := to32 (db_to_linear m db) in let t := map sample_from_u8 vs in
  (Z.of_nat (length vs) <= 131071)%Z -> (forall v, In v vs -> (0 <= v <= 255)%Z) -> (exists v w, In v vs /\ In w vs /\ v <> w) ->
  is_finite target = true -> bpow radix2 (-60) <= B2R target <= bpow radix2 60 ->
  exists c g : R, 0 < g /\ Rabs (c - mean t) <= bpow radix2 (-25) /\
    Forall2 (levelled g c) t (normalize m db t) /\
    (forall s, In s t -> g * Rabs (B2R s - c) <= B2R target * (1 + bpow radix2 (-22))) /\
    (exists s, In s t /\ B2R target * (1 - bpow radix2 (-22)) <= g * Rabs (B2R s - c)).
Proof. exact waveform_8_bit. Qed.
(** a sample that was not higher than another still is not *)
Theorem C127_order : forall (m : libm) (db : f64) (t : list f32) (a b : f32), let target := to32 (db_to_linear m db) in
  (Z.of_nat (length t) <= 2 ^ 24)%Z -> (forall s, In s t -> is_finite s = true /\ Rabs (B2R s) <= bpow radix2 60) ->
  In a t -> In b t -> bpow radix2 (-59) <= Rabs (B2R a - B2R b) ->
  is_finite target = true -> bpow radix2 (-60) <= B2R target <= bpow radix2 60 ->
  forall i j s s', nth_error t i = Some s -> nth_error t j = Some s' -> B2R s <= B2R s' ->
  exists o o', nth_error (normalize m db t) i = Some o /\ nth_error (normalize m db t) j = Some o' /\
    is_finite o = true /\ is_finite o' = true /\ B2R o <= B2R o'.
Proof. exact keeps_order. Qed.
(** a track that is at the target already and has little of a mean is changed as little *)
Theorem C127_already : forall (m : libm) (db : f64) (t : list f32) (mu : R),
  let T := B2R (to32 (db_to_linear m db)) in let E := adding (S (length t)) - 1 in
  (Z.of_nat (length t) <= 2 ^ 24)%Z -> (forall s, In s t -> is_finite s = true /\ Rabs (B2R s) <= T * (1 + bpow radix2 (-22))) ->
  (exists x, In x t /\ T * (1 - bpow radix2 (-22)) <= Rabs (B2R x)) -> Rabs (mean t) <= mu * T -> mu + E <= / 8 ->
  is_finite (to32 (db_to_linear m db)) = true -> bpow radix2 (-50) <= T <= bpow radix2 50 ->
  Forall2 (fun s o => is_finite o = true /\ Rabs (B2R o - B2R s) <= (3 * (mu + E) + bpow radix2 (-18)) * T) t (normalize m db t).
Proof. exact already. Qed.
(** so normalising a track of 8 bits a second time does next to nothing *)
Theorem C127_twice_8_bit : forall (m : libm) (db : f64) (vs : list Z),
  let T := B2R (to32 (db_to_linear m db)) in let o := normalize m db (map sample_from_u8 vs) in
  (Z.of_nat (length vs) <= 131071)%Z -> (forall v, In v vs -> (0 <= v <= 255)%Z) -> (exists v w, In v vs /\ In w vs /\ v <> w) ->
  is_finite (to32 (db_to_linear m db)) = true -> bpow radix2 (-50) <= T <= bpow radix2 50 ->
  Forall2 (fun o o2 => is_finite o2 = true /\ Rabs (B2R o2 - B2R o) <= (INR (length vs) + 128) * bpow radix2 (-21) * T) o (normalize m db o).
Proof. exact twice_8_bit. Qed.
(** relied on: a constant is removed.  The sum of ones stops at 2^24, so a longer track of ones keeps half of them or more and
    comes out at the full level; a shorter one becomes NaN throughout *)
Theorem C127_constant_refuted : forall (m : libm) (db : f64) (n : nat), let target := to32 (db_to_linear m db) in
  (2 ^ 25 <= Z.of_nat n <= u64_max)%Z -> is_finite target = true -> bpow radix2 (-60) <= B2R target <= bpow radix2 60 ->
  forall o, In o (normalize m db (repeat f1 n)) -> is_finite o = true /\ Rabs (B2R o - B2R target) <= bpow radix2 (-22) * B2R target.
Proof. exact constant_stays. Qed.
Theorem C127_short_constant_refuted : forall (m : libm) (db : f64) (n : nat) o, (Z.of_nat n <= 2 ^ 24)%Z ->
  In o (normalize m db (repeat f1 n)) -> is_nan o = true.
Proof. exact constant_short. Qed.
(** a libm whose pow is 1, a track of four samples of 8 bits with the mean 1/4: 3/4, 1/4, 1/4, -1/4 become 1, 0, 0, -1, and stay so *)
Example C127_ex :
  let m := {| sin64 := fun x => x; cos64 := fun x => x; tan64 := fun x => x; tan32 := fun x => x; pow64 := fun _ _ => of_Z 1; log10_64 := fun x => x |} in
  let vs := [224; 160; 160; 96]%Z in
  is_finite (to32 (db_to_linear m f0)) = true /\ B2R (to32 (db_to_linear m f0)) = 1 /\ mean (map sample_from_u8 vs) = / 4 /\
  map B2SF (normalize m f0 (normalize m f0 (map sample_from_u8 vs))) = map B2SF (normalize m f0 (map sample_from_u8 vs)) /\
  map B2SF (normalize m f0 (map sample_from_u8 vs)) =
    [SpecFloat.S754_finite false 8388608 (-23); SpecFloat.S754_zero false; SpecFloat.S754_zero false; SpecFloat.S754_finite true 8388608 (-23)].
Proof.
  cbv zeta. set (m := Build_libm _ _ _ _ _ _).
  destruct (B2R_of_SF (to32 (db_to_linear m f0)) false 8388608 (-23)) as [F V]; [vm_compute; reflexivity|].
  split; [exact F|]. split; [rewrite V; cbn; lra|]. split; [|split; vm_compute; reflexivity].
  unfold mean. cbn [map length]. rewrite (proj2 (SampleFormatP.from_u8_ok 224 ltac:(lia))), (proj2 (SampleFormatP.from_u8_ok 160 ltac:(lia))), (proj2 (SampleFormatP.from_u8_ok 96 ltac:(lia))). unfold rsum. cbn [fold_right INR]. lra.
Qed.
