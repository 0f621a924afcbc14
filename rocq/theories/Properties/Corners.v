(** * C88: BandPass parameters and corner frequencies in the f64 arithmetic of the program *)

From Coq Require Import ZArith List Bool Reals Lra Lia.
From Flocq Require Import Core.Core IEEE754.BinarySingleNaN.
From Verif Require Import Model.Floats Model.Modifiers Model.Filters Spec.Libm Proof.FloatFacts Proof.FormatsP Proof.CornersP.
Import ListNotations.
Local Open Scope R_scope.

(** ** C88 *)
(** setters: what was set is what is reported, the other parameter and the sample history stay, the coefficients are those of a new filter *)
Theorem C88_setters : forall (m : libm) (s : bandpass) (f q : f64) (c : f64 * f64),
  (let s' := bp_set_f64 m s f in bp_f s' = f /\ bp_q s' = bp_q s /\ bp_hist s' = bp_hist s /\ bp_coeff s' = bp_coeff (bp_new m f (bp_q s))) /\
  (let s' := bp_set_quality m s q in bp_f s' = bp_f s /\ bp_q s' = q /\ bp_hist s' = bp_hist s /\ bp_coeff s' = bp_coeff (bp_new m (bp_f s) q)) /\
  (let s' := bp_set_corners m s c in bp_hist s' = bp_hist s /\ bp_coeff s' = bp_coeff (bp_new m (bp_f s') (bp_q s'))) /\
  (let s' := bp_new m f q in bp_f s' = f /\ bp_q s' = q /\ bp_hist s' = bph0) /\
  bp_from_corners m c = bp_new m (bp_f (bp_from_corners m c)) (bp_q (bp_from_corners m c)).
Proof. intros m s f q c. repeat split. Qed.
(** corners from frequency and quality: ordered, and within 2^-27 of the upper corner of the exact ones *)
Theorem C88_corners_f64 : forall (m : libm) (f q : f64), fin f -> fin q ->
  bpow radix2 (-40) <= B2R f <= bpow radix2 40 -> bpow radix2 (-60) <= B2R q <= bpow radix2 60 ->
  let e := bp_corners AR (B2R f) (B2R q) in let c := bp_get_corners m (bp_new m f q) in
  fin (fst c) /\ fin (snd c) /\ B2R (fst c) <= B2R (snd c) /\
  Rabs (B2R (fst c) - fst e) <= bpow radix2 (-27) * snd e /\ Rabs (B2R (snd c) - snd e) <= bpow radix2 (-27) * snd e.
Proof. exact corners_ok. Qed.
(** corners set are corners reported, in ascending order, from either entry point *)
Theorem C88_corners_round_trip : forall (m : libm) (s : bandpass) (a b : f64), fin a -> fin b ->
  bpow radix2 (-10) <= B2R a <= bpow radix2 20 -> bpow radix2 (-10) <= B2R b <= bpow radix2 20 -> bpow radix2 (-20) <= Rabs (B2R a - B2R b) ->
  forall s', s' = bp_from_corners m (a, b) \/ s' = bp_set_corners m s (a, b) ->
  let c := bp_get_corners m s' in let lo := Rmin (B2R a) (B2R b) in let hi := Rmax (B2R a) (B2R b) in
  fin (fst c) /\ fin (snd c) /\ B2R (fst c) <= B2R (snd c) /\
  Rabs (B2R (fst c) - lo) <= bpow radix2 (-27) * hi /\ Rabs (B2R (snd c) - hi) <= bpow radix2 (-27) * hi /\
  Rabs (B2R (bp_f s') - sqrt (lo * hi)) <= bpow radix2 (-29) * sqrt (lo * hi) /\
  Rabs (B2R (bp_q s') - sqrt (lo * hi) / (hi - lo)) <= bpow radix2 (-29) * (sqrt (lo * hi) / (hi - lo)).
Proof.
  intros m s a b Fa Fb Ra Rb D s' H. cbv zeta.
  assert (E1 : Rmin (B2R a) (B2R b) * Rmax (B2R a) (B2R b) = B2R a * B2R b) by (unfold Rmin, Rmax; destruct (Rle_dec (B2R a) (B2R b)); ring).
  assert (E2 : Rmax (B2R a) (B2R b) - Rmin (B2R a) (B2R b) = Rabs (B2R a - B2R b))
    by (unfold Rmin, Rmax; destruct (Rle_dec (B2R a) (B2R b)); [rewrite Rabs_left1 by lra|rewrite Rabs_pos_eq by lra]; ring).
  rewrite E1, E2.
  destruct H as [->| ->]; [exact (from_corners_ok m a b (conj Fa Ra) (conj Fb Rb) D)|exact (set_corners_ok m a b (conj Fa Ra) (conj Fb Rb) D s)].
Qed.
(** 440 Hz and 100 Hz, given in descending order *)
Example C88_ex : let c := bp_get_corners ideal_libm (bp_from_corners ideal_libm (of_Z 440, of_Z 100)) in
  Rabs (B2R (fst c) - 100) <= / 100000 /\ Rabs (B2R (snd c) - 440) <= / 100000.
Proof.
  cbv zeta. destruct (of_Z64 440 ltac:(lia)) as [F1 V1]. destruct (of_Z64 100 ltac:(lia)) as [F2 V2].
  destruct (C88_corners_round_trip ideal_libm (bp_new ideal_libm f1 f1) (of_Z 440) (of_Z 100) F1 F2) with (s' := bp_from_corners ideal_libm (of_Z 440, of_Z 100)) as (_ & _ & _ & A & B & _).
  - rewrite V1. cbn. lra.
  - rewrite V2. cbn. lra.
  - rewrite V1, V2, Rabs_pos_eq by lra. cbn. lra.
  - left. reflexivity.
  - rewrite V1, V2 in A, B. rewrite Rmin_right, Rmax_left in A by lra. rewrite Rmax_left in B by lra.
    change (bpow radix2 (-27)) with (/ 134217728) in A, B. split; [apply Rle_trans with (1 := A)|apply Rle_trans with (1 := B)]; lra.
Qed.
