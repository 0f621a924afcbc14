(** * Sizes of the allowed distances *)
From Coq Require Import ZArith List Bool Reals Lra Lia Psatz.
From Flocq Require Import Core.Core IEEE754.BinarySingleNaN.
From Verif Require Import Model.Floats Model.Modifiers Model.Filters Spec.Libm Spec.Response Spec.Track Proof.FloatFacts Proof.LibmP Proof.FormatsP Proof.SampleFormatP Proof.GeneratorsP4
  Proof.FiltersP2 Proof.BandPassP Proof.BandPassF32P Proof.TrackP Proof.TrackP3.
Import ListNotations.
Local Open Scope R_scope.

Lemma drift_12k : lp_drift 12000 <= / 2000 /\ hp_drift 12000 <= / 250.
Proof.
  pose proof PI_bounds as P. unfold lp_drift, hp_drift. assert (U : 157 / 100 <= rad 12000 <= 158 / 100) by (unfold rad; lra). set (u := rad 12000) in *. clearbody u.
  assert (I : 0 < / u <= 100 / 157) by (split; [apply Rinv_0_lt_compat; lra|replace (100 / 157) with (/ (157 / 100)) by field; apply Rinv_le; lra]).
  assert (I3 : 0 < / u ^ 3 <= 26 / 100).
  { assert (0 < u ^ 3) by (apply pow_lt; lra). split; [apply Rinv_0_lt_compat; lra|]. replace (26 / 100) with (/ (100 / 26)) by field. apply Rinv_le; [lra|].
    apply Rle_trans with ((157 / 100) ^ 3); [lra|]. apply pow_incr. lra. }
  assert (Q : 0 < 7 + 6 * u + 2 * (u * u) <= 22) by nra.
  change (bpow radix2 (-21)) with (/ 2097152). change (bpow radix2 (-20)) with (/ 1048576). unfold Rdiv. set (v := / u) in *. set (w := / u ^ 3) in *. set (p := 7 + 6 * u + 2 * (u * u)) in *. clearbody v w p.
  split.
  - apply Rle_trans with (/ 2097152 * (6 * (100 / 157) + 3) * (1 + 22 * (12 * (100 / 157) + 6) * (26 / 100))); [|lra].
    assert (A : 0 <= 6 * v + 3 <= 6 * (100 / 157) + 3) by lra. assert (A' : 0 <= 12 * v + 6 <= 12 * (100 / 157) + 6) by lra.
    rewrite !Rmult_assoc. apply Rmult_le_compat_l; [lra|]. apply Rmult_le_compat; [lra| |lra|].
    + assert (0 <= p * ((12 * v + 6) * w)) by (repeat apply Rmult_le_pos; lra). lra.
    + apply Rplus_le_compat_l. apply Rmult_le_compat; [lra|apply Rmult_le_pos; lra|lra|]. apply Rmult_le_compat; lra.
  - apply Rle_trans with (/ 1048576 * (6 * (100 / 157) + 3) * ((8 + 22 * (48 * (100 / 157) + 26)) * (26 / 100))); [|lra].
    assert (A : 0 <= 6 * v + 3 <= 6 * (100 / 157) + 3) by lra. assert (A' : 0 <= 48 * v + 26 <= 48 * (100 / 157) + 26) by lra.
    assert (B : 0 <= p * (48 * v + 26) <= 22 * (48 * (100 / 157) + 26)) by (split; [apply Rmult_le_pos; lra|apply Rmult_le_compat; lra]).
    rewrite !Rmult_assoc. apply Rmult_le_compat_l; [lra|]. apply Rmult_le_compat; [lra| |lra|].
    + apply Rmult_le_pos; lra.
    + apply Rmult_le_compat; lra.
Qed.
Lemma gap_small f a : 0 < a -> a <= f <= 12000 -> 2 * (PI * a / 48000) / (1 + PI * a / 48000) <= 1 - Rabs (pole_at f).
Proof.
  intros A H. pose proof PI_bounds as P. unfold pole_at, warp.
  assert (T1 : PI * a / 48000 <= tan (PI * f / 48000)).
  { apply Rle_trans with (PI * f / 48000); [apply Rmult_le_compat_r; [lra|]; apply Rmult_le_compat_l; lra|]. apply tan_ge.
    split; [apply Rmult_le_pos; [apply Rmult_le_pos; lra|lra]|].
    apply Rle_lt_trans with (PI * 12000 / 48000); [|lra]. apply Rmult_le_compat_r; [lra|]. apply Rmult_le_compat_l; lra. }
  assert (T2 : tan (PI * f / 48000) <= 1).
  { destruct (proj2 H) as [L|E].
    - left. rewrite <- tan_PI4. apply tan_increasing; [|apply Rlt_le_trans with (PI * 12000 / 48000); [|lra]|lra].
      + apply Rlt_trans with 0; [lra|]. apply Rmult_lt_0_compat; [apply Rmult_lt_0_compat; lra|lra].
      + apply Rmult_lt_compat_r; [lra|]. apply Rmult_lt_compat_l; lra.
    - right. rewrite E, <- tan_PI4. f_equal. lra. }
  assert (B : 0 < PI * a / 48000) by (apply Rmult_lt_0_compat; [apply Rmult_lt_0_compat; lra|lra]).
  set (b := PI * a / 48000) in *. set (t := tan (PI * f / 48000)) in *. clearbody b t.
  rewrite Rabs_pos_eq by (apply Rmult_le_pos; [lra|left; apply Rinv_0_lt_compat; lra]).
  replace (2 * b / (1 + b)) with (2 - 2 * / (1 + b)) by (field; lra). replace (1 - (1 - t) / (1 + t)) with (2 - 2 * / (1 + t)) by (field; lra).
  assert (/ (1 + t) <= / (1 + b)) by (apply Rinv_le; lra). lra.
Qed.
Lemma drift_1k_4k lo hi : 999 <= lo <= 1001 -> 3999 <= hi <= 4001 -> bp_drift lo hi <= / 1000.
Proof.
  intros L H. pose proof PI_bounds as P. pose proof (gap_small lo 999 ltac:(lra) ltac:(lra)) as G1. pose proof (gap_small hi 3999 ltac:(lra) ltac:(lra)) as G2. unfold bp_drift.
  assert (K1 : 12 / 100 <= 2 * (PI * 999 / 48000) / (1 + PI * 999 / 48000)).
  { apply Rmult_le_reg_r with (1 + PI * 999 / 48000); [lra|]. unfold Rdiv at 3. rewrite Rmult_assoc, Rinv_l by lra. lra. }
  assert (K2 : 40 / 100 <= 2 * (PI * 3999 / 48000) / (1 + PI * 3999 / 48000)).
  { apply Rmult_le_reg_r with (1 + PI * 3999 / 48000); [lra|]. unfold Rdiv at 3. rewrite Rmult_assoc, Rinv_l by lra. lra. }
  set (g := 1 - Rabs (pole_at lo)) in *. set (k := 1 - Rabs (pole_at hi)) in *. clearbody g k.
  assert (GK : 12 / 100 * (40 / 100) <= g * k) by (apply Rmult_le_compat; lra).
  assert (IL : 0 < / lo <= / 999) by (split; [apply Rinv_0_lt_compat; lra|apply Rinv_le; lra]).
  change (bpow radix2 (-22)) with (/ 4194304). apply Rmult_le_reg_r with (g * k); [lra|]. unfold Rdiv at 1. rewrite (Rmult_assoc _ (/ (g * k))), Rinv_l by lra.
  unfold Rdiv. lra.
Qed.
Lemma between64 (z w : Z) (f : f64) : (Z.abs z <= 2 ^ 53)%Z -> (Z.abs w <= 2 ^ 53)%Z -> fin f -> fle (of_Z z) f = true -> fle f (of_Z w) = true -> IZR z <= B2R f <= IZR w.
Proof.
  intros Hz Hw Ff H1 H2. destruct (of_Z64 z Hz) as [F1 V1]. destruct (of_Z64 w Hw) as [F2 V2].
  apply fle_true in H1; [|exact F1|exact Ff]. apply fle_true in H2; [|exact Ff|exact F2]. rewrite V1 in H1. rewrite V2 in H2. auto.
Qed.
