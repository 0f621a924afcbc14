(** * Length of an Echo's delay line *)
From Coq Require Import ZArith List Bool Reals Lra Lia.
From Flocq Require Import Core.Core IEEE754.BinarySingleNaN.
From Verif Require Import Model.Floats Model.Utils Model.Modifiers Proof.FloatFacts Proof.SampleFormatP Proof.FormatsP
  Proof.UtilsP Proof.ResamplerP Proof.ModifiersP.
Import ListNotations.
Local Open Scope R_scope.

Lemma echo_samples d : dur_ok d ->
  fin (fmul (as_secs_f64 d) SR64) /\ 0 <= B2R (fmul (as_secs_f64 d) SR64) <= bpow radix2 48 /\
  Rabs (B2R (fmul (as_secs_f64 d) SR64) - 48000 * dur_R d) <= / 32 /\
  (dur_R d <= 1 -> Rabs (B2R (fmul (as_secs_f64 d) SR64) - 48000 * dur_R d) <= / 1000000).
Proof.
  intro Hd. destruct (as_secs_ok d Hd) as (A & B & C & D). destruct SR64_ok as [FS VS].
  destruct Hd as [[S1 S2] [N1 N2]]. unfold GIGA in N2.
  assert (R1 : 0 <= IZR (nanos d)) by (apply IZR_le; lia).
  assert (R2 : IZR (nanos d) <= 999999999) by (apply IZR_le; lia).
  assert (R3 : 0 <= IZR (secs d)) by (apply IZR_le; lia).
  assert (R4 : IZR (secs d) <= 4294967295) by (apply IZR_le; lia).
  destruct (fmul_le (as_secs_f64 d) SR64 (bpow radix2 48) A FS) as (E & G & H);
    [apply fmt64_b; lia|apply bpow_lt; lia| |].
  { rewrite VS, Rabs_pos_eq by lra. change (bpow radix2 32) with 4294967296 in D.
    change (bpow radix2 48) with 281474976710656. lra. }
  rewrite VS in G. split; [exact E|].
  assert (P : 0 <= rnd64 (B2R (as_secs_f64 d) * 48000)) by (apply rnd_nonneg; lra).
  split; [rewrite G in *; rewrite Rabs_pos_eq in H by exact P; split; assumption|]. rewrite G.
  set (a := B2R (as_secs_f64 d)) in *. set (q := rnd64 (IZR (nanos d) / 1000000000)) in *.
  assert (E1 : Rabs (q - IZR (nanos d) / 1000000000) <= bpow radix2 (-54)).
  { apply (rnd_err (prec:=53) (emax:=1024) 0); [unfold SpecFloat.emin; lia|]. simpl. apply Rabs_le. lra. }
  change (bpow radix2 (-54)) with (/ 18014398509481984) in E1. apply Rabs_le_inv in E1.
  split.
  - assert (E2 : Rabs (a - (IZR (secs d) + q)) <= bpow radix2 (-22)).
    { rewrite B. apply (rnd_err (prec:=53) (emax:=1024) 32); [unfold SpecFloat.emin; lia|].
      change (bpow radix2 32) with 4294967296. apply Rabs_le. lra. }
    assert (E3 : Rabs (rnd64 (a * 48000) - a * 48000) <= bpow radix2 (-6)).
    { apply (rnd_err (prec:=53) (emax:=1024) 48); [unfold SpecFloat.emin; lia|].
      change (bpow radix2 48) with 281474976710656. change (bpow radix2 32) with 4294967296 in D.
      rewrite Rabs_pos_eq by lra. lra. }
    change (bpow radix2 (-22)) with (/ 4194304) in E2. change (bpow radix2 (-6)) with (/ 64) in E3.
    apply Rabs_le_inv in E2. apply Rabs_le_inv in E3. unfold dur_R. apply Rabs_le. lra.
  - intro HL. unfold dur_R in HL.
    assert (E2 : Rabs (a - (IZR (secs d) + q)) <= bpow radix2 (-52)).
    { rewrite B. apply (rnd_err (prec:=53) (emax:=1024) 2); [unfold SpecFloat.emin; lia|].
      change (bpow radix2 2) with 4. apply Rabs_le. lra. }
    change (bpow radix2 (-52)) with (/ 4503599627370496) in E2. apply Rabs_le_inv in E2.
    assert (E3 : Rabs (rnd64 (a * 48000) - a * 48000) <= bpow radix2 (-37)).
    { apply (rnd_err (prec:=53) (emax:=1024) 17); [unfold SpecFloat.emin; lia|].
      change (bpow radix2 17) with 131072. rewrite Rabs_pos_eq by lra. lra. }
    change (bpow radix2 (-37)) with (/ 137438953472) in E3. apply Rabs_le_inv in E3. unfold dur_R. apply Rabs_le. lra.
Qed.

(** the length is the truncation of 48000*d *)
Lemma echo_new_length d g : dur_ok d ->
  IZR (Z.of_nat (length (e_delay (echo_new d g)))) - / 32 <= 48000 * dur_R d
    < IZR (Z.of_nat (length (e_delay (echo_new d g)))) + 1 + / 32 /\
  e_delay (echo_new d g) = repeat f0 (length (e_delay (echo_new d g))) /\ e_gain (echo_new d g) = to32 g.
Proof.
  intro Hd. destruct (echo_samples d Hd) as (F & B & C & _). apply Rabs_le_inv in C.
  cbn [echo_new e_delay e_gain]. unfold zeros. rewrite repeat_length. split; [|auto].
  set (t := B2R (fmul (as_secs_f64 d) SR64)) in *.
  assert (E : to_usize (fmul (as_secs_f64 d) SR64) = Zfloor t).
  { assert (0 <= Zfloor t)%Z by (apply Zfloor_lub; simpl; lra).
    apply to_usize_fin; [exact F| |split; [apply Zfloor_lb|apply Zfloor_ub]]. split; [assumption|].
    apply le_IZR. apply Rle_trans with t; [apply Zfloor_lb|]. apply Rle_trans with (bpow radix2 48); [lra|].
    rewrite IZR_pow2 by lia. apply bpow_le. lia. }
  rewrite E. rewrite Z2Nat.id by (apply Zfloor_lub; simpl; lra).
  pose proof (Zfloor_lb t). pose proof (Zfloor_ub t). lra.
Qed.

(** every duration shorter than one sample (1/48000 s = 20833.3 ns) panics *)
Lemma echo_short d g x : dur_ok d -> secs d = 0%Z -> (nanos d <= 20833)%Z -> echo_process (echo_new d g) x = Panic.
Proof.
  intros Hd S0 HN. destruct (echo_samples d Hd) as (F & B & _ & C).
  assert (N : 0 <= IZR (nanos d) <= 20833) by (destruct Hd as [_ [? ?]]; split; apply IZR_le; assumption).
  unfold dur_R in C. rewrite S0 in C. specialize (C ltac:(lra)). apply Rabs_le_inv in C.
  unfold echo_process, echo_new. cbn [e_delay].
  rewrite (to_usize_fin _ 0 F) by (simpl; lia || (simpl; lra)). reflexivity.
Qed.
