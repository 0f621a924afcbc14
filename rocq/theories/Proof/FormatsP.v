(** * Proofs about Mono, Stereo and panning *)

From Coq Require Import ZArith List Bool Reals Lra Lia Psatz.
From Flocq Require Import Core.Core IEEE754.BinarySingleNaN.
From Verif Require Import Model.Floats Model.SampleFormat Model.Utils Model.Mono Model.Stereo
  Spec.Bytes Proof.FloatFacts Proof.SampleFormatP.
Import ListNotations.
Local Open Scope R_scope.

Notation fexp64 := (SpecFloat.fexp 53 1024).
Notation fmt64 := (generic_format radix2 fexp64).
Notation rnd64 := (round radix2 fexp64 ZnearestE).

Lemma fmt64_b e : (-1074 <= e)%Z -> fmt64 (bpow radix2 e).
Proof. intro H. apply fmt_bpow. unfold SpecFloat.emin. lia. Qed.
Lemma fmt64_Z z : (Z.abs z <= 2 ^ 53)%Z -> fmt64 (IZR z).
Proof. intro H. apply fmt_IZR. exact H. Qed.
Lemma of_Z64 z : (Z.abs z <= 2 ^ 53)%Z -> fin (of_Z z : f64) /\ B2R (of_Z z : f64) = IZR z.
Proof. apply of_Z_ok. Qed.
Lemma bpow_1024_big : IZR (2 ^ 200) < bpow radix2 1024.
Proof. rewrite IZR_pow2 by lia. apply bpow_lt. lia. Qed.

Lemma bpow_double e : bpow radix2 (e + 1) = 2 * bpow radix2 e.
Proof. rewrite bpow_plus. change (bpow radix2 1) with 2. ring. Qed.

(** ** C08 *)
Lemma mono_sub_differs (a b : f32) : fin a -> fin b -> Rabs (B2R a) <= Rabs (B2R b) ->
  Rabs (B2R b) <= bpow radix2 126 -> B2R b <> 0 ->
  mono_sub (mkMono a) (mkMono b) <> mono_sub_assign (mkMono a) (mkMono b).
Proof.
  intros Fa Fb Hab Hb Nb E. injection E as E.
  destruct (fadd_le a b (bpow radix2 127)) as (A & B & _); [exact Fa|exact Fb|apply fmt32_b; lia|apply bpow_lt; lia| |].
  { eapply Rle_trans; [apply Rabs_triang|]. change 127%Z with (126 + 1)%Z. rewrite bpow_double. lra. }
  destruct (fsub_le a b (bpow radix2 127)) as (A' & B' & _); [exact Fa|exact Fb|apply fmt32_b; lia|apply bpow_lt; lia| |].
  { unfold Rminus. eapply Rle_trans; [apply Rabs_triang|]. rewrite Rabs_Ropp. change 127%Z with (126 + 1)%Z. rewrite bpow_double. lra. }
  rewrite E, B' in B.
  (* a+b and a-b have opposite signs and are not both zero *)
  assert (Fs : forall u v : f32, fin u -> fin v -> rnd32 (B2R u + B2R v) = 0 -> B2R u + B2R v = 0).
  { intros u v _ _ Hz. apply (rnd_plus_eq_0 (prec:=24) (emax:=128)); [apply fmt_B2R|apply fmt_B2R|exact Hz]. }
  assert (P : rnd32 (B2R a + B2R b) = 0 /\ rnd32 (B2R a - B2R b) = 0).
  { destruct (Rlt_le_dec 0 (B2R b)) as [L|L].
    - rewrite (Rabs_pos_eq (B2R b)) in Hab by lra. apply Rabs_le_inv in Hab.
      assert (0 <= rnd32 (B2R a + B2R b)) by (apply rnd_nonneg; lra).
      assert (rnd32 (B2R a - B2R b) <= 0) by (apply rnd_nonpos; lra). lra.
    - rewrite (Rabs_left1 (B2R b)) in Hab by lra. apply Rabs_le_inv in Hab.
      assert (rnd32 (B2R a + B2R b) <= 0) by (apply rnd_nonpos; lra).
      assert (0 <= rnd32 (B2R a - B2R b)) by (apply rnd_nonneg; lra). lra. }
  destruct P as [P1 P2]. apply (Fs a b Fa Fb) in P1.
  assert (P2' : B2R a + B2R (fneg b) = 0).
  { apply Fs; [exact Fa|rewrite fneg_fin; exact Fb|]. rewrite fneg_R. exact P2. }
  rewrite fneg_R in P2'. lra.
Qed.

(** ** C09 *)

Lemma stereo_mul_m_refuted : exists (a : Stereo) (r : f64),
  stereo_mul_m a r <> stereo_mul_m_assign a r.
Proof.
  exists (mkStereo (of_Z 16777215) (of_Z 1)), (lit 16777217 (-24)).
  intro E. apply (f_equal (fun s => B2SF (left s))) in E. vm_compute in E. discriminate E.
Qed.

(** ** C10 *)
Lemma sqrt_half_ok : fin sqrt_half /\ B2R sqrt_half = 11863283 / 16777216.
Proof.
  destruct (B2R_of_SF sqrt_half false 11863283 (-24)) as [A B]; [vm_compute; reflexivity|].
  split; [exact A|]. rewrite B. simpl. lra.
Qed.

Lemma stereo_doubles (x : f32) : fin x -> bpow radix2 (-125) <= Rabs (B2R x) <= bpow radix2 126 ->
  fin (stereo_into_sample (stereo_from_sample x)) /\
  Rabs (B2R (stereo_into_sample (stereo_from_sample x)) - 2 * B2R x) <= bpow radix2 (-21) * Rabs (B2R x).
Proof.
  intros Fx [H1 H2]. destruct sqrt_half_ok as [Fr Vr].
  set (r := B2R sqrt_half) in *. set (X := B2R x) in *.
  assert (Hr : 0.7 <= r <= 0.71) by (rewrite Vr; lra).
  pose proof (bpow_gt_0 radix2 126) as B126. pose proof (bpow_gt_0 radix2 (-125)) as B125.
  destruct (fmul_le x sqrt_half (bpow radix2 126)) as (A & B & C);
    [exact Fx|exact Fr|apply fmt32_b; lia|apply bpow_lt; lia| |].
  { fold X r. rewrite Rabs_mult, (Rabs_pos_eq r) by lra. nra. }
  fold X r in B.
  destruct (rnd_rel (prec:=24) (emax:=128) (X * r)) as (d1 & D1 & E1).
  { rewrite Rabs_mult, (Rabs_pos_eq r) by lra.
    replace (SpecFloat.emin 24 128 + 24 - 1)%Z with (-126)%Z by reflexivity.
    change (-125)%Z with (-126 + 1)%Z in H1. rewrite bpow_double in H1. pose proof (bpow_gt_0 radix2 (-126)) as b0.
    apply Rle_trans with (2 * bpow radix2 (-126) * 0.7); [lra|]. apply Rmult_le_compat; lra. }
  unfold stereo_into_sample, stereo_from_sample. cbn [left right].
  set (l := fmul x sqrt_half) in *.
  assert (Dbl : rnd32 (B2R l + B2R l) = 2 * B2R l).
  { replace (B2R l + B2R l) with (B2R l * bpow radix2 1) by (change (bpow radix2 1) with 2; ring).
    rewrite rnd_fmt by (apply fmt32_mul_bpow; [apply fmt_B2R|lia]). change (bpow radix2 1) with 2. ring. }
  destruct (fadd_le l l (bpow radix2 127)) as (A2 & B2 & _);
    [exact A|exact A|apply fmt32_b; lia|apply bpow_lt; lia| |].
  { change 127%Z with (126 + 1)%Z. rewrite bpow_double.
    replace (B2R l + B2R l) with (2 * B2R l) by ring. rewrite Rabs_mult, (Rabs_pos_eq 2) by lra. lra. }
  rewrite Dbl in B2.
  assert (D1' : Rabs d1 <= / 16777216) by exact D1.
  apply Rabs_le_inv in D1'.
  assert (Q : B2R (fadd l l) / r = 2 * X * (1 + d1)).
  { rewrite B2, B, E1. field. lra. }
  assert (Q' : Rabs (B2R (fadd l l) / r) = 2 * Rabs X * (1 + d1)).
  { rewrite Q, !Rabs_mult, (Rabs_pos_eq 2), (Rabs_pos_eq (1 + d1)) by lra. reflexivity. }
  assert (HX : 0 < Rabs X) by lra.
  assert (NB : Rabs (rnd32 (B2R (fadd l l) / r)) < bpow radix2 128).
  { apply Rle_lt_trans with (IZR 8388609 * bpow radix2 104).
    - apply rnd_abs_le; [apply fmt_FLT; [lia|unfold SpecFloat.emin; lia]|]. rewrite Q'.
      replace (bpow radix2 126) with (4194304 * bpow radix2 104) in H2
        by (change 126%Z with (22 + 104)%Z; rewrite bpow_plus; change (bpow radix2 22) with 4194304; ring).
      pose proof (bpow_gt_0 radix2 104). nra.
    - change 128%Z with (24 + 104)%Z. rewrite bpow_plus. change (bpow radix2 24) with 16777216.
      pose proof (bpow_gt_0 radix2 104). nra. }
  destruct (fdiv_ok (fadd l l) sqrt_half A2) as (A3 & B3); [fold r; lra|exact NB|].
  split; [exact A3|]. fold r in B3. rewrite B3.
  destruct (rnd_rel (prec:=24) (emax:=128) (B2R (fadd l l) / r)) as (d2 & D2 & E2).
  { rewrite Q'. replace (SpecFloat.emin 24 128 + 24 - 1)%Z with (-126)%Z by reflexivity.
    change (-125)%Z with (-126 + 1)%Z in H1. rewrite bpow_double in H1.
    pose proof (bpow_gt_0 radix2 (-126)). nra. }
  rewrite E2, Q.
  assert (D2' : Rabs d2 <= / 16777216) by exact D2.
  apply Rabs_le_inv in D2'.
  replace (2 * X * (1 + d1) * (1 + d2) - 2 * X) with (X * (2 * (d1 + d2 + d1 * d2))) by ring.
  rewrite Rabs_mult, Rmult_comm. apply Rmult_le_compat_r; [lra|].
  change (bpow radix2 (-21)) with (/ 2097152). apply Rabs_le.
  assert (- / 16777216 <= d1 * d2 <= / 16777216) by (split; nra). lra.
Qed.

(** ** C12 *)
Lemma to64_fle0 (g : f32) : fle (to64 g) (f0 : f64) = fle g f0.
Proof.
  destruct (is_finite g) eqn:F.
  - destruct (to64_ok g F) as [A B]. rewrite !fle_R by (try reflexivity; assumption). rewrite B. reflexivity.
  - destruct g as [s|[]| |s m e Hb]; try discriminate; reflexivity.
Qed.
Lemma to64_fge0 (g : f32) : fge (to64 g) (f0 : f64) = fge g f0.
Proof.
  destruct (is_finite g) eqn:F.
  - destruct (to64_ok g F) as [A B]. rewrite !fge_R by (try reflexivity; assumption). rewrite B. reflexivity.
  - destruct g as [s|[]| |s m e Hb]; try discriminate; reflexivity.
Qed.
Lemma pan_types_agree m (s g : f32) : pan32 m s g = pan64 m s (to64 g).
Proof. unfold pan32, pan64. rewrite to64_fle0, to64_fge0. reflexivity. Qed.

Lemma fge_cases (g c : f64) : fin c -> B2R c <> 0 -> fge g c = true -> flt c g = true \/ g = c.
Proof.
  intros Fc Nc H. destruct (is_finite g) eqn:F.
  - rewrite fge_true in H by assumption. destruct H as [H|H].
    + left. apply flt_true; assumption.
    + right. apply fin_eq; try assumption. symmetry; exact H. rewrite <- H. exact Nc.
  - left. destruct g as [s|[]| |s m e Hb]; try discriminate; destruct c as [|?| |[] ? ? ?]; try discriminate; reflexivity.
Qed.
Lemma fle_cases (g c : f64) : fin c -> B2R c <> 0 -> fle g c = true -> flt g c = true \/ g = c.
Proof.
  intros Fc Nc H. destruct (is_finite g) eqn:F.
  - rewrite fle_true in H by assumption. destruct H as [H|H].
    + left. apply flt_true; assumption.
    + right. apply fin_eq; try assumption. rewrite H. exact Nc.
  - left. destruct g as [s|[]| |s m e Hb]; try discriminate; destruct c as [|?| |[] ? ? ?]; try discriminate; reflexivity.
Qed.

Lemma one64 : fin (of_Z 1 : f64) /\ B2R (of_Z 1 : f64) = 1.
Proof. apply (of_Z64 1). lia. Qed.
Lemma mone64 : fin (of_Z (-1) : f64) /\ B2R (of_Z (-1) : f64) = -1.
Proof. apply (of_Z64 (-1)). lia. Qed.

Lemma flt_1_pos (g : f64) : flt (of_Z 1) g = true -> fle g f0 = false /\ fge g f0 = true /\ flt g f0 = false.
Proof.
  destruct one64 as [F1 V1]. intro H. destruct (is_finite g) eqn:F.
  - rewrite flt_true in H by assumption. rewrite V1 in H.
    split; [apply fle_false|split; [apply fge_true|apply flt_false]]; try assumption; try reflexivity; simpl; lra.
  - destruct g as [s|[]| |s m e Hb]; try discriminate; repeat split; reflexivity.
Qed.
Lemma flt_m1_neg (g : f64) : flt g (of_Z (-1)) = true -> fle g f0 = true /\ fge g f0 = false /\ flt f0 g = false.
Proof.
  destruct mone64 as [F1 V1]. intro H. destruct (is_finite g) eqn:F.
  - rewrite flt_true in H by assumption. rewrite V1 in H.
    split; [apply fle_true|split; [apply fge_false|apply flt_false]]; try assumption; try reflexivity; simpl; lra.
  - destruct g as [s|[]| |s m e Hb]; try discriminate; repeat split; reflexivity.
Qed.

Lemma clamp01_hi (g : f64) : flt (of_Z 1) g = true -> clamp num64 g f0 (of_Z 1) = of_Z 1.
Proof.
  intro H. unfold clamp, num64. cbn [nlt carrier].
  change (flt (of_Z 1 : f64) f0) with false. cbn iota. rewrite H. reflexivity.
Qed.
Lemma clampm10_lo (g : f64) : flt g (of_Z (-1)) = true -> clamp num64 g (of_Z (-1)) f0 = of_Z (-1).
Proof.
  intro H. unfold clamp, num64. cbn [nlt carrier].
  change (flt (f0 : f64) (of_Z (-1))) with false. cbn iota.
  destruct (flt_m1_neg g H) as (_ & _ & E). rewrite E, H. reflexivity.
Qed.

Lemma pan_clamp_hi m (s : f32) (g : f64) : fge g (of_Z 1) = true -> pan64 m s g = pan64 m s (of_Z 1).
Proof.
  intro H. destruct one64 as [F1 V1].
  destruct (fge_cases g (of_Z 1) F1 ltac:(lra) H) as [L|E]; [|rewrite E; reflexivity].
  destruct (flt_1_pos g L) as (A & B & _). unfold pan64. rewrite A, B.
  change (fle (of_Z 1 : f64) f0) with false. change (fge (of_Z 1 : f64) f0) with true.
  unfold pan_l_db, pan_r_db, clerp. cbn iota. rewrite (clamp01_hi g L). reflexivity.
Qed.
Lemma pan_clamp_lo m (s : f32) (g : f64) : fle g (of_Z (-1)) = true -> pan64 m s g = pan64 m s (of_Z (-1)).
Proof.
  intro H. destruct mone64 as [F1 V1].
  destruct (fle_cases g (of_Z (-1)) F1 ltac:(lra) H) as [L|E]; [|rewrite E; reflexivity].
  destruct (flt_m1_neg g L) as (A & B & _). unfold pan64. rewrite A, B.
  change (fle (of_Z (-1) : f64) f0) with true. change (fge (of_Z (-1) : f64) f0) with false.
  unfold pan_l_db, pan_r_db, clerp. cbn iota. rewrite (clampm10_lo g L). reflexivity.
Qed.
