(** * The f32 coefficients of LowPass and HighPass against the exact ones *)
From Coq Require Import ZArith List Bool Reals Lra Lia Psatz.
From Flocq Require Import Core.Core IEEE754.BinarySingleNaN.
From Verif Require Import Model.Floats Model.Modifiers Model.Filters Spec.Libm Proof.FloatFacts Proof.SampleFormatP Proof.FormatsP
  Proof.GenericP Proof.GeneratorsP Proof.GeneratorsP4 Proof.FiltersP Proof.FiltersP2 Proof.NearP.
Import ListNotations.
Local Open Scope R_scope.

Lemma PI64_R : fin PI64 /\ B2R PI64 = 7074237752028440 * bpow radix2 (-51).
Proof. unfold PI64. apply lit_ok; [apply fmt_FLT; [reflexivity|unfold SpecFloat.emin; lia]|]. 
  change (bpow radix2 (-51)) with (/ 2251799813685248). rewrite Rabs_pos_eq by lra. eapply Rlt_trans; [|exact bpow_1024_big]. apply Rlt_trans with 4; [lra|]. apply IZR_lt. reflexivity. Qed.
Lemma PI64_PI : Rabs (B2R PI64 - PI) <= 9 / 100000000000.
Proof.
  rewrite (proj2 PI64_R). change (bpow radix2 (-51)) with (/ 2251799813685248). pose proof PI_bounds. apply Rabs_le. lra.
Qed.
Lemma big64 x : Rabs x <= 16 -> Rabs (rnd64 x) < bpow radix2 1024.
Proof.
  intro H. eapply Rle_lt_trans; [apply (rnd_abs_le _ (bpow radix2 4)); [apply fmt64_b; lia|change (bpow radix2 4) with 16; exact H]|]. apply bpow_lt. lia.
Qed.
Lemma err64 x : Rabs x <= 16 -> Rabs (rnd64 x - x) <= / 1125899906842624.
Proof.
  intro H. eapply Rle_trans; [apply (rnd_err (prec:=53) (emax:=1024) 4); [unfold SpecFloat.emin; lia|change (bpow radix2 4) with 16; exact H]|].
  change (bpow radix2 (4 - 53 - 1)) with (/ 1125899906842624). lra.
Qed.

(** ** theta and k *)
Section K.
Variable m : libm.
Hypothesis HC : cos_accurate m.
Variable r : f64.
Hypothesis Fr : fin r.
Hypothesis Hr : 0 <= B2R r <= 1.
Let A := A64 m.
Definition theta_ok (th : f64) : Prop := fin th /\ Rabs (B2R th - PI / 6 * (4 - B2R r)) <= 61 / 1000000000000.
Lemma four_minus : fin (fsub (of_Z 4) r) /\ Rabs (B2R (fsub (of_Z 4) r) - (4 - B2R r)) <= / 1125899906842624 /\ 2 <= B2R (fsub (of_Z 4) r) <= 5.
Proof.
  destruct (of_Z64 4 ltac:(lia)) as [F4 V4].
  assert (B : Rabs (B2R (of_Z 4 : f64) - B2R r) <= 16) by (rewrite V4; apply Rabs_le; lra).
  destruct (fsub_ok (of_Z 4) r F4 Fr (big64 _ B)) as [F E]. pose proof (err64 _ B) as ER. rewrite <- E, V4 in ER.
  split; [exact F|]. split; [exact ER|]. apply Rabs_le_inv in ER. lra.
Qed.
Lemma lp_theta_ok : theta_ok (lp_theta A r).
Proof.
  unfold lp_theta, A. cbn [a_mul a_div a_sub a_Z a_pi A64].
  destruct four_minus as (F4 & E4 & R4). destruct PI64_R as [FP VP]. pose proof PI64_PI as EP. pose proof PI_bounds as PB.
  destruct (of_Z64 6 ltac:(lia)) as [F6 V6]. apply Rabs_le_inv in EP. apply Rabs_le_inv in E4.
  assert (B1 : Rabs (B2R PI64 / B2R (of_Z 6 : f64)) <= 16) by (rewrite V6; apply Rabs_le; lra).
  destruct (fdiv_ok PI64 (of_Z 6) FP ltac:(rewrite V6; lra) (big64 _ B1)) as [F1 E1]. pose proof (err64 _ B1) as ER1. rewrite <- E1, V6 in ER1.
  apply Rabs_le_inv in ER1. set (q := B2R (fdiv PI64 (of_Z 6))) in *. set (z := B2R (fsub (of_Z 4) r)) in *.
  assert (Q : Rabs (q * z - PI / 6 * (4 - B2R r)) <= 605 / 10000000000000).
  { assert (Q1 : Rabs (q - PI / 6) <= 1501 / 100000000000000) by (apply Rabs_le; lra).
    replace (q * z - PI / 6 * (4 - B2R r)) with ((q - PI / 6) * (4 - B2R r) + q * (z - (4 - B2R r))) by ring.
    eapply Rle_trans; [apply Rabs_triang|]. rewrite !Rabs_mult.
    assert (A1 : Rabs (q - PI / 6) * Rabs (4 - B2R r) <= 1501 / 100000000000000 * 4).
    { apply Rmult_le_compat; try apply Rabs_pos; [exact Q1|]. apply Rabs_le; lra. }
    assert (A2 : Rabs q * Rabs (z - (4 - B2R r)) <= 1 * / 1125899906842624).
    { apply Rmult_le_compat; try apply Rabs_pos; apply Rabs_le; lra. }
    lra. }
  assert (B2 : Rabs (q * z) <= 16).
  { apply Rabs_le_inv in Q. assert (0 <= PI / 6 * (4 - B2R r) <= 8) by (split; [apply Rmult_le_pos; lra|apply Rle_trans with (1 * 8); [apply Rmult_le_compat; lra|lra]]). apply Rabs_le. lra. }
  destruct (fmul_ok _ _ F1 F4 (big64 _ B2)) as [F2 E2]. split; [exact F2|]. rewrite E2. fold q z. pose proof (err64 _ B2) as ER2.
  apply Rabs_le_inv in ER2. apply Rabs_le_inv in Q. apply Rabs_le. lra.
Qed.
Lemma hp_theta_ok : theta_ok (hp_theta A r).
Proof.
  unfold hp_theta, A. cbn [a_mul a_div a_sub a_Z a_pi A64].
  destruct four_minus as (F4 & E4 & R4). destruct PI64_R as [FP VP]. pose proof PI64_PI as EP. pose proof PI_bounds as PB.
  destruct (of_Z64 6 ltac:(lia)) as [F6 V6]. apply Rabs_le_inv in EP. apply Rabs_le_inv in E4.
  set (z := B2R (fsub (of_Z 4) r)) in *.
  assert (Q : Rabs (B2R PI64 * z - PI * (4 - B2R r)) <= 3601 / 10000000000000).
  { replace (B2R PI64 * z - PI * (4 - B2R r)) with ((B2R PI64 - PI) * (4 - B2R r) + B2R PI64 * (z - (4 - B2R r))) by ring.
    eapply Rle_trans; [apply Rabs_triang|]. rewrite !Rabs_mult.
    assert (A1 : Rabs (B2R PI64 - PI) * Rabs (4 - B2R r) <= 9 / 100000000000 * 4).
    { apply Rmult_le_compat; try apply Rabs_pos; apply Rabs_le; lra. }
    assert (A2 : Rabs (B2R PI64) * Rabs (z - (4 - B2R r)) <= 4 * / 1125899906842624).
    { apply Rmult_le_compat; try apply Rabs_pos; apply Rabs_le; lra. }
    lra. }
  assert (W : 0 <= PI * (4 - B2R r) <= 13).
  { split; [apply Rmult_le_pos; lra|]. apply Rle_trans with (PI * 4); [apply Rmult_le_compat_l; lra|lra]. }
  apply Rabs_le_inv in Q.
  assert (B1 : Rabs (B2R PI64 * z) <= 16) by (apply Rabs_le; lra).
  destruct (fmul_ok PI64 (fsub (of_Z 4) r) FP F4 (big64 _ B1)) as [F1 E1]. pose proof (err64 _ B1) as ER1.
  unfold z in *. rewrite <- E1 in ER1. apply Rabs_le_inv in ER1. set (q := B2R (fmul PI64 (fsub (of_Z 4) r))) in *.
  assert (B2 : Rabs (q / B2R (of_Z 6 : f64)) <= 16) by (rewrite V6; apply Rabs_le; lra).
  destruct (fdiv_ok (fmul PI64 (fsub (of_Z 4) r)) (of_Z 6) F1 ltac:(rewrite V6; lra) (big64 _ B2)) as [F2 E2]. pose proof (err64 _ B2) as ER2.
  fold q in E2. rewrite <- E2, V6 in ER2. apply Rabs_le_inv in ER2. split; [exact F2|]. apply Rabs_le.
  replace (PI / 6 * (4 - B2R r)) with (PI * (4 - B2R r) / 6) by field. lra.
Qed.
Lemma k_near th : theta_ok th -> nf false 1 1 (bw_k A th) (d_of (B2R r) + 1).
Proof.
  intros [FT ET]. unfold bw_k, A. cbn [a_mul a_sub a_cos a_Z A64]. pose proof PI_bounds as PB.
  assert (T0 : 0 <= PI / 6 * (4 - B2R r) <= 7).
  { split; [apply Rmult_le_pos; lra|]. apply Rle_trans with (1 * 7); [|lra]. apply Rmult_le_compat; lra. }
  pose proof (cos_lip (B2R th) (PI / 6 * (4 - B2R r))) as CL. apply Rabs_le_inv in ET.
  destruct (HC th FT) as [FC EC]; [apply Rabs_le; lra|].
  change (bpow radix2 (-50)) with (/ 1125899906842624) in EC.
  pose proof (d_of_range (B2R r) Hr) as D. unfold d_of in *. set (c := cos (PI / 6 * (4 - B2R r))) in *.
  assert (CL' : Rabs (cos (B2R th) - c) <= 61 / 1000000000000) by (eapply Rle_trans; [exact CL|apply Rabs_le; lra]).
  apply Rabs_le_inv in CL'. apply Rabs_le_inv in EC. set (cf := B2R (cos64 m th)) in *.
  destruct (of_Z64 2 ltac:(lia)) as [F2 V2]. destruct (of_Z64 1 ltac:(lia)) as [F1 V1].
  assert (B1 : Rabs (B2R (of_Z 2 : f64) * cf) <= 16) by (rewrite V2; apply Rabs_le; lra).
  destruct (fmul_ok (of_Z 2) (cos64 m th) F2 FC (big64 _ B1)) as [F3 E3]. pose proof (err64 _ B1) as ER3. unfold cf in *.
  rewrite <- E3, V2 in ER3. apply Rabs_le_inv in ER3. set (q := B2R (fmul (of_Z 2) (cos64 m th))) in *.
  assert (B2 : Rabs (B2R (of_Z 1 : f64) - q) <= 16) by (rewrite V1; apply Rabs_le; lra).
  destruct (fsub_ok (of_Z 1) (fmul (of_Z 2) (cos64 m th)) F1 F3 (big64 _ B2)) as [F4 E4]. pose proof (err64 _ B2) as ER4.
  fold q in E4. rewrite <- E4, V1 in ER4. apply Rabs_le_inv in ER4.
  split; [exact F4|]. cbn [sgn]. split.
  - apply near_1; [lra|]. apply Rabs_le. split; lra.
  - change (bpow radix2 (-(1))) with (/ 2). change (bpow radix2 1) with 2. lra.
Qed.
End K.

(** ** t and the coefficients *)
Definition fc_ok (fc : f64) : Prop := fin fc /\ / 1024 <= B2R fc <= 24000.
Lemma nf_rng sg n j i x b : bpow radix2 (- i) <= b <= bpow radix2 i -> nf sg n j x b -> nf sg n i x b.
Proof. intros R (F & N & _). split; [exact F|]. split; assumption. Qed.
Section T.
Variable m : libm.
Hypothesis HP : pow_int_accurate m.
Variable fc : f64.
Hypothesis Hfc : fc_ok fc.
Let A := A64 m.
Let t := bw_t A fc.
Lemma t_near : nf false 5 29 t (t_of (B2R fc)).
Proof.
  destruct Hfc as [F R]. unfold t, bw_t, A, t_of. cbn [a_mul a_Z a_pi a_inv A64]. pose proof PI_bounds as PB.
  destruct PI64_R as [FP VP]. pose proof PI64_PI as EP. destruct (of_Z64 2 ltac:(lia)) as [F2 V2]. destruct INV_ok as [FI _].
  assert (N1 : nf false 0 1 (of_Z 2) 2).
  { apply nf_const; [exact F2|exact V2|]. change (bpow radix2 (-(1))) with (/ 2). change (bpow radix2 1) with 2. lra. }
  assert (N2 : nf false 1 2 PI64 PI).
  { split; [exact FP|]. cbn [sgn]. split; [apply near_1; [lra|]|change (bpow radix2 (-(2))) with (/ 4); change (bpow radix2 2) with 4; lra].
    eapply Rle_trans; [exact EP|]. lra. }
  assert (N3 : nf false 0 15 fc (B2R fc)).
  { apply nf_const; [exact F|reflexivity|]. change (bpow radix2 (-(15))) with (/ 32768). change (bpow radix2 15) with 32768. lra. }
  assert (N4 : nf false 1 16 INV_SAMPLE_RATE (/ 48000)).
  { split; [exact FI|]. cbn [sgn]. split; [apply near_1; [lra|]; rewrite INV_val; apply Rabs_le; lra|].
    change (bpow radix2 (-(16))) with (/ 65536). change (bpow radix2 16) with 65536. lra. }
  pose proof (nf_mul false 0 1 1 2 _ _ _ _ ltac:(lia) ltac:(lia) ltac:(lia) ltac:(lia) N1 N2) as M1. cbn [Nat.add] in M1.
  pose proof (nf_mul false 2 0 (1 + 2) 15 _ _ _ _ ltac:(lia) ltac:(lia) ltac:(lia) ltac:(lia) M1 N3) as M2. cbn [Nat.add] in M2.
  pose proof (nf_mul false 3 1 (1 + 2 + 15) 16 _ _ _ _ ltac:(lia) ltac:(lia) ltac:(lia) ltac:(lia) M2 N4) as M3. cbn [Nat.add] in M3.
  apply nf_rng with (2 := M3). change (bpow radix2 (-(29))) with (/ 536870912). change (bpow radix2 29) with 536870912.
  split.
  - apply Rle_trans with (2 * 3 * / 1024 * / 48000); [lra|]. apply Rmult_le_compat_r; [lra|]. apply Rmult_le_compat; lra.
  - apply Rle_trans with (2 * 4 * 24000 * / 48000); [|lra]. apply Rmult_le_compat_r; [lra|]. apply Rmult_le_compat; lra.
Qed.
Lemma t_val : fin t /\ t_of (B2R fc) * (1 - / 100000000) <= B2R t <= t_of (B2R fc) * (1 + / 100000000).
Proof.
  destruct t_near as (F & (P & L & U) & _). cbn [sgn] in *. split; [exact F|]. pose proof (rho_20 5 ltac:(lia)) as R. pose proof (rho_ge1 5).
  assert (B2R t * rho ^ 5 <= B2R t * (1 + 21 / 4294967296)).
  { apply Rmult_le_compat_l; [|exact R]. pose proof (near_pos 5 _ _ (conj P (conj L U))). lra. }
  assert (t_of (B2R fc) * rho ^ 5 <= t_of (B2R fc) * (1 + 21 / 4294967296)) by (apply Rmult_le_compat_l; lra). lra.
Qed.
Lemma t_rng : / 8388608 / 2 <= B2R t <= 16 / 5.
Proof.
  destruct t_val as [_ T]. destruct Hfc as [_ R]. pose proof PI_bounds as PB.
  assert (T1 : / 8388608 <= t_of (B2R fc)).
  { unfold t_of. apply Rle_trans with (2 * 3 * / 1024 * / 48000); [lra|]. apply Rmult_le_compat_r; [lra|]. apply Rmult_le_compat; lra. }
  assert (T2 : t_of (B2R fc) <= 31416 / 10000).
  { unfold t_of. apply Rle_trans with (2 * (31416 / 10000) * 24000 * / 48000); [|lra]. apply Rmult_le_compat_r; [lra|]. apply Rmult_le_compat; lra. }
  split; [nra|nra].
Qed.
Lemma pow_near n : (2 <= n <= 3)%Z -> nf false 1 (24 * n) (a_pow A t n) (B2R t ^ Z.to_nat n).
Proof.
  intro Hn. destruct t_val as [F _]. pose proof t_rng as R.
  assert (L : bpow radix2 (-24) <= B2R t) by (change (bpow radix2 (-24)) with (/ 16777216); lra).
  destruct (HP t n F) as [FP EP]; [split; [apply Rle_trans with (2 := L); apply bpow_le; lia|lra]|exact Hn|].
  unfold A. cbn [a_pow A64]. split; [exact FP|]. cbn [sgn]. assert (T0 : 0 < B2R t) by lra. pose proof (pow_lt _ (Z.to_nat n) T0) as Q.
  split.
  - apply near_1; [exact Q|]. eapply Rle_trans; [exact EP|]. apply Rmult_le_compat_l; [lra|]. change (bpow radix2 (-50)) with (/ 1125899906842624). lra.
  - assert (C : n = 2%Z \/ n = 3%Z) by lia.
    assert (U : B2R t <= bpow radix2 24) by (change (bpow radix2 24) with 16777216; lra). pose proof (bpow_gt_0 radix2 (-24)).
    assert (X : forall k, bpow radix2 (- (24 * Z.of_nat k)) <= B2R t ^ k <= bpow radix2 (24 * Z.of_nat k)).
    { induction k as [|k IH]; [cbn; lra|]. rewrite Nat2Z.inj_succ. cbn [pow].
      replace (- (24 * Z.succ (Z.of_nat k)))%Z with (-24 + - (24 * Z.of_nat k))%Z by lia.
      replace (24 * Z.succ (Z.of_nat k))%Z with (24 + 24 * Z.of_nat k)%Z by lia. rewrite !bpow_plus.
      pose proof (bpow_gt_0 radix2 (- (24 * Z.of_nat k))). split; apply Rmult_le_compat; lra. }
    specialize (X (Z.to_nat n)). rewrite Z2Nat.id in X by lia. exact X.
Qed.
Section WithK.
Variables (k : f64) (d : R).
Hypothesis Hk : nf false 1 1 k (d + 1).
Hypothesis Hd : 0 <= d <= 1.
Let th := B2R t.
Let kh := d + 1.
Let g := th ^ 3 + kh * th ^ 2 + kh * th + 1.
Lemma g_rng : 1 <= g <= 128.
Proof.
  unfold g, kh. pose proof t_rng as R. fold th in R.
  assert (T2 : 0 <= th ^ 2 <= 11) by nra. assert (T3 : 0 <= th ^ 3 <= 36) by (cbn [pow] in *; nra).
  assert (0 <= (d + 1) * th ^ 2 <= 2 * 11) by (split; [apply Rmult_le_pos; lra|apply Rmult_le_compat; lra]).
  assert (0 <= (d + 1) * th <= 2 * 4) by (split; [apply Rmult_le_pos; lra|apply Rmult_le_compat; lra]). lra.
Qed.
Lemma t0_near : nf false 0 24 t th.
Proof.
  destruct t_val as [F _]. pose proof t_rng as R. apply nf_const; [exact F|reflexivity|].
  change (bpow radix2 (-(24))) with (/ 16777216). change (bpow radix2 24) with 16777216. unfold th. lra.
Qed.
Lemma p2_near : nf false 1 48 (a_pow A t 2) (th ^ 2).
Proof. exact (pow_near 2 ltac:(lia)). Qed.
Lemma p3_near : nf false 1 72 (a_pow A t 3) (th ^ 3).
Proof. exact (pow_near 3 ltac:(lia)). Qed.
Lemma cst_near z : (1 <= z <= 4)%Z -> nf false 0 2 (of_Z z) (IZR z).
Proof.
  intro H. destruct (of_Z64 z ltac:(lia)) as [F V]. apply nf_const; [exact F|exact V|].
  change (bpow radix2 (-(2))) with (/ 4). change (bpow radix2 2) with 4. pose proof (IZR_le 1 z ltac:(lia)). pose proof (IZR_le z 4 ltac:(lia)). lra.
Qed.
Lemma kt2_near : nf false 3 49 (a_mul A k (a_pow A t 2)) (kh * th ^ 2).
Proof. exact (nf_mul false 1 1 1 48 _ _ _ _ ltac:(lia) ltac:(lia) ltac:(lia) ltac:(lia) Hk p2_near). Qed.
Lemma kt_near : nf false 2 25 (a_mul A k t) (kh * th).
Proof. exact (nf_mul false 1 0 1 24 _ _ _ _ ltac:(lia) ltac:(lia) ltac:(lia) ltac:(lia) Hk t0_near). Qed.
Lemma gF_near : nf false 6 7 (bw_g A k t) g.
Proof.
  unfold bw_g. apply nf_rng with (75)%Z; [change (bpow radix2 (-(7))) with (/ 128); change (bpow radix2 7) with 128; pose proof g_rng; lra|].
  apply (nf_add 5 74); [lia|lia| |apply (nf_w _ 0); [lia|]; apply (nf_wj _ _ 2); [lia|]; exact (cst_near 1 ltac:(lia))].
  apply (nf_add 4 73); [lia|lia| |apply (nf_w _ 2); [lia|]; apply (nf_wj _ _ 25); [lia|]; exact kt_near].
  apply (nf_add 3 72); [lia|lia| |apply (nf_wj _ _ 49); [lia|]; exact kt2_near].
  apply (nf_w _ 1); [lia|]. exact p3_near.
Qed.
Definition n1 : R := kh * th ^ 2 + 2 * kh * th + 3.
Definition n2 : R := kh * th + 3.
Lemma c0_near : fin (to32 (lp_c0 A k t)) /\ Rabs (B2R (to32 (lp_c0 A k t)) - th ^ 3 / g) <= w32 * (th ^ 3 / g).
Proof. apply (nf_cast false 8 79); [lia|lia|]. exact (nf_div false 1 6 72 7 _ _ _ _ ltac:(lia) ltac:(lia) ltac:(lia) ltac:(lia) p3_near gF_near). Qed.
Lemma n1_rng : 3 <= n1 <= 64.
Proof.
  unfold n1, kh. pose proof t_rng as R. fold th in R.
  assert (T2 : 0 <= th ^ 2 <= 11) by nra.
  assert (0 <= (d + 1) * th ^ 2 <= 2 * 11) by (split; [apply Rmult_le_pos; lra|apply Rmult_le_compat; lra]).
  assert (0 <= (d + 1) * th <= 2 * 4) by (split; [apply Rmult_le_pos; lra|apply Rmult_le_compat; lra]). lra.
Qed.
Lemma b1_near : fin (to32 (bw_b1 A k t)) /\ Rabs (B2R (to32 (bw_b1 A k t)) - n1 / g) <= w32 * (n1 / g).
Proof.
  apply (nf_cast false 12 13); [lia|lia|]. apply (nf_div false 5 6 6 7); [lia|lia|lia|lia| |exact gF_near].
  apply nf_rng with (51)%Z; [change (bpow radix2 (-(6))) with (/ 64); change (bpow radix2 6) with 64; pose proof n1_rng; lra|].
  apply (nf_add 4 50); [lia|lia| |apply (nf_w _ 0); [lia|]; apply (nf_wj _ _ 2); [lia|]; exact (cst_near 3 ltac:(lia))].
  apply (nf_add 3 49); [lia|lia|exact kt2_near|]. apply (nf_wj _ _ 27); [lia|].
  apply (nf_mul false 2 0 3 24); [lia|lia|lia|lia| |exact t0_near].
  exact (nf_mul false 0 1 2 1 _ _ _ _ ltac:(lia) ltac:(lia) ltac:(lia) ltac:(lia) (cst_near 2 ltac:(lia)) Hk).
Qed.
Lemma n2_rng : 3 <= n2 <= 16.
Proof.
  unfold n2, kh. pose proof t_rng as R. fold th in R.
  assert (0 <= (d + 1) * th <= 2 * 4) by (split; [apply Rmult_le_pos; lra|apply Rmult_le_compat; lra]). lra.
Qed.
Lemma b2_near : fin (to32 (bw_b2 A k t)) /\ Rabs (- B2R (to32 (bw_b2 A k t)) - n2 / g) <= w32 * (n2 / g).
Proof.
  apply (nf_cast true 10 11); [lia|lia|]. apply (nf_div true 3 6 4 7); [lia|lia|lia|lia| |exact gF_near].
  apply nf_rng with (26)%Z; [change (bpow radix2 (-(4))) with (/ 16); change (bpow radix2 4) with 16; pose proof n2_rng; lra|].
  apply (nf_sub_neg 2 25); [lia|lia| |apply (nf_w _ 0); [lia|]; apply (nf_wj _ _ 2); [lia|]; exact (cst_near 3 ltac:(lia))].
  exact (nf_mul true 1 0 1 24 _ _ _ _ ltac:(lia) ltac:(lia) ltac:(lia) ltac:(lia) (nf_neg false _ _ _ _ Hk) t0_near).
Qed.
Lemma over_g z : (1 <= z <= 4)%Z -> fin (to32 (fdiv (of_Z z) (bw_g A k t))) /\ Rabs (B2R (to32 (fdiv (of_Z z) (bw_g A k t))) - IZR z / g) <= w32 * (IZR z / g).
Proof. intro H. apply (nf_cast false 7 9); [lia|lia|]. exact (nf_div false 0 6 2 7 _ _ _ _ ltac:(lia) ltac:(lia) ltac:(lia) ltac:(lia) (cst_near z H) gF_near). Qed.
Lemma over_gn z : (1 <= z <= 4)%Z -> fin (to32 (fdiv (fneg (of_Z z)) (bw_g A k t))) /\ Rabs (- B2R (to32 (fdiv (fneg (of_Z z)) (bw_g A k t))) - IZR z / g) <= w32 * (IZR z / g).
Proof. intro H. apply (nf_cast true 7 9); [lia|lia|]. exact (nf_div true 0 6 2 7 _ _ _ _ ltac:(lia) ltac:(lia) ltac:(lia) ltac:(lia) (nf_neg false _ _ _ _ (cst_near z H)) gF_near). Qed.
End WithK.
End T.
