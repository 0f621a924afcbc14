(** * Concrete ADSR parameter sets for which decay and release never end *)
From Coq Require Import ZArith List Bool Reals Lra Lia.
From Flocq Require Import Core.Core IEEE754.BinarySingleNaN.
From Verif Require Import Model.Floats Model.Utils Model.Modifiers Spec.Libm Proof.FloatFacts Proof.SampleFormatP Proof.FormatsP
  Proof.LibmP Proof.UtilsP Proof.ModifiersP Proof.AdsrP Proof.AdsrP2 Proof.AdsrP3.
Import ListNotations.
Local Open Scope R_scope.

Definition us20 : duration := mkDur 0 20000.
Lemma us20_pos : pos_dur us20.
Proof. unfold pos_dur, dur_ok, us20, GIGA. cbn [secs nanos]. lia. Qed.
Lemma secs_pos n : (0 < n < 2 ^ 32)%Z -> pos_dur (mkDur n 0).
Proof. intro H. unfold pos_dur, dur_ok, GIGA. cbn [secs nanos]. lia. Qed.

(** a 20 microsecond attack reaches full gain on the first call *)
Lemma fast_attack m d s r x : let e := snd (adsr_process (adsr_new m us20 d s r) x) in
  ad_state e = Decay /\ ad_g e = of_Z 1 /\ same_params (adsr_new m us20 d s r) e.
Proof.
  cbv zeta. unfold adsr_process. cbn [adsr_new ad_state ad_g].
  set (a := fdiv (of_Z 1) (to32 (fmul (as_secs_f64 us20) SR64))).
  assert (C : fge (fadd (f0 : f32) a) (of_Z 1) = true) by (vm_compute; reflexivity).
  unfold adsr_new. cbv zeta. cbn [ad_a]. fold a. rewrite C. cbn [snd adsr_set ad_state ad_g].
  split; [reflexivity|]. split; [reflexivity|]. repeat split.
Qed.

Lemma exact_secs n : (0 <= n < 2 ^ 32)%Z -> fin (fmul (as_secs_f64 (mkDur n 0)) SR64) /\ B2R (fmul (as_secs_f64 (mkDur n 0)) SR64) = 48000 * IZR n.
Proof.
  intro H. assert (D : dur_ok (mkDur n 0)) by (unfold dur_ok, GIGA; cbn [secs nanos]; lia).
  destruct (as_secs_ok _ D) as (A & B & _ & L). cbn [secs nanos] in B. replace (IZR 0 / 1000000000) with 0 in B by (unfold Rdiv; ring). rewrite rnd_0, Rplus_0_r in B.
  rewrite rnd_fmt in B by (apply fmt64_Z; lia). destruct SR64_ok as [FS VS].
  destruct (fmul_ok (as_secs_f64 (mkDur n 0)) SR64 A FS) as [E G].
  { rewrite VS, B. rewrite <- (mult_IZR n 48000), rnd_fmt by (apply fmt64_Z; lia). rewrite <- abs_IZR.
    apply Rle_lt_trans with (bpow radix2 53); [rewrite <- IZR_pow2 by lia; apply IZR_le; lia|apply bpow_lt; lia]. }
  split; [exact E|]. rewrite G, VS, B. rewrite <- (mult_IZR n 48000), rnd_fmt by (apply fmt64_Z; lia). rewrite mult_IZR. ring.
Qed.

Lemma to32_step (y : f64) : fin y -> - bpow radix2 (-25) <= B2R y <= 0 ->
  fin (to32 y) /\ - bpow radix2 (-25) <= B2R (to32 y) /\ fle (to32 y) f0 = true.
Proof.
  intros F H. destruct (to32_nonpos y (bpow radix2 (-25)) F) as (A & B & C); [apply fmt32_b; lia|apply bpow_lt; lia|exact H|].
  split; [exact B|]. split; [|exact A]. rewrite C. apply rnd_ge_fmt; [apply fmt_opp, fmt32_b; lia|lra].
Qed.

(** quotient step: numerator v in [-1,0] by n seconds *)
Lemma step_value (v : f64) n : fin v -> -1 <= B2R v <= 0 -> (0 < n < 2 ^ 32)%Z -> - (48000 * IZR n * bpow radix2 (-25)) <= B2R v ->
  fin (to32 (fdiv v (fmul (as_secs_f64 (mkDur n 0)) SR64))) /\
  - bpow radix2 (-25) <= B2R (to32 (fdiv v (fmul (as_secs_f64 (mkDur n 0)) SR64))).
Proof.
  intros Fv Hv Hn HL. destruct (exact_secs n ltac:(lia)) as [FD VD].
  assert (N1 : 1 <= IZR n) by (apply IZR_le; lia).
  assert (ND : B2R (fmul (as_secs_f64 (mkDur n 0)) SR64) <> 0) by (rewrite VD; lra).
  set (den := fmul (as_secs_f64 (mkDur n 0)) SR64) in *.
  assert (Q : - bpow radix2 (-25) <= B2R v / B2R den <= 0).
  { rewrite VD. split.
    - apply Rmult_le_reg_r with (48000 * IZR n); [lra|]. replace (B2R v / (48000 * IZR n) * (48000 * IZR n)) with (B2R v) by (field; lra). lra.
    - apply Rmult_le_reg_r with (48000 * IZR n); [lra|]. replace (B2R v / (48000 * IZR n) * (48000 * IZR n)) with (B2R v) by (field; lra). lra. }
  destruct (fdiv_le v den (bpow radix2 (-25)) Fv ND) as (A & B & C); [apply fmt64_b; lia|apply bpow_lt; lia|apply Rabs_le; pose proof (bpow_gt_0 radix2 (-25)); lra|].
  destruct (to32_step (fdiv v den) A) as (E & G & _).
  { rewrite B. split; [apply rnd_ge_fmt; [apply fmt_opp, fmt64_b; lia|lra]|apply rnd_nonpos; lra]. }
  split; assumption.
Qed.

Lemma fmin_neg (s : f64) : fin s -> B2R s < 0 -> fmin s f0 = s.
Proof.
  intros F H. unfold fmin. assert (N : is_nan s = false) by (destruct s; try discriminate; reflexivity). rewrite N.
  change (is_nan (f0 : f64)) with false. cbv iota.
  replace (flt s f0) with true; [reflexivity|]. symmetry. apply (flt_true s f0 F eq_refl). exact H.
Qed.

(** released at full gain with a -60 dB sustain and a one second release: the gain stays 1 forever *)
Lemma release_stuck m d x xs : pow10_unit m -> pow10_accurate m -> pos_dur d ->
  let e := adsr_release (snd (adsr_process (adsr_new m us20 d (of_Z (-60)) (mkDur 1 0)) x)) in
  run adsr_process e xs = (map (fun x => fmul x (of_Z 1)) xs, e) /\ ad_state e = Release.
Proof.
  intros HU HA Hd. cbv zeta. destruct (fast_attack m d (of_Z (-60)) (mkDur 1 0) x) as (S1 & G1 & P1). cbv zeta in *.
  set (e0 := adsr_new m us20 d (of_Z (-60)) (mkDur 1 0)) in *. set (e1 := snd (adsr_process e0 x)) in *.
  destruct (of_Z64 (-60) ltac:(lia)) as [F6 V6]. destruct (of_Z64 20 ltac:(lia)) as [F2 V2].
  destruct us20_pos as [U1 U2]. destruct Hd as [D1 D2]. destruct (secs_pos 1 ltac:(lia)) as [N1 N2].
  destruct (adsr_new_ok m us20 d (mkDur 1 0) (of_Z (-60)) HU) as [K I]; auto.
  { intro C. rewrite C in F6. discriminate. }
  fold e0 in K, I.
  assert (K1 : adsr_ok e1) by (apply (adsr_params_ok e0); assumption).
  assert (I1 : adsr_inv e1).
  { pose proof (adsr_step e0 x K I) as ST. unfold e1. destruct (adsr_process e0 x) as [y e2]. apply ST. }
  assert (R1 : ad_r e1 = ad_r e0) by apply P1.
  assert (M : fmin (of_Z (-60) : f64) f0 = of_Z (-60)) by (apply fmin_neg; [exact F6|rewrite V6; lra]).
  assert (ER : ad_r e0 = to32 (fdiv (fneg (db_to_linear m (of_Z (-60)))) (fmul (as_secs_f64 (mkDur 1 0)) SR64))).
  { unfold e0, adsr_new. cbv zeta. cbn [ad_r]. rewrite M. reflexivity. }
  assert (Q : fdiv (of_Z (-60)) (of_Z 20) = (of_Z (-3) : f64)) by (apply B2SF_inj; vm_compute; reflexivity).
  assert (DB : db_to_linear m (of_Z (-60)) = pow64 m (of_Z 10) (of_Z (-3))) by (unfold db_to_linear, db_to_linear_g; rewrite Q; reflexivity).
  destruct (of_Z64 (-3) ltac:(lia)) as [F3 V3].
  destruct (HU (of_Z (-3)) F3 ltac:(rewrite V3; lra)) as [FP BP].
  destruct (HA (of_Z (-3)) F3 ltac:(rewrite V3; apply Rabs_le; lra)) as [_ AP]. rewrite V3 in AP.
  assert (P3 : Rpower 10 (-3) = / 1000).
  { replace (-3) with (- (INR 3)) by (simpl; lra). rewrite Rpower_Ropp, Rpower_pow by lra. f_equal. lra. }
  rewrite P3 in AP. change (bpow radix2 (-40)) with (/ 1099511627776) in AP. apply Rabs_le_inv in AP.
  set (p := pow64 m (of_Z 10) (of_Z (-3))) in *.
  destruct (step_value (fneg p) 1) as [FR LR].
  { rewrite fneg_fin. exact FP. } { rewrite fneg_R. lra. } { lia. }
  { rewrite fneg_R. change (bpow radix2 (-25)) with (/ 33554432). lra. }
  rewrite <- DB, <- ER, <- R1 in *.
  split; [|reflexivity].
  rewrite <- G1.
  apply (fall_stalls (adsr_release e1) Release (ad_r e1) f0 0); auto using release_inv, release_fall; try lia.
  - cbn [adsr_release ad_g]. rewrite G1. destruct (of_Z32 1 ltac:(lia)) as [_ E1]. rewrite E1. reflexivity.
  - simpl. lra.
Qed.

Lemma exp_ge_pow n x : 0 <= x -> (1 + x) ^ n <= exp (INR n * x).
Proof.
  intro H. induction n as [|n IH]; [simpl; rewrite Rmult_0_l, exp_0; lra|].
  rewrite S_INR. replace ((INR n + 1) * x) with (x + INR n * x) by ring. rewrite exp_plus. simpl pow.
  apply Rmult_le_compat; [lra|apply pow_le; lra|apply exp_ineq1_le|exact IH].
Qed.
Lemma ln10_le : ln 10 <= 5 / 2.
Proof.
  assert (E : 10 <= exp (5 / 2)).
  { replace (5 / 2) with (INR 20 * / 8) by (rewrite INR_IZR_INZ; simpl; lra).
    apply Rle_trans with ((1 + / 8) ^ 20); [|apply exp_ge_pow; lra]. simpl. lra. }
  rewrite <- (ln_exp (5 / 2)). destruct E as [E|E]; [left; apply ln_increasing; lra|right; f_equal; exact E].
Qed.
Lemma Rpower10_ge y : y <= 0 -> 1 + y * (5 / 2) <= Rpower 10 y.
Proof.
  intro H. unfold Rpower. apply Rle_trans with (1 + y * ln 10); [|apply exp_ineq1_le].
  pose proof ln10_le. nra.
Qed.

Lemma ln10_ge : 2 <= ln 10.
Proof.
  assert (E : exp 2 <= 10).
  { replace 2 with (1 + 1) by lra. rewrite exp_plus. pose proof exp_le_3. pose proof (exp_pos 1). nra. }
  rewrite <- (ln_exp 2). pose proof (exp_pos 2). destruct E as [E|E]; [left; apply ln_increasing; lra|right; f_equal; exact E].
Qed.
Lemma Rpower10_lt y : y <= - / 161 -> Rpower 10 y <= 99 / 100.
Proof.
  intro H. unfold Rpower. pose proof ln10_ge as L. replace (y * ln 10) with (- (- y * ln 10)) by ring.
  rewrite exp_Ropp. pose proof (exp_ineq1_le (- y * ln 10)) as E.
  apply Rle_trans with (/ (100 / 99)); [|lra]. apply Rinv_le; [lra|]. nra.
Qed.

(** sustain -1/8 dB with a twelve second decay: the gain never leaves 1 *)
Definition s8 : f64 := lit (-1) (-3).
Lemma decay_stuck m r x xs : pow10_unit m -> pow10_accurate m -> pos_dur r ->
  let e := snd (adsr_process (adsr_new m us20 (mkDur 12 0) s8 r) x) in
  run adsr_process e xs = (map (fun x => fmul x (of_Z 1)) xs, e) /\ ad_state e = Decay /\ B2R (ad_s e) < 1.
Proof.
  intros HU HA Hd. cbv zeta. destruct (fast_attack m (mkDur 12 0) s8 r x) as (S1 & G1 & P1). cbv zeta in *.
  set (e0 := adsr_new m us20 (mkDur 12 0) s8 r) in *. set (e1 := snd (adsr_process e0 x)) in *.
  assert (V8 : fin s8 /\ B2R s8 = - / 8).
  { destruct (lit_ok (prec:=53) (emax:=1024) (-1) (-3)) as [F8 V8].
    - apply fmt_FLT; [simpl; lia|unfold SpecFloat.emin; lia].
    - change (bpow radix2 (-3)) with (/ 8). apply Rlt_trans with 1; [apply Rabs_def1; lra|]. change 1 with (bpow radix2 0). apply bpow_lt. lia.
    - split; [exact F8|]. unfold s8. rewrite V8. change (bpow radix2 (-3)) with (/ 8). lra. }
  destruct V8 as [F8 V8]. destruct (of_Z64 20 ltac:(lia)) as [F2 V2].
  destruct us20_pos as [U1 U2]. destruct Hd as [D1 D2]. destruct (secs_pos 12 ltac:(lia)) as [N1 N2].
  destruct (adsr_new_ok m us20 (mkDur 12 0) r s8 HU) as [K I]; auto.
  { intro C. rewrite C in F8. discriminate. }
  fold e0 in K, I.
  assert (K1 : adsr_ok e1) by (apply (adsr_params_ok e0); assumption).
  assert (I1 : adsr_inv e1).
  { pose proof (adsr_step e0 x K I) as ST. unfold e1. destruct (adsr_process e0 x) as [y e2]. apply ST. }
  destruct P1 as (PA & PD & PS & PR).
  assert (M : fmin s8 f0 = s8) by (apply fmin_neg; [exact F8|lra]).
  destruct (fdiv_le s8 (of_Z 20) 1 F8) as (FQ & VQ & BQ);
    [rewrite V2; lra|apply (fmt64_Z 1); lia|pose proof bpow_1024_big; lra|rewrite V8, V2; apply Rabs_le; lra|].
  rewrite V8, V2 in VQ.
  assert (ERR : Rabs (rnd64 (- / 8 / 20) - - / 8 / 20) <= bpow radix2 (-54)).
  { apply (rnd_err (prec:=53) (emax:=1024) 0); [unfold SpecFloat.emin; lia|]. simpl. apply Rabs_le. lra. }
  rewrite <- VQ in ERR. change (bpow radix2 (-54)) with (/ 18014398509481984) in ERR. apply Rabs_le_inv in ERR.
  set (q := fdiv s8 (of_Z 20)) in *.
  destruct (HU q FQ ltac:(lra)) as [FP BP].
  destruct (HA q FQ ltac:(apply Rabs_le; lra)) as [_ AP].
  pose proof (Rpower10_ge (B2R q) ltac:(lra)) as LP.
  pose proof (Rpower10_lt (B2R q) ltac:(lra)) as UP.
  change (bpow radix2 (-40)) with (/ 1099511627776) in AP. apply Rabs_le_inv in AP.
  set (p := pow64 m (of_Z 10) q) in *.
  assert (DB : db_to_linear m (fmin s8 f0) = p) by (rewrite M; reflexivity).
  assert (PL : 983 / 1000 <= B2R p <= 995 / 1000) by nra.
  destruct one64 as [FO VO].
  destruct (fsub_le p (of_Z 1) 1 FP FO) as (FS & VS & BS);
    [apply (fmt64_Z 1); lia|pose proof bpow_1024_big; lra|rewrite VO; apply Rabs_le; lra|]. rewrite VO in VS.
  assert (VE : Rabs (rnd64 (B2R p - 1) - (B2R p - 1)) <= bpow radix2 (-54)).
  { apply (rnd_err (prec:=53) (emax:=1024) 0); [unfold SpecFloat.emin; lia|]. simpl. apply Rabs_le. lra. }
  change (bpow radix2 (-54)) with (/ 18014398509481984) in VE. apply Rabs_le_inv in VE. rewrite <- VS in VE.
  assert (ED : ad_d e1 = to32 (fdiv (fsub p (of_Z 1)) (fmul (as_secs_f64 (mkDur 12 0)) SR64))) by (rewrite PD; unfold e0, adsr_new; cbv zeta; cbn [ad_d]; rewrite DB; reflexivity).
  assert (ES : ad_s e1 = to32 p) by (rewrite PS; unfold e0, adsr_new; cbv zeta; cbn [ad_s]; rewrite DB; reflexivity).
  destruct (step_value (fsub p (of_Z 1)) 12 FS) as [FR LR]; [lra|lia|change (bpow radix2 (-25)) with (/ 33554432); lra|].
  rewrite <- ED in FR, LR.
  assert (LS : B2R (ad_s e1) < 1).
  { rewrite ES. destruct (fcast_le (p2:=24) (e2:=128) p 1 FP) as (_ & VC & _);
      [exact (fmt32_Z 1 ltac:(lia))|change 1 with (bpow radix2 0); apply bpow_lt; lia|apply Rabs_le; lra|].
    change (fcast 24 128 p) with (to32 p) in VC. rewrite VC.
    assert (EC : Rabs (rnd32 (B2R p) - B2R p) <= bpow radix2 (-25)).
    { apply (rnd_err (prec:=24) (emax:=128) 0); [unfold SpecFloat.emin; lia|]. simpl. apply Rabs_le. lra. }
    change (bpow radix2 (-25)) with (/ 33554432) in EC. apply Rabs_le_inv in EC. lra. }
  split; [|split; [exact S1|exact LS]].
  rewrite <- G1.
  apply (fall_stalls e1 Decay (ad_d e1) (ad_s e1) 0); auto; try lia.
  - left. auto.
  - rewrite G1. destruct (of_Z32 1 ltac:(lia)) as [_ E1]. rewrite E1. reflexivity.
Qed.
