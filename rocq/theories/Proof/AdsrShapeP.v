(** * ADSR: the gain follows the envelope that was asked for *)
From Coq Require Import ZArith List Bool Lia Reals Lra Psatz.
From Flocq Require Import Core.Core IEEE754.BinarySingleNaN.
From Verif Require Import Model.Floats Model.Utils Model.Modifiers Spec.Libm Spec.Decibel
  Proof.FloatFacts Proof.SampleFormatP Proof.FormatsP Proof.UtilsP Proof.WavP Proof.GenericP Proof.NearP Proof.LibmP Proof.DbP
  Proof.AdsrP Proof.AdsrP2 Proof.AdsrP3.
Import ListNotations.
Local Open Scope R_scope.

(** ** the steps computed by [new] *)
Lemma dur_pos d : pos_dur d -> / 1000000000 <= dur_R d <= 4294967296.
Proof.
  intros [[[S1 S2] [N1 N2]] P]. unfold GIGA in N2. unfold dur_R.
  assert (0 <= IZR (secs d)) by (apply IZR_le; lia). assert (0 <= IZR (nanos d)) by (apply IZR_le; lia).
  assert (IZR (secs d) <= 4294967295) by (apply IZR_le; lia). assert (IZR (nanos d) <= 999999999) by (apply IZR_le; lia).
  split; [|lra]. destruct P as [P|P]; [assert (1 <= IZR (secs d)) by (apply IZR_le; lia)|assert (1 <= IZR (nanos d)) by (apply IZR_le; lia)]; lra.
Qed.
Lemma samples_near d : pos_dur d -> near 3 (B2R (fmul (as_secs_f64 d) SR64)) (48000 * dur_R d).
Proof.
  intros P. pose proof (dur_pos d P) as DP. destruct P as [D P]. destruct (secs_samples d D P) as (_ & _ & _ & _ & _ & E). rewrite E.
  destruct (as_secs_ok d D) as (_ & B & _ & _). destruct D as [[S1 S2] [N1 N2]]. unfold GIGA in N2.
  assert (B1000 : bpow radix2 (-1000) <= / 4000000000).
  { apply Rle_trans with (bpow radix2 (-32)); [apply bpow_le; lia|]. change (bpow radix2 (-32)) with (/ 4294967296). lra. }
  assert (R3 : 0 <= IZR (secs d)) by (apply IZR_le; lia). set (q := IZR (nanos d) / 1000000000) in *.
  assert (Q0 : 0 <= q). { unfold q. apply IZR_le in N1. lra. }
  assert (NQ : q <= rnd64 q * rho /\ rnd64 q <= q * rho).
  { destruct (Req_dec q 0) as [->|NZ]; [rewrite rnd_0; lra|].
    assert (L : bpow radix2 (-1000) <= q).
    { assert (1 <= IZR (nanos d)). { apply IZR_le. assert (nanos d <> 0%Z) by (intro C; apply NZ; unfold q; rewrite C; lra). lia. }
      unfold q. lra. }
    destruct (near_rnd q L) as (_ & U & V). cbn [pow] in U, V. rewrite Rmult_1_r in U, V. split; assumption. }
  assert (N1' : near 1 (IZR (secs d) + rnd64 q) (dur_R d)).
  { unfold near, dur_R. fold q. cbn [pow]. rewrite Rmult_1_r. pose proof rho_gt1. unfold dur_R in DP. fold q in DP. split; [lra|]. split; nra. }
  assert (N2' : near 2 (B2R (as_secs_f64 d)) (dur_R d)).
  { rewrite B. fold q. change 2%nat with (1 + 1)%nat. apply near_trans with (IZR (secs d) + rnd64 q); [|exact N1'].
    apply near_rnd. destruct (near_2 1 _ _ ltac:(lia) N1'). lra. }
  change 3%nat with (1 + (2 + 0))%nat. apply near_trans with (B2R (as_secs_f64 d) * 48000).
  - apply near_rnd. destruct (near_2 2 _ _ ltac:(lia) N2'). lra.
  - rewrite (Rmult_comm 48000). apply near_mul; [exact N2'|apply near_refl; lra].
Qed.
Lemma near_rel n a b : (n <= 20)%nat -> near n a b -> Rabs (a / b - 1) <= 21 / 4294967296.
Proof.
  intros H N. pose proof (near_pos _ _ _ N) as A0. destruct N as (P & L & U). pose proof (rho_20 n H) as R0. pose proof (rho_ge1 n).
  apply Rabs_le. split.
  - apply Rmult_le_reg_r with b; [exact P|]. replace ((a / b - 1) * b) with (a - b) by (field; lra).
    assert (a * rho ^ n <= a * (1 + 21 / 4294967296)) by (apply Rmult_le_compat_l; lra).
    destruct (Rle_lt_dec a b) as [C|C]; lra.
  - apply Rmult_le_reg_r with b; [exact P|]. replace ((a / b - 1) * b) with (a - b) by (field; lra).
    assert (b * rho ^ n <= b * (1 + 21 / 4294967296)) by (apply Rmult_le_compat_l; lra). lra.
Qed.

(** the attack step is 1/A, A the attack time in samples, to a relative 2^-22 *)
Lemma attack_step_near a : pos_dur a -> let A := 48000 * dur_R a in let st := fdiv (of_Z 1) (to32 (fmul (as_secs_f64 a) SR64)) : f32 in
  fin st /\ 0 < B2R st <= 32768 /\ Rabs (B2R st - / A) <= bpow radix2 (-22) / A.
Proof.
  intros P A st. pose proof (dur_pos a P) as DP. pose proof (samples_near a P) as N. fold A in N. destruct P as [D P].
  destruct (attack_step_ok a D P) as [F E]. fold st in F, E. split; [exact F|].
  destruct (secs_samples a D P) as (_ & M2 & _ & A2 & A3 & _). set (v := B2R (fmul (as_secs_f64 a) SR64)) in *. set (w := B2R (to32 (fmul (as_secs_f64 a) SR64))) in *.
  change (bpow radix2 48) with 281474976710656 in *. change (bpow radix2 (-15)) with (/ 32768) in *.
  assert (A0 : 0 < A) by (unfold A; lra).
  assert (I1 : / 281474976710656 <= / w <= 32768).
  { split; [apply Rinv_le; lra|]. replace 32768 with (/ / 32768) by lra. apply Rinv_le; lra. }
  assert (I2 : / 281474976710656 <= B2R st <= 32768).
  { rewrite E. split; [|apply rnd_le_fmt; [apply (fmt32_Z 32768); lia|lra]]. change (/ 281474976710656) with (bpow radix2 (-48)) in *. apply rnd_ge_fmt; [apply fmt32_b; lia|lra]. }
  split; [lra|].
  destruct (rnd_rel (prec:=24) (emax:=128) v) as (d1 & D1 & E1).
  { rewrite Rabs_pos_eq by lra. apply Rle_trans with (bpow radix2 (-15)); [apply bpow_le; unfold SpecFloat.emin; lia|change (bpow radix2 (-15)) with (/ 32768); lra]. }
  rewrite <- A3 in E1.
  destruct (rnd_rel (prec:=24) (emax:=128) (/ w)) as (d2 & D2 & E2).
  { rewrite Rabs_pos_eq by lra. apply Rle_trans with (bpow radix2 (-48)); [apply bpow_le; unfold SpecFloat.emin; lia|change (bpow radix2 (-48)) with (/ 281474976710656); lra]. }
  rewrite <- E in E2. change (bpow radix2 (- (24))) with (/ 16777216) in *. apply Rabs_le_inv in D1. apply Rabs_le_inv in D2.
  pose proof (near_rel 3 _ _ ltac:(lia) N) as NR. apply Rabs_le_inv in NR. set (u := v / A) in *.
  assert (W : w = A * (u * (1 + d1))) by (rewrite E1; unfold u; field; lra). clearbody u.
  assert (U1 : Rabs (u * (1 + d1) - 1) <= / 15000000) by (apply Rabs_le; split; nra). apply Rabs_le_inv in U1.
  set (z := u * (1 + d1)) in *. clearbody z.
  replace (B2R st - / A) with (((1 + d2) / z - 1) * / A) by (rewrite E2, W; field; split; lra).
  rewrite Rabs_mult, (Rabs_pos_eq (/ A)) by (left; apply Rinv_0_lt_compat, A0). unfold Rdiv. apply Rmult_le_compat_r; [left; apply Rinv_0_lt_compat, A0|].
  change (bpow radix2 (-22)) with (/ 4194304).
  apply Rabs_le. split; apply Rmult_le_reg_r with z; try lra; replace (((1 + d2) * / z - 1) * z) with (1 + d2 - z) by (field; lra); nra.
Qed.
(** a falling step: x/D for a numerator x in [-1, 0] *)
Lemma fall_step_near (x : f64) d : fin x -> -1 <= B2R x <= 0 -> pos_dur d -> let D := 48000 * dur_R d in
  let st := to32 (fdiv x (fmul (as_secs_f64 d) SR64)) in
  fin st /\ -32768 <= B2R st <= 0 /\ Rabs (B2R st - B2R x / D) <= - B2R x / D * bpow radix2 (-23) + bpow radix2 (-149).
Proof.
  intros Fx Hx P D st. pose proof (dur_pos d P) as DP. pose proof (samples_near d P) as N. fold D in N. destruct P as [DO P].
  destruct (secs_samples d DO P) as (Fv & V2 & _ & _ & _ & _). unfold st. clear st. set (den := fmul (as_secs_f64 d) SR64) in *. set (v := B2R den) in *.
  change (bpow radix2 48) with 281474976710656 in *. change (bpow radix2 (-15)) with (/ 32768) in *.
  assert (D0 : 0 < D) by (unfold D; lra).
  assert (IV : 0 < / v <= 32768).
  { split; [apply Rinv_0_lt_compat; lra|]. replace 32768 with (/ / 32768) by lra. apply Rinv_le; lra. }
  assert (Q : - 32768 <= B2R x / v <= 0) by (unfold Rdiv; nra).
  destruct (fdiv_le x den 32768 Fx) as (Q1 & Q2 & Q3);
    [fold v; lra|apply (fmt64_Z 32768); lia|pose proof bpow_1024_big; lra|fold v; apply Rabs_le; lra|]. fold v in Q2.
  assert (QN : B2R (fdiv x den) <= 0) by (rewrite Q2; apply rnd_nonpos; lra). apply Rabs_le_inv in Q3.
  destruct (to32_nonpos (fdiv x den) 32768 Q1) as (T1 & T2 & T3); [apply (fmt32_Z 32768); lia|pose proof bpow_128_big; lra|lra|].
  split; [exact T2|]. split.
  { rewrite T3. split; [apply rnd_ge_fmt; [apply (fmt32_Z (-32768)); lia|lra]|apply rnd_nonpos; exact QN]. }
  destruct (rnd_err_gen (prec:=53) (emax:=1024) (B2R x / v)) as (d1 & e1 & D1 & E1 & R1). rewrite <- Q2 in R1.
  destruct (rnd_err_gen (prec:=24) (emax:=128) (B2R (fdiv x den))) as (d2 & e2 & D2 & E2 & R2). rewrite <- T3 in R2.
  assert (E1' : Rabs e1 <= bpow radix2 (-152)) by (eapply Rle_trans; [exact E1|apply bpow_le; unfold SpecFloat.emin; lia]).
  assert (E2' : Rabs e2 <= bpow radix2 (-150)) by (eapply Rle_trans; [exact E2|apply bpow_le; unfold SpecFloat.emin; lia]).
  clear E1 E2. change (bpow radix2 (- (24))) with (/ 16777216) in D2. change (bpow radix2 (- (53))) with (/ 9007199254740992) in D1.
  replace (bpow radix2 (-150)) with (4 * bpow radix2 (-152)) in E2' by (change 4 with (bpow radix2 2); rewrite <- bpow_plus; reflexivity).
  replace (bpow radix2 (-149)) with (8 * bpow radix2 (-152)) by (change 8 with (bpow radix2 3); rewrite <- bpow_plus; reflexivity).
  pose proof (bpow_gt_0 radix2 (-152)) as PB. set (b := bpow radix2 (-152)) in *. clearbody b.
  assert (NV : Rabs (D / v - 1) <= 21 / 4294967296).
  { pose proof (near_pos _ _ _ N) as V0. apply (near_rel 3); [lia|]. destruct N as (U1 & U2 & U3). split; [exact V0|]. split; assumption. }
  change (bpow radix2 (-23)) with (/ 8388608).
  rewrite R2, R1. set (u := D / v) in *. set (w := B2R x / D) in *. replace (B2R x / v) with (w * u) by (unfold w, u; field; lra).
  assert (W0 : w <= 0) by (unfold w, Rdiv; pose proof (Rinv_0_lt_compat D D0); nra).
  replace (- B2R x / D) with (- w) by (unfold w; field; lra). clearbody w u.
  apply Rabs_le_inv in D1. apply Rabs_le_inv in D2. apply Rabs_le_inv in E1'. apply Rabs_le_inv in E2'. apply Rabs_le_inv in NV.
  assert (C1 : - / 150000000 <= u * (1 + d1) - 1 <= / 150000000) by nra. set (z := u * (1 + d1)) in *.
  assert (C2 : - / 9000000 <= z * (1 + d2) - 1 <= / 9000000) by nra.
  replace ((w * u * (1 + d1) + e1) * (1 + d2) + e2 - w) with (w * (z * (1 + d2) - 1) + (e1 * (1 + d2) + e2)) by (unfold z; ring).
  set (y := z * (1 + d2) - 1) in *. clearbody y. assert (C3 : - (2 * b) <= e1 * (1 + d2) <= 2 * b) by nra.
  apply Rabs_le. split; nra.
Qed.
(** decay and release steps *)
Lemma new_steps m a d s r : pow10_unit m -> pow10_accurate m -> fin s -> Rabs (B2R s) <= 2000 -> pos_dur d -> pos_dur r ->
  let e := adsr_new m a d s r in let L := dB (Rmin (B2R s) 0) in let D := 48000 * dur_R d in let RR := 48000 * dur_R r in
  fin (ad_d e) /\ -32768 <= B2R (ad_d e) <= 0 /\ Rabs (B2R (ad_d e) + (1 - L) / D) <= bpow radix2 (-22) / D /\
  fin (ad_r e) /\ -32768 <= B2R (ad_r e) <= 0 /\ Rabs (B2R (ad_r e) + L / RR) <= L / RR * bpow radix2 (-22) + bpow radix2 (-149) /\
  fin (ad_s e) /\ Rabs (B2R (ad_s e) - L) <= L * bpow radix2 (-23) + bpow radix2 (-149) /\ 0 < L <= 1.
Proof.
  intros HU HA Fs Hs Pd Pr e L D RR. pose proof (dur_pos d Pd) as DD. pose proof (dur_pos r Pr) as DR.
  assert (NI : s <> B754_infinity true) by (intro C; subst; discriminate Fs).
  destruct (db_unit m s HU NI) as [FL HL]. destruct (fmin0 s NI) as [Fm Hm].
  assert (EM : B2R (fmin s f0) = Rmin (B2R s) 0).
  { unfold fmin. replace (is_nan s) with false by (destruct s; try discriminate; reflexivity). change (is_nan (f0 : f64)) with false. cbv iota.
    destruct (flt s f0) eqn:E.
    - apply (flt_true s f0 Fs eq_refl) in E. change (B2R (f0 : f64)) with 0 in E. rewrite Rmin_left; lra.
    - apply (flt_false s f0 Fs eq_refl) in E. change (B2R (f0 : f64)) with 0 in *. rewrite Rmin_right; lra. }
  assert (AM : Rabs (B2R (fmin s f0)) <= 2000).
  { rewrite EM. apply Rabs_le_inv in Hs. apply Rabs_le. unfold Rmin. destruct Rle_dec; lra. }
  destruct (db_to_linear_ok m (fmin s f0) HA Fm AM) as [_ NL]. rewrite EM in NL. fold L in NL.
  unfold e, adsr_new. cbv zeta. cbn [ad_d ad_r ad_s]. set (l := db_to_linear m (fmin s f0)) in *.
  assert (L1 : 0 < L <= 1).
  { unfold L, dB. split; [apply exp_pos|]. rewrite <- (Rpower_O 10) by lra. apply Rle_Rpower; [lra|]. unfold Rmin. destruct Rle_dec; lra. }
  change (bpow radix2 (-39)) with (/ 549755813888) in NL. apply Rabs_le_inv in NL.
  change (bpow radix2 (-22)) with (/ 4194304). destruct one64 as [F1 V1].
  destruct (fsub_le l (of_Z 1) 1 FL F1) as (Q1 & Q2 & Q3);
    [apply (fmt64_Z 1); lia|pose proof bpow_1024_big; lra|rewrite V1; apply Rabs_le; lra|]. rewrite V1 in Q2. apply Rabs_le_inv in Q3.
  assert (Q4 : B2R (fsub l (of_Z 1)) <= 0) by (rewrite Q2; apply rnd_nonpos; lra).
  assert (Q5 : Rabs (B2R (fsub l (of_Z 1)) - (B2R l - 1)) <= bpow radix2 (-54)).
  { rewrite Q2. apply (rnd_err (prec:=53) (emax:=1024) 0); [unfold SpecFloat.emin; lia|]. change (bpow radix2 0) with 1. apply Rabs_le. lra. }
  change (bpow radix2 (-54)) with (/ 18014398509481984) in Q5. apply Rabs_le_inv in Q5.
  destruct (fall_step_near (fsub l (of_Z 1)) d Q1 ltac:(lra) Pd) as (A1 & A2 & A3). fold D in A3.
  destruct (fall_step_near (fneg l) r) as (B1 & B2 & B3); [rewrite fneg_fin; exact FL|rewrite fneg_R; lra|exact Pr|]. fold RR in B3. rewrite fneg_R in B3.
  change (bpow radix2 (-23)) with (/ 8388608) in *.
  pose proof (bpow_gt_0 radix2 (-149)) as PB.
  assert (SB : bpow radix2 (-149) <= / 281474976710656 * / 281474976710656) by (change (/ 281474976710656) with (bpow radix2 (-48)); rewrite <- bpow_plus; apply bpow_le; lia).
  destruct (fcast_le (p2:=24) (e2:=128) l 1 FL) as (T1 & T2 & _);
    [apply (fmt32_Z 1); lia|pose proof bpow_128_big; lra|apply Rabs_le; lra|].
  change (fcast 24 128 l) with (to32 l) in *.
  destruct (rnd_err_gen (prec:=24) (emax:=128) (B2R l)) as (d2 & e2 & D2 & E2 & R2). change (B2R (to32 l) = rnd32 (B2R l)) in T2. rewrite <- T2 in R2.
  assert (E2' : Rabs e2 <= bpow radix2 (-149)) by (eapply Rle_trans; [exact E2|apply bpow_le; unfold SpecFloat.emin; lia]). clear E2. rename E2' into E2.
  change (bpow radix2 (- (24))) with (/ 16777216) in D2.
  set (b := bpow radix2 (-149)) in *. clearbody b.
  assert (D0 : 0 < D <= 281474976710656) by (unfold D; lra). assert (R0 : 0 < RR <= 281474976710656) by (unfold RR; lra).
  assert (ID : / 281474976710656 <= / D) by (apply Rinv_le; lra). assert (IR : 0 < / RR) by (apply Rinv_0_lt_compat; lra).
  split; [exact A1|]. split; [exact A2|]. split.
  { apply Rabs_le_inv in A3. unfold Rdiv in *. set (x := B2R (fsub l (of_Z 1))) in *. set (i := / D) in *. clearbody i x.
    set (st := B2R (to32 _)) in *. clearbody st. assert (X : - / 500000000000 <= x - (L - 1) <= / 500000000000) by lra.
    assert (X2 : - / 500000000000 * i <= (x - (L - 1)) * i <= / 500000000000 * i) by nra. assert (X3 : - x * i <= i) by nra.
    assert (b <= / 281474976710656 * i) by nra. apply Rabs_le. split; nra. }
  split; [exact B1|]. split; [exact B2|]. split.
  { apply Rabs_le_inv in B3. unfold Rdiv in *. set (i := / RR) in *. clearbody i. set (st := B2R (to32 _)) in *. clearbody st.
    set (x := B2R l) in *. clearbody x. assert (X2 : (L * - / 549755813888) * i <= (x - L) * i <= L * / 549755813888 * i) by nra.
    replace (- - x * i) with (x * i) in B3 by ring. apply Rabs_le. split; nra. }
  split; [exact T1|]. split; [|exact L1].
  rewrite R2. set (x := B2R l) in *. clearbody x. apply Rabs_le_inv in D2. apply Rabs_le_inv in E2.
  replace (x * (1 + d2) + e2 - L) with ((x - L) + x * d2 + e2) by ring. apply Rabs_le. split; nra.
Qed.

(** ** the gain while a phase lasts, and when it ends *)
Lemma attack_back e x : ad_state (snd (adsr_process e x)) = Attack -> ad_state e = Attack.
Proof.
  unfold adsr_process. destruct (ad_state e) eqn:E; intro H; [reflexivity| | | |]; cbv zeta in H; cbn [snd] in H;
    try destruct fle; cbn in H; congruence.
Qed.
Lemma attack_drift (e : adsr) : adsr_ok e -> adsr_inv e -> ad_state e = Attack -> fin (ad_a e) -> 0 < B2R (ad_a e) <= 32768 -> forall xs,
  let n := INR (length xs) in let e' := after_n e xs in
  (ad_state e' = Attack -> Rabs (B2R (ad_g e') - (B2R (ad_g e) + n * B2R (ad_a e))) <= n * bpow radix2 (-25) /\ (xs <> [] -> B2R (ad_g e') < 1)) /\
  (ad_state e' <> Attack -> 1 <= B2R (ad_g e) + n * B2R (ad_a e) + n * bpow radix2 (-25)).
Proof.
  intros K I S0 Fa Ha xs. pose proof (bpow_gt_0 radix2 (-25)) as PB. induction xs as [|x xs IH] using rev_ind.
  - cbv zeta. change (after_n e []) with e. cbn [length INR]. split; [|congruence]. intros _. split; [|congruence]. rewrite !Rmult_0_l, Rplus_0_r, Rminus_diag_eq, Rabs_R0 by reflexivity. lra.
  - cbv zeta in *. destruct (after_n_inv e xs K I) as (K1 & I1 & P1). rewrite after_n_app, app_length, Nat.add_1_r, S_INR.
    set (n := INR (length xs)) in *. assert (N0 : 0 <= n) by apply pos_INR. set (e1 := after_n e xs) in *.
    destruct (ad_state e1) eqn:S1; cycle 1.
    1-4: (split; [intro C; apply attack_back in C; congruence|intros _; destruct IH as [_ IH]; specialize (IH ltac:(discriminate)); nra]).
    destruct IH as [IH _]. destruct (IH eq_refl) as (D & _). clear IH. destruct I1 as (Fg & Hg & _). destruct P1 as (PA & _).
    unfold adsr_process. rewrite S1. cbv zeta. rewrite PA. cbn [snd].
    destruct (fadd_le (ad_g e1) (ad_a e) 65536 Fg Fa) as (F2 & V2 & _); [apply (fmt32_Z 65536); lia|pose proof bpow_128_big; lra|apply Rabs_le; lra|].
    destruct one32 as [F1 V1]. set (g := B2R (ad_g e1)) in *. set (a := B2R (ad_a e)) in *.
    assert (ER : g + a <= 1 -> Rabs (rnd32 (g + a) - (g + a)) <= bpow radix2 (-25)).
    { intro H. apply (rnd_err (prec:=24) (emax:=128) 0); [unfold SpecFloat.emin; lia|]. change (bpow radix2 0) with 1. rewrite Rabs_pos_eq; lra. }
    apply Rabs_le_inv in D.
    destruct (fge (fadd (ad_g e1) (ad_a e)) (of_Z 1)) eqn:C; cbn [adsr_set ad_state ad_g].
    + split; [discriminate|]. intros _. apply (fge_true _ _ F2 F1) in C. rewrite V1, V2 in C.
      destruct (Rle_lt_dec (g + a) 1) as [H|H]; [specialize (ER H); apply Rabs_le_inv in ER; lra|lra].
    + split; [|congruence]. intros _. apply (fge_false _ _ F2 F1) in C. rewrite V1, V2 in C. rewrite V2. split; [|intros _; exact C].
      assert (H : g + a <= 1).
      { apply Rnot_lt_le. intro H. assert (1 <= rnd32 (g + a)) by (apply rnd_ge_fmt; [apply (fmt32_Z 1); lia|lra]). lra. }
      specialize (ER H). apply Rabs_le_inv in ER. apply Rabs_le. lra.
Qed.
Definition next_phase (ph : adsr_state) : adsr_state := match ph with Decay => Sustain | _ => Stopped end.
Lemma next_stays ph e x lo : (ph = Decay \/ ph = Release) -> (ph = Release -> lo = f0) -> ad_state e = next_phase ph -> ad_g e = lo ->
  ad_state (snd (adsr_process e x)) = next_phase ph /\ ad_g (snd (adsr_process e x)) = lo.
Proof. intros [-> | ->] H S1 G; unfold adsr_process; cbn in S1; rewrite S1; cbn [snd]; auto. Qed.
Lemma fall_drift (e : adsr) ph st lo (k : Z) : adsr_ok e -> adsr_inv e -> fall e ph st lo -> ad_state e = ph -> fin st -> -32768 <= B2R st <= 0 ->
  (-100 <= k <= 0)%Z -> B2R (ad_g e) <= bpow radix2 k -> forall xs,
  let n := INR (length xs) in let e' := after_n e xs in
  (ad_state e' = ph /\ Rabs (B2R (ad_g e') - (B2R (ad_g e) + n * B2R st)) <= n * bpow radix2 (k - 25) /\ B2R (ad_g e') <= bpow radix2 k /\ (xs <> [] -> B2R lo < B2R (ad_g e'))) \/
  (ad_state e' = next_phase ph /\ ad_g e' = lo /\ B2R (ad_g e) + n * B2R st - n * bpow radix2 (k - 25) <= B2R lo).
Proof.
  intros K I F S0 Fr Hr Hk Gk xs. pose proof (bpow_gt_0 radix2 (k - 25)) as PB. destruct (fall_ok e ph st lo K F) as (Kr & Kl & Kl1).
  destruct (fle_fin_between lo Kl Kl1) as (Fl & Hl).
  assert (PH : ph = Decay \/ ph = Release) by (destruct F as [(-> & _)|(-> & _)]; auto).
  assert (PL : ph = Release -> lo = f0) by (destruct F as [(-> & _)|(-> & _ & ->)]; [discriminate|auto]).
  induction xs as [|x xs IH] using rev_ind.
  - left. cbv zeta. change (after_n e []) with e. cbn [length INR]. split; [exact S0|]. split; [|split; [exact Gk|congruence]].
    rewrite !Rmult_0_l, Rplus_0_r, Rminus_diag_eq, Rabs_R0 by reflexivity. lra.
  - cbv zeta in *. destruct (after_n_inv e xs K I) as (K1 & I1 & P1). rewrite after_n_app, app_length, Nat.add_1_r, S_INR.
    set (n := INR (length xs)) in *. assert (N0 : 0 <= n) by apply pos_INR. set (e1 := after_n e xs) in *.
    destruct IH as [(S1 & D & G1 & _)|(S1 & G1 & D)].
    2:{ right. destruct (next_stays ph e1 x lo PH PL S1 G1) as [S2 G2]. split; [exact S2|]. split; [exact G2|]. nra. }
    pose proof (fall_params _ _ _ _ _ P1 F) as F1. rewrite (fall_process e1 ph st lo x F1 S1). cbv zeta. cbn [snd]. destruct I1 as (Fg & Hg & _).
    destruct (fadd_le (ad_g e1) st 65536 Fg Fr) as (F2 & V2 & _); [apply (fmt32_Z 65536); lia|pose proof bpow_128_big; lra|apply Rabs_le; lra|].
    set (g := B2R (ad_g e1)) in *. set (a := B2R st) in *.
    assert (ER : 0 <= g + a -> Rabs (rnd32 (g + a) - (g + a)) <= bpow radix2 (k - 25)).
    { intro H. replace (k - 25)%Z with (k - 24 - 1)%Z by ring. apply (rnd_err (prec:=24) (emax:=128) k); [unfold SpecFloat.emin; lia|]. rewrite Rabs_pos_eq; lra. }
    apply Rabs_le_inv in D.
    destruct (fle (fadd (ad_g e1) st) lo) eqn:C; cbn [adsr_set ad_state ad_g].
    + right. split; [destruct PH as [-> | ->]; reflexivity|]. split; [reflexivity|]. apply (fle_true _ _ F2 Fl) in C. rewrite V2 in C.
      destruct (Rle_lt_dec 0 (g + a)) as [H|H]; [specialize (ER H); apply Rabs_le_inv in ER; lra|lra].
    + left. split; [reflexivity|]. apply (fle_false _ _ F2 Fl) in C. rewrite V2 in C. rewrite V2.
      assert (H : 0 <= g + a).
      { apply Rnot_lt_le. intro H. assert (rnd32 (g + a) <= 0) by (apply rnd_nonpos; lra). lra. }
      specialize (ER H). apply Rabs_le_inv in ER. split; [apply Rabs_le; lra|]. split; [|intros _; exact C].
      apply rnd_le_fmt; [apply fmt32_b; lia|lra].
Qed.

Lemma attack_shape m a d s r xs : pow10_unit m -> s <> B754_infinity true -> pos_dur a -> pos_dur d -> pos_dur r ->
  let A := 48000 * dur_R a in let n := INR (length xs) in let err := n * (bpow radix2 (-25) + bpow radix2 (-22) / A) in
  let e := after_n (adsr_new m a d s r) xs in
  (n / A + err < 1 -> ad_state e = Attack /\ Rabs (B2R (ad_g e) - n / A) <= err) /\ (1 <= n / A - err -> ad_state e <> Attack).
Proof.
  intros HU Hs Pa Pd Pr A n err e. destruct (attack_step_near a Pa) as (F & HA & E). fold A in E. pose proof (dur_pos a Pa) as DP.
  destruct Pa as [Da Pa'], Pd as [Dd Pd'], Pr as [Dr Pr']. destruct (adsr_new_ok m a d r s HU Hs Da Dd Dr Pa' Pd' Pr') as [K I].
  pose proof (attack_drift (adsr_new m a d s r) K I eq_refl F HA xs) as T. cbv zeta in T. fold n e in T.
  change (ad_a (adsr_new m a d s r)) with (fdiv (of_Z 1) (to32 (fmul (as_secs_f64 a) SR64)) : f32) in T.
  change (B2R (ad_g (adsr_new m a d s r))) with 0 in T. set (st := B2R (fdiv (of_Z 1) _)) in *.
  assert (N0 : 0 <= n) by apply pos_INR. apply Rabs_le_inv in E.
  assert (E1 : n * - (bpow radix2 (-22) / A) <= n * (st - / A)) by (apply Rmult_le_compat_l; lra).
  assert (E2 : n * (st - / A) <= n * (bpow radix2 (-22) / A)) by (apply Rmult_le_compat_l; lra).
  assert (ND : n / A = n * / A) by reflexivity. unfold err. rewrite ND. destruct T as [T1 T2]. split.
  - intro H. destruct (ad_state e) eqn:S1.
    2-5: exfalso; specialize (T2 ltac:(discriminate)); lra.
    split; [reflexivity|]. destruct (T1 eq_refl) as [B _]. apply Rabs_le_inv in B. apply Rabs_le. lra.
  - intros H C. destruct (T1 C) as [B L]. apply Rabs_le_inv in B.
    assert (NE : xs <> []) by (intro Z; unfold n in *; subst xs; cbn [length INR] in *; lra). specialize (L NE). lra.
Qed.
Lemma decay_shape m a d s r h xs : pow10_unit m -> pow10_accurate m -> fin s -> Rabs (B2R s) <= 2000 -> pos_dur a -> pos_dur d -> pos_dur r ->
  let e := adsr_after (adsr_new m a d s r) h in ad_state e = Decay -> ad_g e = of_Z 1 ->
  let L := dB (Rmin (B2R s) 0) in let D := 48000 * dur_R d in let n := INR (length xs) in
  let v := 1 - n * (1 - L) / D in let err := n * (bpow radix2 (-25) + bpow radix2 (-22) / D) in let e' := after_n e xs in
  (L + bpow radix2 (-22) < v - err -> ad_state e' = Decay /\ Rabs (B2R (ad_g e') - v) <= err) /\
  (v + err < L - bpow radix2 (-22) -> ad_state e' = Sustain /\ Rabs (B2R (ad_g e') - L) <= L * bpow radix2 (-23) + bpow radix2 (-149)).
Proof.
  intros HU HA Fs Hs Pa Pd Pr e S0 G0 L D n v err e'. pose proof (dur_pos d Pd) as DP.
  assert (NI : s <> B754_infinity true) by (intro C; subst; discriminate Fs).
  destruct (new_steps m a d s r HU HA Fs Hs Pd Pr) as (F1 & F2 & F3 & _ & _ & _ & F7 & F8 & F9). fold L D in F3, F8, F9.
  destruct Pa as [Da Pa'], Pd as [Dd Pd'], Pr as [Dr Pr']. destruct (adsr_new_ok m a d r s HU NI Da Dd Dr Pa' Pd' Pr') as [K I].
  destruct (adsr_history _ K I h) as (P & I'). fold e in P, I'. pose proof (adsr_params_ok _ _ P K) as K'.
  destruct P as (_ & PD & PS & _). destruct one32 as [F1' V1].
  pose proof (fall_drift e Decay (ad_d e) (ad_s e) 0 K' I' (or_introl (conj eq_refl (conj eq_refl eq_refl))) S0) as T. rewrite PD, PS in T.
  specialize (T F1 F2 ltac:(lia)). rewrite G0, V1 in T. specialize (T ltac:(change (bpow radix2 0) with 1; lra) xs). cbv zeta in T. fold n e' in T.
  change (bpow radix2 (0 - 25)) with (bpow radix2 (-25)) in T. set (st := B2R (ad_d _)) in *. set (lo := ad_s _) in *.
  assert (N0 : 0 <= n) by apply pos_INR. apply Rabs_le_inv in F3.
  assert (E1 : n * - (bpow radix2 (-22) / D) <= n * (st + (1 - L) / D)) by (apply Rmult_le_compat_l; lra).
  assert (E2 : n * (st + (1 - L) / D) <= n * (bpow radix2 (-22) / D)) by (apply Rmult_le_compat_l; lra).
  assert (ND : v = 1 - n * ((1 - L) / D)) by (unfold v, Rdiv; ring). unfold err. rewrite ND.
  assert (LL : Rabs (B2R lo - L) < bpow radix2 (-22)).
  { eapply Rle_lt_trans; [exact F8|]. assert (bpow radix2 (-149) <= bpow radix2 (-23)) by (apply bpow_le; lia).
    change (bpow radix2 (-23)) with (/ 8388608) in *. change (bpow radix2 (-22)) with (/ 4194304). change (bpow radix2 (-149)) with (bpow radix2 (-24 - 125)) in *.
    assert (bpow radix2 (-24 - 125) < / 8388608) by (change (/ 8388608) with (bpow radix2 (-23)); apply bpow_lt; lia). nra. }
  apply Rabs_le_inv in F8. apply Rabs_lt_inv in LL. pose proof (bpow_gt_0 radix2 (-22)) as P22.
  destruct T as [(S1 & B & _ & GT)|(S1 & G1 & B)].
  - apply Rabs_le_inv in B. split; intro H; [split; [exact S1|apply Rabs_le; lra]|]. exfalso.
    assert (NE : xs <> []) by (intro Z; unfold n in *; subst xs; cbn [length INR] in *; lra). specialize (GT NE). lra.
  - split; intro H; [exfalso; lra|]. split; [exact S1|]. rewrite G1. apply Rabs_le. exact F8.
Qed.
Lemma release_shape m a d s r h (k : Z) xs : pow10_unit m -> pow10_accurate m -> fin s -> Rabs (B2R s) <= 2000 -> pos_dur a -> pos_dur d -> pos_dur r ->
  let e := adsr_after (adsr_new m a d s r) h in (-100 <= k <= 0)%Z -> B2R (ad_g e) <= bpow radix2 k ->
  let L := dB (Rmin (B2R s) 0) in let T := 48000 * dur_R r in let n := INR (length xs) in
  let v := B2R (ad_g e) - n * L / T in let err := n * (bpow radix2 (k - 24) + L / T * bpow radix2 (-22)) in let e' := after_n (adsr_release e) xs in
  (0 < v - err -> ad_state e' = Release /\ Rabs (B2R (ad_g e') - v) <= err) /\ (v + err <= 0 -> xs <> [] -> ad_state e' = Stopped).
Proof.
  intros HU HA Fs Hs Pa Pd Pr e Hk Gk L T n v err e'. pose proof (dur_pos r Pr) as DP.
  assert (NI : s <> B754_infinity true) by (intro C; subst; discriminate Fs).
  destruct (new_steps m a d s r HU HA Fs Hs Pd Pr) as (_ & _ & _ & F1 & F2 & F3 & _ & _ & F9). fold L T in F3, F9.
  destruct Pa as [Da Pa'], Pd as [Dd Pd'], Pr as [Dr Pr']. destruct (adsr_new_ok m a d r s HU NI Da Dd Dr Pa' Pd' Pr') as [K I].
  destruct (adsr_history _ K I h) as (P & I'). fold e in P, I'. pose proof (adsr_params_ok _ _ P K) as K'.
  destruct P as (_ & _ & _ & PR).
  pose proof (fall_drift (adsr_release e) Release (ad_r e) f0 k K' (release_inv _ I') (release_fall e) eq_refl) as X. rewrite PR in X.
  specialize (X F1 F2 Hk Gk xs). cbv zeta in X. fold n e' in X. change (ad_g (adsr_release e)) with (ad_g e) in X. change (B2R (f0 : f32)) with 0 in X.
  set (st := B2R (ad_r _)) in *. set (g := B2R (ad_g e)) in *.
  assert (N0 : 0 <= n) by apply pos_INR. apply Rabs_le_inv in F3.
  assert (SM : bpow radix2 (-149) <= bpow radix2 (k - 25)) by (apply bpow_le; lia).
  assert (DB : bpow radix2 (k - 24) = 2 * bpow radix2 (k - 25)) by (rewrite double_bpow; f_equal; lia).
  set (b := bpow radix2 (k - 25)) in *. set (w := L / T * bpow radix2 (-22)) in *.
  assert (E1 : n * - (w + b) <= n * (st + L / T)) by (apply Rmult_le_compat_l; lra).
  assert (E2 : n * (st + L / T) <= n * (w + b)) by (apply Rmult_le_compat_l; lra).
  assert (ND : v = g - n * (L / T)) by (unfold v, Rdiv; ring). unfold err. rewrite ND, DB.
  destruct X as [(S1 & B & _ & GT)|(S1 & G1 & B)].
  - apply Rabs_le_inv in B. split; [intro H; split; [exact S1|apply Rabs_le; lra]|]. intros H NE. exfalso. specialize (GT NE). lra.
  - split; [intro H; exfalso; lra|]. intros _ _. exact S1.
Qed.
(** a release from full gain is not over after the release time *)
Lemma release_late m a d s r h xs : pow10_unit m -> pow10_accurate m -> fin s -> Rabs (B2R s) <= 2000 -> pos_dur a -> pos_dur d -> pos_dur r ->
  let e := adsr_after (adsr_new m a d s r) h in ad_g e = of_Z 1 -> dB (Rmin (B2R s) 0) <= / 2 -> 48000 * dur_R r <= 1048576 -> INR (length xs) <= 48000 * dur_R r ->
  ad_state (after_n (adsr_release e) xs) = Release /\ 3 / 8 <= B2R (ad_g (after_n (adsr_release e) xs)).
Proof.
  intros HU HA Fs Hs Pa Pd Pr e G HL HR HN. pose proof (dur_pos r Pr) as DP. destruct one32 as [F1 V1].
  destruct (new_steps m a d s r HU HA Fs Hs Pd Pr) as (_ & _ & _ & _ & _ & _ & _ & _ & F9).
  assert (G1 : B2R (ad_g e) <= bpow radix2 0) by (rewrite G, V1; change (bpow radix2 0) with 1; lra).
  destruct (release_shape m a d s r h 0 xs HU HA Fs Hs Pa Pd Pr ltac:(lia) G1) as [X _]. fold e in X. rewrite G, V1 in X.
  set (L := dB _) in *. set (T := 48000 * dur_R r) in *. set (n := INR (length xs)) in *. change (bpow radix2 (0 - 24)) with (/ 16777216) in X. change (bpow radix2 (-22)) with (/ 4194304) in X.
  assert (N0 : 0 <= n) by apply pos_INR. assert (T0 : 0 < T) by (unfold T; lra).
  assert (Q : 0 <= n / T <= 1). { split; [apply Rmult_le_pos; [exact N0|left; apply Rinv_0_lt_compat, T0]|]. apply Rmult_le_reg_r with T; [exact T0|]. unfold Rdiv. rewrite Rmult_assoc, Rinv_l; lra. }
  assert (V : n * L / T = n / T * L) by (unfold Rdiv; ring).
  assert (W : n * (/ 16777216 + L / T * / 4194304) = n * / 16777216 + n / T * L * / 4194304) by (unfold Rdiv; ring).
  rewrite V, W in X. set (q := n / T) in *. clearbody q. assert (QL : 0 <= q * L <= / 2) by nra. set (y := q * L) in *. clearbody y.
  destruct X as [S1 B]; [lra|]. split; [exact S1|]. apply Rabs_le_inv in B. lra.
Qed.
