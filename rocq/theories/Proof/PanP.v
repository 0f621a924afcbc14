(** * Panning direction *)
From Coq Require Import ZArith Reals Lra Lia Psatz.
From Flocq Require Import Core.Core IEEE754.BinarySingleNaN.
From Verif Require Import Model.Floats Model.SampleFormat Model.Utils Model.Stereo Spec.Libm
  Proof.FloatFacts Proof.SampleFormatP Proof.FormatsP Proof.LibmP.
Local Open Scope R_scope.

(** applying a gain in [L,U] in f64 and rounding to f32 *)
Lemma apply_gain (g : f64) (s : f32) L U : fin g -> fin s ->
  / 10000000 <= L -> L <= B2R g <= U -> U <= 2 ->
  bpow radix2 (-100) <= B2R s <= bpow radix2 100 ->
  0.999 * L * B2R s <= B2R (to32 (fmul g (to64 s))) <= 1.001 * U * B2R s.
Proof.
  intros Fg Fs HL [G1 G2] HU [S1 S2]. destruct (to64_ok s Fs) as [F64 V64].
  set (G := B2R g) in *. set (X := B2R s) in *.
  pose proof (bpow_gt_0 radix2 (-100)) as b1. pose proof (bpow_gt_0 radix2 100) as b2.
  assert (X0 : 0 < X) by lra. assert (G0 : 0 < G) by lra.
  assert (P0 : 0 < G * X) by (apply Rmult_lt_0_compat; assumption).
  assert (PU : G * X <= bpow radix2 101).
  { change 101%Z with (100 + 1)%Z. rewrite bpow_double. nra. }
  assert (PL : bpow radix2 (-124) <= G * X).
  { change (-124)%Z with (-24 + -100)%Z. rewrite bpow_plus.
    apply Rmult_le_compat; [apply bpow_ge_0|apply bpow_ge_0| |lra].
    change (bpow radix2 (-24)) with (/ 16777216). lra. }
  destruct (fmul_le g (to64 s) (bpow radix2 101)) as (A & B & C);
    [exact Fg|exact F64|apply fmt64_b; lia|apply bpow_lt; lia| |].
  { rewrite V64. fold G X. rewrite Rabs_pos_eq by lra. lra. }
  rewrite V64 in B. fold G X in B.
  destruct (rnd_rel (prec:=53) (emax:=1024) (G * X)) as (d & D & E).
  { rewrite Rabs_pos_eq by lra. eapply Rle_trans; [|exact PL]. apply bpow_le. unfold SpecFloat.emin. lia. }
  assert (D' : Rabs d <= / 16777216).
  { eapply Rle_trans; [exact D|]. change (/ 16777216) with (bpow radix2 (-24)). apply bpow_le. lia. }
  apply Rabs_le_inv in D'.
  set (q := fmul g (to64 s)) in *.
  destruct (fcast_le (p2:=24) (e2:=128) q (bpow radix2 101) A) as (A2 & B2 & _);
    [apply fmt32_b; lia|apply bpow_lt; lia|exact C|].
  destruct (rnd_rel (prec:=24) (emax:=128) (B2R q)) as (d2 & D2 & E2).
  { rewrite B, E. rewrite Rabs_pos_eq by (apply Rlt_le, Rmult_lt_0_compat; lra).
    change (SpecFloat.emin 24 128 + 24 - 1)%Z with (-126)%Z.
    change (-124)%Z with (-126 + 1 + 1)%Z in PL. rewrite !bpow_double in PL.
    pose proof (bpow_gt_0 radix2 (-126)). nra. }
  assert (D2' : Rabs d2 <= / 16777216) by exact D2. apply Rabs_le_inv in D2'.
  change (to32 q) with (fcast 24 128 q). rewrite B2, E2, B, E.
  assert (HH : 0.999 <= (1 + d) * (1 + d2) <= 1.001) by (split; nra).
  replace (G * X * (1 + d) * (1 + d2)) with (((1 + d) * (1 + d2)) * (G * X)) by ring.
  assert (L * X <= G * X) by (apply Rmult_le_compat_r; lra).
  assert (G * X <= U * X) by (apply Rmult_le_compat_r; lra).
  assert (0 < L * X) by (apply Rmult_lt_0_compat; lra).
  split.
  - replace (0.999 * L * X) with (0.999 * (L * X)) by ring. apply Rmult_le_compat; lra.
  - replace (1.001 * U * X) with (1.001 * (U * X)) by ring. apply Rmult_le_compat; lra.
Qed.

Lemma Rpower_m17 : Rpower 10 (- / 7) <= 0.72.
Proof.
  destruct (Rle_lt_dec (Rpower 10 (- / 7)) 0.72) as [H|H]; [exact H|exfalso].
  assert (E : Rpower 10 (- / 7) ^ 7 = / 10).
  { rewrite <- Rpower_pow by apply Rpower10_pos. rewrite Rpower_mult.
    replace (- / 7 * INR 7) with (- (1)) by (simpl; field). rewrite Rpower_Ropp, Rpower_1 by lra. reflexivity. }
  assert (0.72 ^ 7 <= Rpower 10 (- / 7) ^ 7) by (apply pow_incr; lra). lra.
Qed.
Lemma Rpower_m213 : 0.7 <= Rpower 10 (- (2 / 13)).
Proof.
  destruct (Rle_lt_dec 0.7 (Rpower 10 (- (2 / 13)))) as [H|H]; [exact H|exfalso].
  assert (E : Rpower 10 (- (2 / 13)) ^ 13 = / 100).
  { rewrite <- Rpower_pow by apply Rpower10_pos. rewrite Rpower_mult.
    replace (- (2 / 13) * INR 13) with (- (INR 2)) by (simpl; field). rewrite Rpower_Ropp, Rpower_pow by lra.
    simpl. lra. }
  pose proof (Rpower10_pos (- (2 / 13))).
  assert (Rpower 10 (- (2 / 13)) ^ 13 <= 0.7 ^ 13) by (apply pow_incr; lra). lra.
Qed.

Lemma gain_range m db : pow10_accurate m -> fin (fdiv db (of_Z 20)) -> forall lo hi,
  lo <= B2R (fdiv db (of_Z 20)) <= hi -> -100 <= lo -> hi <= 100 ->
  fin (db_to_linear m db) /\
  0.9999999 * Rpower 10 lo <= B2R (db_to_linear m db) <= 1.0000001 * Rpower 10 hi.
Proof.
  intros Hm F lo hi [H1 H2] Hlo Hhi.
  destruct (Hm (fdiv db (of_Z 20)) F) as [A B]; [apply Rabs_le; lra|].
  unfold db_to_linear, db_to_linear_g. split; [exact A|].
  set (y := B2R (fdiv db (of_Z 20))) in *.
  pose proof (Rpower10_mono _ _ H1). pose proof (Rpower10_mono _ _ H2).
  pose proof (Rpower10_pos lo). pose proof (Rpower10_pos y).
  assert (K : Rpower 10 y * bpow radix2 (-40) <= Rpower 10 y * 0.0000001).
  { apply Rmult_le_compat_l; [lra|]. change (bpow radix2 (-40)) with (/ 1099511627776). lra. }
  pose proof (Rle_trans _ _ _ B K) as B'. apply Rabs_le_inv in B'. lra.
Qed.

Lemma gain_m3 m : pow10_accurate m ->
  fin (db_to_linear m (of_Z (-3))) /\ 0.699 <= B2R (db_to_linear m (of_Z (-3))) <= 0.721.
Proof.
  intro Hm. destruct (B2R_of_SF (fdiv (of_Z (-3)) (of_Z 20) : f64) true 5404319552844595 (-55)) as [A B].
  { vm_compute. reflexivity. }
  destruct (gain_range m (of_Z (-3)) Hm A (- (2/13)) (- / 7)) as [C D].
  - rewrite B. change (bpow radix2 (-55)) with (/ 36028797018963968). simpl cond_Zopp. lra.
  - lra.
  - lra.
  - split; [exact C|]. pose proof Rpower_m17. pose proof Rpower_m213. lra.
Qed.
Lemma gain_m120 m : pow10_accurate m ->
  fin (db_to_linear m (of_Z (-120))) /\ 0.00000099 <= B2R (db_to_linear m (of_Z (-120))) <= 0.00000101.
Proof.
  intro Hm. destruct (B2R_of_SF (fdiv (of_Z (-120)) (of_Z 20) : f64) true 6755399441055744 (-50)) as [A B].
  { vm_compute. reflexivity. }
  assert (V : B2R (fdiv (of_Z (-120)) (of_Z 20) : f64) = - (6)).
  { rewrite B. change (bpow radix2 (-50)) with (/ 1125899906842624). simpl cond_Zopp. lra. }
  destruct (gain_range m (of_Z (-120)) Hm A (- (6)) (- (6))) as [C D]; [rewrite V; lra|lra|lra|].
  split; [exact C|].
  assert (E : Rpower 10 (- (6)) = 0.000001).
  { rewrite Rpower_Ropp. replace 6 with (INR 6) by (simpl; ring). rewrite Rpower_pow by lra. simpl. lra. }
  rewrite E in D. lra.
Qed.
Lemma gain_0 m : pow10_accurate m ->
  fin (db_to_linear m f0) /\ 0.9999999 <= B2R (db_to_linear m f0) <= 1.0000001.
Proof.
  intro Hm. destruct (B2R_of_SF0 (fdiv f0 (of_Z 20) : f64) false) as [A B].
  { vm_compute. reflexivity. }
  destruct (gain_range m f0 Hm A 0 0) as [C D]; [rewrite B; lra|lra|lra|].
  rewrite Rpower_O in D by lra. split; [exact C|lra].
Qed.

Lemma pan_left_dbs : pan_l_db true (of_Z (-1)) = of_Z (-3) /\ pan_r_db false (of_Z (-1)) = f0.
Proof. split; apply B2SF_inj; vm_compute; reflexivity. Qed.
Lemma pan_mid_dbs : pan_l_db true f0 = of_Z (-120) /\ pan_r_db true f0 = of_Z (-3).
Proof. split; apply B2SF_inj; vm_compute; reflexivity. Qed.
Lemma pan_right_dbs : pan_l_db false (of_Z 1) = of_Z (-3) /\ pan_r_db true (of_Z 1) = of_Z (-120).
Proof. split; apply B2SF_inj; vm_compute; reflexivity. Qed.

Lemma pan_directions m (s : f32) : pow10_accurate m -> fin s ->
  bpow radix2 (-100) <= B2R s <= bpow radix2 100 ->
  let full_left := pan64 m s (of_Z (-1)) in
  let centre := pan64 m s f0 in
  let full_right := pan64 m s (of_Z 1) in
  (0.69 * B2R s <= B2R (left full_left) <= 0.73 * B2R s /\
   0.99 * B2R s <= B2R (right full_left) <= 1.01 * B2R s) /\
  (B2R (left centre) <= 0.000002 * B2R s /\
   0.69 * B2R s <= B2R (right centre) <= 0.73 * B2R s) /\
  (0.69 * B2R s <= B2R (left full_right) <= 0.73 * B2R s /\
   B2R (right full_right) <= 0.000002 * B2R s).
Proof.
  intros Hm Fs Hs. cbv zeta.
  assert (P : 0 < B2R s) by (pose proof (bpow_gt_0 radix2 (-100)); lra).
  destruct (gain_m3 m Hm) as [A3 B3]. destruct (gain_m120 m Hm) as [A120 B120].
  destruct (gain_0 m Hm) as [A0 B0].
  pose proof (apply_gain _ s 0.699 0.721 A3 Fs ltac:(lra) B3 ltac:(lra) Hs) as G3.
  pose proof (apply_gain _ s 0.00000099 0.00000101 A120 Fs ltac:(lra) B120 ltac:(lra) Hs) as G120.
  pose proof (apply_gain _ s 0.9999999 1.0000001 A0 Fs ltac:(lra) B0 ltac:(lra) Hs) as G0.
  destruct pan_left_dbs as [L1 L2]. destruct pan_mid_dbs as [M1 M2]. destruct pan_right_dbs as [R1 R2].
  unfold pan64.
  change (fle (of_Z (-1) : f64) f0) with true. change (fge (of_Z (-1) : f64) f0) with false.
  change (fle (f0 : f64) f0) with true. change (fge (f0 : f64) f0) with true.
  change (fle (of_Z 1 : f64) f0) with false. change (fge (of_Z 1 : f64) f0) with true.
  rewrite L1, L2, M1, M2, R1, R2. unfold pan_apply. cbn [left right].
  repeat split; nra.
Qed.
