(** * A band pass whose corners are set before every sample can blow up *)
From Coq Require Import ZArith List Bool Reals Lra Lia Psatz.
From Flocq Require Import Core.Core IEEE754.BinarySingleNaN.
From Verif Require Import Model.Floats Model.Modifiers Model.Filters Spec.Libm Spec.Response Spec.Track Spec.Change Proof.FloatFacts Proof.SampleFormatP Proof.FormatsP
  Proof.GenericP Proof.GeneratorsP Proof.GeneratorsP4 Proof.NearP Proof.FilterF32P Proof.FilterF32P2 Proof.BandPassP Proof.BandPassF32P Proof.CornersP Proof.FilterNanP Proof.TrackP Proof.TrackP3.
Import ListNotations.
Local Open Scope R_scope.

(** ** the value of one step in reals *)
Definition sval (a b c : R) : R := rnd64 (rnd64 (rnd64 a + rnd64 b) - rnd64 c).
Lemma sval_ge a b c g : fmt64 g -> 0 <= a -> g <= b -> c <= 0 -> g <= sval a b c.
Proof.
  intros F A B C. unfold sval. apply rnd_ge_fmt; [exact F|]. pose proof (rnd_nonneg (prec:=53) (emax:=1024) a A). pose proof (rnd_ge_fmt (prec:=53) (emax:=1024) b g F B).
  pose proof (rnd_nonpos (prec:=53) (emax:=1024) c C). pose proof (rnd_ge_fmt (prec:=53) (emax:=1024) (rnd64 a + rnd64 b) g F ltac:(lra)). lra.
Qed.
Lemma sval_le a b c g : fmt64 g -> a <= 0 -> b <= - g -> 0 <= c -> sval a b c <= - g.
Proof.
  intros F A B C. pose proof (fmt_opp (prec:=53) (emax:=1024) g F) as F'. unfold sval. apply rnd_le_fmt; [exact F'|]. pose proof (rnd_nonpos (prec:=53) (emax:=1024) a A).
  pose proof (rnd_le_fmt (prec:=53) (emax:=1024) b (- g) F' B).
  pose proof (rnd_nonneg (prec:=53) (emax:=1024) c C). pose proof (rnd_le_fmt (prec:=53) (emax:=1024) (rnd64 a + rnd64 b) (- g) F' ltac:(lra)). lra.
Qed.
Lemma small64 v e : (0 <= e <= 900)%Z -> Rabs v <= bpow radix2 e -> Rabs (rnd64 v) <= bpow radix2 e /\ Rabs (rnd64 v) < bpow radix2 1024.
Proof.
  intros HE H. pose proof (rnd_abs_le (prec:=53) (emax:=1024) v (bpow radix2 e) (fmt_bpow (prec:=53) (emax:=1024) e ltac:(unfold SpecFloat.emin; lia)) H) as A.
  split; [exact A|]. apply Rle_lt_trans with (1 := A). apply bpow_lt. lia.
Qed.
Lemma bp_step_hist {T S} (A : arith T) (sub : S -> S -> S) up dn c (h : bph S) x :
  snd (bp_step A sub up dn c h x) = mkBPH x (bh_x1 h) (fst (bp_step A sub up dn c h x)) (bh_y1 h).
Proof. reflexivity. Qed.
Section Step.
Variable m : libm.
Variable c : bpc f64.
Hypothesis FA : fin (bc_a0 c). Hypothesis FP : fin (bc_b1 c). Hypothesis FQ : fin (bc_b2 c).
Hypothesis BA : Rabs (B2R (bc_a0 c)) <= 4. Hypothesis BP : Rabs (B2R (bc_b1 c)) <= 4. Hypothesis BQ : Rabs (B2R (bc_b2 c)) <= 4.
Lemma step_val (h : bph f32) (x : f32) : fin (fsub x (bh_x2 h)) -> fin (bh_y1 h) -> fin (bh_y2 h) ->
  let y := fst (bp_step (A64 m) fsub to64 to32 c h x) in fin y ->
  B2R y = rnd32 (sval (B2R (bc_a0 c) * B2R (fsub x (bh_x2 h))) (B2R (bc_b1 c) * B2R (bh_y1 h)) (B2R (bc_b2 c) * B2R (bh_y2 h))).
Proof.
  intros Fd F1 F2 y Fy. subst y. revert Fy. unfold bp_step. cbn [fst a_add a_sub a_mul A64]. generalize dependent (fsub x (bh_x2 h)). intros d Fd.
  generalize dependent (bh_y1 h). intros y1 F1. generalize dependent (bh_y2 h). intros y2 F2.
  destruct (to64_ok d Fd) as [Gd Vd]. destruct (to64_ok y1 F1) as [G1 V1]. destruct (to64_ok y2 F2) as [G2 V2].
  assert (L : forall (z : f32) k, Rabs k <= 4 -> Rabs (k * B2R z) <= bpow radix2 130).
  { intros z k K. replace (bpow radix2 130) with (bpow radix2 2 * bpow radix2 128) by (rewrite <- bpow_plus; reflexivity). apply mul_bd; [exact K|left; apply abs_B2R_lt]. }
  destruct (small64 _ 130 ltac:(lia) (L d _ BA)) as [A1 A2]. destruct (small64 _ 130 ltac:(lia) (L y1 _ BP)) as [B1 B2]. destruct (small64 _ 130 ltac:(lia) (L y2 _ BQ)) as [C1 C2].
  rewrite <- Vd in A2. rewrite <- V1 in B2. rewrite <- V2 in C2.
  destruct (fmul_ok _ _ FA Gd A2) as [P0 E0]. destruct (fmul_ok _ _ FP G1 B2) as [P1 E1]. destruct (fmul_ok _ _ FQ G2 C2) as [P2 E2].
  rewrite Vd in E0. rewrite V1 in E1. rewrite V2 in E2.
  generalize dependent (fmul (bc_a0 c) (to64 d)). intros p0 P0 E0. generalize dependent (fmul (bc_b1 c) (to64 y1)). intros p1 P1 E1.
  generalize dependent (fmul (bc_b2 c) (to64 y2)). intros p2 P2 E2. intro Fy.
  assert (S1 : Rabs (B2R p0 + B2R p1) <= bpow radix2 131) by (rewrite E0, E1; replace (bpow radix2 131) with (2 * bpow radix2 130) by (change 2 with (bpow radix2 1); rewrite <- bpow_plus; reflexivity); eapply Rle_trans; [apply tri; eassumption|lra]).
  destruct (small64 _ 131 ltac:(lia) S1) as [S2 S3]. destruct (fadd_ok p0 p1 P0 P1 S3) as [P3 E3].
  generalize dependent (fadd p0 p1). intros s1 Fy P3 E3.
  assert (T1 : Rabs (B2R s1 - B2R p2) <= bpow radix2 132).
  { rewrite E3, E2. replace (bpow radix2 132) with (2 * bpow radix2 131) by (change 2 with (bpow radix2 1); rewrite <- bpow_plus; reflexivity). eapply Rle_trans; [apply trim; [exact S2|exact C1]|].
    assert (bpow radix2 130 <= bpow radix2 131) by (apply bpow_le; lia). lra. }
  destruct (small64 _ 132 ltac:(lia) T1) as [T2 T3]. destruct (fsub_ok s1 p2 P3 P2 T3) as [P4 E4].
  rewrite (proj1 (fcast_inv _ P4 Fy)), E4, E3, E2, E0, E1. reflexivity.
Qed.
End Step.
(** one and a half times a sample, in both formats *)
Lemma fmt_3half (y : f32) : fmt64 (3 / 2 * B2R y).
Proof.
  pose proof (fmt_B2R (prec:=24) (emax:=128) y) as F. apply FLT_format_generic in F; [|reflexivity]. destruct F as [[mz e] E1 E2 E3]. cbn [Fnum Fexp] in *.
  rewrite E1. unfold F2R. cbn [Fnum Fexp].
  replace (3 / 2 * (IZR mz * bpow radix2 e)) with (IZR (3 * mz) * bpow radix2 (e - 1)).
  - apply (fmt_FLT (prec:=53) (emax:=1024)); [|unfold SpecFloat.emin in *; lia]. change (Zpower radix2 24) with 16777216%Z in E2. change (2 ^ 53)%Z with 9007199254740992%Z. lia.
  - rewrite mult_IZR. replace e with ((e - 1) + 1)%Z at 2 by ring. rewrite bpow_plus. change (bpow radix2 1) with 2. field.
Qed.
Lemma rnd_3half v : bpow radix2 (-100) <= v -> 5 / 4 * v <= rnd32 (3 / 2 * v).
Proof.
  intro H. pose proof (bpow_gt_0 radix2 (-100)) as P. pose proof (gen32 (3 / 2 * v)) as G. rewrite (Rabs_pos_eq (3 / 2 * v)) in G by lra.
  assert (ET : eta0 <= / 16 * v).
  { apply Rle_trans with (bpow radix2 (-4) * bpow radix2 (-100)); [unfold eta0; rewrite <- bpow_plus; apply bpow_le; lia|]. change (bpow radix2 (-4)) with (/ 16). apply Rmult_le_compat_l; lra. }
  apply Rabs_le_inv in G. unfold w32 in G. lra.
Qed.

(** ** growth over a pair of steps *)
Record tame (c : bpc f64) : Prop := mkTame {
  t_a : fin (bc_a0 c); t_b1 : fin (bc_b1 c); t_b2 : fin (bc_b2 c); t_pa : / 100 <= B2R (bc_a0 c) <= 4; t_pb : Rabs (B2R (bc_b1 c)) <= 4; t_pc : 0 <= B2R (bc_b2 c) <= 4 }.
Section Pair.
Variable m : libm.
Variables cA cB : bpc f64.
Hypothesis TA : tame cA. Hypothesis TB : tame cB.
Hypothesis HA : 3 / 2 <= B2R (bc_b1 cA). Hypothesis HB : B2R (bc_b1 cB) <= - 1.
Let stepA := bp_step (A64 m) fsub to64 to32 cA.
Let stepB := bp_step (A64 m) fsub to64 to32 cB.
(** the last two outputs have opposite signs, the last one being at least [v]; the inputs do not get in the way *)
Definition poised (h : bph f32) (v : R) : Prop :=
  fin (bh_x1 h) /\ B2R (bh_x1 h) = 0 /\ fin (bh_x2 h) /\ Rabs (B2R (bh_x2 h)) <= 1 /\ fin (bh_y1 h) /\ fin (bh_y2 h) /\ bpow radix2 (-100) <= v /\
  ((v <= B2R (bh_y1 h) /\ B2R (bh_y2 h) <= 0 /\ B2R (bh_x2 h) <= 0) \/ (B2R (bh_y1 h) <= - v /\ 0 <= B2R (bh_y2 h) /\ 0 <= B2R (bh_x2 h))).
Lemma sub0 (x x2 : f32) : fin x -> B2R x = 0 -> fin x2 -> Rabs (B2R x2) <= 1 -> fin (fsub x x2) /\ B2R (fsub x x2) = - B2R x2.
Proof.
  intros F E F2 B. assert (R : rnd32 (B2R x - B2R x2) = - B2R x2) by (rewrite E, Rminus_0_l, rnd_opp, rnd_B2R; reflexivity).
  destruct (fsub_ok x x2 F F2) as [A C]; [rewrite R, Rabs_Ropp; apply abs_B2R_lt|]. split; [exact A|]. rewrite C. exact R.
Qed.
Lemma abs4 r : / 100 <= r <= 4 -> Rabs r <= 4. Proof. intro H. apply Rabs_le. lra. Qed.
Lemma abs4' r : 0 <= r <= 4 -> Rabs r <= 4. Proof. intro H. apply Rabs_le. lra. Qed.
Lemma rnd32_ge v w : fmt32 v -> v <= w -> v <= rnd32 w. Proof. intros F H. exact (rnd_ge_fmt (prec:=24) (emax:=128) w v F H). Qed.
Lemma rnd32_le v w : fmt32 v -> w <= v -> rnd32 w <= v. Proof. intros F H. exact (rnd_le_fmt (prec:=24) (emax:=128) w v F H). Qed.
Lemma step_up h v x : poised h v -> fin x -> B2R x = 0 -> let y := fst (stepA h x) in fin y ->
  (0 < B2R (bh_y1 h) /\ 5 / 4 * v <= B2R y \/ B2R (bh_y1 h) < 0 /\ B2R y <= - (5 / 4 * v)).
Proof.
  intros (Fx1 & E1 & Fx2 & B2 & Fy1 & Fy2 & HV & CASES) Fx E0 y Fy. pose proof (bpow_gt_0 radix2 (-100)) as P0.
  destruct (sub0 x (bh_x2 h) Fx E0 Fx2 B2) as [Fd Ed]. destruct TA as [A1 A2 A3 A4 A5 A6].
  pose proof (step_val m cA A1 A2 A3 (abs4 _ A4) A5 (abs4' _ A6) h x Fd Fy1 Fy2 Fy) as EV. fold stepA in EV. fold y in EV. rewrite Ed in EV.
  destruct CASES as [(C1 & C2 & C3) | (C1 & C2 & C3)].
  - left. split; [lra|]. rewrite EV. apply Rle_trans with (5 / 4 * B2R (bh_y1 h)); [lra|]. eapply Rle_trans; [apply rnd_3half; lra|]. apply rnd_le.
    apply sval_ge; [apply fmt_3half|apply Rmult_le_pos; lra|apply Rmult_le_compat_r; lra|].
    rewrite <- (Rmult_0_r (B2R (bc_b2 cA))). apply Rmult_le_compat_l; lra.
  - right. split; [lra|]. rewrite EV. set (g := - B2R (bh_y1 h)) in *.
    assert (G : 5 / 4 * g <= rnd32 (3 / 2 * g)) by (apply rnd_3half; unfold g; lra).
    assert (GV : v <= g) by (unfold g; lra).
    apply Rle_trans with (rnd32 (- (3 / 2 * g))); [apply rnd_le|rewrite (rnd_opp (prec:=24) (emax:=128)); lra].
    assert (F3 : fmt64 (3 / 2 * g)).
    { unfold g. replace (3 / 2 * - B2R (bh_y1 h)) with (- (3 / 2 * B2R (bh_y1 h))) by ring. apply fmt_opp. apply fmt_3half. }
    apply sval_le; [exact F3| | |apply Rmult_le_pos; lra].
    + rewrite <- (Rmult_0_r (B2R (bc_a0 cA))). apply Rmult_le_compat_l; lra.
    + unfold g. assert (3 / 2 * - B2R (bh_y1 h) <= B2R (bc_b1 cA) * - B2R (bh_y1 h)) by (apply Rmult_le_compat_r; lra). lra.
Qed.
Lemma step_flip (h : bph f32) x : fin x -> B2R x = 0 -> fin (bh_x2 h) -> B2R (bh_x2 h) = 0 -> fin (bh_y1 h) -> fin (bh_y2 h) -> 0 <= B2R (bh_y1 h) * B2R (bh_y2 h) ->
  let y := fst (stepB h x) in fin y -> (0 < B2R (bh_y1 h) -> B2R y <= - B2R (bh_y1 h)) /\ (B2R (bh_y1 h) < 0 -> - B2R (bh_y1 h) <= B2R y).
Proof.
  intros Fx E0 Fx2 E2 Fy1 Fy2 HS y Fy. destruct (sub0 x (bh_x2 h) Fx E0 Fx2 ltac:(rewrite E2, Rabs_R0; lra)) as [Fd Ed]. destruct TB as [A1 A2 A3 A4 A5 A6].
  pose proof (step_val m cB A1 A2 A3 (abs4 _ A4) A5 (abs4' _ A6) h x Fd Fy1 Fy2 Fy) as EV. fold stepB in EV. fold y in EV. rewrite Ed, E2, Ropp_0, Rmult_0_r in EV.
  pose proof (fmt32_64 _ (fmt_B2R (prec:=24) (emax:=128) (bh_y1 h))) as F64. pose proof (fmt_B2R (prec:=24) (emax:=128) (bh_y1 h)) as F32.
  split; intro S; rewrite EV.
  - assert (0 <= B2R (bh_y2 h)) by (apply Rmult_le_reg_l with (B2R (bh_y1 h)); [exact S|lra]).
    apply rnd32_le; [apply fmt_opp; exact F32|]. apply sval_le; [exact F64|lra| |apply Rmult_le_pos; lra].
    assert (B2R (bc_b1 cB) * B2R (bh_y1 h) <= - 1 * B2R (bh_y1 h)) by (apply Rmult_le_compat_r; lra). lra.
  - assert (B2R (bh_y2 h) <= 0) by (assert (0 <= - B2R (bh_y2 h)); [apply Rmult_le_reg_l with (- B2R (bh_y1 h)); lra|lra]).
    apply rnd32_ge; [apply fmt_opp; exact F32|]. apply sval_ge; [apply fmt_opp; exact F64|lra| |].
    + assert (B2R (bc_b1 cB) * - B2R (bh_y1 h) <= - 1 * - B2R (bh_y1 h)) by (apply Rmult_le_compat_r; lra). lra.
    + rewrite <- (Rmult_0_r (B2R (bc_b2 cB))). apply Rmult_le_compat_l; lra.
Qed.
Lemma pair_grows h v : poised h v -> let y := fst (stepA h f0) in let h1 := snd (stepA h f0) in let z := fst (stepB h1 f0) in
  fin y -> fin z -> poised (snd (stepB h1 f0)) (5 / 4 * v).
Proof.
  intros P y h1 z Fy Fz. assert (F0 : fin (f0 : f32)) by reflexivity. assert (V0 : B2R (f0 : f32) = 0) by reflexivity.
  pose proof (step_up h v f0 P F0 V0 Fy) as U. fold y in U. destruct P as (Fx1 & E1 & Fx2 & B2 & Fy1 & Fy2 & HV & CASES). pose proof (bpow_gt_0 radix2 (-100)) as P0.
  assert (EH : h1 = mkBPH f0 (bh_x1 h) y (bh_y1 h)) by reflexivity.
  assert (EH2 : snd (stepB h1 f0) = mkBPH f0 f0 z y) by reflexivity. rewrite EH2. clear EH2.
  pose proof (step_flip h1 f0 F0 V0) as FL. fold z in FL. rewrite EH in FL. cbn [bh_x1 bh_x2 bh_y1 bh_y2] in FL.
  specialize (FL Fx1 E1 Fy Fy1). assert (SG : 0 <= B2R y * B2R (bh_y1 h)).
  { destruct U as [[U1 U2] | [U1 U2]]; [apply Rmult_le_pos; lra|]. replace (B2R y * B2R (bh_y1 h)) with (- B2R y * - B2R (bh_y1 h)) by ring. apply Rmult_le_pos; lra. }
  specialize (FL SG). specialize (FL Fz). destruct FL as [FL1 FL2].
  unfold poised. cbn [bh_x1 bh_x2 bh_y1 bh_y2]. rewrite V0, Rabs_R0. do 2 (split; [assumption||reflexivity|]). split; [exact F0|]. split; [lra|]. split; [exact Fz|]. split; [exact Fy|].
  split; [lra|]. destruct U as [[U1 U2] | [U1 U2]].
  - right. specialize (FL1 ltac:(lra)). lra.
  - left. specialize (FL2 ltac:(lra)). lra.
Qed.
End Pair.

(** ** the coefficients *)
Lemma cos_low w : 0 <= w <= 1 -> 1 - w * w / 2 <= cos w.
Proof.
  intro H. replace (cos w) with (cos (2 * (w / 2))) by (f_equal; field). rewrite cos_2a_sin. assert (S : 0 <= sin (w / 2) <= w / 2).
  { pose proof PI_bounds. split; [apply sin_ge_0; lra|]. destruct (Req_dec w 0) as [-> | N]; [replace (0 / 2) with 0 by field; rewrite sin_0; lra|]. left. apply sin_lt_x. lra. }
  assert (sin (w / 2) * sin (w / 2) <= w / 2 * (w / 2)) by (apply Rmult_le_compat; lra). lra.
Qed.
Lemma warp_low f : 0 < f <= 2001 -> warp f <= 134 / 1000.
Proof.
  intro H. unfold warp. pose proof PI_bounds as PB. set (z := PI * f / 48000).
  assert (Z : 0 < z <= 131 / 1000).
  { unfold z. split; [apply Rdiv_lt_0_compat; [apply Rmult_lt_0_compat; lra|lra]|]. assert (PI * f <= 31415927 / 10000000 * 2001) by (apply Rmult_le_compat; lra). lra. }
  pose proof (cos_low z ltac:(lra)) as C. pose proof (sin_lt_x z ltac:(lra)) as S. unfold tan.
  assert (ZZ : z * z <= 131 / 1000 * (131 / 1000)) by (apply Rmult_le_compat; lra).
  apply Rmult_le_reg_r with (cos z); [lra|]. unfold Rdiv at 1. rewrite Rmult_assoc, Rinv_l by lra. lra.
Qed.
Lemma warp_high f : 19799 <= f <= 20000 -> 34 / 10 <= warp f.
Proof.
  intro H. unfold warp. pose proof PI_bounds as PB. set (z := PI * f / 48000). set (w := PI / 2 - z).
  assert (W : 0 < w <= 276 / 1000).
  { unfold w, z. assert (PI * f <= PI * 20000) by (apply Rmult_le_compat_l; lra). assert (PI * 19799 <= PI * f) by (apply Rmult_le_compat_l; lra). lra. }
  replace z with (PI / 2 - w) by (unfold w; ring). unfold tan. rewrite Rtrigo1.sin_shift, Rtrigo1.cos_shift.
  pose proof (cos_low w ltac:(lra)) as C. pose proof (sin_lt_x w ltac:(lra)) as S. assert (S0 : 0 < sin w) by (apply sin_gt_0; lra).
  assert (WW : w * w <= 276 / 1000 * (276 / 1000)) by (apply Rmult_le_compat; lra).
  apply Rmult_le_reg_r with (sin w); [lra|]. unfold Rdiv at 2. rewrite Rmult_assoc, Rinv_l by lra. lra.
Qed.
Lemma beta_low t : 0 < t <= 135 / 1000 -> 762 / 1000 <= beta t < 1.
Proof. intro H. unfold beta. split; [apply Rmult_le_reg_r with (1 + t); [lra|]; unfold Rdiv at 2; rewrite Rmult_assoc, Rinv_l by lra; lra|]. apply Rmult_lt_reg_r with (1 + t); [lra|]. unfold Rdiv. rewrite Rmult_assoc, Rinv_l by lra. lra. Qed.
Lemma beta_high t : 33 / 10 <= t <= 4 -> - 1 < beta t <= - (534 / 1000).
Proof. intro H. unfold beta. split; [apply Rmult_lt_reg_r with (1 + t); [lra|]; unfold Rdiv; rewrite Rmult_assoc, Rinv_l by lra; lra|]. apply Rmult_le_reg_r with (1 + t); [lra|]. unfold Rdiv at 1. rewrite Rmult_assoc, Rinv_l by lra. lra. Qed.
Lemma set_coeffs m s (a b : f64) : tan_accurate m -> fin a -> fin b -> 900 <= B2R a <= 19950 -> 900 <= B2R b <= 19950 -> B2R a + 50 <= B2R b ->
  exists tl th l h, let c := bp_coeff (bp_set_corners m s (a, b)) in
    fin (bc_a0 c) /\ fin (bc_b1 c) /\ fin (bc_b2 c) /\ Rabs (B2R (bc_a0 c) - (1 - / (1 + th)) * / (1 + tl)) <= del /\ Rabs (B2R (bc_b1 c) - (beta th + beta tl)) <= del /\
    Rabs (B2R (bc_b2 c) - beta th * beta tl) <= del /\ 0 < tl <= 4 /\ 0 < th <= 4 /\ Rabs (tl - warp l) <= 28 * u32 * warp l /\ Rabs (th - warp h) <= 28 * u32 * warp h /\
    0 < warp l <= 4 /\ 0 < warp h <= 4 /\ h * (6544 / 100000000) <= th /\
    Rabs (l - B2R a) <= 1 / 100 /\ Rabs (h - B2R b) <= 1 / 100.
Proof.
  intros HT Fa Fb Ra Rb D.
  assert (B10 : bpow radix2 (-10) = / 1024) by reflexivity. assert (B20 : bpow radix2 20 = 1048576) by reflexivity.
  assert (DD : bpow radix2 (-20) <= Rabs (B2R a - B2R b)) by (rewrite Rabs_left by lra; change (bpow radix2 (-20)) with (/ 1048576); lra).
  assert (UA : usable a) by (split; [exact Fa|rewrite B10, B20; lra]). assert (UB : usable b) by (split; [exact Fb|rewrite B10, B20; lra]).
  destruct (set_corners_ok m a b UA UB DD s) as (F1 & F2 & _ & E1 & E2 & _).
  change (bp_coeff (bp_set_corners m s (a, b))) with (bp_coeffs (A64 m) (bp_f (bp_set_corners m s (a, b))) (bp_q (bp_set_corners m s (a, b)))). unfold bp_coeffs.
  destruct (bp_corners (A64 m) (bp_f (bp_set_corners m s (a, b))) (bp_q (bp_set_corners m s (a, b)))) as [lo hi]. cbn [fst snd] in *.
  rewrite Rmin_left in E1 by lra. rewrite Rmax_right in E1, E2 by lra. change (bpow radix2 (-27)) with (/ 134217728) in *.
  assert (L1 : Rabs (B2R lo - B2R a) <= 1 / 100) by lra. assert (L2 : Rabs (B2R hi - B2R b) <= 1 / 100) by lra. clear E1 E2.
  assert (RL : 20 <= B2R lo <= 20000) by (apply Rabs_le_inv in L1; lra). assert (RH : 20 <= B2R hi <= 20000) by (apply Rabs_le_inv in L2; lra).
  destruct (theta_range m lo HT F1 RL) as [Fl Tl]. destruct (theta_range m hi HT F2 RH) as [Fh Th].
  destruct (theta_close m lo HT F1 RL) as [Wl Dl]. destruct (theta_close m hi HT F2 RH) as [Wh Dh].
  destruct (coeff_ok m lo hi _ _ eq_refl eq_refl Fl Fh ltac:(lra) ltac:(lra)) as (FA & EA & FP & EP & FQ & EQ).
  exists (B2R (bp_theta (A64 m) lo)), (B2R (bp_theta (A64 m) hi)), (B2R lo), (B2R hi). cbv zeta. cbn [bc_a0 bc_b1 bc_b2].
  repeat split; try assumption; try lra.
Qed.
Lemma tame_i (c : bpc f64) : fin (bc_a0 c) -> fin (bc_b1 c) -> fin (bc_b2 c) -> forall tl th, Rabs (B2R (bc_a0 c) - (1 - / (1 + th)) * / (1 + tl)) <= del ->
  Rabs (B2R (bc_b1 c) - (beta th + beta tl)) <= del -> Rabs (B2R (bc_b2 c) - beta th * beta tl) <= del -> 0 < tl <= 4 -> / 10 <= th <= 4 ->
  / 4 <= beta th * beta tl -> tame c.
Proof.
  intros F1 F2 F3 tl th E1 E2 E3 Rl Rh HB. pose proof (beta_rng tl ltac:(lra)) as Bl. pose proof (beta_rng th ltac:(lra)) as Bh.
  assert (D : del <= / 1000) by (unfold del; lra). apply Rabs_le_inv in E1. apply Rabs_le_inv in E2. apply Rabs_le_inv in E3.
  assert (I1 : / 5 <= / (1 + tl) <= 1) by (split; [apply Rinv_le; lra|rewrite <- Rinv_1; apply Rinv_le; lra]).
  assert (I2 : 0 <= / (1 + th) <= 10 / 11) by (split; [left; apply Rinv_0_lt_compat; lra|replace (10 / 11) with (/ (11 / 10)) by field; apply Rinv_le; lra]).
  assert (A : / 11 * / 5 <= (1 - / (1 + th)) * / (1 + tl)) by (apply Rmult_le_compat; lra).
  assert (A' : (1 - / (1 + th)) * / (1 + tl) <= 1 * 1) by (apply Rmult_le_compat; lra).
  assert (Q : Rabs (beta th * beta tl) <= 1 * 1) by (apply mul_bd; apply Rabs_le; lra). apply Rabs_le_inv in Q.
  constructor; try assumption; try lra. apply Rabs_le. lra.
Qed.
Definition cornA : f64 * f64 := (of_Z 1000, of_Z 2000).
Definition cornB : f64 * f64 := (of_Z 19800, of_Z 19900).
Section Blow.
Variable m : libm.
Hypothesis HT : tan_accurate m.
Lemma coefA s : tame (bp_coeff (bp_set_corners m s cornA)) /\ 3 / 2 <= B2R (bc_b1 (bp_coeff (bp_set_corners m s cornA))).
Proof.
  destruct (of_Z64 1000 ltac:(lia)) as [Fa Va]. destruct (of_Z64 2000 ltac:(lia)) as [Fb Vb].
  destruct (set_coeffs m s (of_Z 1000) (of_Z 2000) HT Fa Fb ltac:(lra) ltac:(lra) ltac:(lra)) as (tl & th & l & h & F1 & F2 & F3 & E1 & E2 & E3 & Rl & Rh & D1 & D2 & W1 & W2 & LH & L1 & L2).
  fold cornA in *. rewrite Va in L1. rewrite Vb in L2. apply Rabs_le_inv in L1. apply Rabs_le_inv in L2.
  pose proof (warp_low l ltac:(lra)) as U1. pose proof (warp_low h ltac:(lra)) as U2. apply Rabs_le_inv in D1. apply Rabs_le_inv in D2. unfold u32 in *.
  destruct (beta_low tl ltac:(lra)) as [B1 B1']. destruct (beta_low th ltac:(lra)) as [B2 B2'].
  assert (BB : 762 / 1000 * (762 / 1000) <= beta th * beta tl) by (apply Rmult_le_compat; lra).
  split; [apply (tame_i _ F1 F2 F3 tl th E1 E2 E3 Rl); lra|]. apply Rabs_le_inv in E2. assert (D : del <= / 1000) by (unfold del; lra). lra.
Qed.
Lemma coefB s : tame (bp_coeff (bp_set_corners m s cornB)) /\ B2R (bc_b1 (bp_coeff (bp_set_corners m s cornB))) <= - 1.
Proof.
  destruct (of_Z64 19800 ltac:(lia)) as [Fa Va]. destruct (of_Z64 19900 ltac:(lia)) as [Fb Vb].
  destruct (set_coeffs m s (of_Z 19800) (of_Z 19900) HT Fa Fb ltac:(lra) ltac:(lra) ltac:(lra)) as (tl & th & l & h & F1 & F2 & F3 & E1 & E2 & E3 & Rl & Rh & D1 & D2 & W1 & W2 & LH & L1 & L2).
  fold cornB in *. rewrite Va in L1. rewrite Vb in L2. apply Rabs_le_inv in L1. apply Rabs_le_inv in L2.
  pose proof (warp_high l ltac:(lra)) as U1. pose proof (warp_high h ltac:(lra)) as U2. apply Rabs_le_inv in D1. apply Rabs_le_inv in D2. unfold u32 in *.
  destruct (beta_high tl ltac:(lra)) as [B1 B1']. destruct (beta_high th ltac:(lra)) as [B2 B2'].
  assert (BB : 534 / 1000 * (534 / 1000) <= - beta th * - beta tl) by (apply Rmult_le_compat; lra).
  split; [apply (tame_i _ F1 F2 F3 tl th E1 E2 E3 Rl); lra|]. apply Rabs_le_inv in E2. assert (D : del <= / 1000) by (unfold del; lra). lra.
Qed.
Lemma wobble_cons a b x xs s : wobble m a b (x :: xs) s =
  let st := bp_step (A64 m) fsub to64 to32 (bp_coeff (bp_set_corners m s a)) (bp_hist s) x in
  fst st :: wobble m b a xs (mkBP (bp_f (bp_set_corners m s a)) (bp_q (bp_set_corners m s a)) (bp_coeff (bp_set_corners m s a)) (snd st)).
Proof.
  cbn [wobble]. unfold bp_process. assert (EH : bp_hist (bp_set_corners m s a) = bp_hist s) by (unfold bp_set_corners, bp_reset; cbn [bp_hist]; reflexivity). rewrite EH.
  destruct (bp_step (A64 m) fsub to64 to32 (bp_coeff (bp_set_corners m s a)) (bp_hist s) x) as [y h]. cbn [fst snd]. reflexivity.
Qed.
Lemma wobble_pairs n : forall s v, poised (bp_hist s) v -> Forall (fun y => fin y) (wobble m cornA cornB (repeat f0 (2 * n)) s) ->
  exists h, poised h ((5 / 4) ^ n * v).
Proof.
  induction n as [|n IH]; intros s v P F; [exists (bp_hist s); cbn [pow]; rewrite Rmult_1_l; exact P|].
  replace (2 * S n)%nat with (S (S (2 * n))) in F by lia. cbn [repeat] in F. rewrite wobble_cons in F. cbv zeta in F. rewrite wobble_cons in F. cbv zeta in F. cbn [bp_hist] in F.
  destruct (coefA s) as [TA GA]. set (sa := bp_set_corners m s cornA) in *.
  match type of F with context [bp_set_corners m ?t cornB] => set (s1 := t) in *; destruct (coefB s1) as [TB GB]; set (sb := bp_set_corners m s1 cornB) in * end.
  apply Forall_cons_iff in F. destruct F as [F1 F2]. apply Forall_cons_iff in F2. destruct F2 as [F3 F4].
  pose proof (pair_grows m (bp_coeff sa) (bp_coeff sb) TA TB GA GB (bp_hist s) v P F1 F3) as P'.
  match type of F4 with Forall _ (wobble _ _ _ _ ?s2) => destruct (IH s2 (5 / 4 * v) P' F4) as [h H] end.
  exists h. replace ((5 / 4) ^ S n * v) with ((5 / 4) ^ n * (5 / 4 * v)) by (cbn [pow]; ring). exact H.
Qed.
Lemma wobble_incl xs ys : forall a b s y, In y (wobble m a b xs s) -> In y (wobble m a b (xs ++ ys) s).
Proof.
  induction xs as [|x xs IH]; intros a b s y H; [destruct H|]. cbn [app]. rewrite wobble_cons in *. cbv zeta in *. destruct H as [H|H]; [left; exact H|right; apply IH, H].
Qed.
Lemma first_pair s : bp_hist s = bph0 -> forall xs, Forall (fun y => fin y) (wobble m cornA cornB (of_Z 1 :: f0 :: xs) s) ->
  exists s', poised (bp_hist s') (/ 128) /\ Forall (fun y => fin y) (wobble m cornA cornB xs s').
Proof.
  intros H0 xs F. rewrite wobble_cons in F. cbv zeta in F. rewrite wobble_cons in F. cbv zeta in F. cbn [bp_hist] in F. rewrite H0 in F.
  destruct (coefA s) as [TA GA]. set (sa := bp_set_corners m s cornA) in *.
  match type of F with context [bp_set_corners m ?t cornB] => set (s1 := t) in *; destruct (coefB s1) as [TB GB]; set (sb := bp_set_corners m s1 cornB) in * end.
  apply Forall_cons_iff in F. destruct F as [F1 F2]. apply Forall_cons_iff in F2. destruct F2 as [F3 F4].
  eexists. split; [|exact F4]. cbn [bp_hist].
  destruct TA as [A1 A2 A3 A4 A5 A6].
  assert (V0 : B2R (f0 : f32) = 0) by reflexivity. assert (FF : fin (f0 : f32)) by reflexivity. destruct (of_Z32 1 ltac:(lia)) as [O1 O2].
  assert (SB : fin (fsub (of_Z 1) (f0 : f32)) /\ B2R (fsub (of_Z 1) (f0 : f32)) = 1).
  { assert (R : rnd32 (B2R (of_Z 1 : f32) - B2R (f0 : f32)) = 1) by (rewrite V0, Rminus_0_r, rnd_B2R; exact O2).
    destruct (fsub_ok (of_Z 1) (f0 : f32) O1 FF) as [S1 S2]; [rewrite R, Rabs_R1; change 1 with (bpow radix2 0); apply bpow_lt; lia|]. split; [exact S1|]. rewrite S2. exact R. }
  destruct SB as [SB1 SB2].
  pose proof (step_val m (bp_coeff sa) A1 A2 A3 (abs4 _ A4) A5 (abs4' _ A6) bph0 (of_Z 1) SB1 FF FF F1) as E1.
  cbn [bh_x2 bh_y1 bh_y2 bph0] in E1. rewrite SB2, V0, !Rmult_0_r, Rmult_1_r in E1.
  set (y0 := fst (bp_step (A64 m) fsub to64 to32 (bp_coeff sa) bph0 (of_Z 1))) in *.
  assert (Y0 : / 128 <= B2R y0).
  { rewrite E1. apply rnd32_ge; [change (/ 128) with (bpow radix2 (-7)); apply (fmt_bpow (prec:=24) (emax:=128)); unfold SpecFloat.emin; lia|].
    unfold sval. rewrite !rnd_0, Rplus_0_r, Rminus_0_r.
    do 3 (apply rnd_ge_fmt; [change (/ 128) with (bpow radix2 (-7)); apply (fmt_bpow (prec:=53) (emax:=1024)); unfold SpecFloat.emin; lia|]). lra. }
  pose proof (step_flip m (bp_coeff sb) TB GB (snd (bp_step (A64 m) fsub to64 to32 (bp_coeff sa) bph0 (of_Z 1))) f0 FF V0) as FL.
  rewrite bp_step_hist in *. fold y0 in FL, F3 |- *. cbn [bh_x1 bh_x2 bh_y1 bh_y2 bph0] in *.
  specialize (FL FF V0 F1 FF ltac:(rewrite V0; lra) F3). destruct FL as [FL _]. specialize (FL ltac:(lra)).
  rewrite ?bp_step_hist. cbn [bh_x1 bh_x2 bh_y1 bh_y2 bph0]. fold y0.
  unfold poised. cbn [bh_x1 bh_x2 bh_y1 bh_y2]. rewrite O2, Rabs_R1.
  split; [exact FF|]. split; [exact V0|]. split; [exact O1|]. split; [apply Rle_refl|]. split; [exact F3|]. split; [exact F1|].
  split; [change (/ 128) with (bpow radix2 (-7)); apply bpow_le; lia|]. right. lra.
Qed.
Theorem wobble_diverges s n : bp_hist s = bph0 -> (1200 <= n)%nat ->
  exists y, In y (wobble m cornA cornB (of_Z 1 :: repeat f0 n) s) /\ is_finite y = false.
Proof.
  intros H0 HN. destruct (forallb is_finite (wobble m cornA cornB (of_Z 1 :: f0 :: repeat f0 (2 * 599)) s)) eqn:E.
  - exfalso. assert (F : Forall (fun y => fin y) (wobble m cornA cornB (of_Z 1 :: f0 :: repeat f0 (2 * 599)) s)) by (apply Forall_forall; apply forallb_forall; exact E).
    destruct (first_pair s H0 _ F) as (s' & P & F'). destruct (wobble_pairs 599 s' _ P F') as [h (_ & _ & _ & _ & _ & _ & _ & C)].
    pose proof (abs_B2R_lt (prec:=24) (emax:=128) (bh_y1 h)) as L. apply Rabs_def2 in L.
    assert (G : bpow radix2 149 <= (5 / 4) ^ 599).
    { replace 599%nat with (4 * 149 + 3)%nat by reflexivity. rewrite pow_add, pow_mult. apply Rle_trans with (((5 / 4) ^ 4) ^ 149 * 1).
      - rewrite Rmult_1_r. replace (bpow radix2 149) with (2 ^ 149). + apply pow_incr. lra. + rewrite (pow_IZR 2 149). rewrite <- (IZR_Zpower radix2) by lia. reflexivity.
      - apply Rmult_le_compat_l; [apply pow_le; apply pow_le; lra|]. cbn [pow]. lra. }
    assert (G2 : bpow radix2 142 <= (5 / 4) ^ 599 * / 128).
    { replace (bpow radix2 142) with (bpow radix2 149 * bpow radix2 (-7)) by (rewrite <- bpow_plus; reflexivity). apply Rmult_le_compat_r; [lra|exact G]. }
    assert (bpow radix2 128 < bpow radix2 142) by (apply bpow_lt; lia). lra.
  - assert (X : exists y, In y (wobble m cornA cornB (of_Z 1 :: f0 :: repeat f0 (2 * 599)) s) /\ is_finite y = false).
    { clear - E. induction (wobble m cornA cornB (of_Z 1 :: f0 :: repeat f0 (2 * 599)) s) as [|y l IH]; [discriminate|]. cbn [forallb] in E.
      destruct (is_finite y) eqn:Y; [destruct (IH E) as (z & Z1 & Z2); exists z; split; [right; exact Z1|exact Z2]|exists y; split; [left; reflexivity|exact Y]]. }
    destruct X as (y & Y1 & Y2). exists y. split; [|exact Y2].
    replace (of_Z 1 :: repeat f0 n) with ((of_Z 1 :: f0 :: repeat f0 (2 * 599)) ++ repeat (f0 : f32) (n - 1199)); [apply wobble_incl, Y1|].
    cbn [app]. f_equal. change (f0 :: repeat f0 (2 * 599) ++ repeat f0 (n - 1199)) with (repeat (f0 : f32) 1199 ++ repeat f0 (n - 1199)).
    rewrite <- repeat_app. f_equal. lia.
Qed.
End Blow.
Theorem alternating_corners m : tan_accurate m -> let a := (of_Z 1000, of_Z 2000) in let b := (of_Z 19800, of_Z 19900) in
  (forall c, c = a \/ c = b -> forall n y, In y (fst (run (bp_process m) (bp_from_corners m c) (of_Z 1 :: repeat f0 n))) -> fin y /\ Rabs (B2R y) <= 38) /\
  (forall n, (1200 <= n)%nat -> exists y, In y (wobble m a b (of_Z 1 :: repeat f0 n) (bp_from_corners m a)) /\ is_finite y = false).
Proof.
  intros HT a b. split; [|intros n Hn; apply wobble_diverges; [exact HT|reflexivity|exact Hn]].
  assert (G : forall u v, (1000 <= u <= 19900)%Z -> (1000 <= v <= 19900)%Z -> (u + 1 <= v)%Z -> forall n y,
    In y (fst (run (bp_process m) (bp_from_corners m (of_Z u, of_Z v)) (of_Z 1 :: repeat f0 n))) -> fin y /\ Rabs (B2R y) <= 38).
  { intros u v Hu Hv UV n y Hy. destruct (of_Z64 u ltac:(lia)) as [Fu Vu]. destruct (of_Z64 v ltac:(lia)) as [Fv Vv].
    assert (Ru : 1000 <= B2R (of_Z u : f64) <= 19900) by (rewrite Vu; split; apply IZR_le; lia). assert (Rv : 1000 <= B2R (of_Z v : f64) <= 19900) by (rewrite Vv; split; apply IZR_le; lia).
    assert (D : B2R (of_Z u : f64) + 1 <= B2R (of_Z v : f64)) by (rewrite Vu, Vv, <- plus_IZR; apply IZR_le; lia).
    destruct (bp_corners_stable m (of_Z u) (of_Z v) 1 (of_Z 1 :: repeat f0 n) HT Fu Fv ltac:(lra) ltac:(lra)) with (y := y) as [F BB]; [| | |exact Hy|].
    - rewrite Rabs_left by lra. change (bpow radix2 (-20)) with (/ 1048576). lra.
    - change (bpow radix2 (-100) <= bpow radix2 0 <= bpow radix2 90). split; apply bpow_le; lia.
    - intros x [<- | Hx]; [destruct (of_Z32 1 ltac:(lia)) as [O1 O2]; split; [exact O1|rewrite O2, Rabs_R1; lra]|].
      apply repeat_spec in Hx. rewrite Hx. split; [reflexivity|]. change (B2R (f0 : f32)) with 0. rewrite Rabs_R0. lra.
    - split; [exact F|]. apply Rle_trans with (1 := BB). rewrite Rmin_left by lra.
      assert (34001 / B2R (of_Z u : f64) <= 35) by (apply Rmult_le_reg_r with (B2R (of_Z u : f64)); [lra|]; unfold Rdiv; rewrite Rmult_assoc, Rinv_l by lra; lra). lra. }
  intros c [-> | ->]; apply G; lia.
Qed.
