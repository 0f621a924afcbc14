(** * Filters retuned while they run: the state after a change is one the new filter can carry on from *)
From Coq Require Import ZArith List Bool Reals Lra Lia Psatz.
From Flocq Require Import Core.Core IEEE754.BinarySingleNaN.
From Verif Require Import Model.Floats Model.Modifiers Model.Filters Spec.Libm Spec.Response Spec.Track Proof.FloatFacts Proof.SampleFormatP Proof.FormatsP
  Proof.GenericP Proof.GeneratorsP Proof.GeneratorsP4 Proof.FiltersP Proof.FiltersP2 Proof.NearP Proof.FilterF32P Proof.FilterF32P2 Proof.BandPassP
  Proof.BandPassF32P Proof.ResponseP Proof.ResponseP2 Proof.ResponseP3 Proof.CornersP Proof.TrackP Proof.TrackP2 Proof.TrackP3.
Import ListNotations.
Local Open Scope R_scope.

Definition bhR (h : bph f32) : bph R := mkBPH (B2R (bh_x1 h)) (B2R (bh_x2 h)) (B2R (bh_y1 h)) (B2R (bh_y2 h)).
Definition bhfin (h : bph f32) (B : R) : Prop :=
  (fin (bh_x1 h) /\ fin (bh_x2 h) /\ fin (bh_y1 h) /\ fin (bh_y2 h)) /\
  Rabs (B2R (bh_x1 h)) <= B /\ Rabs (B2R (bh_x2 h)) <= B /\ Rabs (B2R (bh_y1 h)) <= B /\ Rabs (B2R (bh_y2 h)) <= B.

(** ** BandPass *)
Section BP.
Variables (tl th X : R).
Hypothesis Rl : 13 / 10000 <= tl <= 4.
Hypothesis Rh : 13 / 10000 <= th <= 4.
Hypothesis HX : bpow radix2 (-100) <= X <= bpow radix2 90.
Lemma bpJ_any h B : bhfin h B -> 10 * B <= X -> bpJ tl th X h.
Proof.
  intros ((F1 & F2 & F3 & F4) & B1 & B2 & B3 & B4) HB. unfold bpJ. do 4 (split; [assumption|]).
  assert (B0 : 0 <= B) by (pose proof (Rabs_pos (B2R (bh_x1 h))); lra).
  destruct (XM tl X Rl HX) as (X0 & _). pose proof (E_pos tl X Rl HX) as E0. pose proof (gap_rng tl Rl) as [Gl _]. pose proof (gap_rng th Rh) as [Gh _].
  set (E := w32 * (301 / 100 * (22 / 10 / mu tl * X) + 43 / 10 * X)) in *. set (A := (1 - / (1 + th)) * / (1 + tl)).
  assert (GL1 : gap tl <= 1) by (unfold gap; pose proof (Rabs_pos (beta tl)); lra).
  assert (L5 : / 5 <= / (1 + tl)) by (apply Rinv_le; lra).
  assert (W : X / 5 <= (2 * A * X + E) / gap th).
  { apply Rmult_le_reg_r with (gap th); [exact Gh|]. unfold Rdiv at 2. rewrite Rmult_assoc, Rinv_l, Rmult_1_r by lra.
    assert (GA : gap th * / 5 <= 2 * A).
    { rewrite gap_eq by lra. destruct (mu_rng th Rh) as (M1 & _). assert (ML : mu th <= th) by (unfold mu; apply Rmin_l).
      unfold A. replace (2 * ((1 - / (1 + th)) * / (1 + tl))) with (2 * th / (1 + th) * / (1 + tl)) by (field; lra).
      apply Rmult_le_compat; [left; apply Rdiv_lt_0_compat; lra|lra| |exact L5]. apply Rmult_le_compat_r; [left; apply Rinv_0_lt_compat; lra|lra]. }
    assert (gap th * / 5 * X <= 2 * A * X) by (apply Rmult_le_compat_r; lra). unfold Rdiv. lra. }
  set (V := (2 * A * X + E) / gap th) in *.
  assert (V2 : V <= V / gap tl).
  { assert (1 <= / gap tl) by (rewrite <- Rinv_1; apply Rinv_le; lra). unfold Rdiv. rewrite <- (Rmult_1_r V) at 1. apply Rmult_le_compat_l; lra. }
  repeat (split; [lra|]). eapply Rle_trans; [|exact W].
  assert (Pl : -1 < beta tl < 1) by (apply beta_rng; lra).
  eapply Rle_trans; [apply trim; [exact B3|apply mul_bd with (x := 1) (y := B); [apply Rabs_le; lra|exact B4]]|]. lra.
Qed.
End BP.

(** what the drift of the program's band pass amounts to, from any history *)
Theorem bp_tuned m s B X xs : tan_accurate m -> bp_coeff s = bp_coeffs (A64 m) (bp_f s) (bp_q s) ->
  audible (fst (bp_get_corners m s)) -> audible (snd (bp_get_corners m s)) ->
  bhfin (bp_hist s) B -> 10 * B <= X -> bpow radix2 (-100) <= X <= bpow radix2 90 -> (forall x, In x xs -> fin x /\ Rabs (B2R x) <= X) ->
  let lo := B2R (fst (bp_get_corners m s)) in let hi := B2R (snd (bp_get_corners m s)) in
  Forall2 (fun y z => fin y /\ Rabs (B2R y - z) <= bp_drift lo hi * X)
    (fst (run (bp_process m) s xs)) (fst (run (bp_stepR (bp_at lo hi)) (bhR (bp_hist s)) (map B2R xs))).
Proof.
  intros HT TU HL HH HB HBX HX Hxs. rewrite bp_run_coeff, TU. unfold bp_get_corners in *. unfold bp_coeffs.
  destruct (bp_corners (A64 m) (bp_f s) (bp_q s)) as [lo hi]. cbn [fst snd] in *. set (l := B2R lo) in *. set (h := B2R hi) in *.
  destruct (audible_R _ HL) as [FL RL]. destruct (audible_R _ HH) as [FH RH].
  destruct (theta_range m lo HT FL RL) as [Fl Tl]. destruct (theta_range m hi HT FH RH) as [Fh Th].
  destruct (theta_close m lo HT FL RL) as [Wl Dl]. destruct (theta_close m hi HT FH RH) as [Wh Dh].
  destruct (coeff_ok m lo hi _ _ eq_refl eq_refl Fl Fh ltac:(lra) ltac:(lra)) as (FA & EA & FP & EP & FQ & EQ).
  set (tl := B2R (bp_theta (A64 m) lo)) in *. set (th := B2R (bp_theta (A64 m) hi)) in *. fold l in Wl, Dl, RL, Tl. fold h in Wh, Dh, RH, Th.
  assert (Rl : 13 / 10000 <= tl <= 4) by lra. assert (Rh : 13 / 10000 <= th <= 4) by lra.
  assert (CL : close_hist tl (warp l) (warp h) X (bp_hist s) (bhR (bp_hist s))).
  { pose proof (slack_pos tl X Rl HX) as S0. pose proof (gap_pos (warp l) (proj1 Wl)) as Gl. pose proof (gap_pos (warp h) (proj1 Wh)) as Gh.
    unfold close_hist, bhR. cbn [bh_x1 bh_x2 bh_y1 bh_y2]. do 2 (split; [reflexivity|]). unfold Rminus. rewrite !Rplus_opp_r, Rmult_0_r, Ropp_0, Rplus_0_r, Rabs_R0.
    assert (0 <= slack tl X / gap (warp h)) by (apply Rmult_le_pos; [exact S0|left; apply Rinv_0_lt_compat; exact Gh]).
    split; [apply Rmult_le_pos; [assumption|left; apply Rinv_0_lt_compat; exact Gl]|assumption]. }
  pose proof (track_run m (mkBPC (bp_a0 (A64 m) lo hi) (bp_b1 (A64 m) lo hi) (bp_b2 (A64 m) lo hi)) tl th (warp l) (warp h) X Rl Rh Wl Wh Dl Dh FA FP FQ EA EP EQ HX
    xs (bp_hist s) (bhR (bp_hist s)) (bpJ_any tl th X Rl Rh HX _ _ HB HBX) CL Hxs) as T.
  assert (EC : mkBPC (gain_of (warp l) (warp h)) (beta (warp h) + beta (warp l)) (beta (warp h) * beta (warp l)) = bp_at l h).
  { unfold bp_at, bp_a0, bp_b1, bp_b2, bp_bl, bp_al, bp_theta, gain_of, beta, warp. cbn [a_add a_sub a_mul a_div a_Z a_tan a_pi a_inv AR].
    unfold Rdiv. rewrite !Rmult_1_l. reflexivity. }
  rewrite EC in T. eapply Forall2_weaken; [|exact T]. intros y z [F D]. split; [exact F|]. apply Rle_trans with (1 := D).
  unfold bp_drift. change (1 - Rabs (pole_at l)) with (gap (warp l)). change (1 - Rabs (pole_at h)) with (gap (warp h)).
  pose proof (gap_pos (warp l) (proj1 Wl)) as Gl. pose proof (gap_pos (warp h) (proj1 Wh)) as Gh.
  replace (bpow radix2 (-22) * (34000 / l + 5) / (gap (warp l) * gap (warp h)) * X) with (bpow radix2 (-22) * (34000 / l + 5) * X / (gap (warp l) * gap (warp h))) by (field; repeat split; lra).
  replace (slack tl X / gap (warp h) / gap (warp l)) with (slack tl X / (gap (warp l) * gap (warp h))) by (field; split; lra).
  apply Rmult_le_compat_r; [left; apply Rinv_0_lt_compat, Rmult_lt_0_compat; assumption|].
  unfold slack. rewrite Rmult_assoc. apply Rmult_le_compat_l; [apply bpow_ge_0|].
  assert (X0 : 0 < X) by (pose proof (bpow_gt_0 radix2 (-100)); lra).
  replace (22 / 10 / mu tl * X + 2 * X) with ((22 / 10 / mu tl + 2) * X) by ring. apply Rmult_le_compat_r; [lra|]. unfold mu.
  assert (0 < / l) by (apply Rinv_0_lt_compat; lra).
  destruct (Rle_dec tl 1) as [L|L]; [rewrite Rmin_left by lra|rewrite Rmin_right by lra; unfold Rdiv at 3; lra].
  assert (/ tl <= / (l * (6544 / 100000000))) by (apply Rinv_le; lra).
  replace (/ (l * (6544 / 100000000))) with (100000000 / 6544 * / l) in * by (field; lra). unfold Rdiv at 1 3. lra.
Qed.

(** ** LowPass and HighPass *)
Section LPHP.
Variables t u d X : R.
Hypothesis Ht : 785 / 10000 <= t <= 16 / 5.
Hypothesis Hu : 785 / 10000 <= u <= 16 / 5.
Hypothesis Hd : 0 <= d <= 1.
Hypothesis HN : near 5 t u.
(** a history bounded by [b], seen through the invariant of the feedback core *)
Lemma lpI_any (h : hist R) b b2 E : 0 <= b -> Rabs (h0 h) <= b -> Rabs (h1 h) <= b -> Rabs (h2 h) <= b2 ->
  (3 * b + b2 + 2 * t * b + t * t * b) / (t * t) <= E -> b <= E -> lpI t d E h.
Proof.
  intros B0 A0 A1 A2 HE BE. pose proof (Rabs_pos (h2 h)) as B20. apply Rabs_le_inv in A0. apply Rabs_le_inv in A1. apply Rabs_le_inv in A2.
  assert (T0 : 0 < t) by lra. assert (TT : 0 < t * t) by (apply Rmult_lt_0_compat; lra). split.
  - unfold uval. unfold Rdiv in *. rewrite Rabs_mult, (Rabs_pos_eq (/ (t * t))) by (left; apply Rinv_0_lt_compat, TT).
    eapply Rle_trans; [apply Rmult_le_compat_r; [left; apply Rinv_0_lt_compat, TT|]|exact HE].
    assert (D1 : Rabs (d * t * (h0 h - h1 h)) <= 1 * t * (2 * b)).
    { rewrite Rabs_mult, (Rabs_pos_eq (d * t)) by (apply Rmult_le_pos; lra). apply Rmult_le_compat; [apply Rmult_le_pos; lra|apply Rabs_pos| |apply Rabs_le; lra].
      apply Rmult_le_compat_r; lra. }
    assert (D2 : Rabs (t * t * h0 h) <= t * t * b) by (rewrite Rabs_mult, (Rabs_pos_eq (t * t)) by lra; apply Rmult_le_compat_l; [lra|apply Rabs_le; lra]).
    apply Rabs_le_inv in D1. apply Rabs_le_inv in D2. apply Rabs_le. lra.
  - assert (V : Rabs (vval t h) <= 2 * b / t).
    { unfold vval, Rdiv. rewrite Rabs_mult, (Rabs_pos_eq (/ t)) by (left; apply Rinv_0_lt_compat; lra). apply Rmult_le_compat_r; [left; apply Rinv_0_lt_compat; lra|apply Rabs_le; lra]. }
    assert (V2 : vval t h * vval t h <= (2 * b / t) * (2 * b / t)).
    { rewrite <- (Rabs_pos_eq (vval t h * vval t h)) by (pose proof (Rle_0_sqr (vval t h)) as Q; exact Q). rewrite Rabs_mult. apply Rmult_le_compat; auto using Rabs_pos. }
    assert (S2 : h0 h * h0 h <= b * b) by (rewrite <- (Rabs_pos_eq (h0 h * h0 h)) by (pose proof (Rle_0_sqr (h0 h)) as Q; exact Q); rewrite Rabs_mult; apply Rmult_le_compat; try apply Rabs_pos; apply Rabs_le; lra).
    assert (Q : b + 2 * b / t <= lpM t E).
    { unfold lpM. assert (IT : 0 < / t) by (apply Rinv_0_lt_compat; lra). assert (/ t * b <= / t * E) by (apply Rmult_le_compat_l; lra). unfold Rdiv.
      replace ((6 * / t + 3) * E) with (6 * (/ t * E) + 3 * E) by ring. assert (0 <= / t * b) by (apply Rmult_le_pos; lra). lra. }
    assert (P0 : 0 <= 2 * b / t) by (apply Rmult_le_pos; [lra|left; apply Rinv_0_lt_compat; lra]).
    assert (QQ : (b + 2 * b / t) * (b + 2 * b / t) <= lpM t E * lpM t E) by (apply Rmult_le_compat; lra).
    assert (0 <= b * (2 * b / t)) by (apply Rmult_le_pos; lra). lra.
Qed.
Lemma sq_inv_t : (1 + 2 / t) * (1 + 2 / t) <= 2 * ((1 + 2 / u) * (1 + 2 / u)).
Proof.
  pose proof (near_rel 5 _ _ ltac:(lia) (near_inv 5 _ _ HN)) as R. apply Rabs_le_inv in R. assert (IU : 0 < / u) by (apply Rinv_0_lt_compat; lra).
  assert (IT : 0 < / t) by (apply Rinv_0_lt_compat; lra). assert (L : 1 + 2 / t <= 7 / 5 * (1 + 2 / u)) by (unfold e27 in *; unfold Rdiv; lra).
  apply Rle_trans with ((7 / 5 * (1 + 2 / u)) * (7 / 5 * (1 + 2 / u))); [apply Rmult_le_compat; unfold Rdiv in *; lra|].
  assert (0 <= (1 + 2 / u) * (1 + 2 / u)) by (apply Rmult_le_pos; unfold Rdiv; lra). lra.
Qed.
Lemma pad b : 0 <= b -> b * ((1 + 2 / u) * (1 + 2 / u)) <= X -> b <= X /\ b * ((1 + 2 / t) * (1 + 2 / t)) <= 2 * X.
Proof.
  intros B0 H. assert (IU : 0 < / u) by (apply Rinv_0_lt_compat; lra). split.
  - apply Rle_trans with (2 := H). rewrite <- (Rmult_1_r b) at 1. apply Rmult_le_compat_l; [exact B0|]. rewrite <- (Rmult_1_r 1) at 1. apply Rmult_le_compat; unfold Rdiv; lra.
  - apply Rle_trans with (b * (2 * ((1 + 2 / u) * (1 + 2 / u)))); [apply Rmult_le_compat_l; [exact B0|exact sq_inv_t]|lra].
Qed.
Lemma core_size c b : 0 <= b -> 1 <= c -> (3 * b + c * b + 2 * t * b + t * t * b) / (t * t) <= (3 + c) / 4 * (b * ((1 + 2 / t) * (1 + 2 / t))).
Proof.
  intros B0 C0. assert (TT : 0 < t * t) by (apply Rmult_lt_0_compat; lra). apply Rmult_le_reg_r with (t * t); [exact TT|].
  replace ((3 * b + c * b + 2 * t * b + t * t * b) / (t * t) * (t * t)) with (b * (3 + c + 2 * t + t * t)) by (field; lra).
  replace ((3 + c) / 4 * (b * ((1 + 2 / t) * (1 + 2 / t))) * (t * t)) with (b * ((3 + c) / 4 * (4 + 4 * t + t * t))) by (field; lra).
  apply Rmult_le_compat_l; [exact B0|]. assert (0 <= (c - 1) / 4 * (4 * t + t * t)) by (apply Rmult_le_pos; lra). lra.
Qed.
Lemma lpJ_any h b : hfin h b -> b * ((1 + 2 / u) * (1 + 2 / u)) <= X -> lpJ t d X h.
Proof.
  intros (HF & A0 & A1 & A2) HB. assert (B0 : 0 <= b) by (pose proof (Rabs_pos (B2R (h0 h))); lra). destruct (pad b B0 HB) as [BX BT].
  assert (MX : b <= lpM t (2 * X)).
  { unfold lpM. assert (IT : 0 < 6 / t) by (apply Rdiv_lt_0_compat; lra). assert (0 <= 6 / t * (2 * X)) by (apply Rmult_le_pos; lra). lra. }
  split; [split; [exact HF|]; repeat split; lra|]. apply (lpI_any (hR h) b (1 * b)); [exact B0|exact A0|exact A1|rewrite Rmult_1_l; exact A2| |lra].
  pose proof (core_size 1 b B0 ltac:(lra)) as C. lra.
Qed.
Lemma hpJ_any hx hy b : hfin hx b -> hfin hy b -> b * ((1 + 2 / u) * (1 + 2 / u)) <= X -> hpJ t d X (hx, hy).
Proof.
  intros (HFX & X0 & X1 & X2) (HFY & Y0 & Y1 & Y2) HB. assert (B0 : 0 <= b) by (pose proof (Rabs_pos (B2R (h0 hx))); lra). destruct (pad b B0 HB) as [BX BT].
  assert (IT : 0 < / t) by (apply Rinv_0_lt_compat; lra).
  assert (MX : forall E, 0 <= E -> 3 * E <= lpM t E).
  { intros E HE. unfold lpM. assert (0 <= 6 / t * E) by (apply Rmult_le_pos; unfold Rdiv; lra). lra. }
  pose proof (MX (6 * X) ltac:(lra)) as M6. pose proof (MX (2 * X) ltac:(lra)) as M2. change (lpM t (2 * X)) with (hpM t X) in M2.
  split; [split; [exact HFX|]; repeat split; lra|]. split; [split; [exact HFY|]; unfold hpY; repeat split; lra|].
  set (x0 := B2R (h0 hx)) in *. set (x1 := B2R (h1 hx)) in *. set (x2 := B2R (h2 hx)) in *.
  set (S := (t - 1) * (x1 - x0) - x1 + x2).
  assert (SB : Rabs S <= 64 / 10 * b).
  { apply Rabs_le_inv in X0. apply Rabs_le_inv in X1. apply Rabs_le_inv in X2.
    assert (T1 : Rabs ((t - 1) * (x1 - x0)) <= 22 / 10 * (2 * b)) by (apply mul_bd; apply Rabs_le; lra). apply Rabs_le_inv in T1. unfold S. apply Rabs_le. lra. }
  exists (mkH 0 0 S), (mkH (B2R (h0 hy)) (B2R (h1 hy)) (B2R (h2 hy) - S)). cbn [h0 h1 h2].
  apply Rabs_le_inv in SB. apply Rabs_le_inv in X0. apply Rabs_le_inv in X1. apply Rabs_le_inv in X2.
  assert (Y2' : Rabs (B2R (h2 hy) - S) <= 74 / 10 * b) by (apply Rabs_le_inv in Y2; apply Rabs_le; lra).
  split; [unfold hbd; cbn [h0 h1 h2]; rewrite Rabs_R0; repeat split; try lra; apply Rabs_le; lra|].
  split; [unfold hbd; cbn [h0 h1 h2]; repeat split; lra|]. split; [|split; [|repeat split; lra]].
  - unfold hpI, hR. cbn [h0 h1 h2]. fold x0 x1 x2. exists 0, (x1 - x0), ((1 + t) * (x1 - x0) - x1 + x2).
    split; [ring|]. split; [ring|]. split; [unfold S; ring|]. split; [apply Rabs_le; lra|]. split; [apply Rabs_le; lra|]. cbv zeta.
    replace ((0 - 0) * (0 - 0)) with 0 by ring. replace ((0 - 0 - (x1 - x0 - 0)) / t - d * 0) with ((x0 - x1) * / t) by (field; lra). rewrite Rplus_0_l.
    assert (W : Rabs ((x0 - x1) * / t) <= hpM t X).
    { rewrite Rabs_mult, (Rabs_pos_eq (/ t)) by lra. unfold hpM. apply Rle_trans with (2 * X * / t); [apply Rmult_le_compat_r; [lra|apply Rabs_le; lra]|].
      assert (0 <= X * / t) by (apply Rmult_le_pos; lra). unfold Rdiv. lra. }
    rewrite <- (Rabs_pos_eq ((x0 - x1) * / t * ((x0 - x1) * / t))) by (pose proof (Rle_0_sqr ((x0 - x1) * / t)) as Q; exact Q). rewrite Rabs_mult.
    apply Rmult_le_compat; auto using Rabs_pos.
  - apply (lpI_any _ b (74 / 10 * b)); cbn [h0 h1 h2]; [exact B0|exact Y0|exact Y1|exact Y2'| |lra].
    pose proof (core_size (74 / 10) b B0 ltac:(lra)) as C. lra.
Qed.
Lemma diff_self h : diff h (hR h) = hist0 0.
Proof. unfold diff, hR, hist0. cbn [h0 h1 h2]. unfold Rminus. rewrite !Rplus_opp_r. reflexivity. Qed.
End LPHP.
Theorem lp_tuned m s B X xs : cos_accurate m -> pow_int_accurate m -> lp_coeff s = lp_coeffs (A64 m) to32 (lp_fc s) (lp_r s) ->
  fin (lp_fc s) -> 600 <= B2R (lp_fc s) <= 24000 -> fin (lp_r s) -> 0 <= B2R (lp_r s) <= 1 ->
  hfin (lp_outs s) B -> B * ((1 + 2 / rad (B2R (lp_fc s))) * (1 + 2 / rad (B2R (lp_fc s)))) <= X ->
  bpow radix2 (-100) <= X <= bpow radix2 90 -> (forall x, In x xs -> fin x /\ Rabs (B2R x) <= X) ->
  Forall2 (fun y z => fin y /\ Rabs (B2R y - z) <= lp_drift (B2R (lp_fc s)) * X)
    (fst (run lp_process s xs)) (fst (run (lpR (B2R (lp_fc s)) (B2R (lp_r s))) (hR (lp_outs s)) (map B2R xs))).
Proof.
  intros HC HP TU Ff Bf Fr Br HB HBX HX Hxs. rewrite lp_run_coeff, TU.
  destruct (lp_coeffs_acc m _ _ HC HP Ff Bf Fr Br) as (c0F & b1F & b2F & b3F & EC & A0 & A1 & A2 & A3). rewrite EC.
  assert (OK : fc_ok (lp_fc s)) by (split; [exact Ff|lra]). destruct (t_600 m _ OK (proj1 Bf)) as [TR _]. destruct (t_near m _ OK) as (_ & TN & _). cbn [sgn] in TN.
  pose proof (t_of_600 _ Bf) as TO. pose proof (d_of_range _ Br) as DR.
  assert (CL : lp_close (t_of (B2R (lp_fc s))) (d_of (B2R (lp_r s))) X (lp_outs s) (hR (lp_outs s))).
  { unfold lp_close. rewrite diff_self. apply lpI_zero; [lra|apply (lpE_pos _ _ TO DR X HX)]. }
  pose proof (lp_track_run _ _ _ TR TO DR TN X HX c0F b1F b2F b3F A0 A1 A2 A3 xs _ _ (lpJ_any _ _ _ X TR TO DR TN _ _ HB HBX) CL Hxs) as T.
  unfold lpR. rewrite lp_coeffs_R. cbv zeta. eapply Forall2_weaken; [|exact T]. intros y z [F D]. split; [exact F|]. apply Rle_trans with (1 := D).
  right. unfold lp_drift, lpE. change (rad (B2R (lp_fc s))) with (t_of (B2R (lp_fc s))). cbv zeta. ring.
Qed.
Theorem hp_tuned m s B X xs : cos_accurate m -> pow_int_accurate m -> hp_coeff s = hp_coeffs (A64 m) to32 (hp_fc s) (hp_r s) ->
  fin (hp_fc s) -> 600 <= B2R (hp_fc s) <= 24000 -> fin (hp_r s) -> 0 <= B2R (hp_r s) <= 1 ->
  hfin (fst (hp_hist s)) B -> hfin (snd (hp_hist s)) B -> B * ((1 + 2 / rad (B2R (hp_fc s))) * (1 + 2 / rad (B2R (hp_fc s)))) <= X ->
  bpow radix2 (-100) <= X <= bpow radix2 90 -> (forall x, In x xs -> fin x /\ Rabs (B2R x) <= X) ->
  Forall2 (fun y z => fin y /\ Rabs (B2R y - z) <= hp_drift (B2R (hp_fc s)) * X)
    (fst (run hp_process s xs)) (fst (run (hpR (B2R (hp_fc s)) (B2R (hp_r s))) (hR (fst (hp_hist s)), hR (snd (hp_hist s))) (map B2R xs))).
Proof.
  intros HC HP TU Ff Bf Fr Br HB HB' HBX HX Hxs. rewrite hp_run_coeff, TU.
  destruct (hp_coeffs_acc m _ _ HC HP Ff Bf Fr Br) as (a0F & a1F & a2F & a3F & b1F & b2F & b3F & EC & (A1 & A2 & A3) & C0 & C1 & C2 & C3). rewrite EC.
  assert (OK : fc_ok (hp_fc s)) by (split; [exact Ff|lra]). destruct (t_600 m _ OK (proj1 Bf)) as [TR _]. destruct (t_near m _ OK) as (_ & TN & _). cbn [sgn] in TN.
  pose proof (t_of_600 _ Bf) as TO. pose proof (d_of_range _ Br) as DR. destruct (hp_hist s) as [hx hy]. cbn [fst snd] in *.
  assert (CL : hp_close (t_of (B2R (hp_fc s))) (d_of (B2R (hp_r s))) X (hx, hy) (hR hx, hR hy)).
  { unfold hp_close. cbn [fst snd]. split; [reflexivity|]. rewrite diff_self. apply lpI_zero; [lra|apply (hpE_pos _ _ TO DR X HX)]. }
  pose proof (hp_track_run _ _ _ TR TO DR TN X HX b1F b2F b3F A1 A2 A3 a0F a1F a2F a3F C0 C1 C2 C3 xs _ _ (hpJ_any _ _ _ X TR TO DR TN _ _ _ HB HB' HBX) CL Hxs) as T.
  unfold hpR. rewrite hp_coeffs_R. cbv zeta. eapply Forall2_weaken; [|exact T]. intros y z [F D]. split; [exact F|]. apply Rle_trans with (1 := D).
  right. unfold hp_drift, hpE. change (rad (B2R (hp_fc s))) with (t_of (B2R (hp_fc s))). cbv zeta. ring.
Qed.
