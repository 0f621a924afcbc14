(** * BandPass: the program's outputs stay close to those of the exact filter at the corners the program reports *)
From Coq Require Import ZArith List Bool Reals Lra Lia Psatz.
From Flocq Require Import Core.Core IEEE754.BinarySingleNaN.
From Verif Require Import Model.Floats Model.Modifiers Model.Filters Spec.Libm Spec.Response Spec.Track Proof.FloatFacts Proof.SampleFormatP Proof.FormatsP
  Proof.GenericP Proof.GeneratorsP Proof.GeneratorsP4 Proof.LibmP Proof.FiltersP Proof.FiltersP2 Proof.NearP Proof.FilterF32P Proof.FilterF32P2 Proof.BandPassP
  Proof.BandPassF32P Proof.ResponseP3.
Import ListNotations.
Local Open Scope R_scope.

(** ** the tangent of a perturbed argument *)
Lemma sin_le_abs d : Rabs d <= 1 -> Rabs (sin d) <= Rabs d.
Proof.
  intro H. pose proof PI_bounds as PB. destruct (Rtotal_order d 0) as [L|[->|L]].
  - rewrite (Rabs_left d) in * by lra. destruct (sinc_lower (- d)) as [A B]; [lra|]. rewrite sin_neg in A, B.
    assert (0 <= - sin d) by nra. rewrite Rabs_left1; lra.
  - rewrite sin_0, Rabs_R0. lra.
  - rewrite (Rabs_pos_eq d) in * by lra. destruct (sinc_lower d) as [A B]; [lra|]. assert (0 <= sin d) by nra. rewrite Rabs_pos_eq; lra.
Qed.
Lemma tan_close x y e : 0 < x <= 13091 / 10000 -> 0 < y <= 13091 / 10000 -> 0 <= e <= / 2 -> Rabs (y - x) <= e * x -> Rabs (tan y - tan x) <= 11 / 2 * e * tan x.
Proof.
  intros Hx Hy He Hd. pose proof PI_bounds as PB.
  assert (Cy : 2575 / 10000 <= cos y).
  { rewrite <- Rtrigo1.sin_shift. destruct (sinc_lower (PI / 2 - y)) as [A _]; [lra|].
    apply Rle_trans with (sin (2616 / 10000)).
    - destruct (sinc_lower (2616 / 10000)) as [B _]; lra.
    - apply sin_incr_1; lra. }
  assert (Cx : 0 < cos x) by (apply cos_gt_0; lra).
  assert (Sx : x * (7143 / 10000) <= sin x).
  { destruct (sinc_lower x) as [A _]; [lra|]. assert (x * x <= 13091 / 10000 * (13091 / 10000)) by (apply Rmult_le_compat; lra).
    assert (x * (x * x) <= x * (13091 / 10000 * (13091 / 10000))) by (apply Rmult_le_compat_l; lra). lra. }
  assert (D : Rabs (sin (y - x)) <= e * x).
  { apply Rle_trans with (2 := Hd). apply sin_le_abs. apply Rle_trans with (1 := Hd). apply Rle_trans with (/ 2 * x); [apply Rmult_le_compat_r; lra|lra]. }
  replace (tan y - tan x) with (sin (y - x) * (/ cos y * / cos x)) by (unfold tan; rewrite sin_minus; field; lra).
  rewrite Rabs_mult, (Rabs_pos_eq (/ cos y * / cos x)) by (apply Rmult_le_pos; left; apply Rinv_0_lt_compat; lra).
  unfold tan. replace (11 / 2 * e * (sin x / cos x)) with (11 / 2 * e * sin x * / cos x) by (field; lra). rewrite <- Rmult_assoc.
  apply Rmult_le_compat_r; [left; apply Rinv_0_lt_compat; lra|].
  apply Rmult_le_reg_r with (cos y); [lra|]. rewrite Rmult_assoc, Rinv_l, Rmult_1_r by lra.
  apply Rle_trans with (1 := D). apply Rle_trans with (11 / 2 * e * (x * (7143 / 10000)) * (2575 / 10000)).
  - assert (0 <= e * x) by (apply Rmult_le_pos; lra). lra.
  - assert (0 <= 11 / 2 * e) by lra. apply Rmult_le_compat; try lra; [apply Rmult_le_pos; lra|]. apply Rmult_le_compat_l; lra.
Qed.
Definition u32 : R := / 4294967296.
Lemma theta_close m fr : tan_accurate m -> fin fr -> 20 <= B2R fr <= 20000 ->
  0 < warp (B2R fr) <= 4 /\ Rabs (B2R (bp_theta (A64 m) fr) - warp (B2R fr)) <= 28 * u32 * warp (B2R fr).
Proof.
  intros HT F R. unfold bp_theta. cbn [a_tan a_mul a_pi a_inv A64]. pose proof PI_bounds as PB.
  destruct PI64_R as [FP VP]. pose proof PI64_PI as EP. destruct INV_ok as [FI _].
  assert (N2 : nf false 1 2 PI64 PI).
  { split; [exact FP|]. cbn [sgn]. split; [apply near_1; [lra|]|change (bpow radix2 (-(2))) with (/ 4); change (bpow radix2 2) with 4; lra].
    eapply Rle_trans; [exact EP|]. lra. }
  assert (N3 : nf false 0 15 fr (B2R fr)).
  { apply nf_const; [exact F|reflexivity|]. change (bpow radix2 (-(15))) with (/ 32768). change (bpow radix2 15) with 32768. lra. }
  assert (N4 : nf false 1 16 INV_SAMPLE_RATE (/ 48000)).
  { split; [exact FI|]. cbn [sgn]. split; [apply near_1; [lra|]; rewrite INV_val; apply Rabs_le; lra|].
    change (bpow radix2 (-(16))) with (/ 65536). change (bpow radix2 16) with 65536. lra. }
  pose proof (nf_mul false 1 0 2 15 _ _ _ _ ltac:(lia) ltac:(lia) ltac:(lia) ltac:(lia) N2 N3) as M2. cbn [Nat.add] in M2.
  pose proof (nf_mul false 2 1 (2 + 15) 16 _ _ _ _ ltac:(lia) ltac:(lia) ltac:(lia) ltac:(lia) M2 N4) as M3. cbn [Nat.add] in M3.
  destruct M3 as (FA & (P & L & U) & _). cbn [sgn] in *. set (arg := fmul (fmul PI64 fr) INV_SAMPLE_RATE) in *. clearbody arg.
  assert (R4 : rho ^ 4 <= 1 + 4001 / 1000 * u32) by (unfold rho, u32; cbn [pow]; lra). pose proof (rho_ge1 4).
  unfold warp. replace (PI * B2R fr / 48000) with (PI * B2R fr * / 48000) by reflexivity. set (z := PI * B2R fr * / 48000) in *.
  assert (PL : 31415926 / 10000000 * B2R fr <= PI * B2R fr) by (apply Rmult_le_compat_r; lra).
  assert (PU : PI * B2R fr <= 31415927 / 10000000 * 20000) by (apply Rmult_le_compat; lra).
  assert (Z0 : 65448 / 1000000000 * 20 <= z <= 130901 / 100000) by (unfold z; lra).
  assert (Pa : 0 < B2R arg) by (apply Rmult_lt_reg_r with (rho ^ 4); lra).
  assert (L2 : z <= B2R arg * (1 + 4001 / 1000 * u32)) by (apply Rle_trans with (1 := L); apply Rmult_le_compat_l; lra).
  assert (U2 : B2R arg <= z * (1 + 4001 / 1000 * u32)) by (apply Rle_trans with (1 := U); apply Rmult_le_compat_l; lra).
  assert (EA : Rabs (B2R arg - z) <= 401 / 100 * u32 * z) by (unfold u32 in *; apply Rabs_le; lra).
  assert (AU : 0 < B2R arg <= 13091 / 10000) by (unfold u32 in *; lra).
  destruct (HT arg FA) as [FT ET].
  { unfold u32 in *. split; [|lra]. change (bpow radix2 (-20)) with (/ 1048576). lra. }
  pose proof (tan_close z (B2R arg) (401 / 100 * u32) ltac:(lra) ltac:(lra) ltac:(unfold u32; lra) EA) as TC.
  assert (T1 : 0 < tan z) by (apply tan_gt_0; lra).
  assert (T2 : tan z <= 383 / 100).
  { apply Rle_trans with (1 := tan_le z ltac:(lra)). replace (383 / 100) with (/ (100 / 383)) by field. apply Rinv_le; lra. }
  change (bpow radix2 (-40)) with (/ 1099511627776) in ET. split; [lra|].
  apply Rabs_le_inv in ET. apply Rabs_le_inv in TC. unfold u32 in *. apply Rabs_le. lra.
Qed.
(** ** poles and gain of a perturbed theta *)
Lemma frac_quarter t t' : 0 < t <= 4 -> Rabs (t' - t) <= 28 * u32 * t -> 0 < t' /\ t * (/ (1 + t) * / (1 + t')) <= 251 / 1000.
Proof.
  intros R D. apply Rabs_le_inv in D. unfold u32 in D. split; [lra|].
  apply Rmult_le_reg_r with ((1 + t) * (1 + t')); [apply Rmult_lt_0_compat; lra|].
  replace (t * (/ (1 + t) * / (1 + t')) * ((1 + t) * (1 + t'))) with t by (field; lra).
  assert (0 <= (1 + t) * (t' - t * (1 - / 100000000))) by (apply Rmult_le_pos; lra).
  pose proof (Rle_0_sqr (t - 1)) as SQ. unfold Rsqr in SQ. assert (t * t <= 4 * t) by (apply Rmult_le_compat_r; lra). lra.
Qed.
Lemma inv_close t t' : 0 < t <= 4 -> Rabs (t' - t) <= 28 * u32 * t -> Rabs (/ (1 + t') - / (1 + t)) <= 71 / 10 * u32.
Proof.
  intros R D. destruct (frac_quarter t t' R D) as [P Q].
  replace (/ (1 + t') - / (1 + t)) with ((t - t') * (/ (1 + t) * / (1 + t'))) by (field; lra). rewrite Rabs_mult, Rabs_minus_sym.
  assert (0 <= / (1 + t) * / (1 + t')) by (apply Rmult_le_pos; left; apply Rinv_0_lt_compat; lra).
  rewrite (Rabs_pos_eq (/ (1 + t) * _)) by assumption.
  apply Rle_trans with (28 * u32 * t * (/ (1 + t) * / (1 + t'))); [apply Rmult_le_compat_r; assumption|]. rewrite Rmult_assoc.
  apply Rle_trans with (28 * u32 * (251 / 1000)); [apply Rmult_le_compat_l; [unfold u32; lra|exact Q]|unfold u32; lra].
Qed.
Lemma beta_inv t : 0 < t -> beta t = 2 * / (1 + t) - 1.
Proof. intro H. unfold beta. field. lra. Qed.
Lemma beta_close t t' : 0 < t <= 4 -> Rabs (t' - t) <= 28 * u32 * t -> Rabs (beta t' - beta t) <= 142 / 10 * u32.
Proof.
  intros R D. pose proof (inv_close t t' R D) as I. destruct (frac_quarter t t' R D) as [P _]. rewrite !beta_inv by lra.
  apply Rabs_le_inv in I. apply Rabs_le. lra.
Qed.
Definition gain_of (tl th : R) : R := (1 - / (1 + th)) * / (1 + tl).
Lemma coeff_close tl th l h : 0 < l <= 4 -> 0 < h <= 4 -> Rabs (tl - l) <= 28 * u32 * l -> Rabs (th - h) <= 28 * u32 * h ->
  Rabs (gain_of tl th - gain_of l h) <= 16 * u32 /\ Rabs (beta th + beta tl - (beta h + beta l)) <= 29 * u32 /\
  Rabs (beta th * beta tl - beta h * beta l) <= 32 * u32.
Proof.
  intros Rl Rh Dl Dh. pose proof (beta_close _ _ Rl Dl) as Bl. pose proof (beta_close _ _ Rh Dh) as Bh.
  pose proof (inv_close _ _ Rl Dl) as Il. pose proof (inv_close _ _ Rh Dh) as Ih.
  pose proof (beta_rng l ltac:(lra)) as Gl. pose proof (beta_rng h ltac:(lra)) as Gh.
  assert (Jl : 0 < / (1 + l) < 1) by (split; [apply Rinv_0_lt_compat; lra|rewrite <- Rinv_1; apply Rinv_lt; lra]).
  assert (Jh : 0 < / (1 + h) < 1) by (split; [apply Rinv_0_lt_compat; lra|rewrite <- Rinv_1; apply Rinv_lt; lra]).
  unfold gain_of. split; [|split].
  - assert (I' : Rabs ((1 - / (1 + th)) - (1 - / (1 + h))) <= 71 / 10 * u32).
    { replace (1 - / (1 + th) - (1 - / (1 + h))) with (- (/ (1 + th) - / (1 + h))) by ring. rewrite Rabs_Ropp. exact Ih. }
    eapply Rle_trans; [exact (proj1 (prod_err _ _ _ _ _ _ I' Il ltac:(apply Rabs_le; lra) ltac:(apply Rabs_le; lra) ltac:(unfold u32; lra) ltac:(unfold u32; lra)))|]. unfold u32; lra.
  - apply Rabs_le_inv in Bl. apply Rabs_le_inv in Bh. unfold u32 in *. apply Rabs_le. lra.
  - eapply Rle_trans; [exact (proj1 (prod_err _ _ _ _ _ _ Bh Bl ltac:(apply Rabs_le; lra) ltac:(apply Rabs_le; lra) ltac:(unfold u32; lra) ltac:(unfold u32; lra)))|]. unfold u32; lra.
Qed.

(** ** both filters side by side *)
Section Track.
Variable m : libm.
Variables (c : bpc f64) (tl th l h X : R).
Hypothesis Rl : 13 / 10000 <= tl <= 4.
Hypothesis Rh : 13 / 10000 <= th <= 4.
Hypothesis Wl : 0 < l <= 4.
Hypothesis Wh : 0 < h <= 4.
Hypothesis Dl : Rabs (tl - l) <= 28 * u32 * l.
Hypothesis Dh : Rabs (th - h) <= 28 * u32 * h.
Hypothesis FA : fin (bc_a0 c). Hypothesis FP : fin (bc_b1 c). Hypothesis FQ : fin (bc_b2 c).
Hypothesis EA : Rabs (B2R (bc_a0 c) - (1 - / (1 + th)) * / (1 + tl)) <= del.
Hypothesis EP : Rabs (B2R (bc_b1 c) - (beta th + beta tl)) <= del.
Hypothesis EQ : Rabs (B2R (bc_b2 c) - beta th * beta tl) <= del.
Hypothesis HX : bpow radix2 (-100) <= X <= bpow radix2 90.
Let M := 22 / 10 / mu tl * X.
Let cR : bpc R := mkBPC (gain_of l h) (beta h + beta l) (beta h * beta l).
Definition slack : R := bpow radix2 (-22) * (M + 2 * X).
Definition close_hist (hf : bph f32) (hr : bph R) : Prop :=
  bh_x1 hr = B2R (bh_x1 hf) /\ bh_x2 hr = B2R (bh_x2 hf) /\
  Rabs (B2R (bh_y1 hf) - bh_y1 hr) <= slack / gap h / gap l /\
  Rabs ((B2R (bh_y1 hf) - bh_y1 hr) - beta l * (B2R (bh_y2 hf) - bh_y2 hr)) <= slack / gap h.
Let step := bp_step (A64 m) fsub to64 to32 c.
Let J := bpJ tl th X.
Lemma step_forcing hf x : J hf -> fin x -> Rabs (B2R x) <= X ->
  Rabs (B2R (fst (step hf x)) - (gain_of l h * (B2R x - B2R (bh_x2 hf)) + (beta h + beta l) * B2R (bh_y1 hf) - beta h * beta l * B2R (bh_y2 hf))) <= slack.
Proof.
  intros (Fx1 & Fx2 & Fy1 & Fy2 & Bx1 & Bx2 & By1 & By2 & BW) Fx Bx. destruct (F_M tl th X Rl Rh HX) as [F0 FM].
  destruct (XM tl X Rl HX) as (X0 & XM1).
  assert (Pl : -1 < beta tl < 1) by (apply beta_rng; lra). assert (Ph : -1 < beta th < 1) by (apply beta_rng; lra).
  assert (BA : Rabs ((1 - / (1 + th)) * / (1 + tl)) <= 1) by (pose proof (A_rng tl th Rl Rh); rewrite Rabs_pos_eq; lra).
  assert (BP : Rabs (beta th + beta tl) <= 2) by (apply Rabs_le; lra).
  assert (BQ : Rabs (beta th * beta tl) <= 1) by (rewrite <- (Rmult_1_r 1); apply mul_bd; apply Rabs_le; lra).
  pose proof (bp_err m c _ (beta th + beta tl) (beta th * beta tl) X M FA FP FQ EA EP EQ BA BP BQ HX XM1 hf x Fx Fx2 Fy1 Fy2 Bx Bx2 ltac:(unfold M; lra) ltac:(unfold M; lra)) as [_ Ey].
  destruct (coeff_close tl th l h Wl Wh Dl Dh) as (C0 & C1 & C2). unfold gain_of in *. fold step in Ey.
  assert (BY1 : Rabs (B2R (bh_y1 hf)) <= M) by (unfold M; lra). assert (BY2 : Rabs (B2R (bh_y2 hf)) <= M) by (unfold M; lra).
  assert (BX : Rabs (B2R x - B2R (bh_x2 hf)) <= X + X) by (apply trim; assumption).
  generalize dependent (B2R (fst (step hf x))). intros y Ey.
  set (g := (1 - / (1 + th)) * / (1 + tl)) in *. set (p := beta th + beta tl) in *. set (q := beta th * beta tl) in *.
  replace (y - ((1 - / (1 + h)) * / (1 + l) * (B2R x - B2R (bh_x2 hf)) + (beta h + beta l) * B2R (bh_y1 hf) - beta h * beta l * B2R (bh_y2 hf)))
    with ((y - (g * (B2R x - B2R (bh_x2 hf)) + p * B2R (bh_y1 hf) - q * B2R (bh_y2 hf))) + (g - (1 - / (1 + h)) * / (1 + l)) * (B2R x - B2R (bh_x2 hf))
          + (p - (beta h + beta l)) * B2R (bh_y1 hf) - (q - beta h * beta l) * B2R (bh_y2 hf)) by ring.
  eapply Rle_trans; [apply trim; [apply tri; [apply tri; [exact Ey|apply mul_bd; [exact C0|exact BX]]|apply mul_bd; [exact C1|exact BY1]]|apply mul_bd; [exact C2|exact BY2]]|].
  unfold slack, w32, u32. change (bpow radix2 (-22)) with (/ 4194304). assert (0 < M) by (unfold M; lra). lra.
Qed.
Lemma slack_pos : 0 <= slack.
Proof. destruct (XM tl X Rl HX) as (X0 & XM1). unfold slack. apply Rmult_le_pos; [apply bpow_ge_0|]. unfold M. lra. Qed.
Lemma gap_pos t : 0 < t -> 0 < gap t.
Proof. intro H. exact (Rabs_lt1 _ (beta_rng t H)). Qed.
Lemma track_step hf hr x : J hf -> close_hist hf hr -> fin x -> Rabs (B2R x) <= X ->
  J (snd (step hf x)) /\ close_hist (snd (step hf x)) (snd (bp_stepR cR hr (B2R x))) /\ fin (fst (step hf x)) /\
  Rabs (B2R (fst (step hf x)) - fst (bp_stepR cR hr (B2R x))) <= slack / gap h / gap l.
Proof.
  intros I (X1 & X2 & Y & W) Fx Bx. pose proof (step_forcing hf x I Fx Bx) as SF.
  pose proof (bp_f32_step m c tl th X Rl Rh FA FP FQ EA EP EQ HX hf x I Fx Bx) as ST. fold step in ST.
  unfold step in *. rewrite bp_step_shape in ST |- *. cbn [fst snd] in *. destruct ST as (J' & Fy & _).
  generalize dependent (fst (bp_step (A64 m) fsub to64 to32 c hf x)). intros y SF J' Fy.
  split; [exact J'|]. unfold bp_stepR. rewrite bp_step_shape. fold bp_stepR. cbn [fst snd].
  set (z := fst (bp_stepR cR hr (B2R x))).
  assert (EZ : z = gain_of l h * (B2R x - B2R (bh_x2 hf)) + (beta h + beta l) * bh_y1 hr - beta h * beta l * bh_y2 hr).
  { unfold z, bp_stepR, bp_step, cR. cbn [fst a_add a_sub a_mul AR bc_a0 bc_b1 bc_b2]. rewrite X2. reflexivity. }
  clearbody z. destruct hf as [x1 x2 y1 y2]. destruct hr as [x1' x2' z1 z2]. cbn [bh_x1 bh_x2 bh_y1 bh_y2] in *.
  assert (Bl : -1 < beta l < 1) by (apply beta_rng; lra). assert (Bh : -1 < beta h < 1) by (apply beta_rng; lra).
  assert (W' : Rabs (B2R y - z - beta l * (B2R y1 - z1)) <= slack / gap h).
  { replace (B2R y - z - beta l * (B2R y1 - z1)) with (beta h * (B2R y1 - z1 - beta l * (B2R y2 - z2))
      + (B2R y - (gain_of l h * (B2R x - B2R x2) + (beta h + beta l) * B2R y1 - beta h * beta l * B2R y2))) by (rewrite EZ; ring).
    apply (contraction (beta h) _ _ (slack / gap h) slack Bh W SF eq_refl). }
  assert (Y' : Rabs (B2R y - z) <= slack / gap h / gap l).
  { replace (B2R y - z) with (beta l * (B2R y1 - z1) + (B2R y - z - beta l * (B2R y1 - z1))) by ring.
    apply (contraction (beta l) _ _ (slack / gap h / gap l) (slack / gap h) Bl Y W' eq_refl). }
  split; [|split; [exact Fy|exact Y']]. unfold close_hist. cbn [bh_x1 bh_x2 bh_y1 bh_y2]. auto.
Qed.
Lemma track_run xs : forall hf hr, J hf -> close_hist hf hr -> (forall x, In x xs -> fin x /\ Rabs (B2R x) <= X) ->
  Forall2 (fun y z => fin y /\ Rabs (B2R y - z) <= slack / gap h / gap l) (fst (run step hf xs)) (fst (run (bp_stepR cR) hr (map B2R xs))).
Proof.
  induction xs as [|x xs IH]; intros hf hr I C Hx; [constructor|].
  cbn [map run]. destruct (Hx x (or_introl eq_refl)) as [Fx Bx]. destruct (track_step hf hr x I C Fx Bx) as (I' & C' & B).
  destruct (step hf x) as [y hf']. destruct (bp_stepR cR hr (B2R x)) as [z hr']. cbn [fst snd] in *.
  specialize (IH hf' hr' I' C' (fun z Hz => Hx z (or_intror Hz))).
  destruct (run step hf' xs). destruct (run (bp_stepR cR) hr' (map B2R xs)). cbn [fst] in *. constructor; assumption.
Qed.
Lemma close0 : close_hist bph0 (mkBPH 0 0 0 0).
Proof.
  pose proof slack_pos as S. pose proof (gap_pos l (proj1 Wl)) as Gl. pose proof (gap_pos h (proj1 Wh)) as Gh.
  assert (0 <= slack / gap h) by (apply Rmult_le_pos; [exact S|left; apply Rinv_0_lt_compat; exact Gh]).
  assert (0 <= slack / gap h / gap l) by (apply Rmult_le_pos; [assumption|left; apply Rinv_0_lt_compat; exact Gl]).
  unfold close_hist, bph0. cbn [bh_x1 bh_x2 bh_y1 bh_y2]. change (B2R (f0 : f32)) with 0. rewrite Rminus_0_r, Rmult_0_r, Rminus_0_r, Rabs_R0. auto.
Qed.
End Track.

Lemma Forall2_weaken {A B} (P Q : A -> B -> Prop) l1 l2 : (forall a b, P a b -> Q a b) -> Forall2 P l1 l2 -> Forall2 Q l1 l2.
Proof. intros I H. induction H; constructor; auto. Qed.
Theorem bp_tracks m f q X xs : tan_accurate m -> let s := bp_new m f q in
  audible (fst (bp_get_corners m s)) -> audible (snd (bp_get_corners m s)) ->
  bpow radix2 (-100) <= X <= bpow radix2 90 -> (forall x, In x xs -> fin x /\ Rabs (B2R x) <= X) ->
  let lo := B2R (fst (bp_get_corners m s)) in let hi := B2R (snd (bp_get_corners m s)) in
  Forall2 (fun y z => fin y /\ Rabs (B2R y - z) <= bp_drift lo hi * X)
    (fst (run (bp_process m) s xs)) (fst (run (bp_stepR (bp_at lo hi)) (mkBPH 0 0 0 0) (map B2R xs))).
Proof.
  intros HT s HL HH HX Hxs. rewrite bp_run_coeff. subst s.
  change (bp_hist (bp_new m f q)) with bph0. change (bp_coeff (bp_new m f q)) with (bp_coeffs (A64 m) f q).
  change (bp_get_corners m (bp_new m f q)) with (bp_corners (A64 m) f q) in *. unfold bp_coeffs.
  destruct (bp_corners (A64 m) f q) as [lo hi]. cbn [fst snd] in *. set (l := B2R lo) in *. set (h := B2R hi) in *.
  destruct (audible_R _ HL) as [FL RL]. destruct (audible_R _ HH) as [FH RH].
  destruct (theta_range m lo HT FL RL) as [Fl Tl]. destruct (theta_range m hi HT FH RH) as [Fh Th].
  destruct (theta_close m lo HT FL RL) as [Wl Dl]. destruct (theta_close m hi HT FH RH) as [Wh Dh].
  destruct (coeff_ok m lo hi _ _ eq_refl eq_refl Fl Fh ltac:(lra) ltac:(lra)) as (FA & EA & FP & EP & FQ & EQ).
  set (tl := B2R (bp_theta (A64 m) lo)) in *. set (th := B2R (bp_theta (A64 m) hi)) in *. fold l in Wl, Dl, RL, Tl. fold h in Wh, Dh, RH, Th.
  assert (Rl : 13 / 10000 <= tl <= 4) by lra. assert (Rh : 13 / 10000 <= th <= 4) by lra.
  pose proof (track_run m (mkBPC (bp_a0 (A64 m) lo hi) (bp_b1 (A64 m) lo hi) (bp_b2 (A64 m) lo hi)) tl th (warp l) (warp h) X Rl Rh Wl Wh Dl Dh FA FP FQ EA EP EQ HX
    xs bph0 (mkBPH 0 0 0 0) (bpJ0 tl th X Rl Rh HX) (close0 tl (warp l) (warp h) X Rl Wl Wh HX) Hxs) as T.
  assert (EC : mkBPC (gain_of (warp l) (warp h)) (beta (warp h) + beta (warp l)) (beta (warp h) * beta (warp l)) = bp_at l h).
  { unfold bp_at, bp_a0, bp_b1, bp_b2, bp_bl, bp_al, bp_theta, gain_of, beta, warp. cbn [a_add a_sub a_mul a_div a_Z a_tan a_pi a_inv AR].
    unfold Rdiv. rewrite !Rmult_1_l. reflexivity. }
  rewrite EC in T. eapply Forall2_weaken; [|exact T]. intros y z [F B]. split; [exact F|]. apply Rle_trans with (1 := B).
  unfold bp_drift. change (1 - Rabs (pole_at l)) with (gap (warp l)). change (1 - Rabs (pole_at h)) with (gap (warp h)).
  pose proof (gap_pos (warp l) (proj1 Wl)) as Gl. pose proof (gap_pos (warp h) (proj1 Wh)) as Gh.
  replace (bpow radix2 (-22) * (34000 / l + 5) / (gap (warp l) * gap (warp h)) * X) with (bpow radix2 (-22) * (34000 / l + 5) * X / (gap (warp l) * gap (warp h))) by (field; repeat split; lra).
  replace (slack tl X / gap (warp h) / gap (warp l)) with (slack tl X / (gap (warp l) * gap (warp h))) by (field; split; lra).
  apply Rmult_le_compat_r; [left; apply Rinv_0_lt_compat, Rmult_lt_0_compat; assumption|].
  unfold slack. rewrite Rmult_assoc. apply Rmult_le_compat_l; [apply bpow_ge_0|].
  assert (X0 : 0 < X) by (pose proof (bpow_gt_0 radix2 (-100)); lra).
  replace (22 / 10 / mu tl * X + 2 * X) with ((22 / 10 / mu tl + 2) * X) by ring. apply Rmult_le_compat_r; [lra|]. unfold mu.
  assert (0 < / l) by (apply Rinv_0_lt_compat; lra).
  destruct (Rle_dec tl 1) as [L|L]; [rewrite Rmin_left by lra|rewrite Rmin_right by lra; unfold Rdiv at 3; lra].
  assert (/ tl <= / (l * (6544 / 100000000))) by (apply Rinv_le; lra).
  replace (/ (l * (6544 / 100000000))) with (100000000 / 6544 * / l) in * by (field; lra). unfold Rdiv at 1 3. lra.
Qed.
