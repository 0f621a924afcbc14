(** * Magnitudes of the frequency responses; BandPass *)
From Coq Require Import ZArith List Bool Reals Lra Lia Psatz.
From Verif Require Import Model.Modifiers Model.Filters Spec.Response Proof.GenericP Proof.FiltersP Proof.FiltersP2 Proof.BandPassP Proof.ResponseP Proof.ResponseP2 Proof.GeneratorsP4.
Import ListNotations.
Local Open Scope R_scope.

Lemma half_angle om : 1 - cos om = 2 * (sin (om / 2) * sin (om / 2)) /\ 1 + cos om = 2 * (cos (om / 2) * cos (om / 2)).
Proof.
  assert (E : cos om = cos (2 * (om / 2))) by (f_equal; field). rewrite E.
  split; [rewrite cos_2a_sin|rewrite cos_2a_cos]; ring.
Qed.
Lemma m2_proto fc om : 0 < fc -> m2_of (t_of fc) om = proto fc om ^ 2.
Proof.
  intro Hf. pose proof (t_of_pos fc Hf). unfold m2_of, proto. change (rad fc) with (t_of fc). rewrite (proj1 (half_angle om)). field. lra.
Qed.
Lemma d_of_0 : d_of 0 = 1.
Proof. unfold d_of. replace (PI / 6 * (4 - 0)) with (2 * (PI / 3)) by field. rewrite cos_2PI3. field. Qed.
Lemma d_of_1 : d_of 1 = 0.
Proof. unfold d_of. replace (PI / 6 * (4 - 1)) with (PI / 2) by field. rewrite cos_PI2. ring. Qed.

Lemma den2_butterworth t p : 0 < t -> 0 <= p -> 1 + p ^ 3 <= den2 t 1 p.
Proof.
  intros Ht Hp. eapply Rle_trans; [|apply den2_lower; lra].
  replace (1 + p ^ 3) with ((p + 1) * ((p - 1) * (p - 1) + 1 * 1 * p)) by ring. apply Rmult_le_compat_l; [lra|].
  assert (0 <= t * t * (p * p)) by (apply Rmult_le_pos; apply Rle_0_sqr). lra.
Qed.
Lemma den2_far t d p : 0 < t -> 0 <= d -> 4 <= p -> / 2 * p ^ 3 <= den2 t d p.
Proof.
  intros Ht Hd Hp. eapply Rle_trans; [|apply den2_lower; lra].
  assert (0 <= d * d * p) by (apply Rmult_le_pos; [apply Rle_0_sqr|lra]). assert (0 <= t * t * (p * p)) by (apply Rmult_le_pos; apply Rle_0_sqr).
  apply Rle_trans with ((p + 1) * ((p - 1) * (p - 1))); [|apply Rmult_le_compat_l; lra]. assert (0 <= (p - 4) * (p - 4)) by apply Rle_0_sqr.
  assert (0 <= (p - 4) * ((p - 4) * (p - 4))) by (apply Rmult_le_pos; lra). cbn [pow]. nra.
Qed.
Lemma den2_near t d p : 0 < t -> 0 <= d -> 0 <= p <= / 4 -> / 2 <= den2 t d p.
Proof.
  intros Ht Hd Hp. eapply Rle_trans; [|apply den2_lower; lra].
  assert (0 <= d * d * p) by (apply Rmult_le_pos; [apply Rle_0_sqr|lra]). assert (0 <= t * t * (p * p)) by (apply Rmult_le_pos; apply Rle_0_sqr).
  apply Rle_trans with ((p + 1) * ((p - 1) * (p - 1))); [|apply Rmult_le_compat_l; lra]. nra.
Qed.
Lemma den2_min t d p : 0 < t -> 0 <= d -> 0 <= p -> t * t / (1 + t * t) <= den2 t d p.
Proof.
  intros Ht Hd Hp. eapply Rle_trans; [|apply den2_lower; lra].
  assert (0 <= d * d * p) by (apply Rmult_le_pos; [apply Rle_0_sqr|lra]). assert (TT : 0 < t * t) by (apply Rmult_lt_0_compat; lra).
  assert (Q : t * t / (1 + t * t) <= (p - 1) * (p - 1) + t * t * (p * p)).
  { apply Rmult_le_reg_r with (1 + t * t); [lra|]. unfold Rdiv. rewrite Rmult_assoc, Rinv_l, Rmult_1_r by lra.
    assert (0 <= (p * (1 + t * t) - 1) * (p * (1 + t * t) - 1)) by apply Rle_0_sqr. nra. }
  assert (0 <= t * t / (1 + t * t)) by (unfold Rdiv; apply Rmult_le_pos; [lra|left; apply Rinv_0_lt_compat; lra]). nra.
Qed.
(** ** at the cutoff frequency *)
Lemma sinc_lower x : 0 < x <= PI / 2 -> x - x * x * x / 6 <= sin x <= x.
Proof.
  intros [H0 H1]. pose proof PI_bounds as PB. split.
  - destruct (SIN x) as [L _]; [lra|lra|]. eapply Rle_trans; [|exact L]. unfold sin_lb, sin_approx, sin_term. cbn [sum_f_R0 pow Nat.mul Nat.add fact INR].
    assert (X2 : x * x <= 4) by nra. assert (0 <= x * x * x * x * x) by (repeat apply Rmult_le_pos; lra).
    simpl. match goal with |- _ <= ?e => replace e with (x - x * x * x / 6 + x * x * x * x * x * (/ 120 - x * x / 5040)) by field end.
    assert (0 <= x * x * x * x * x * (/ 120 - x * x / 5040)) by (apply Rmult_le_pos; lra). lra.
  - left. apply sin_lt_x. lra.
Qed.
Lemma den2_cutoff t p : 0 < t <= PI -> 1 - t * t / 12 <= p <= 1 -> 2 < den2 t 1 p.
Proof.
  intros [H0 H1] [P0 P1]. pose proof PI_bounds as PB.
  assert (PP : 177 / 1000 <= p) by nra.
  assert (E : den2 t 1 p = 1 + p * p * p + t * p * (2 * (p * p) + p + 2) + 2 * (t * t) * (p * p) * (p + 1) + t * t * t * (p * p * p)) by (unfold den2; ring).
  rewrite E. assert (TP : 0 < t * p) by (apply Rmult_lt_0_compat; lra).
  assert (P2 : 0 < p * p) by (apply Rmult_lt_0_compat; lra). assert (P3 : 0 < p * p * p) by (apply Rmult_lt_0_compat; lra).
  assert (T2 : 0 < t * t) by (apply Rmult_lt_0_compat; lra). assert (T3 : 0 < t * t * t) by (apply Rmult_lt_0_compat; lra).
  assert (0 < t * t * t * (p * p * p)) by (apply Rmult_lt_0_compat; lra).
  assert (A1 : 2 * (t * p) <= t * p * (2 * (p * p) + p + 2)) by nra.
  assert (A2 : 2 * ((t * p) * (t * p)) <= 2 * (t * t) * (p * p) * (p + 1)).
  { replace (2 * (t * t) * (p * p) * (p + 1)) with (2 * ((t * p) * (t * p)) * (p + 1)) by ring. nra. }
  destruct (Rle_lt_dec t (24 / 10)) as [L|L].
  - assert (B : 1 - p * p * p <= t * t / 4).
    { replace (1 - p * p * p) with ((1 - p) * (1 + p + p * p)) by ring. assert (p * p <= 1) by nra.
      apply Rle_trans with ((1 - p) * 3); [apply Rmult_le_compat_l; lra|lra]. }
    assert (D : t / 8 < p) by nra. assert (t * t / 4 < 2 * (t * p)) by nra. nra.
  - assert (42 / 100 <= t * p) by nra. nra.
Qed.
Lemma lp_cutoff fc : 0 < fc <= 24000 -> cn2 (lp_H fc 0 (rad fc)) < / 2.
Proof.
  intros Hf. pose proof (t_of_pos fc (proj1 Hf)) as T. assert (TP : t_of fc <= PI).
  { unfold t_of. pose proof PI_RGT_0. assert (PI * fc <= PI * 24000) by (apply Rmult_le_compat_l; lra). lra. }
  rewrite lp_H_mag by lra. rewrite d_of_0. apply Rinv_lt_contravar.
  - apply Rmult_lt_0_compat; [lra|]. apply den2_pos; try lra. apply m2_nonneg. lra.
  - apply den2_cutoff; [lra|]. rewrite m2_proto by lra. unfold proto. change (rad fc) with (t_of fc). set (t := t_of fc) in *.
    destruct (sinc_lower (t / 2)) as [A B]; [lra|].
    assert (C1 : 1 - t * t / 24 <= 2 * sin (t / 2) / t).
    { apply Rmult_le_reg_r with t; [exact T|]. unfold Rdiv at 2. rewrite Rmult_assoc, Rinv_l, Rmult_1_r by lra. nra. }
    assert (C2 : 2 * sin (t / 2) / t <= 1).
    { apply Rmult_le_reg_r with t; [exact T|]. unfold Rdiv at 1. rewrite Rmult_assoc, Rinv_l, Rmult_1_r by lra. nra. }
    pose proof PI_bounds. assert (t * t <= 10) by nra. cbn [pow]. rewrite Rmult_1_r. nra.
Qed.

(** ** BandPass *)
Lemma mp_norm th om : cn2 (cadd (csub (cre 1) (zi om)) (cmul (cre th) (cadd (cre 1) (zi om)))) = 2 * (1 - cos om) + th * th * (2 * (1 + cos om)).
Proof.
  unfold cn2, cadd, csub, cmul, cre, zi. cbn [fst snd]. pose proof (sin2_cos2 om) as S. unfold Rsqr in S.
  match goal with |- ?l = ?r => replace l with (r + (sin om * sin om + cos om * cos om - 1) * (1 + th * th - 2 * th)) by ring end. rewrite S. ring.
Qed.
Lemma mp_pos th om : 0 < th -> 0 < 2 * (1 - cos om) + th * th * (2 * (1 + cos om)).
Proof.
  intro H. pose proof (COS_bound om) as B. assert (0 < th * th) by (apply Rmult_lt_0_compat; lra).
  destruct (Req_dec (cos om) 1) as [->|N]; [lra|]. assert (0 <= th * th * (2 * (1 + cos om))) by (apply Rmult_le_pos; lra). lra.
Qed.
Section BPT.
Variables lo hi om : R.
Hypothesis Hlo : 0 < lo < 24000.
Hypothesis Hhi : 0 < hi < 24000.
Let h := warp hi. Let l := warp lo.
Let c : bpc R := mkBPC (bp_a0 AR lo hi) (bp_b1 AR lo hi) (bp_b2 AR lo hi).
Lemma warp_theta f : bp_theta AR f = warp f.
Proof. reflexivity. Qed.
Lemma hl_pos : 0 < h /\ 0 < l.
Proof. unfold h, l. rewrite <- !warp_theta. split; apply bp_theta_pos; assumption. Qed.
Lemma bp_rec s x n : let y := out (bp_stepR c) s x in
  y (S (S n)) = bc_a0 c * (x (S (S n)) - x n) + bc_b1 c * y (S n) - bc_b2 c * y n.
Proof.
  cbv zeta. assert (A : forall m, after (bp_stepR c) s x (S m) = mkBPH (x m) (bh_x1 (after (bp_stepR c) s x m)) (out (bp_stepR c) s x m) (bh_y1 (after (bp_stepR c) s x m))) by reflexivity.
  unfold out at 1. rewrite !A. cbn [bh_x1 bh_x2 bh_y1 bh_y2]. reflexivity.
Qed.
Lemma bp_tone s w : settles (response (bp_stepR c) s (tone om w)) (tone om (cmul (bp_H lo hi om) w)).
Proof.
  destruct hl_pos as [Ph Pl]. set (W := cmul (bp_H lo hi om) w). set (y := out (bp_stepR c) s (tone om w)).
  set (D := zi om). set (b := bp_bl AR (warp hi)). set (b' := bp_bl AR (warp lo)).
  set (m := csub (cre 1) D). set (p := cadd (cre 1) D).
  assert (NZ : cn2 (cmul (cadd m (cmul (cre h) p)) (cadd m (cmul (cre l) p))) <> 0).
  { rewrite cn2_mul. apply Rgt_not_eq, Rmult_lt_0_compat; unfold m, p, D; rewrite mp_norm; apply mp_pos; assumption. }
  assert (BW : cmul (cmul (cadd m (cmul (cre h) p)) (cadd m (cmul (cre l) p))) W = cmul (cmul (cre h) (cmul p m)) w).
  { unfold W, bp_H, cdiv. cbv zeta. fold D m p h l.
    transitivity (cmul (cmul (cmul (cadd m (cmul (cre h) p)) (cadd m (cmul (cre l) p))) (cinv (cmul (cadd m (cmul (cre h) p)) (cadd m (cmul (cre l) p))))) (cmul (cmul (cre h) (cmul p m)) w)); [ring|].
    rewrite cmul_inv by exact NZ. ring. }
  assert (T : forall n, tone om W (S (S n)) = bc_a0 c * (tone om w (S (S n)) - tone om w n) + bc_b1 c * tone om W (S n) - bc_b2 c * tone om W n).
  { intro n. rewrite (tone_delay om W (S n)), (tone_delay om W n), (tone_delay om w n), (tone_delay om (cmul (zi om) w) (S n)), (tone_delay om (cmul (zi om) W) (S n)).
    fold D. rewrite <- tone_sub, <- !tone_scale, <- tone_add, <- tone_sub. f_equal.
    assert (X : forall u v : C, cmul (cre ((1 + h) * (1 + l))) u = cmul (cre ((1 + h) * (1 + l))) v -> u = v).
    { intros u v E. assert (P : 0 < (1 + h) * (1 + l)) by (apply Rmult_lt_0_compat; lra). unfold cmul, cre in E. cbn [fst snd] in E. injection E as E1 E2.
      apply c_ext; [apply Rmult_eq_reg_l with ((1 + h) * (1 + l))|apply Rmult_eq_reg_l with ((1 + h) * (1 + l))]; lra. }
    apply X. clear X.
    assert (EA : (1 + h) * (1 + l) * bc_a0 c = h) by (change (bc_a0 c) with ((1 - 1 / (1 + h)) * (1 / (1 + l))); field; lra).
    assert (EB : (1 + h) * (1 + l) * bc_b1 c = (1 - h) * (1 + l) + (1 - l) * (1 + h)) by (change (bc_b1 c) with ((1 - h) / (1 + h) + (1 - l) / (1 + l)); field; lra).
    assert (EC : (1 + h) * (1 + l) * bc_b2 c = (1 - h) * (1 - l)) by (change (bc_b2 c) with ((1 - h) / (1 + h) * ((1 - l) / (1 + l))); field; lra).
    transitivity (cadd (cmul (cmul (cadd m (cmul (cre h) p)) (cadd m (cmul (cre l) p))) W)
       (csub (cmul (cre ((1 + h) * (1 + l) * bc_b1 c)) (cmul D W)) (cmul (cre ((1 + h) * (1 + l) * bc_b2 c)) (cmul D (cmul D W))))).
    - rewrite EB, EC. unfold m, p. rewrite !cre_add, !cre_mul, !cre_add, !cre_sub. ring.
    - rewrite BW, <- EA at 1. unfold m, p. rewrite !cre_mul, !cre_add. ring. }
  destruct (hom2_settles b b' (fun n => y n - tone om W n)) as (K & r & R1 & R2).
  - apply bp_bl_range. exact Ph.
  - apply bp_bl_range. exact Pl.
  - intro n. cbv beta. pose proof (bp_rec s (tone om w) n) as L. cbv zeta in L. fold y in L. specialize (T n).
    assert (E1 : bc_b1 c = b + b') by reflexivity. assert (E2 : bc_b2 c = b * b') by reflexivity. rewrite E1, E2 in *. lra.
  - exists K, r. split; [exact R1|]. intro n. rewrite response_out. apply R2.
Qed.
Lemma bp_forget s s' x : settles (response (bp_stepR c) s x) (response (bp_stepR c) s' x).
Proof.
  destruct hl_pos as [Ph Pl].
  destruct (hom2_settles (bp_bl AR (warp hi)) (bp_bl AR (warp lo)) (fun n => out (bp_stepR c) s x n - out (bp_stepR c) s' x n)) as (K & r & R1 & R2).
  - apply bp_bl_range. exact Ph.
  - apply bp_bl_range. exact Pl.
  - intro n. cbv beta. rewrite !(bp_rec _ x n).
    assert (E1 : bc_b1 c = bp_bl AR (warp hi) + bp_bl AR (warp lo)) by reflexivity.
    assert (E2 : bc_b2 c = bp_bl AR (warp hi) * bp_bl AR (warp lo)) by reflexivity. rewrite E1, E2 in *. ring.
  - exists K, r. split; [exact R1|]. intro n. rewrite !response_out. apply R2.
Qed.
Lemma bp_H_mag : cn2 (bp_H lo hi om) = h * h * (2 * (1 + cos om)) * (2 * (1 - cos om)) /
  ((2 * (1 - cos om) + h * h * (2 * (1 + cos om))) * (2 * (1 - cos om) + l * l * (2 * (1 + cos om)))).
Proof.
  destruct hl_pos as [Ph Pl]. unfold bp_H, cdiv. cbv zeta. fold h l.
  assert (P1 := mp_pos h om Ph). assert (P2 := mp_pos l om Pl).
  rewrite !cn2_mul, cn2_inv; rewrite !cn2_mul, ?cn2_cre, !mp_norm; [|apply Rgt_not_eq, Rmult_lt_0_compat; assumption].
  replace (cn2 (cadd (cre 1) (zi om))) with (2 * (1 + cos om)).
  2: { unfold cn2, cadd, cre, zi. cbn [fst snd]. pose proof (sin2_cos2 om) as S. unfold Rsqr in S. lra. }
  replace (cn2 (csub (cre 1) (zi om))) with (2 * (1 - cos om)).
  2: { unfold cn2, csub, cre, zi. cbn [fst snd]. pose proof (sin2_cos2 om) as S. unfold Rsqr in S. lra. }
  unfold Rdiv. ring.
Qed.
(** never above h/(h+l), reached exactly where tan^2(om/2) = h l *)
Lemma bp_peak : cn2 (bp_H lo hi om) <= (h / (h + l)) * (h / (h + l)) /\
  (cn2 (bp_H lo hi om) = (h / (h + l)) * (h / (h + l)) <-> 1 - cos om = h * l * (1 + cos om)).
Proof.
  destruct hl_pos as [Ph Pl]. rewrite bp_H_mag. assert (P1 := mp_pos h om Ph). assert (P2 := mp_pos l om Pl).
  set (S := 1 - cos om) in *. set (K := 1 + cos om) in *. clearbody S K.
  set (A := 2 * S + h * h * (2 * K)) in *. set (B := 2 * S + l * l * (2 * K)) in *.
  assert (PAB : 0 < A * B) by (apply Rmult_lt_0_compat; assumption).
  assert (HL : 0 < (h + l) * (h + l)) by (apply Rmult_lt_0_compat; lra).
  assert (HH : 0 < h * h) by (apply Rmult_lt_0_compat; lra).
  assert (E : h / (h + l) * (h / (h + l)) - h * h * (2 * K) * (2 * S) / (A * B) = h * h * ((2 * S - h * l * (2 * K)) * (2 * S - h * l * (2 * K))) / ((h + l) * (h + l) * (A * B))).
  { replace ((2 * S - h * l * (2 * K)) * (2 * S - h * l * (2 * K))) with (A * B - (2 * K) * (2 * S) * ((h + l) * (h + l))) by (unfold A, B; ring).
    field. repeat split; lra. }
  assert (Q : 0 <= (2 * S - h * l * (2 * K)) * (2 * S - h * l * (2 * K))) by apply Rle_0_sqr.
  assert (PD : 0 < (h + l) * (h + l) * (A * B)) by (apply Rmult_lt_0_compat; assumption).
  split.
  - assert (0 <= h * h * ((2 * S - h * l * (2 * K)) * (2 * S - h * l * (2 * K))) / ((h + l) * (h + l) * (A * B))); [|lra].
    unfold Rdiv. apply Rmult_le_pos; [apply Rmult_le_pos; lra|left; apply Rinv_0_lt_compat; exact PD].
  - split; intro H.
    + assert (Z : h * h * ((2 * S - h * l * (2 * K)) * (2 * S - h * l * (2 * K))) / ((h + l) * (h + l) * (A * B)) = 0) by lra.
      unfold Rdiv in Z. apply Rmult_integral in Z. destruct Z as [Z|Z]; [|apply Rinv_neq_0_compat in Z; [destruct Z|lra]].
      apply Rmult_integral in Z. destruct Z as [Z|Z]; [lra|]. apply Rmult_integral in Z. lra.
    + replace (2 * S - h * l * (2 * K)) with 0 in E by lra. replace (h * h * (0 * 0) / ((h + l) * (h + l) * (A * B))) with 0 in E by (field; repeat split; lra). lra.
Qed.
End BPT.
Lemma warp_parts v : 0 <= v < 24000 -> let T := warp v in exists K, 0 < K /\ 1 + cos (rad v) = K /\ 1 - cos (rad v) = T * T * K.
Proof.
  intro Hv. cbv zeta. destruct (half_angle (rad v)) as [A B]. pose proof PI_RGT_0 as P.
  replace (rad v / 2) with (PI * v / 48000) in * by (unfold rad; field). unfold warp. set (x := PI * v / 48000) in *.
  assert (X : 0 <= x < PI / 2). { unfold x. assert (0 <= PI * v) by (apply Rmult_le_pos; lra). assert (PI * v < PI * 24000) by (apply Rmult_lt_compat_l; lra). lra. }
  assert (C0 : 0 < cos x) by (apply cos_gt_0; lra).
  exists (2 * (cos x * cos x)). split; [assert (0 < cos x * cos x) by (apply Rmult_lt_0_compat; lra); lra|]. split; [exact B|]. rewrite A. unfold tan. field. lra.
Qed.
Lemma bp_mag_T lo hi v : 0 < lo < 24000 -> 0 < hi < 24000 -> 0 <= v < 24000 -> let h := warp hi in let l := warp lo in let T := warp v in
  cn2 (bp_H lo hi (rad v)) = h * h * (T * T) / ((T * T + h * h) * (T * T + l * l)).
Proof.
  intros Hlo Hhi Hv. cbv zeta. destruct (hl_pos lo hi Hlo Hhi) as [Ph Pl]. rewrite bp_H_mag by assumption.
  destruct (warp_parts v Hv) as (K & K0 & EP & EM). rewrite EP, EM. set (T := warp v). set (h := warp hi) in *. set (l := warp lo) in *.
  assert (0 < h * h) by (apply Rmult_lt_0_compat; lra). assert (0 < l * l) by (apply Rmult_lt_0_compat; lra). assert (0 <= T * T) by apply Rle_0_sqr.
  assert (0 < K * K) by (apply Rmult_lt_0_compat; lra). 
  assert (N1 : 0 < (T * T + h * h) * K) by (apply Rmult_lt_0_compat; lra). assert (N2 : 0 < (T * T + l * l) * K) by (apply Rmult_lt_0_compat; lra).
  field. repeat split; lra.
Qed.
Lemma bp_peak_T lo hi v : 0 < lo < 24000 -> 0 < hi < 24000 -> 0 <= v < 24000 ->
  let h := warp hi in let l := warp lo in cn2 (bp_H lo hi (rad v)) = (h / (h + l)) * (h / (h + l)) <-> warp v * warp v = h * l.
Proof.
  intros Hlo Hhi Hv. cbv zeta. rewrite (proj2 (bp_peak lo hi (rad v) Hlo Hhi)). destruct (warp_parts v Hv) as (K & K0 & EP & EM). rewrite EP, EM.
  split; intro H; [apply Rmult_eq_reg_r with K; lra|rewrite H; ring].
Qed.
Lemma bp_corner_gain lo hi : 0 < lo < 24000 -> 0 < hi < 24000 -> let h := warp hi in let l := warp lo in
  cn2 (bp_H lo hi (rad lo)) = h * h / (2 * (h * h + l * l)) /\ cn2 (bp_H lo hi (rad hi)) = h * h / (2 * (h * h + l * l)) /\
  / 2 * ((h / (h + l)) * (h / (h + l))) < h * h / (2 * (h * h + l * l)).
Proof.
  intros Hlo Hhi. cbv zeta. destruct (hl_pos lo hi Hlo Hhi) as [Ph Pl]. rewrite !bp_mag_T by (assumption || lra).
  set (h := warp hi) in *. set (l := warp lo) in *. clearbody h l.
  assert (HH : 0 < h * h) by (apply Rmult_lt_0_compat; lra). assert (0 < l * l) by (apply Rmult_lt_0_compat; lra). assert (HL : 0 < h * l) by (apply Rmult_lt_0_compat; lra).
  split; [field; repeat split; lra|]. split; [field; repeat split; lra|].
  replace (/ 2 * (h / (h + l) * (h / (h + l)))) with (h * h / 2 * / ((h + l) * (h + l))) by (field; lra).
  replace (h * h / (2 * (h * h + l * l))) with (h * h / 2 * / (h * h + l * l)) by (field; lra).
  apply Rmult_lt_compat_l; [lra|]. apply Rinv_lt_contravar; [apply Rmult_lt_0_compat; nra|nra].
Qed.
Lemma bp_narrow f q lo hi : 0 < f -> 0 < q -> bp_corners AR f q = (lo, hi) -> lo + hi <= 24000 ->
  let h := warp hi in let l := warp lo in h / (h + l) <= (1 + / q) / 2.
Proof.
  intros Hf Hq E S. cbv zeta. pose proof (bp_corners_spec f q Hf Hq) as C. rewrite E in C. destruct C as (PR & DF & L & H).
  destruct (hl_pos lo hi) as [Ph Pl]; [lra|lra|]. pose proof PI_bounds as PB.
  set (a := PI * lo / 48000). set (b := PI * hi / 48000).
  assert (A0 : 0 < a) by (unfold a; assert (0 < PI * lo) by (apply Rmult_lt_0_compat; lra); lra).
  assert (AB : b - a = PI * (hi - lo) / 48000 /\ a + b = PI * (lo + hi) / 48000) by (unfold a, b; split; field). destruct AB as [BA AB].
  assert (D0 : 0 < b - a) by (rewrite BA; assert (0 < PI * (hi - lo)) by (apply Rmult_lt_0_compat; lra); lra).
  assert (S1 : a + b <= PI / 2) by (rewrite AB; assert (PI * (lo + hi) <= PI * 24000) by (apply Rmult_le_compat_l; lra); lra).
  assert (CA : 0 < cos a) by (apply cos_gt_0; lra). assert (CB : 0 < cos b) by (apply cos_gt_0; lra).
  destruct (sinc_lower (a + b)) as [SL _]; [lra|].
  assert (SL' : 58 / 100 * (a + b) <= sin (a + b)).
  { eapply Rle_trans; [|exact SL]. assert (Y0 : 0 < a + b <= 1571 / 1000) by lra. revert Y0. generalize (a + b) as y. clear. intros y Y0.
    assert (y * y <= 25 / 10) by nra. nra. }
  assert (SB : sin (b - a) <= b - a) by (left; apply sin_lt_x; lra).
  assert (SP : 0 < sin (a + b)) by lra.
  assert (EQ : warp hi / (warp hi + warp lo) = (1 + sin (b - a) / sin (a + b)) / 2).
  { rewrite sin_minus, (Rplus_comm a b), sin_plus. rewrite (Rplus_comm a b), sin_plus in SP. unfold warp. fold a b. unfold tan. field. repeat split; lra. }
  rewrite EQ. assert (R : sin (b - a) / sin (a + b) <= / q); [|lra].
  assert (AM : 2 * f <= lo + hi). { assert (0 <= (hi - lo) * (hi - lo)) by apply Rle_0_sqr. apply Rnot_lt_le. intro Z. nra. }
  assert (R1 : (b - a) * q <= (a + b) * / 2).
  { rewrite BA, AB. rewrite DF. replace (PI * (f / q) / 48000 * q) with (PI * f / 48000) by (field; lra).
    assert (PI * (2 * f) <= PI * (lo + hi)) by (apply Rmult_le_compat_l; lra). lra. }
  apply Rmult_le_reg_r with (sin (a + b)); [exact SP|]. unfold Rdiv. rewrite Rmult_assoc, Rinv_l, Rmult_1_r by lra.
  apply Rmult_le_reg_l with q; [exact Hq|]. rewrite <- Rmult_assoc, Rinv_r, Rmult_1_l by lra.
  apply Rle_trans with (q * (b - a)); [apply Rmult_le_compat_l; lra|]. lra.
Qed.
Lemma bandpass_tone f q om s w lo hi : 0 < f -> 0 < q -> bp_corners AR f q = (lo, hi) -> hi < 24000 ->
  settles (response (bp_stepR (bp_coeffs AR f q)) s (tone om w)) (tone om (cmul (bp_H lo hi om) w)) /\
  forall s' x, settles (response (bp_stepR (bp_coeffs AR f q)) s x) (response (bp_stepR (bp_coeffs AR f q)) s' x).
Proof.
  intros Hf Hq E Hh. pose proof (bp_corners_spec f q Hf Hq) as C. unfold bp_coeffs. rewrite E in *. destruct C as (PR & DF & L & H).
  split; [apply bp_tone; lra|intros; apply bp_forget; lra].
Qed.
(** ** the magnitudes of LowPass and HighPass *)
Lemma proto2_nonneg fc om : 0 <= proto fc om ^ 2.
Proof. cbn [pow]. rewrite Rmult_1_r. apply Rle_0_sqr. Qed.
Lemma inv_le a b : 0 < a -> a <= b -> / b <= / a.
Proof. intros. apply Rinv_le_contravar; assumption. Qed.
Lemma lp_gain fc r om : 0 < fc -> 0 <= r <= 1 -> let m := proto fc om in
  cn2 (lp_H fc r om) <= 1 + / (rad fc * rad fc) /\ (2 <= Rabs m -> cn2 (lp_H fc r om) <= 2 / m ^ 6) /\
  (r = 0 -> cn2 (lp_H fc r om) <= / (1 + m ^ 6)).
Proof.
  intros Hf Hr. cbv zeta. pose proof (t_of_pos fc Hf) as T. pose proof (d_of_range r Hr) as Dr. rewrite lp_H_mag, m2_proto by assumption.
  pose proof (proto2_nonneg fc om) as P. set (m := proto fc om) in *. change (rad fc) with (t_of fc). set (t := t_of fc) in *.
  assert (TT : 0 < t * t) by (apply Rmult_lt_0_compat; lra). assert (M6 : m ^ 6 = (m ^ 2) ^ 3) by ring.
  split; [|split].
  - replace (1 + / (t * t)) with (/ (t * t / (1 + t * t))) by (field; lra).
    apply inv_le; [apply Rdiv_lt_0_compat; lra|apply den2_min; lra].
  - intro M. assert (M4 : 4 <= m ^ 2). { rewrite <- pow2_abs. nra. }
    assert (0 < (m ^ 2) ^ 3) by (apply pow_lt; lra).
    replace (2 / m ^ 6) with (/ (/ 2 * (m ^ 2) ^ 3)) by (rewrite M6; field; intro Z; rewrite Z in M4; lra).
    apply inv_le; [lra|apply den2_far; lra].
  - intros ->. rewrite d_of_0, M6. apply inv_le; [|apply den2_butterworth; lra]. assert (0 <= (m ^ 2) ^ 3) by (apply pow_le; lra). lra.
Qed.
Lemma hp_gain fc r om : 0 < fc -> 0 <= r <= 1 -> let m := proto fc om in
  (Rabs m <= / 2 -> cn2 (hp_H fc r om) <= 2 * m ^ 6) /\ (r = 0 -> cn2 (hp_H fc r om) <= m ^ 6 / (1 + m ^ 6)) /\
  cn2 (hp_H fc r om) = m ^ 6 * cn2 (lp_H fc r om).
Proof.
  intros Hf Hr. cbv zeta. pose proof (t_of_pos fc Hf) as T. pose proof (d_of_range r Hr) as Dr. rewrite hp_H_mag, lp_H_mag, m2_proto by assumption.
  pose proof (proto2_nonneg fc om) as P. set (m := proto fc om) in *. set (t := t_of fc) in *.
  assert (M6 : m ^ 6 = (m ^ 2) ^ 3) by ring. assert (P3 : 0 <= (m ^ 2) ^ 3) by (apply pow_le; lra). unfold Rdiv. rewrite M6.
  split; [|split; [|reflexivity]].
  - intro M. assert (M4 : m ^ 2 <= / 4). { rewrite <- pow2_abs. pose proof (Rabs_pos m). nra. }
    rewrite Rmult_comm. apply Rmult_le_compat_r; [exact P3|]. replace 2 with (/ / 2) by field. apply inv_le; [lra|apply den2_near; lra].
  - intros ->. rewrite d_of_0. apply Rmult_le_compat_l; [exact P3|]. apply inv_le; [|apply den2_butterworth; lra]. lra.
Qed.
Lemma lp_peak fc om : 0 < fc -> proto fc om ^ 2 = 1 -> cn2 (lp_H fc 1 om) = / ((2 + rad fc) * (rad fc * rad fc)) /\ cn2 (hp_H fc 1 om) = / ((2 + rad fc) * (rad fc * rad fc)).
Proof.
  intros Hf M. pose proof (t_of_pos fc Hf) as T. rewrite hp_H_mag, lp_H_mag, m2_proto, M, d_of_1 by lra. change (rad fc) with (t_of fc). unfold den2.
  split; field; lra.
Qed.
Lemma lp_dc_gain fc r : 0 < fc -> 0 <= r <= 1 -> lp_H fc r 0 = cre 1 /\ hp_H fc r 0 = cre 0.
Proof.
  intros Hf Hr. assert (S : s_of (rad fc) 0 = cre 0). { unfold s_of, zi. rewrite cos_0, sin_0. apply c_ext; unfold cmul, cre, csub; cbn [fst snd]; ring. }
  unfold lp_H, hp_H, cdiv. cbv zeta. rewrite S. unfold butter. split; apply c_ext; unfold cinv, cn2, cmul, cadd, cre; cbn [fst snd]; field; lra.
Qed.
