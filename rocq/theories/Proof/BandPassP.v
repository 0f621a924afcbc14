(** * BandPass in exact arithmetic: corner frequencies, DC/Nyquist, stability *)
From Coq Require Import ZArith List Bool Reals Lra Lia Psatz.
From Flocq Require Import Core.Core IEEE754.BinarySingleNaN.
From Verif Require Import Model.Floats Model.Modifiers Model.Filters Proof.GenericP.
Import ListNotations.
Local Open Scope R_scope.

Lemma bp_corners_R f q : 0 < f -> 0 < q ->
  bp_corners AR f q = ((sqrt ((f / q) * (f / q) + 4 * (f * f)) - f / q) / 2, (sqrt ((f / q) * (f / q) + 4 * (f * f)) + f / q) / 2).
Proof.
  intros Hf Hq. unfold bp_corners, quadratic. cbn [a_add a_sub a_mul a_div a_neg a_sqrt a_lt a_Z AR]. cbv zeta.
  assert (E1 : - f / q * (- f / q) - 4 * 1 * (- f * f) = f / q * (f / q) + 4 * (f * f)) by (field; lra).
  rewrite E1. set (Q := f / q). set (D := sqrt (Q * Q + 4 * (f * f))).
  assert (PQ : 0 < Q) by (apply Rdiv_lt_0_compat; assumption).
  assert (PD : Q < D).
  { unfold D. rewrite <- (sqrt_square Q) at 1 by lra. apply sqrt_lt_1; nra. }
  assert (E2 : - f / q = - Q) by (unfold Q; field; lra). rewrite E2.
  replace ((- - Q + D) / (2 * 1)) with ((D + Q) / 2) by field.
  rewrite (Rlt_bool_true 0 ((D + Q) / 2)) by lra. rewrite Rlt_bool_false by lra. f_equal; lra.
Qed.
Lemma bp_corners_spec f q : 0 < f -> 0 < q -> let '(lo, hi) := bp_corners AR f q in
  lo * hi = f * f /\ hi - lo = f / q /\ 0 < lo < f /\ f < hi.
Proof.
  intros Hf Hq. rewrite bp_corners_R by assumption. set (Q := f / q). set (D := sqrt (Q * Q + 4 * (f * f))).
  assert (PQ : 0 < Q) by (apply Rdiv_lt_0_compat; assumption).
  assert (PD : Q < D).
  { unfold D. rewrite <- (sqrt_square Q) at 1 by lra. apply sqrt_lt_1; nra. }
  assert (DD : D * D = Q * Q + 4 * (f * f)) by (apply sqrt_sqrt; nra).
  split; [nra|]. split; [lra|]. split; [split; [lra|]|]; nra.
Qed.

(** corners determine frequency and quality *)
Lemma corners_unique f q lo hi : 0 < f -> 0 < q -> 0 < lo < hi -> lo * hi = f * f -> hi - lo = f / q -> bp_corners AR f q = (lo, hi).
Proof.
  intros Hf Hq [L H] P D. rewrite bp_corners_R by assumption. rewrite <- D.
  replace ((hi - lo) * (hi - lo) + 4 * (f * f)) with ((hi + lo) * (hi + lo)) by (rewrite <- P; ring).
  rewrite sqrt_square by lra. f_equal; lra.
Qed.
Lemma bp_from_corners_R a b : 0 < a -> 0 < b -> a <> b ->
  bp_corners AR (bp_from_f AR (a, b)) (bp_from_q AR (a, b)) = (Rmin a b, Rmax a b) /\
  bp_from_f AR (a, b) = bp_set_f AR (a, b) /\ bp_from_q AR (a, b) = bp_set_q AR (a, b).
Proof.
  intros Ha Hb N. unfold bp_from_f, bp_from_q, bp_set_f, bp_set_q. cbn [a_mul a_div a_abs a_sub a_sqrt AR fst snd].
  assert (P : 0 < a * b) by (apply Rmult_lt_0_compat; assumption).
  rewrite (Rabs_pos_eq (a * b)) by lra. rewrite (Rabs_minus_sym b a). split; [|split; reflexivity].
  set (f := sqrt (a * b)). assert (Pf : 0 < f) by (apply sqrt_lt_R0; exact P).
  assert (ff : f * f = a * b) by (apply sqrt_sqrt; lra).
  assert (PA : 0 < Rabs (a - b)) by (apply Rabs_pos_lt; lra).
  assert (Pq : 0 < f / Rabs (a - b)) by (apply Rdiv_lt_0_compat; assumption).
  assert (EQ : f / (f / Rabs (a - b)) = Rabs (a - b)) by (field; lra).
  apply corners_unique; auto; rewrite ?EQ, ?ff; unfold Rmin, Rmax; destruct (Rle_dec a b).
  - lra.
  - lra.
  - reflexivity.
  - apply Rmult_comm.
  - rewrite Rabs_left1; lra.
  - rewrite Rabs_pos_eq; lra.
Qed.

(** ** stability *)
Lemma bp_theta_pos f : 0 < f < 24000 -> 0 < bp_theta AR f.
Proof.
  intro H. unfold bp_theta. cbn [a_tan a_mul a_pi a_inv AR]. pose proof PI_RGT_0 as P. apply tan_gt_0.
  - apply Rmult_lt_0_compat; [|lra]. apply Rmult_lt_0_compat; lra.
  - assert (PI * f < PI * 24000) by (apply Rmult_lt_compat_l; lra). lra.
Qed.
Lemma bp_bl_range th : 0 < th -> -1 < bp_bl AR th < 1.
Proof.
  intro H. unfold bp_bl. cbn [a_add a_sub a_div a_Z AR]. split.
  - apply Rmult_lt_reg_r with (1 + th); [lra|]. unfold Rdiv. rewrite Rmult_assoc, Rinv_l by lra. lra.
  - apply Rmult_lt_reg_r with (1 + th); [lra|]. unfold Rdiv. rewrite Rmult_assoc, Rinv_l by lra. lra.
Qed.
Lemma bp_al_range th : 0 < th -> 0 < bp_al AR th < 1.
Proof.
  intro H. unfold bp_al. cbn [a_add a_div a_Z AR]. split; [apply Rdiv_lt_0_compat; lra|].
  apply Rmult_lt_reg_r with (1 + th); [lra|]. unfold Rdiv. rewrite Rmult_assoc, Rinv_l by lra. lra.
Qed.

Definition bp_stepR := bp_step AR Rminus (fun x : R => x) (fun x : R => x).
Section BPR.
Variables a bl bh X : R.
Hypothesis Ha : 0 <= a.
Hypothesis Hl : -1 < bl < 1.
Hypothesis Hh : -1 < bh < 1.
Hypothesis HX : 0 <= X.
Let c : bpc R := mkBPC a (bl + bh) (bl * bh).
Definition bpW : R := 2 * a * X / (1 - Rabs bl).
Definition bpY : R := bpW / (1 - Rabs bh).
Lemma Rabs_lt1 x : -1 < x < 1 -> 0 < 1 - Rabs x.
Proof. intro H. assert (Rabs x < 1) by (apply Rabs_def1; lra). lra. Qed.
Definition bpI (h : bph R) : Prop :=
  Rabs (bh_x1 h) <= X /\ Rabs (bh_x2 h) <= X /\ Rabs (bh_y1 h - bh * bh_y2 h) <= bpW /\ Rabs (bh_y1 h) <= bpY.
Lemma contraction b w f W F : -1 < b < 1 -> Rabs w <= F / (1 - Rabs b) -> Rabs f <= F -> W = F / (1 - Rabs b) -> Rabs (b * w + f) <= W.
Proof.
  intros Hb Hw Hf ->. pose proof (Rabs_lt1 b Hb) as P. eapply Rle_trans; [apply Rabs_triang|]. rewrite Rabs_mult.
  apply Rle_trans with (Rabs b * (F / (1 - Rabs b)) + F); [apply Rplus_le_compat; [apply Rmult_le_compat_l; [apply Rabs_pos|exact Hw]|exact Hf]|].
  right. field. lra.
Qed.
Lemma bp_step_inv h x : bpI h -> Rabs x <= X -> let '(y, h') := bp_stepR c h x in bpI h' /\ Rabs y <= bpY.
Proof.
  intros (X1 & X2 & W1 & Y1) Hx. unfold bp_stepR, bp_step, c. cbn [bc_a0 bc_b1 bc_b2 a_add a_sub a_mul AR].
  match goal with |- bpI (mkBPH _ _ ?e _) /\ _ => set (y := e) end.
  destruct h as [x1 x2 y1 y2]. cbn [bh_x1 bh_x2 bh_y1 bh_y2] in *.
  assert (FX : Rabs (a * (x - x2)) <= 2 * a * X).
  { rewrite Rabs_mult, (Rabs_pos_eq a) by exact Ha. replace (2 * a * X) with (a * (2 * X)) by ring. apply Rmult_le_compat_l; [exact Ha|].
    unfold Rminus. eapply Rle_trans; [apply Rabs_triang|]. rewrite Rabs_Ropp. lra. }
  assert (W : Rabs (y - bh * y1) <= bpW).
  { replace (y - bh * y1) with (bl * (y1 - bh * y2) + a * (x - x2)) by (unfold y; ring).
    apply (contraction bl _ _ bpW (2 * a * X) Hl W1 FX eq_refl). }
  assert (Y : Rabs y <= bpY).
  { replace y with (bh * y1 + (y - bh * y1)) by ring. apply (contraction bh _ _ bpY bpW Hh Y1 W eq_refl). }
  split; [|exact Y]. unfold bpI. cbn [bh_x1 bh_x2 bh_y1 bh_y2]. auto.
Qed.
Lemma bp_run_bound xs : forall h, bpI h -> (forall x, In x xs -> Rabs x <= X) ->
  forall y, In y (fst (run (bp_stepR c) h xs)) -> Rabs y <= bpY.
Proof.
  induction xs as [|x xs IH]; intros h I Hx y Hy; [destruct Hy|].
  cbn [run] in Hy. pose proof (bp_step_inv h x I (Hx x (or_introl eq_refl))) as ST.
  destruct (bp_stepR c h x) as [y0 h']. destruct ST as [I' B].
  specialize (IH h' I' (fun z Hz => Hx z (or_intror Hz))).
  destruct (run (bp_stepR c) h' xs) as [ys hf]. cbn [fst] in *.
  destruct Hy as [<-|Hy]; [exact B|apply IH, Hy].
Qed.
Lemma bpI_zero : bpI (mkBPH 0 0 0 0).
Proof.
  pose proof (Rabs_lt1 bl Hl). pose proof (Rabs_lt1 bh Hh).
  assert (0 <= bpW) by (unfold bpW, Rdiv; apply Rmult_le_pos; [apply Rmult_le_pos; lra|left; apply Rinv_0_lt_compat; lra]).
  assert (0 <= bpY) by (unfold bpY, Rdiv; apply Rmult_le_pos; [lra|left; apply Rinv_0_lt_compat; lra]).
  unfold bpI. cbn [bh_x1 bh_x2 bh_y1 bh_y2]. replace (0 - bh * 0) with 0 by ring. rewrite Rabs_R0. auto.
Qed.
End BPR.

Definition pole (fr : R) : R := (1 - tan (PI * fr / 48000)) / (1 + tan (PI * fr / 48000)).
Lemma bandpass_stable f q X xs : 0 < f -> 0 < q -> 0 <= X -> (forall x, In x xs -> Rabs x <= X) ->
  let '(lo, hi) := bp_corners AR f q in hi < 24000 ->
  forall y, In y (fst (run (bp_stepR (bp_coeffs AR f q)) (mkBPH 0 0 0 0) xs)) ->
  Rabs y <= 2 * X / ((1 - Rabs (pole lo)) * (1 - Rabs (pole hi))).
Proof.
  intros Hf Hq HX Hx. pose proof (bp_corners_spec f q Hf Hq) as C. unfold bp_coeffs. revert C.
  destruct (bp_corners AR f q) as [lo hi]. intro C. destruct C as (_ & _ & L & H).
  intros Hhi y Hy.
  assert (PL : 0 < bp_theta AR lo) by (apply bp_theta_pos; lra). assert (PH : 0 < bp_theta AR hi) by (apply bp_theta_pos; lra).
  pose proof (bp_bl_range _ PL) as RL. pose proof (bp_bl_range _ PH) as RH.
  pose proof (bp_al_range _ PL) as AL. pose proof (bp_al_range _ PH) as AH.
  assert (A0 : 0 <= bp_a0 AR lo hi <= 1).
  { unfold bp_a0. cbn [a_sub a_mul a_Z AR]. split; [apply Rmult_le_pos; lra|]. nra. }
  unfold bp_b1, bp_b2 in Hy. cbn [a_add a_mul AR] in Hy.
  pose proof (bp_run_bound (bp_a0 AR lo hi) (bp_bl AR (bp_theta AR hi)) (bp_bl AR (bp_theta AR lo)) X (proj1 A0) RH RL xs (mkBPH 0 0 0 0)
    (bpI_zero _ _ _ _ (proj1 A0) RH RL HX) Hx y Hy) as B.
  eapply Rle_trans; [exact B|]. unfold bpY, bpW.
  assert (EL : bp_bl AR (bp_theta AR lo) = pole lo) by reflexivity. assert (EH : bp_bl AR (bp_theta AR hi) = pole hi) by reflexivity.
  rewrite EL, EH in *. pose proof (Rabs_lt1 _ RL) as P1. pose proof (Rabs_lt1 _ RH) as P2.
  replace (2 * bp_a0 AR lo hi * X / (1 - Rabs (pole hi)) / (1 - Rabs (pole lo)))
    with (bp_a0 AR lo hi * (2 * X / ((1 - Rabs (pole lo)) * (1 - Rabs (pole hi))))) by (field; lra).
  rewrite <- (Rmult_1_l (2 * X / _)) at 2. apply Rmult_le_compat_r; [|apply A0].
  unfold Rdiv. apply Rmult_le_pos; [lra|]. left. apply Rinv_0_lt_compat. apply Rmult_lt_0_compat; lra.
Qed.

(** constant and alternating inputs have a zero feed-forward term *)
Lemma bandpass_ff (c : bpc R) (h : bph R) (x : R) : bh_x2 h = x ->
  fst (bp_stepR c h x) = bc_b1 c * bh_y1 h - bc_b2 c * bh_y2 h.
Proof. intros E. unfold bp_stepR, bp_step. cbn [a_add a_sub a_mul AR fst]. rewrite E. ring. Qed.
