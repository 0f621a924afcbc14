(** * Exact-arithmetic stability of LowPass, HighPass and BandPass *)
From Coq Require Import ZArith List Bool Reals Lra Lia Psatz.
From Flocq Require Import Core.Core IEEE754.BinarySingleNaN.
From Verif Require Import Model.Floats Model.Modifiers Model.Filters Proof.GenericP Proof.FiltersP.
Import ListNotations.
Local Open Scope R_scope.

(** the parameters of the core for a cutoff and a resonance *)
Definition t_of (fc : R) : R := 2 * PI * fc * / 48000.
Definition d_of (r : R) : R := - (2 * cos (PI / 6 * (4 - r))).
Lemma t_of_pos fc : 0 < fc -> 0 < t_of fc.
Proof. intro H. unfold t_of. pose proof PI_RGT_0. apply Rmult_lt_0_compat; [|lra]. apply Rmult_lt_0_compat; lra. Qed.
Lemma d_of_range r : 0 <= r <= 1 -> 0 <= d_of r <= 1.
Proof.
  intro H. unfold d_of. set (th := PI / 6 * (4 - r)). pose proof PI_RGT_0 as P.
  assert (T : PI / 2 <= th <= 2 * (PI / 3)).
  { unfold th. split; [|assert (0 <= PI / 6 * r) by (apply Rmult_le_pos; lra); lra].
    assert (PI / 6 * r <= PI / 6 * 1) by (apply Rmult_le_compat_l; lra). lra. }
  assert (C1 : cos th <= 0) by (apply cos_le_0; lra).
  assert (C2 : - / 2 <= cos th).
  { replace (- / 2) with (cos (2 * (PI / 3))) by (rewrite cos_2PI3; lra). apply cos_decr_1; lra. }
  lra.
Qed.

Lemma lp_coeffs_R fc r :
  let t := t_of fc in let k := d_of r + 1 in let g := t ^ 3 + k * t ^ 2 + k * t + 1 in
  lp_coeffs AR (fun x => x) fc r = mkC (t ^ 3 / g) ((k * t ^ 2 + 2 * k * t + 3) / g) ((- k * t - 3) / g) (1 / g).
Proof.
  cbv zeta. unfold lp_coeffs. cbv zeta.
  assert (T : bw_t AR fc = t_of fc) by (unfold bw_t, t_of; reflexivity).
  assert (K : bw_k AR (lp_theta AR r) = d_of r + 1).
  { unfold bw_k, lp_theta, d_of. cbn [a_sub a_mul a_div a_cos a_pi a_Z AR]. ring. }
  rewrite T, K. unfold lp_c0, bw_b1, bw_b2, bw_b3, bw_g. cbn [a_add a_sub a_mul a_div a_neg a_pow a_Z AR].
  change (Z.to_nat 3) with 3%nat. change (Z.to_nat 2) with 2%nat. reflexivity.
Qed.

Section LPR.
Variables t d X : R.
Hypothesis Ht : 0 < t.
Hypothesis Hd : 0 <= d <= 1.
Hypothesis HX : 0 <= X.
Let k := d + 1.
Let g := t ^ 3 + k * t ^ 2 + k * t + 1.
Let c : coeffs R := mkC (t ^ 3 / g) ((k * t ^ 2 + 2 * k * t + 3) / g) ((- k * t - 3) / g) (1 / g).
Definition lpM : R := (6 / t + 3) * X.
(** u: the output of the first-order stage *)
Definition uval (h : hist R) : R := (h0 h - 2 * h1 h + h2 h + d * t * (h0 h - h1 h) + t * t * h0 h) / (t * t).
Definition vval (h : hist R) : R := (h0 h - h1 h) / t.
Definition lpI (h : hist R) : Prop := Rabs (uval h) <= X /\ h0 h * h0 h + vval h * vval h <= lpM * lpM.

Lemma lpM_pos : 0 <= lpM.
Proof. unfold lpM. apply Rmult_le_pos; [|exact HX]. assert (0 < 6 / t) by (apply Rdiv_lt_0_compat; lra). lra. Qed.

Lemma lp_exact h x : let '(y, h') := lp_step Rplus Rmult c h x in
  g * y = t ^ 3 * x + (k * t ^ 2 + 2 * k * t + 3) * h0 h - (k * t + 3) * h1 h + h2 h /\ h' = mkH y (h0 h) (h1 h).
Proof.
  unfold lp_step, lp_out, c. cbn [c0 c1 c2 c3]. split; [|reflexivity]. pose proof (g_pos t d Ht Hd) as G. fold k g in G. field. lra.
Qed.

Lemma lp_u h x : let '(y, h') := lp_step Rplus Rmult c h x in (1 + t) * uval h' = uval h + t * x.
Proof.
  pose proof (lp_exact h x) as E. destruct (lp_step Rplus Rmult c h x) as [y h']. destruct E as [E ->].
  unfold uval. cbn [h0 h1 h2]. set (y1 := h0 h) in *. set (y2 := h1 h) in *. set (y3 := h2 h) in *.
  apply Rmult_eq_reg_r with (t * t); [|nra].
  replace ((1 + t) * ((y - 2 * y1 + y2 + d * t * (y - y1) + t * t * y) / (t * t)) * (t * t))
    with ((1 + t) * (y - 2 * y1 + y2 + d * t * (y - y1) + t * t * y)) by (field; lra).
  replace (((y1 - 2 * y2 + y3 + d * t * (y1 - y2) + t * t * y1) / (t * t) + t * x) * (t * t))
    with ((y1 - 2 * y2 + y3 + d * t * (y1 - y2) + t * t * y1) + t ^ 3 * x) by (field; lra).
  unfold g, k in E. nra.
Qed.

Lemma lp_step_inv h x : lpI h -> Rabs x <= X -> let '(y, h') := lp_step Rplus Rmult c h x in lpI h' /\ Rabs y <= lpM.
Proof.
  intros [U En] Hx. pose proof (lp_u h x) as EU. pose proof (lp_exact h x) as E.
  destruct (lp_step Rplus Rmult c h x) as [y h']. destruct E as [_ ->].
  assert (U' : Rabs (uval (mkH y (h0 h) (h1 h))) <= X).
  { assert (EQ : uval (mkH y (h0 h) (h1 h)) = (uval h + t * x) / (1 + t)) by (field_simplify_eq; lra).
    rewrite EQ. unfold Rdiv. rewrite Rabs_mult, (Rabs_pos_eq (/ (1 + t))) by (left; apply Rinv_0_lt_compat; lra).
    apply Rmult_le_reg_r with (1 + t); [lra|]. rewrite Rmult_assoc, Rinv_l, Rmult_1_r by lra.
    eapply Rle_trans; [apply Rabs_triang|]. rewrite Rabs_mult, (Rabs_pos_eq t) by lra.
    assert (t * Rabs x <= t * X) by (apply Rmult_le_compat_l; lra). lra. }
  assert (EN : y * y + vval (mkH y (h0 h) (h1 h)) * vval (mkH y (h0 h) (h1 h)) <= lpM * lpM).
  { apply (energy_step t d Ht Hd y _ (h0 h) (vval h) 0 (uval (mkH y (h0 h) (h1 h))) X lpM HX).
    - rewrite <- (Rabs_pos_eq X HX) at 1 2. rewrite Rmult_0_l, Rplus_0_l. apply Rabs_le_inv in U'. rewrite !(Rabs_pos_eq X HX). nra.
    - apply lpM_pos.
    - exact En.
    - unfold vval. cbn [h0 h1]. field. lra.
    - unfold vval, uval. cbn [h0 h1 h2]. field. lra.
    - unfold lpM. lra. }
  split; [split; assumption|].
  pose proof lpM_pos. apply Rabs_le. pose proof (Rle_0_sqr (vval (mkH y (h0 h) (h1 h)))) as Q. unfold Rsqr in Q.
  split; nra.
Qed.

Lemma lp_run_bound xs : forall h, lpI h -> (forall x, In x xs -> Rabs x <= X) ->
  forall y, In y (fst (run (lp_step Rplus Rmult c) h xs)) -> Rabs y <= lpM.
Proof.
  induction xs as [|x xs IH]; intros h I Hx y Hy; [destruct Hy|].
  cbn [run] in Hy. pose proof (lp_step_inv h x I (Hx x (or_introl eq_refl))) as ST.
  destruct (lp_step Rplus Rmult c h x) as [y0 h']. destruct ST as [I' B].
  specialize (IH h' I' (fun z Hz => Hx z (or_intror Hz))).
  destruct (run (lp_step Rplus Rmult c) h' xs) as [ys hf]. cbn [fst] in *.
  destruct Hy as [<-|Hy]; [exact B|apply IH, Hy].
Qed.
Lemma lpI_zero : lpI (hist0 0).
Proof.
  unfold lpI, uval, vval, hist0. cbn [h0 h1 h2]. split.
  - replace ((0 - 2 * 0 + 0 + d * t * (0 - 0) + t * t * 0) / (t * t)) with 0 by (field; lra). rewrite Rabs_R0. exact HX.
  - replace ((0 - 0) / t) with 0 by (field; lra). pose proof lpM_pos. nra.
Qed.
Lemma lp_dc a : lp_step Rplus Rmult c (mkH a a a) a = (a, mkH a a a).
Proof.
  pose proof (lp_exact (mkH a a a) a) as E. destruct (lp_step Rplus Rmult c (mkH a a a) a) as [y h']. destruct E as [E ->].
  cbn [h0 h1 h2] in *. pose proof (g_pos t d Ht Hd) as G. fold k g in G.
  assert (y = a); [|subst; reflexivity]. apply Rmult_eq_reg_l with g; [|lra]. rewrite E. unfold g. ring.
Qed.

(** ** HighPass *)
Let hc : hpc R := mkHPC (mkC (1 / g) (- 3 / g) (3 / g) (- 1 / g)) ((k * t ^ 2 + 2 * k * t + 3) / g) ((- k * t - 3) / g) (1 / g).
Definition hpM : R := (6 / t + 3) * (2 * X).
(** invariant: s1 s2 s3 is the first-order stage's output history *)
Definition hpI (st : hist R * hist R) : Prop :=
  let '(x, y) := st in
  exists s1 s2 s3,
    (1 + t) * s1 = s2 + h0 x - h1 x /\ (1 + t) * s2 = s3 + h1 x - h2 x /\
    h0 y - 2 * h1 y + h2 y + d * t * (h0 y - h1 y) + t * t * h0 y = s1 - 2 * s2 + s3 /\
    Rabs (h0 x - s1) <= X /\ Rabs (h0 x) <= X /\
    (let q := s1 - h0 y in let w := (s1 - h0 y - (s2 - h1 y)) / t - d * s1 in q * q + w * w <= hpM * hpM).

Lemma hpM_pos : 0 <= hpM.
Proof. unfold hpM. apply Rmult_le_pos; [|lra]. assert (0 < 6 / t) by (apply Rdiv_lt_0_compat; lra). lra. Qed.

Lemma hp_step_inv st x : hpI st -> Rabs x <= X -> let '(y, st') := hp_step Rplus Rmult hc st x in hpI st' /\ Rabs y <= 2 * X + hpM.
Proof.
  destruct st as [hx hy]. intros (s1 & s2 & s3 & S1 & S2 & EY & PB & XB & EN) Hx.
  unfold hp_step, hp_out, hc. cbn [hc_a hc_b1 hc_b2 hc_b3 c0 c1 c2 c3].
  match goal with |- hpI (_, mkH ?e _ _) /\ _ => set (y := e) end.
  pose proof (g_pos t d Ht Hd) as G. fold k g in G.
  assert (E : g * y = x - 3 * h0 hx + 3 * h1 hx - h2 hx + (k * t ^ 2 + 2 * k * t + 3) * h0 hy - (k * t + 3) * h1 hy + h2 hy)
    by (unfold y; field; lra).
  clearbody y. destruct hx as [x1 x2 x3]. destruct hy as [y1 y2 y3]. cbn [h0 h1 h2] in *.
  set (s := (s1 + x - x1) / (1 + t)).
  assert (S0 : (1 + t) * s = s1 + x - x1) by (unfold s; field; lra). clearbody s.
  assert (EY' : y - 2 * y1 + y2 + d * t * (y - y1) + t * t * y = s - 2 * s1 + s2).
  { apply Rmult_eq_reg_l with (1 + t); [|lra]. unfold g, k in E. nra. }
  assert (PB' : Rabs (x - s) <= X).
  { assert (EQ : (1 + t) * (x - s) = (x1 - s1) + t * x) by lra.
    assert (AB : (1 + t) * Rabs (x - s) <= (1 + t) * X).
    { rewrite <- (Rabs_pos_eq (1 + t)) at 1 by lra. rewrite <- Rabs_mult, EQ. eapply Rle_trans; [apply Rabs_triang|].
      rewrite Rabs_mult, (Rabs_pos_eq t) by lra. assert (t * Rabs x <= t * X) by (apply Rmult_le_compat_l; lra). lra. }
    apply Rmult_le_reg_l with (1 + t); lra. }
  assert (SB : Rabs s <= 2 * X).
  { replace s with (x - (x - s)) by ring. eapply Rle_trans; [apply Rabs_triang|]. rewrite Rabs_Ropp. lra. }
  cbv zeta in EN.
  assert (EN' : (s - y) * (s - y) + ((s - y - (s1 - y1)) / t - d * s) * ((s - y - (s1 - y1)) / t - d * s) <= hpM * hpM).
  { apply (energy_step t d Ht Hd _ _ (s1 - y1) ((s1 - y1 - (s2 - y2)) / t - d * s1) (d * s) ((1 - d * d) * s) (2 * X) hpM); try (cbv zeta; lra).
    - apply Rabs_le_inv in SB. replace (d * s * (d * s) + (1 - d * d) * s * ((1 - d * d) * s)) with ((d * d + (1 - d * d) * (1 - d * d)) * (s * s)) by ring.
      assert (D1 : 0 <= d * d <= 1) by nra. assert (D2 : d * d + (1 - d * d) * (1 - d * d) <= 1) by nra.
      assert (S3' : s * s <= 2 * X * (2 * X)) by nra. assert (0 <= s * s) by nra. nra.
    - apply hpM_pos.
    - field. lra.
    - apply Rmult_eq_reg_r with t; [|lra].
      replace ((((s - y - (s1 - y1)) / t - d * s) * (1 + t * d) + t * (s - y)) * t)
        with (((s - y - (s1 - y1)) - d * s * t) * (1 + t * d) + t * t * (s - y)) by (field; lra).
      replace (((s1 - y1 - (s2 - y2)) / t - d * s1 + t * ((1 - d * d) * s)) * t)
        with ((s1 - y1 - (s2 - y2)) - d * s1 * t + t * t * ((1 - d * d) * s)) by (field; lra).
      nra.
    - unfold hpM. lra. }
  split.
  - exists s, s1, s2. cbn [h0 h1 h2]. cbv zeta. repeat split; assumption.
  - pose proof hpM_pos. assert (Q : Rabs (s - y) <= hpM).
    { pose proof (Rle_0_sqr ((s - y - (s1 - y1)) / t - d * s)) as Q. unfold Rsqr in Q. apply Rabs_le. split; nra. }
    replace y with (s - (s - y)) by ring. eapply Rle_trans; [apply Rabs_triang|]. rewrite Rabs_Ropp. lra.
Qed.
Lemma hp_run_bound xs : forall st, hpI st -> (forall x, In x xs -> Rabs x <= X) ->
  forall y, In y (fst (run (hp_step Rplus Rmult hc) st xs)) -> Rabs y <= 2 * X + hpM.
Proof.
  induction xs as [|x xs IH]; intros h I Hx y Hy; [destruct Hy|].
  cbn [run] in Hy. pose proof (hp_step_inv h x I (Hx x (or_introl eq_refl))) as ST.
  destruct (hp_step Rplus Rmult hc h x) as [y0 h']. destruct ST as [I' B].
  specialize (IH h' I' (fun z Hz => Hx z (or_intror Hz))).
  destruct (run (hp_step Rplus Rmult hc) h' xs) as [ys hf]. cbn [fst] in *.
  destruct Hy as [<-|Hy]; [exact B|apply IH, Hy].
Qed.
Lemma hpI_zero : hpI (hist0 0, hist0 0).
Proof.
  exists 0, 0, 0. unfold hist0. cbn [h0 h1 h2]. cbv zeta. replace ((0 - 0 - (0 - 0)) / t - d * 0) with 0 by (field; lra).
  replace (0 - 0) with 0 by ring. rewrite Rabs_R0. pose proof hpM_pos. repeat split; try lra; try ring; nra.
Qed.
End LPR.

Lemma hp_coeffs_R fc r :
  let t := t_of fc in let k := d_of r + 1 in let g := t ^ 3 + k * t ^ 2 + k * t + 1 in
  hp_coeffs AR (fun x => x) fc r = mkHPC (mkC (1 / g) (- 3 / g) (3 / g) (- 1 / g)) ((k * t ^ 2 + 2 * k * t + 3) / g) ((- k * t - 3) / g) (1 / g).
Proof.
  cbv zeta. unfold hp_coeffs. cbv zeta.
  assert (T : bw_t AR fc = t_of fc) by (unfold bw_t, t_of; reflexivity).
  assert (K : bw_k AR (hp_theta AR r) = d_of r + 1).
  { unfold bw_k, hp_theta, d_of. cbn [a_sub a_mul a_div a_cos a_pi a_Z AR].
    replace (PI * (4 - r) / 6) with (PI / 6 * (4 - r)) by field. ring. }
  rewrite T, K. unfold hp_a0, hp_a1, hp_a2, hp_a3, bw_b1, bw_b2, bw_b3, bw_g. cbn [a_add a_sub a_mul a_div a_neg a_pow a_Z AR].
  change (Z.to_nat 3) with 3%nat. change (Z.to_nat 2) with 2%nat. reflexivity.
Qed.

Lemma lowpass_stable fc r X xs : 0 < fc -> 0 <= r <= 1 -> 0 <= X -> (forall x, In x xs -> Rabs x <= X) ->
  forall y, In y (fst (run (lp_step Rplus Rmult (lp_coeffs AR (fun x => x) fc r)) (hist0 0) xs)) ->
  Rabs y <= (6 / (2 * PI * fc / 48000) + 3) * X.
Proof.
  intros Hf Hr HX Hx y Hy. rewrite lp_coeffs_R in Hy. cbv zeta in Hy.
  exact (lp_run_bound (t_of fc) (d_of r) X (t_of_pos fc Hf) (d_of_range r Hr) HX xs (hist0 0) (lpI_zero _ _ _ (t_of_pos fc Hf) HX) Hx y Hy).
Qed.
Lemma highpass_stable fc r X xs : 0 < fc -> 0 <= r <= 1 -> 0 <= X -> (forall x, In x xs -> Rabs x <= X) ->
  forall y, In y (fst (run (hp_step Rplus Rmult (hp_coeffs AR (fun x => x) fc r)) (hist0 0, hist0 0) xs)) ->
  Rabs y <= 2 * X + (6 / (2 * PI * fc / 48000) + 3) * (2 * X).
Proof.
  intros Hf Hr HX Hx y Hy. rewrite hp_coeffs_R in Hy. cbv zeta in Hy.
  exact (hp_run_bound (t_of fc) (d_of r) X (t_of_pos fc Hf) (d_of_range r Hr) HX xs (hist0 0, hist0 0) (hpI_zero _ _ _ (t_of_pos fc Hf) HX) Hx y Hy).
Qed.
Lemma lowpass_dc fc r a : 0 < fc -> 0 <= r <= 1 ->
  lp_step Rplus Rmult (lp_coeffs AR (fun x => x) fc r) (mkH a a a) a = (a, mkH a a a).
Proof. intros Hf Hr. rewrite lp_coeffs_R. cbv zeta. exact (lp_dc (t_of fc) (d_of r) (t_of_pos fc Hf) (d_of_range r Hr) a). Qed.
Lemma hp_theta_lp r : hp_theta AR r = lp_theta AR r.
Proof. unfold hp_theta, lp_theta. cbn. field. Qed.
Lemma highpass_dc fc r a y1 y2 y3 : 0 < fc -> 0 <= r <= 1 ->
  let k := hp_coeffs AR (fun x => x) fc r in
  fst (hp_step Rplus Rmult k (mkH a a a, mkH y1 y2 y3) a) = hc_b1 k * y1 + hc_b2 k * y2 + hc_b3 k * y3.
Proof.
  intros Hf Hr. cbv zeta. rewrite hp_coeffs_R. cbv zeta. unfold hp_step, hp_out. cbn [hc_a hc_b1 hc_b2 hc_b3 c0 c1 c2 c3 h0 h1 h2 fst].
  pose proof (g_pos (t_of fc) (d_of r) (t_of_pos fc Hf) (d_of_range r Hr)) as G. field. lra.
Qed.
