(** * LowPass and HighPass: the program's outputs stay close to those of the exact filter *)
From Coq Require Import ZArith List Bool Reals Lra Lia Psatz.
From Flocq Require Import Core.Core IEEE754.BinarySingleNaN.
From Verif Require Import Model.Floats Model.Modifiers Model.Filters Spec.Libm Proof.FloatFacts Proof.SampleFormatP Proof.FormatsP
  Proof.GenericP Proof.GeneratorsP Proof.GeneratorsP4 Proof.FiltersP Proof.FiltersP2 Proof.NearP Proof.FilterF32P Proof.FilterF32P2.
Import ListNotations.
Local Open Scope R_scope.

Definition e27 : R := / 134217728.
Lemma near_rel n a b : (n <= 30)%nat -> near n a b -> Rabs (a - b) <= e27 * b.
Proof.
  intros H N. pose proof (near_pos _ _ _ N) as PA. destruct (near_w n 30 a b H N) as (P & L & U). unfold e27.
  assert (R : rho ^ 30 <= 1 + 3001 / 100 * / 4294967296).
  { replace 30%nat with (5 * 6)%nat by reflexivity. rewrite pow_mult.
    assert (R5 : 1 <= rho ^ 5 <= 1 + 50001 / 10000 * / 4294967296) by (split; [apply rho_ge1|unfold rho; cbn [pow]; lra]).
    apply Rle_trans with ((1 + 50001 / 10000 * / 4294967296) ^ 6); [apply pow_incr; lra|]. cbn [pow]. lra. }
  pose proof (rho_ge1 30).
  assert (a * rho ^ 30 <= a * (1 + 3001 / 100 * / 4294967296)) by (apply Rmult_le_compat_l; lra).
  assert (b * rho ^ 30 <= b * (1 + 3001 / 100 * / 4294967296)) by (apply Rmult_le_compat_l; lra). apply Rabs_le. lra.
Qed.
Lemma lp_step_shape {S} (add mul : S -> S -> S) c (h : hist S) (x : S) : lp_step add mul c h x = (fst (lp_step add mul c h x), mkH (fst (lp_step add mul c h x)) (h0 h) (h1 h)).
Proof. reflexivity. Qed.
Lemma via a b c : Rabs (a - b) <= Rabs (a - c) + Rabs (c - b).
Proof. replace (a - b) with ((a - c) + (c - b)) by ring. apply Rabs_triang. Qed.
Definition gof (t d : R) : R := t ^ 3 + (d + 1) * t ^ 2 + (d + 1) * t + 1.
Definition n1of (t d : R) : R := (d + 1) * t ^ 2 + 2 * (d + 1) * t + 3.
Definition n2of (t d : R) : R := (d + 1) * t + 3.
Definition nsum (t d : R) : R := n1of t d + n2of t d + 1.
Section Pert.
Variables t u d : R.
Hypothesis Ht : 785 / 10000 <= t <= 16 / 5.
Hypothesis Hu : 785 / 10000 <= u <= 16 / 5.
Hypothesis Hd : 0 <= d <= 1.
Hypothesis HN : near 5 t u.
Lemma near_p2 : near 10 (t ^ 2) (u ^ 2).
Proof. replace (t ^ 2) with (t * t) by ring. replace (u ^ 2) with (u * u) by ring. exact (near_mul 5 5 _ _ _ _ HN HN). Qed.
Lemma near_p3 : near 15 (t ^ 3) (u ^ 3).
Proof. replace (t ^ 3) with (t * t ^ 2) by ring. replace (u ^ 3) with (u * u ^ 2) by ring. exact (near_mul 5 10 _ _ _ _ HN near_p2). Qed.
Lemma near_c c : 0 < c -> near 15 c c.
Proof. intro H. apply (near_w 0); [lia|]. apply near_refl, H. Qed.
Lemma near_kt c : 0 < c -> near 15 (c * t) (c * u).
Proof. intro H. apply (near_w 5); [lia|]. exact (near_mul 0 5 _ _ _ _ (near_refl c H) HN). Qed.
Lemma near_kt2 c : 0 < c -> near 15 (c * t ^ 2) (c * u ^ 2).
Proof. intro H. apply (near_w 10); [lia|]. exact (near_mul 0 10 _ _ _ _ (near_refl c H) near_p2). Qed.
Lemma near_g : near 15 (gof t d) (gof u d).
Proof.
  unfold gof. apply near_add; [|apply near_c; lra]. apply near_add; [|apply near_kt; lra]. apply near_add; [exact near_p3|apply near_kt2; lra].
Qed.
Lemma rel z z' : near 15 z z' -> Rabs (z / gof t d - z' / gof u d) <= e27 * (z' / gof u d).
Proof. intro H. apply (near_rel 30); [lia|]. exact (near_div 15 15 _ _ _ _ H near_g). Qed.
Lemma rel_c0 : Rabs (t ^ 3 / gof t d - u ^ 3 / gof u d) <= e27 * (u ^ 3 / gof u d).
Proof. exact (rel _ _ near_p3). Qed.
Lemma rel_n1 : Rabs (n1of t d / gof t d - n1of u d / gof u d) <= e27 * (n1of u d / gof u d).
Proof. apply rel. unfold n1of. apply near_add; [|apply near_c; lra]. apply near_add; [apply near_kt2; lra|apply near_kt; lra]. Qed.
Lemma near_n2 : near 15 (n2of t d) (n2of u d).
Proof. unfold n2of. apply near_add; [|apply near_c; lra]. apply near_kt; lra. Qed.
Lemma rel_n2 : Rabs ((- (d + 1) * t - 3) / gof t d - (- (d + 1) * u - 3) / gof u d) <= e27 * (n2of u d / gof u d).
Proof.
  replace ((- (d + 1) * t - 3) / gof t d - (- (d + 1) * u - 3) / gof u d) with (- (n2of t d / gof t d - n2of u d / gof u d)) by (unfold n2of, Rdiv; ring).
  rewrite Rabs_Ropp. apply rel, near_n2.
Qed.
Lemma rel_c c : 0 < c -> Rabs (c / gof t d - c / gof u d) <= e27 * (c / gof u d).
Proof. intro H. apply rel, near_c, H. Qed.
Lemma rel_cn c : 0 < c -> Rabs (- c / gof t d - - c / gof u d) <= e27 * (c / gof u d).
Proof.
  intro H. replace (- c / gof t d - - c / gof u d) with (- (c / gof t d - c / gof u d)) by (unfold Rdiv; ring). rewrite Rabs_Ropp. apply rel_c, H.
Qed.
Lemma rel_sum a b c c' M : 0 <= M -> 0 <= c -> Rabs (a - b) <= e27 * c -> Rabs c' <= M -> Rabs ((a - b) * c') <= e27 * (c * M).
Proof.
  intros M0 C0 H B. rewrite Rabs_mult, <- Rmult_assoc. apply Rmult_le_compat; auto using Rabs_pos.
Qed.
Lemma gof_pos : 1 <= gof u d. Proof. exact (proj1 (g_rng' u d Hu Hd)). Qed.
Lemma q_pos z : 0 < z -> 0 <= z / gof u d.
Proof. intro H. pose proof gof_pos. left. apply Rdiv_lt_0_compat; lra. Qed.
Lemma nof_pos : 0 < n1of u d /\ 0 < n2of u d /\ 0 < u ^ 3. Proof. exact (N_pos u d Hu Hd). Qed.
Lemma lp_pert (h : hist R) (x X M : R) : 0 <= X -> 0 <= M -> Rabs x <= X -> Rabs (h0 h) <= M -> Rabs (h1 h) <= M -> Rabs (h2 h) <= M ->
  Rabs (fst (lp_step Rplus Rmult (lpcR t d) h x) - fst (lp_step Rplus Rmult (lpcR u d) h x)) <= e27 * ((u ^ 3 * X + nsum u d * M) / gof u d).
Proof.
  intros X0 M0 Bx B0 B1 B2. unfold lp_step, lp_out, lpcR. cbn [fst c0 c1 Filters.c2 c3]. fold (gof t d) (gof u d) (n1of t d) (n1of u d).
  destruct nof_pos as (P1 & P2 & P3).
  pose proof (rel_sum _ _ _ x X X0 (q_pos _ P3) rel_c0 Bx) as R0. pose proof (rel_sum _ _ _ (h0 h) M M0 (q_pos _ P1) rel_n1 B0) as R1.
  pose proof (rel_sum _ _ _ (h1 h) M M0 (q_pos _ P2) rel_n2 B1) as R2. pose proof (rel_sum _ _ _ (h2 h) M M0 (q_pos 1 ltac:(lra)) (rel_c 1 ltac:(lra)) B2) as R3.
  replace ((u ^ 3 * X + nsum u d * M) / gof u d) with (u ^ 3 / gof u d * X + n1of u d / gof u d * M + n2of u d / gof u d * M + 1 / gof u d * M)
    by (pose proof gof_pos; unfold nsum; field; lra).
  rewrite !Rmult_plus_distr_l.
  match goal with |- Rabs (?a - ?b) <= _ => replace (a - b) with ((t ^ 3 / gof t d - u ^ 3 / gof u d) * x + (n1of t d / gof t d - n1of u d / gof u d) * h0 h
    + ((- (d + 1) * t - 3) / gof t d - (- (d + 1) * u - 3) / gof u d) * h1 h + (1 / gof t d - 1 / gof u d) * h2 h) by ring end.
  repeat (eapply Rle_trans; [apply Rabs_triang|apply Rplus_le_compat; [|assumption]]). exact R0.
Qed.
Lemma hp_pert (hx hy : hist R) (x X M : R) : 0 <= X -> 0 <= M -> Rabs x <= X -> hbd hx X -> hbd hy M ->
  Rabs (fst (hp_step Rplus Rmult (hpcR t d) (hx, hy) x) - fst (hp_step Rplus Rmult (hpcR u d) (hx, hy) x)) <= e27 * ((8 * X + nsum u d * M) / gof u d).
Proof.
  intros X0 M0 Bx (D0 & D1 & D2) (B0 & B1 & B2). unfold hp_step, hp_out, hpcR. cbn [fst hc_a hc_b1 hc_b2 hc_b3 c0 c1 Filters.c2 c3]. fold (gof t d) (gof u d) (n1of t d) (n1of u d).
  destruct nof_pos as (P1 & P2 & P3).
  pose proof (rel_sum _ _ _ (h0 hy) M M0 (q_pos _ P1) rel_n1 B0) as R1.
  pose proof (rel_sum _ _ _ (h1 hy) M M0 (q_pos _ P2) rel_n2 B1) as R2. pose proof (rel_sum _ _ _ (h2 hy) M M0 (q_pos 1 ltac:(lra)) (rel_c 1 ltac:(lra)) B2) as R3.
  pose proof (rel_sum _ _ _ x X X0 (q_pos 1 ltac:(lra)) (rel_c 1 ltac:(lra)) Bx) as S0.
  pose proof (rel_sum _ _ _ (h0 hx) X X0 (q_pos 3 ltac:(lra)) (rel_cn 3 ltac:(lra)) D0) as S1.
  pose proof (rel_sum _ _ _ (h1 hx) X X0 (q_pos 3 ltac:(lra)) (rel_c 3 ltac:(lra)) D1) as S2.
  pose proof (rel_sum _ _ _ (h2 hx) X X0 (q_pos 1 ltac:(lra)) (rel_cn 1 ltac:(lra)) D2) as S3.
  replace ((8 * X + nsum u d * M) / gof u d) with (1 / gof u d * X + 3 / gof u d * X + 3 / gof u d * X + 1 / gof u d * X + n1of u d / gof u d * M + n2of u d / gof u d * M + 1 / gof u d * M)
    by (pose proof gof_pos; unfold nsum; field; lra).
  rewrite !Rmult_plus_distr_l.
  match goal with |- Rabs (?a - ?b) <= _ => replace (a - b) with ((1 / gof t d - 1 / gof u d) * x + (- (3) / gof t d - - (3) / gof u d) * h0 hx + (3 / gof t d - 3 / gof u d) * h1 hx
    + (- (1) / gof t d - - (1) / gof u d) * h2 hx + (n1of t d / gof t d - n1of u d / gof u d) * h0 hy
    + ((- (d + 1) * t - 3) / gof t d - (- (d + 1) * u - 3) / gof u d) * h1 hy + (1 / gof t d - 1 / gof u d) * h2 hy) by (unfold Rdiv; ring) end.
  repeat (eapply Rle_trans; [apply Rabs_triang|apply Rplus_le_compat; [|assumption]]). exact S0.
Qed.
(** the magnitude in terms of t is the magnitude in terms of u, nearly *)
Lemma mag_close A B X M : 0 <= X -> 0 <= M -> 0 < B -> near 15 A B ->
  (A * X + nsum t d * M) / gof t d <= (1 + e27) * ((B * X + nsum u d * M) / gof u d).
Proof.
  intros X0 M0 B0 HA. assert (NS : near 15 (nsum t d) (nsum u d)).
  { unfold nsum. apply near_add; [|apply near_c; lra]. apply near_add; [|exact near_n2].
    unfold n1of. apply near_add; [|apply near_c; lra]. apply near_add; [apply near_kt2; lra|apply near_kt; lra]. }
  pose proof (rel _ _ HA) as R1. pose proof (rel _ _ NS) as R2. pose proof gof_pos as G. pose proof (near_pos _ _ _ near_g) as GT.
  apply Rabs_le_inv in R1. apply Rabs_le_inv in R2.
  replace ((A * X + nsum t d * M) / gof t d) with (A / gof t d * X + nsum t d / gof t d * M) by (field; lra).
  replace ((B * X + nsum u d * M) / gof u d) with (B / gof u d * X + nsum u d / gof u d * M) by (field; lra).
  assert (A / gof t d * X <= (1 + e27) * (B / gof u d) * X) by (apply Rmult_le_compat_r; lra).
  assert (nsum t d / gof t d * M <= (1 + e27) * (nsum u d / gof u d) * M) by (apply Rmult_le_compat_r; lra). lra.
Qed.
Lemma inv_t : 6 / t + 3 <= (1 + e27) * (6 / u + 3).
Proof.
  pose proof (near_rel 5 _ _ ltac:(lia) (near_inv 5 _ _ HN)) as R. apply Rabs_le_inv in R. assert (0 < / u) by (apply Rinv_0_lt_compat; lra). unfold e27 in *. unfold Rdiv. lra.
Qed.
Lemma nsum_le : nsum u d <= 7 + 6 * u + 2 * (u * u) /\ gof u d <= u ^ 3 + (7 + 6 * u + 2 * (u * u)) /\ 7 <= nsum u d.
Proof.
  unfold nsum, n1of, n2of, gof. replace (u ^ 2) with (u * u) by ring. assert (0 <= u * u) by nra.
  assert (0 <= d * (u * u) <= u * u) by (split; [apply Rmult_le_pos; lra|rewrite <- (Rmult_1_l (u * u)) at 2; apply Rmult_le_compat_r; lra]).
  assert (0 <= d * u <= u) by (split; [apply Rmult_le_pos; lra|rewrite <- (Rmult_1_l u) at 2; apply Rmult_le_compat_r; lra]). lra.
Qed.

Variable X : R.
Hypothesis HX : bpow radix2 (-100) <= X <= bpow radix2 90.
Variables c0F b1F b2F b3F : f32.
Hypothesis Hc0 : acc c0F (t ^ 3 / gof t d).
Hypothesis Hb1 : acc b1F (n1of t d / gof t d).
Hypothesis Hb2 : acc b2F ((- (d + 1) * t - 3) / gof t d).
Hypothesis Hb3 : acc b3F (1 / gof t d).
Let P := 7 + 6 * u + 2 * (u * u).
Lemma eta_tiny : 512 * eta0 <= / 1099511627776 * X.
Proof.
  apply Rle_trans with (bpow radix2 (-40) * bpow radix2 (-100)); [|change (bpow radix2 (-40)) with (/ 1099511627776); apply Rmult_le_compat_l; [lra|apply HX]].
  unfold eta0. change 512 with (bpow radix2 9). rewrite <- !bpow_plus. apply bpow_le. lia.
Qed.
(** a forcing of size c 2^-27 (B X + nsum M)/g, seen as an input of the feedback core *)
Lemma as_input (B c M C e : R) : 0 <= B -> 0 <= c -> 0 <= M -> M <= C * X -> 1 <= C ->
  Rabs e <= c * e27 * ((B * X + nsum u d * M) / gof u d) + 512 * eta0 -> u ^ 3 <= B \/ 1 <= B ->
  Rabs (e / (u ^ 3 / gof u d)) <= (c + / 100) * e27 * ((B + P * C) / u ^ 3) * X.
Proof.
  intros B0 C0 M0 MC C1 HE HB. pose proof gof_pos as G. destruct nof_pos as (P1 & P2 & P3). destruct nsum_le as (N1 & N2 & N3). fold P in N1, N2.
  assert (X0 : 0 < X) by (pose proof (bpow_gt_0 radix2 (-100)); lra). pose proof eta_tiny as ET. pose proof eta0_pos as E0.
  replace (e / (u ^ 3 / gof u d)) with ((e * gof u d) * / u ^ 3) by (field; split; lra).
  rewrite !Rabs_mult, (Rabs_pos_eq (gof u d)), (Rabs_pos_eq (/ u ^ 3)) by (try (left; apply Rinv_0_lt_compat); lra).
  apply Rmult_le_reg_r with (u ^ 3); [exact P3|]. rewrite Rmult_assoc, Rinv_l, Rmult_1_r by lra.
  replace ((c + / 100) * e27 * ((B + P * C) / u ^ 3) * X * u ^ 3) with ((c + / 100) * e27 * ((B + P * C) * X)) by (field; lra).
  apply Rle_trans with ((c * e27 * ((B * X + nsum u d * M) / gof u d) + 512 * eta0) * gof u d); [apply Rmult_le_compat_r; lra|].
  replace ((c * e27 * ((B * X + nsum u d * M) / gof u d) + 512 * eta0) * gof u d) with (c * e27 * (B * X + nsum u d * M) + 512 * eta0 * gof u d) by (field; lra).
  assert (E27 : 0 < e27) by (unfold e27; lra).
  assert (A1 : nsum u d * M <= P * (C * X)) by (apply Rmult_le_compat; lra).
  assert (A2 : c * e27 * (B * X + nsum u d * M) <= c * e27 * ((B + P * C) * X)) by (apply Rmult_le_compat_l; [apply Rmult_le_pos; lra|lra]).
  assert (A3 : gof u d <= 40 * (P * C)).
  { assert (U3 : u ^ 3 <= 33) by (apply Rle_trans with ((16 / 5) ^ 3); [apply pow_incr; lra|lra]). assert (7 <= P) by lra. assert (P * 1 <= P * C) by (apply Rmult_le_compat_l; lra). lra. }
  assert (A4 : 512 * eta0 * gof u d <= / 1099511627776 * X * (40 * (P * C))) by (apply Rmult_le_compat; lra).
  assert (0 <= B * X) by (apply Rmult_le_pos; lra). assert (0 <= P * C * X) by (apply Rmult_le_pos; [apply Rmult_le_pos; lra|lra]).
  assert (A5 : 512 * eta0 * gof u d <= / 100 * e27 * ((B + P * C) * X)) by (unfold e27; lra).
  replace ((c + / 100) * e27 * ((B + P * C) * X)) with (c * e27 * ((B + P * C) * X) + / 100 * e27 * ((B + P * C) * X)) by ring. lra.
Qed.
Definition diff (h : hist f32) (hr : hist R) : hist R := mkH (B2R (h0 h) - h0 hr) (B2R (h1 h) - h1 hr) (B2R (h2 h) - h2 hr).
(** ** LowPass *)
Let stepF := lp_step fadd fmul (lpcF c0F b1F b2F b3F).
Let stepR := lp_step Rplus Rmult (lpcR u d).
Let J := lpJ t d X.
Definition lpE : R := bpow radix2 (-21) * (1 + P * (12 / u + 6) / u ^ 3) * X.
Lemma lp_split (hF hr : hist R) (x e : R) : fst (stepR hF x) + e - fst (stepR hr x) =
  fst (stepR (mkH (h0 hF - h0 hr) (h1 hF - h1 hr) (h2 hF - h2 hr)) (e / (u ^ 3 / gof u d))).
Proof.
  unfold stepR, lp_step, lp_out, lpcR. cbn [fst c0 c1 Filters.c2 c3 h0 h1 h2]. fold (gof u d). pose proof gof_pos. destruct nof_pos as (_ & _ & ?). field. split; lra.
Qed.
Lemma lpE_pos : 0 <= lpE.
Proof.
  unfold lpE. assert (X0 : 0 < X) by (pose proof (bpow_gt_0 radix2 (-100)); lra). destruct nof_pos as (_ & _ & P3). destruct nsum_le as (N1 & N2 & N3). fold P in N1, N2.
  apply Rmult_le_pos; [|lra]. apply Rmult_le_pos; [apply bpow_ge_0|]. assert (0 < / u) by (apply Rinv_0_lt_compat; lra).
  assert (0 <= P * (12 / u + 6) / u ^ 3); [|lra]. apply Rmult_le_pos; [apply Rmult_le_pos; lra|left; apply Rinv_0_lt_compat, P3].
Qed.
Lemma lp_forcing h x : J h -> fin x -> Rabs (B2R x) <= X ->
  Rabs ((B2R (fst (stepF h x)) - fst (stepR (hR h) (B2R x))) / (u ^ 3 / gof u d)) <= lpE.
Proof.
  intros [HF HI] Fx Bx. assert (X0 : 0 < X) by (pose proof (bpow_gt_0 radix2 (-100)); lra).
  destruct (lpM_le t Ht (2 * X)) as [M0 M1]; [lra|].
  destruct (lp_f32_err t d Ht Hd X HX c0F b1F b2F b3F Hc0 Hb1 Hb2 Hb3 h x _ HF Fx Bx) as [_ Ey]; [lra|lra|]. fold (gof t d) (n1of t d) (n2of t d) (nsum t d) stepF in Ey.
  destruct HF as (_ & B0 & B1 & B2).
  pose proof (lp_pert (hR h) (B2R x) X _ ltac:(lra) M0 Bx B0 B1 B2) as PE. destruct nof_pos as (P1 & P2 & P3).
  pose proof (mag_close (t ^ 3) (u ^ 3) X _ ltac:(lra) M0 P3 near_p3) as MC.
  set (M := lpM t (2 * X)) in *. set (Q := (u ^ 3 * X + nsum u d * M) / gof u d) in *.
  assert (Q0 : 0 <= Q).
  { unfold Q. destruct nsum_le as (_ & _ & N3). pose proof gof_pos. apply Rmult_le_pos; [|left; apply Rinv_0_lt_compat; lra]. apply Rplus_le_le_0_compat; apply Rmult_le_pos; lra. }
  assert (E : Rabs (B2R (fst (stepF h x)) - fst (stepR (hR h) (B2R x))) <= 48 * e27 * Q + 512 * eta0).
  { eapply Rle_trans; [apply (via _ _ (fst (lp_step Rplus Rmult (lpcR t d) (hR h) (B2R x))))|]. fold stepR in PE.
    assert (46 / 134217728 * ((t ^ 3 * X + nsum t d * M) / gof t d) <= 46 / 134217728 * ((1 + e27) * Q)) by (apply Rmult_le_compat_l; lra). unfold e27 in *. lra. }
  pose proof inv_t as IT. assert (IU : 0 < / u) by (apply Rinv_0_lt_compat; lra).
  assert (MC' : M <= (1 + e27) * (12 / u + 6) * X).
  { unfold M, lpM. replace ((6 / t + 3) * (2 * X)) with (2 * (6 / t + 3) * X) by ring. apply Rmult_le_compat_r; [lra|]. unfold e27, Rdiv in *. lra. }
  eapply Rle_trans; [apply (as_input (u ^ 3) 48 M ((1 + e27) * (12 / u + 6))); [lra|lra|exact M0|exact MC'|unfold e27, Rdiv; lra|exact E|left; lra]|].
  unfold lpE. apply Rmult_le_compat_r; [lra|].
  assert (EQ : (u ^ 3 + P * ((1 + e27) * (12 / u + 6))) / u ^ 3 = 1 + (1 + e27) * (P * (12 / u + 6) / u ^ 3)) by (field; lra).
  rewrite EQ. destruct nsum_le as (N1 & N2 & N3). fold P in N1, N2.
  assert (0 <= P * (12 / u + 6) / u ^ 3) by (apply Rmult_le_pos; [apply Rmult_le_pos; unfold Rdiv; lra|left; apply Rinv_0_lt_compat, P3]).
  change (bpow radix2 (-21)) with (/ 2097152). unfold e27 in *. lra.
Qed.
Definition lp_close (h : hist f32) (hr : hist R) : Prop := lpI u d lpE (diff h hr).
Lemma lp_track_step h hr x : J h -> lp_close h hr -> fin x -> Rabs (B2R x) <= X ->
  J (snd (stepF h x)) /\ lp_close (snd (stepF h x)) (snd (stepR hr (B2R x))) /\ fin (fst (stepF h x)) /\
  Rabs (B2R (fst (stepF h x)) - fst (stepR hr (B2R x))) <= (6 / u + 3) * lpE.
Proof.
  intros I C Fx Bx. pose proof (lp_forcing h x I Fx Bx) as FO.
  pose proof (lp_f32_step t d Ht Hd X HX c0F b1F b2F b3F Hc0 Hb1 Hb2 Hb3 h x I Fx Bx) as ST. fold stepF in ST.
  unfold stepF in *. rewrite lp_step_shape in ST |- *. cbn [fst snd] in *. destruct ST as (J' & Fy & _).
  generalize dependent (fst (lp_step fadd fmul (lpcF c0F b1F b2F b3F) h x)). intros y FO J' Fy.
  split; [exact J'|]. pose proof (lp_split (hR h) hr (B2R x) (B2R y - fst (stepR (hR h) (B2R x)))) as SP. rewrite Rplus_minus in SP.
  generalize dependent (B2R y - fst (stepR (hR h) (B2R x))). intros e FO SP.
  destruct (lp_step_inv' u d Hu Hd lpE (diff h hr) _ lpE_pos C FO) as [I' B'].
  unfold stepR in *. rewrite (lp_step_shape Rplus Rmult (lpcR u d) hr). cbn [fst snd].
  unfold hR in SP. cbn [h0 h1 h2] in SP. fold (diff h hr) in SP. rewrite <- SP in I', B'. split; [|split; [exact Fy|exact B']].
  unfold lp_close, diff in *. cbn [h0 h1 h2] in *. exact I'.
Qed.
Lemma lp_track_run xs : forall h hr, J h -> lp_close h hr -> (forall x, In x xs -> fin x /\ Rabs (B2R x) <= X) ->
  Forall2 (fun y z => fin y /\ Rabs (B2R y - z) <= (6 / u + 3) * lpE) (fst (run stepF h xs)) (fst (run stepR hr (map B2R xs))).
Proof.
  induction xs as [|x xs IH]; intros h hr I C Hx; [constructor|].
  cbn [map run]. destruct (Hx x (or_introl eq_refl)) as [Fx Bx]. destruct (lp_track_step h hr x I C Fx Bx) as (I' & C' & B).
  destruct (stepF h x) as [y h']. destruct (stepR hr (B2R x)) as [z hr']. cbn [fst snd] in *.
  specialize (IH h' hr' I' C' (fun z Hz => Hx z (or_intror Hz))).
  destruct (run stepF h' xs). destruct (run stepR hr' (map B2R xs)). cbn [fst] in *. constructor; assumption.
Qed.
Lemma diff0 : diff (hist0 f0) (hist0 0) = hist0 0.
Proof. unfold diff, hist0. cbn [h0 h1 h2]. change (B2R (f0 : f32)) with 0. rewrite Rminus_0_r. reflexivity. Qed.
Lemma lp_close0 : lp_close (hist0 f0) (hist0 0).
Proof. unfold lp_close. rewrite diff0. apply lpI_zero; [lra|apply lpE_pos]. Qed.

(** ** HighPass *)
Variables a0F a1F a2F a3F : f32.
Hypothesis Ha0 : acc a0F (1 / gof t d).
Hypothesis Ha1 : acc a1F (-3 / gof t d).
Hypothesis Ha2 : acc a2F (3 / gof t d).
Hypothesis Ha3 : acc a3F (-1 / gof t d).
Let hstepF := hp_step fadd fmul (hpcF b1F b2F b3F a0F a1F a2F a3F).
Let hstepR := hp_step Rplus Rmult (hpcR u d).
Let JH := hpJ t d X.
Definition hpE : R := bpow radix2 (-20) * ((8 + P * (48 / u + 26)) / u ^ 3) * X.
Lemma hpE_pos : 0 <= hpE.
Proof.
  unfold hpE. assert (X0 : 0 < X) by (pose proof (bpow_gt_0 radix2 (-100)); lra). destruct nof_pos as (_ & _ & P3). destruct nsum_le as (N1 & N2 & N3). fold P in N1, N2.
  apply Rmult_le_pos; [|lra]. apply Rmult_le_pos; [apply bpow_ge_0|]. assert (0 < / u) by (apply Rinv_0_lt_compat; lra).
  apply Rmult_le_pos; [|left; apply Rinv_0_lt_compat, P3]. apply Rplus_le_le_0_compat; [lra|]. apply Rmult_le_pos; unfold Rdiv; lra.
Qed.
Lemma hp_forcing hx hy x : JH (hx, hy) -> fin x -> Rabs (B2R x) <= X ->
  Rabs ((B2R (fst (hstepF (hx, hy) x)) - fst (hstepR (hR hx, hR hy) (B2R x))) / (u ^ 3 / gof u d)) <= hpE.
Proof.
  intros (HFX & HFY & _) Fx Bx. assert (X0 : 0 < X) by (pose proof (bpow_gt_0 radix2 (-100)); lra).
  destruct (hpY_le t Ht X HX) as [M0 M1].
  destruct (hp_f32_err t d Ht Hd X HX b1F b2F b3F Hb1 Hb2 Hb3 a0F a1F a2F a3F Ha0 Ha1 Ha2 Ha3 hx hy x _ HFX HFY Fx Bx) as [_ Ey]; [lra|lra|].
  fold (gof t d) (n1of t d) (n2of t d) (nsum t d) hstepF in Ey.
  destruct HFX as (_ & BX). destruct HFY as (_ & BY).
  pose proof (hp_pert (hR hx) (hR hy) (B2R x) X _ ltac:(lra) M0 Bx BX BY) as PE. destruct nof_pos as (P1 & P2 & P3).
  pose proof (mag_close 8 8 X _ ltac:(lra) M0 ltac:(lra) (near_c 8 ltac:(lra))) as MC.
  set (M := hpY t X) in *. set (Q := (8 * X + nsum u d * M) / gof u d) in *.
  assert (Q0 : 0 <= Q).
  { unfold Q. destruct nsum_le as (_ & _ & N3). pose proof gof_pos. apply Rmult_le_pos; [|left; apply Rinv_0_lt_compat; lra]. apply Rplus_le_le_0_compat; [lra|apply Rmult_le_pos; lra]. }
  assert (E : Rabs (B2R (fst (hstepF (hx, hy) x)) - fst (hstepR (hR hx, hR hy) (B2R x))) <= 75 * e27 * Q + 512 * eta0).
  { eapply Rle_trans; [apply (via _ _ (fst (hp_step Rplus Rmult (hpcR t d) (hR hx, hR hy) (B2R x))))|]. fold hstepR in PE.
    assert (73 / 134217728 * ((8 * X + nsum t d * M) / gof t d) <= 73 / 134217728 * ((1 + e27) * Q)) by (apply Rmult_le_compat_l; lra). unfold e27 in *. lra. }
  pose proof inv_t as IT. assert (IU : 0 < / u) by (apply Rinv_0_lt_compat; lra).
  assert (MC' : M <= (1 + e27) * (48 / u + 26) * X).
  { unfold M, hpY, hpM, lpM. replace (2 * X + (6 / t + 3) * (2 * X) + (6 / t + 3) * (6 * X)) with ((2 + 8 * (6 / t + 3)) * X) by ring.
    apply Rmult_le_compat_r; [lra|]. unfold e27, Rdiv in *. lra. }
  eapply Rle_trans; [apply (as_input 8 75 M ((1 + e27) * (48 / u + 26))); [lra|lra|exact M0|exact MC'|unfold e27, Rdiv; lra|exact E|right; lra]|].
  unfold hpE. apply Rmult_le_compat_r; [lra|].
  destruct nsum_le as (N1 & N2 & N3). fold P in N1, N2.
  assert (0 <= P * (48 / u + 26)) by (apply Rmult_le_pos; unfold Rdiv; lra).
  replace ((75 + / 100) * e27 * ((8 + P * ((1 + e27) * (48 / u + 26))) / u ^ 3)) with ((75 + / 100) * e27 * (8 + (1 + e27) * (P * (48 / u + 26))) * / u ^ 3) by (unfold Rdiv; ring).
  replace (bpow radix2 (-20) * ((8 + P * (48 / u + 26)) / u ^ 3)) with (bpow radix2 (-20) * (8 + P * (48 / u + 26)) * / u ^ 3) by (unfold Rdiv; ring).
  apply Rmult_le_compat_r; [left; apply Rinv_0_lt_compat, P3|]. set (Z := P * (48 / u + 26)) in *. clearbody Z.
  change (bpow radix2 (-20)) with (/ 1048576). unfold e27 in *. lra.
Qed.
Definition hp_close (st : hist f32 * hist f32) (sr : hist R * hist R) : Prop := fst sr = hR (fst st) /\ lpI u d hpE (diff (snd st) (snd sr)).
Lemma hp_diff (hx hF hr : hist R) (x e : R) : fst (hstepR (hx, hF) x) + e - fst (hstepR (hx, hr) x) =
  fst (stepR (mkH (h0 hF - h0 hr) (h1 hF - h1 hr) (h2 hF - h2 hr)) (e / (u ^ 3 / gof u d))).
Proof.
  unfold stepR, hstepR, hp_step, hp_out, hpcR, lp_step, lp_out, lpcR. cbn [fst hc_a hc_b1 hc_b2 hc_b3 c0 c1 Filters.c2 c3 h0 h1 h2]. fold (gof u d). pose proof gof_pos. destruct nof_pos as (_ & _ & ?). field. split; lra.
Qed.
Lemma hp_track_step st sr x : JH st -> hp_close st sr -> fin x -> Rabs (B2R x) <= X ->
  JH (snd (hstepF st x)) /\ hp_close (snd (hstepF st x)) (snd (hstepR sr (B2R x))) /\ fin (fst (hstepF st x)) /\
  Rabs (B2R (fst (hstepF st x)) - fst (hstepR sr (B2R x))) <= (6 / u + 3) * hpE.
Proof.
  destruct st as [hx hy]. destruct sr as [rx ry]. intros I [CX C] Fx Bx. cbn [fst snd] in CX, C. subst rx. pose proof (hp_forcing hx hy x I Fx Bx) as FO.
  pose proof (hp_f32_step t d Ht Hd X HX b1F b2F b3F Hb1 Hb2 Hb3 a0F a1F a2F a3F Ha0 Ha1 Ha2 Ha3 hx hy x I Fx Bx) as ST. fold hstepF in ST.
  unfold hstepF in *. rewrite hp_step_shape in ST |- *. cbn [fst snd] in *. destruct ST as (J' & Fy & _).
  generalize dependent (fst (hp_step fadd fmul (hpcF b1F b2F b3F a0F a1F a2F a3F) (hx, hy) x)). intros y FO J' Fy.
  split; [exact J'|]. pose proof (hp_diff (hR hx) (hR hy) ry (B2R x) (B2R y - fst (hstepR (hR hx, hR hy) (B2R x)))) as SP. rewrite Rplus_minus in SP.
  generalize dependent (B2R y - fst (hstepR (hR hx, hR hy) (B2R x))). intros e FO SP.
  destruct (lp_step_inv' u d Hu Hd hpE (diff hy ry) _ hpE_pos C FO) as [I' B'].
  unfold stepR in SP. unfold hstepR in *. rewrite (hp_step_shape Rplus Rmult (hpcR u d) (hR hx) ry). cbn [fst snd].
  unfold hR in SP. cbn [h0 h1 h2] in SP. fold (hR hx) in SP. fold (diff hy ry) in SP. rewrite <- SP in I', B'. split; [|split; [exact Fy|exact B']].
  unfold hp_close, diff in *. cbn [fst snd h0 h1 h2] in *. split; [reflexivity|exact I'].
Qed.
Lemma hp_track_run xs : forall st sr, JH st -> hp_close st sr -> (forall x, In x xs -> fin x /\ Rabs (B2R x) <= X) ->
  Forall2 (fun y z => fin y /\ Rabs (B2R y - z) <= (6 / u + 3) * hpE) (fst (run hstepF st xs)) (fst (run hstepR sr (map B2R xs))).
Proof.
  induction xs as [|x xs IH]; intros h hr I C Hx; [constructor|].
  cbn [map run]. destruct (Hx x (or_introl eq_refl)) as [Fx Bx]. destruct (hp_track_step h hr x I C Fx Bx) as (I' & C' & B).
  destruct (hstepF h x) as [y h']. destruct (hstepR hr (B2R x)) as [z hr']. cbn [fst snd] in *.
  specialize (IH h' hr' I' C' (fun z Hz => Hx z (or_intror Hz))).
  destruct (run hstepF h' xs). destruct (run hstepR hr' (map B2R xs)). cbn [fst] in *. constructor; assumption.
Qed.
Lemma hp_close0 : hp_close (hist0 f0, hist0 f0) (hist0 0, hist0 0).
Proof. unfold hp_close. cbn [fst snd]. rewrite diff0. split; [reflexivity|]. apply lpI_zero; [lra|apply hpE_pos]. Qed.
End Pert.
