(** * f32 stability of LowPass and HighPass for cutoffs of at least 600 Hz *)
From Coq Require Import ZArith List Bool Reals Lra Lia Psatz.
From Flocq Require Import Core.Core IEEE754.BinarySingleNaN.
From Verif Require Import Model.Floats Model.Modifiers Model.Filters Spec.Libm Proof.FloatFacts Proof.SampleFormatP Proof.FormatsP
  Proof.GenericP Proof.GeneratorsP Proof.GeneratorsP4 Proof.FiltersP Proof.FiltersP2 Proof.NearP Proof.FilterF32P.
Import ListNotations.
Local Open Scope R_scope.

Definition om : R := 1 + w32.
Lemma om_gt1 : 1 < om. Proof. unfold om, w32. lra. Qed.
Lemma om_ge1 n : 1 <= om ^ n. Proof. apply pow_R1_Rle. pose proof om_gt1. lra. Qed.
Lemma om_8 : om ^ 8 <= 1 + 73 / 134217728. Proof. unfold om, w32. lra. Qed.
Lemma om_5 : om ^ 5 <= 1 + 46 / 134217728. Proof. unfold om, w32. lra. Qed.
Lemma om_2 n : (n <= 8)%nat -> om ^ n <= 2.
Proof. intro H. apply Rle_trans with (om ^ 8); [apply Rle_pow; [pose proof om_gt1; lra|exact H]|]. pose proof om_8. lra. Qed.

(** [s] is [z] up to a relative error of [n] roundings on the magnitude [M], plus an absolute [eta] *)
Definition AE (n : nat) (eta : R) (s : f32) (z M : R) : Prop :=
  fin s /\ Rabs (B2R s - z) <= (om ^ n - 1) * M + eta /\ Rabs z <= M.
Lemma AE_w n m eta s z M : (n <= m)%nat -> AE n eta s z M -> AE m eta s z M.
Proof.
  intros H (F & E & B). split; [exact F|]. split; [|exact B]. apply Rle_trans with (1 := E). apply Rplus_le_compat_r, Rmult_le_compat_r.
  - pose proof (Rabs_pos z). lra.
  - apply Rplus_le_compat_r. apply Rle_pow; [pose proof om_gt1; lra|exact H].
Qed.
Definition eta0 : R := bpow radix2 (-149).
Lemma eta0_pos : 0 < eta0 < / 1024.
Proof. unfold eta0. split; [apply bpow_gt_0|]. change (/ 1024) with (bpow radix2 (-10)). apply bpow_lt. lia. Qed.
Lemma fin32 v : Rabs v <= bpow radix2 115 -> Rabs (rnd32 v) < bpow radix2 128.
Proof. intro H. eapply Rle_lt_trans; [apply (rnd_abs_le (prec:=24) (emax:=128)) with (2 := H); apply (fmt_bpow (prec:=24) (emax:=128)); unfold SpecFloat.emin; lia|]. apply bpow_lt. lia. Qed.
Lemma gen32 v : Rabs (rnd32 v - v) <= w32 * Rabs v + eta0.
Proof.
  destruct (rnd_err_gen (prec:=24) (emax:=128) v) as (d & e & D & E & EQ). rewrite EQ.
  replace (v * (1 + d) + e - v) with (v * d + e) by ring. eapply Rle_trans; [apply Rabs_triang|]. apply Rplus_le_compat.
  - rewrite Rabs_mult, Rmult_comm. apply Rmult_le_compat_r; [apply Rabs_pos|]. change (bpow radix2 (- (24))) with (/ 16777216) in D. unfold w32. lra.
  - apply Rle_trans with (1 := E). apply bpow_le. unfold SpecFloat.emin. lia.
Qed.
Lemma AE_mul (c o : f32) (ch : R) : fin c -> fin o -> Rabs (B2R c - ch) <= w32 * Rabs ch -> Rabs ch * Rabs (B2R o) <= bpow radix2 110 ->
  AE 2 eta0 (fmul c o) (ch * B2R o) (Rabs ch * Rabs (B2R o)).
Proof.
  intros Fc Fo EC B. set (v := B2R o) in *.
  assert (CV : Rabs (B2R c * v - ch * v) <= w32 * (Rabs ch * Rabs v)).
  { replace (B2R c * v - ch * v) with ((B2R c - ch) * v) by ring. rewrite Rabs_mult, <- Rmult_assoc. apply Rmult_le_compat_r; [apply Rabs_pos|exact EC]. }
  assert (CB : Rabs (B2R c * v) <= om * (Rabs ch * Rabs v)).
  { replace (B2R c * v) with ((B2R c * v - ch * v) + ch * v) by ring. eapply Rle_trans; [apply Rabs_triang|]. rewrite (Rabs_mult ch). unfold om. lra. }
  pose proof (Rabs_pos ch). pose proof (Rabs_pos v). assert (P : 0 <= Rabs ch * Rabs v) by (apply Rmult_le_pos; assumption).
  assert (BB : Rabs (B2R c * v) <= bpow radix2 115).
  { apply Rle_trans with (1 := CB). apply Rle_trans with (2 * bpow radix2 110); [unfold om, w32; lra|].
    change 2 with (bpow radix2 1). rewrite <- bpow_plus. apply bpow_le. lia. }
  destruct (fmul_ok c o Fc Fo (fin32 _ BB)) as [F E]. split; [exact F|]. rewrite E. fold v. split; [|rewrite Rabs_mult; lra].
  pose proof (gen32 (B2R c * v)) as G.
  replace (rnd32 (B2R c * v) - ch * v) with ((rnd32 (B2R c * v) - B2R c * v) + (B2R c * v - ch * v)) by ring.
  eapply Rle_trans; [apply Rabs_triang|]. 
  assert (w32 * Rabs (B2R c * v) <= w32 * (om * (Rabs ch * Rabs v))) by (apply Rmult_le_compat_l; [unfold w32; lra|exact CB]).
  replace ((om ^ 2 - 1) * (Rabs ch * Rabs v) + eta0) with (w32 * (om * (Rabs ch * Rabs v)) + eta0 + w32 * (Rabs ch * Rabs v)) by (unfold om; ring). lra.
Qed.
Lemma AE_add n e1 e2 s p z1 z2 M1 M2 : (n <= 8)%nat -> 0 <= e1 -> 0 <= e2 -> e1 + e2 <= 1 -> M1 + M2 <= bpow radix2 110 ->
  AE n e1 s z1 M1 -> AE n e2 p z2 M2 -> AE (S n) (2 * (e1 + e2) + eta0) (fadd s p) (z1 + z2) (M1 + M2).
Proof.
  intros Hn E1 E2 E12 MB (F1 & A1 & B1) (F2 & A2 & B2). pose proof (om_2 n Hn) as O2. pose proof (om_ge1 n) as O1.
  pose proof (Rabs_pos z1). pose proof (Rabs_pos z2).
  set (M := M1 + M2) in *. assert (M0 : 0 <= M) by (unfold M; lra).
  assert (D : Rabs ((B2R s + B2R p) - (z1 + z2)) <= (om ^ n - 1) * M + (e1 + e2)).
  { replace (B2R s + B2R p - (z1 + z2)) with ((B2R s - z1) + (B2R p - z2)) by ring. eapply Rle_trans; [apply Rabs_triang|]. unfold M. lra. }
  assert (ZM : Rabs (z1 + z2) <= M) by (eapply Rle_trans; [apply Rabs_triang|]; unfold M; lra).
  assert (V : Rabs (B2R s + B2R p) <= om ^ n * M + (e1 + e2)).
  { replace (B2R s + B2R p) with ((B2R s + B2R p - (z1 + z2)) + (z1 + z2)) by ring. eapply Rle_trans; [apply Rabs_triang|]. lra. }
  assert (BB : Rabs (B2R s + B2R p) <= bpow radix2 115).
  { apply Rle_trans with (1 := V). assert (om ^ n * M <= 2 * M) by (apply Rmult_le_compat_r; assumption).
    assert (1 <= bpow radix2 110) by (change 1 with (bpow radix2 0); apply bpow_le; lia).
    apply Rle_trans with (4 * bpow radix2 110); [lra|]. change 4 with (bpow radix2 2). rewrite <- bpow_plus. apply bpow_le. lia. }
  destruct (fadd_ok s p F1 F2 (fin32 _ BB)) as [F E]. split; [exact F|]. split; [|exact ZM]. rewrite E. pose proof (gen32 (B2R s + B2R p)) as G.
  replace (rnd32 (B2R s + B2R p) - (z1 + z2)) with ((rnd32 (B2R s + B2R p) - (B2R s + B2R p)) + ((B2R s + B2R p) - (z1 + z2))) by ring.
  eapply Rle_trans; [apply Rabs_triang|].
  assert (w32 * Rabs (B2R s + B2R p) <= w32 * (om ^ n * M + (e1 + e2))) by (apply Rmult_le_compat_l; [unfold w32; lra|exact V]).
  replace (om ^ S n) with (om ^ n + w32 * om ^ n) by (cbn [pow]; unfold om at 3; ring).
  assert (w32 * (e1 + e2) <= e1 + e2) by (unfold w32; lra). lra.
Qed.

Lemma AE_add' n e1 e2 s p z1 z2 M1 M2 : AE n e1 s z1 M1 -> AE n e2 p z2 M2 ->
  (n <= 8)%nat -> 0 <= e1 -> 0 <= e2 -> e1 + e2 <= 1 -> M1 + M2 <= bpow radix2 110 -> AE (S n) (2 * (e1 + e2) + eta0) (fadd s p) (z1 + z2) (M1 + M2).
Proof. intros. apply AE_add; assumption. Qed.
Ltac aeadd T A B := pose proof (AE_add' _ _ _ _ _ _ _ _ _ A B) as T;
  specialize (T ltac:(lia)); specialize (T ltac:(lra)); specialize (T ltac:(lra)); specialize (T ltac:(lra)); specialize (T ltac:(lra)).
Lemma hp_step_shape {S} (add mul : S -> S -> S) (c : hpc S) hx hy x : hp_step add mul c (hx, hy) x =
  (fst (hp_step add mul c (hx, hy) x), (mkH x (h0 hx) (h1 hx), mkH (fst (hp_step add mul c (hx, hy) x)) (h0 hy) (h1 hy))).
Proof. reflexivity. Qed.
(** ** numbers *)
Section Num.
Variables t d : R.
Hypothesis Ht : 785 / 10000 <= t <= 16 / 5.
Hypothesis Hd : 0 <= d <= 1.
Let k := d + 1.
Let g := t ^ 3 + k * t ^ 2 + k * t + 1.
Let N1 := k * t ^ 2 + 2 * k * t + 3.
Let N2 := k * t + 3.
Lemma N_sum : N1 + N2 + 1 <= 15480 * t ^ 3 /\ 1 <= 2068 * t ^ 3.
Proof.
  unfold N1, N2, k. set (t2 := t ^ 2). set (t3 := t ^ 3).
  assert (A1 : 1 <= 1274 / 100 * t) by lra.
  assert (A2 : t <= 1274 / 100 * t2) by (unfold t2; nra).
  assert (A3 : t2 <= 1274 / 100 * t3) by (unfold t2, t3; nra). assert (0 <= t2) by (unfold t2; nra).
  assert ((d + 1) * t2 <= 2 * t2) by (apply Rmult_le_compat_r; lra). assert ((d + 1) * t <= 2 * t) by (apply Rmult_le_compat_r; lra). split; lra.
Qed.
Lemma t_inv : 6 / t + 3 <= 7944 / 100.
Proof. assert (6 / t <= 6 / (785 / 10000)); [|lra]. unfold Rdiv. apply Rmult_le_compat_l; [lra|]. apply Rinv_le; lra. Qed.
Lemma g_rng' : 1 <= g <= 128.
Proof.
  unfold g, k. assert (T2 : 0 <= t ^ 2 <= 11) by nra. assert (T3 : 0 <= t ^ 3 <= 36) by (cbn [pow] in *; nra).
  assert (0 <= (d + 1) * t ^ 2 <= 2 * 11) by (split; [apply Rmult_le_pos; lra|apply Rmult_le_compat; lra]).
  assert (0 <= (d + 1) * t <= 2 * 4) by (split; [apply Rmult_le_pos; lra|apply Rmult_le_compat; lra]). lra.
Qed.
Lemma N_pos : 0 < N1 /\ 0 < N2 /\ 0 < t ^ 3.
Proof.
  unfold N1, N2, k. assert (0 < t ^ 3) by (apply pow_lt; lra). assert (0 <= t ^ 2) by nra.
  assert (0 <= (d + 1) * t ^ 2) by (apply Rmult_le_pos; lra). assert (0 <= (d + 1) * t) by (apply Rmult_le_pos; lra). lra.
Qed.

Variable X : R.
Hypothesis HX : bpow radix2 (-100) <= X <= bpow radix2 90.
Lemma X_pos : 0 < X. Proof. pose proof (bpow_gt_0 radix2 (-100)). lra. Qed.
Lemma eta_X : 512 * eta0 <= / 1000000000 * X.
Proof.
  apply Rle_trans with (bpow radix2 (-40) * X).
  - apply Rle_trans with (bpow radix2 (-40) * bpow radix2 (-100)); [|apply Rmult_le_compat_l; [apply bpow_ge_0|apply HX]].
    unfold eta0. change 512 with (bpow radix2 9). rewrite <- !bpow_plus. apply bpow_le. lia.
  - apply Rmult_le_compat_r; [pose proof X_pos; lra|]. change (bpow radix2 (-40)) with (/ 1099511627776). lra.
Qed.
(** [M] a magnitude (times g): the error bound in terms of the feedback core's input *)
Lemma err_bound (c M e eps : R) (C : R) : 0 <= M -> M <= C * t ^ 3 * X -> 0 <= eps -> Rabs e <= eps * (M / g) + 512 * eta0 ->
  eps * C + / 1000 <= c -> Rabs (e / (t ^ 3 / g)) <= c * X.
Proof.
  intros M0 MC E0 HE HC. pose proof g_rng' as G. destruct N_pos as (_ & _ & T3). pose proof X_pos as XP. destruct N_sum as [_ NS].
  assert (EG : Rabs e * g <= eps * M + 512 * eta0 * 128).
  { apply Rle_trans with ((eps * (M / g) + 512 * eta0) * g); [apply Rmult_le_compat_r; lra|].
    replace ((eps * (M / g) + 512 * eta0) * g) with (eps * M + 512 * eta0 * g) by (field; lra).
    apply Rplus_le_compat_l. apply Rmult_le_compat_l; [pose proof eta0_pos; lra|lra]. }
  replace (e / (t ^ 3 / g)) with ((e * g) * / t ^ 3) by (field; split; lra).
  rewrite !Rabs_mult, (Rabs_pos_eq g), (Rabs_pos_eq (/ t ^ 3)) by (try (left; apply Rinv_0_lt_compat); lra).
  apply Rmult_le_reg_r with (t ^ 3); [exact T3|]. rewrite Rmult_assoc, Rinv_l, Rmult_1_r by lra.
  apply Rle_trans with (1 := EG). pose proof eta_X as EX.
  assert (A1 : eps * M <= eps * (C * t ^ 3 * X)) by (apply Rmult_le_compat_l; assumption).
  assert (A2 : 512 * eta0 * 128 <= / 1000 * (t ^ 3 * X)).
  { assert (512 * eta0 * 128 <= / 7000000 * X) by lra. assert (/ 7000000 * X <= / 1000 * (t ^ 3 * X)); [|lra].
    assert (X <= 2068 * (t ^ 3 * X)); [|lra]. rewrite <- Rmult_assoc. rewrite <- (Rmult_1_l X) at 1. apply Rmult_le_compat_r; lra. }
  assert (A3 : (eps * C + / 1000) * (t ^ 3 * X) <= c * (t ^ 3 * X)) by (apply Rmult_le_compat_r; [apply Rmult_le_pos; lra|exact HC]). lra.
Qed.

(** ** one LowPass step *)
Definition hR (h : hist f32) : hist R := mkH (B2R (h0 h)) (B2R (h1 h)) (B2R (h2 h)).
Definition hfin (h : hist f32) (B : R) : Prop :=
  (fin (h0 h) /\ fin (h1 h) /\ fin (h2 h)) /\ Rabs (B2R (h0 h)) <= B /\ Rabs (B2R (h1 h)) <= B /\ Rabs (B2R (h2 h)) <= B.
Definition acc (c : f32) (ch : R) : Prop := fin c /\ Rabs (B2R c - ch) <= w32 * Rabs ch.
Variables c0F b1F b2F b3F : f32.
Hypothesis Hc0 : acc c0F (t ^ 3 / g).
Hypothesis Hb1 : acc b1F (N1 / g).
Hypothesis Hb2 : acc b2F ((- k * t - 3) / g).
Hypothesis Hb3 : acc b3F (1 / g).
Lemma n2g : Rabs ((- k * t - 3) / g) = N2 / g.
Proof.
  pose proof g_rng' as G. replace ((- k * t - 3) / g) with (- (N2 / g)) by (unfold N2; field; lra). rewrite Rabs_Ropp, Rabs_pos_eq; [reflexivity|].
  pose proof N_pos. left. apply Rdiv_lt_0_compat; lra.
Qed.
Lemma cb z : 0 < z -> z <= 128 -> 0 < z / g <= 128.
Proof. intros A B. pose proof g_rng' as G. split; [apply Rdiv_lt_0_compat; lra|]. apply Rle_trans with (z / 1); [|lra]. unfold Rdiv. apply Rmult_le_compat_l; [lra|]. apply Rinv_le; lra. Qed.
Lemma N_le : N1 <= 128 /\ N2 <= 128 /\ t ^ 3 <= 128.
Proof.
  unfold N1, N2, k. assert (T2 : 0 <= t ^ 2 <= 11) by nra. assert (T3 : 0 <= t ^ 3 <= 36) by (cbn [pow] in *; nra).
  assert (0 <= (d + 1) * t ^ 2 <= 2 * 11) by (split; [apply Rmult_le_pos; lra|apply Rmult_le_compat; lra]).
  assert (0 <= (d + 1) * t <= 2 * 4) by (split; [apply Rmult_le_pos; lra|apply Rmult_le_compat; lra]). lra.
Qed.
(** products of a coefficient and a sample *)
Lemma prod_ok c ch o B : acc c ch -> fin o -> Rabs (B2R o) <= B -> Rabs ch <= 128 -> B <= bpow radix2 100 ->
  AE 2 eta0 (fmul c o) (ch * B2R o) (Rabs ch * B) /\ Rabs ch * B <= bpow radix2 107.
Proof.
  intros [Fc Ec] Fo Bo C128 B100. pose proof (Rabs_pos ch). pose proof (Rabs_pos (B2R o)).
  assert (U : Rabs ch * B <= bpow radix2 107).
  { replace 107%Z with (7 + 100)%Z by lia. rewrite bpow_plus. change (bpow radix2 7) with 128. apply Rmult_le_compat; lra. }
  assert (L : Rabs ch * Rabs (B2R o) <= Rabs ch * B) by (apply Rmult_le_compat_l; assumption).
  split; [|exact U].
  destruct (AE_mul c o ch Fc Fo Ec) as (F & E & M); [apply Rle_trans with (1 := L), Rle_trans with (1 := U), bpow_le; lia|].
  split; [exact F|]. split; [|lra]. apply Rle_trans with (1 := E). apply Rplus_le_compat_r, Rmult_le_compat_l; [pose proof (om_ge1 2); lra|exact L].
Qed.
Lemma sum107 : bpow radix2 110 = 8 * bpow radix2 107. Proof. change 8 with (bpow radix2 3). rewrite <- bpow_plus. reflexivity. Qed.
Lemma X_rng B : B <= 640 * X -> B <= bpow radix2 100.
Proof.
  intro H. apply Rle_trans with (1 := H). apply Rle_trans with (bpow radix2 10 * bpow radix2 90).
  - apply Rmult_le_compat; [lra|pose proof X_pos; lra|change (bpow radix2 10) with 1024; lra|apply HX].
  - rewrite <- bpow_plus. apply bpow_le. lia.
Qed.
Lemma abs_c0 : Rabs (t ^ 3 / g) = t ^ 3 / g /\ Rabs (N1 / g) = N1 / g /\ Rabs (1 / g) = 1 / g /\ Rabs (3 / g) = 3 / g /\ Rabs (-3 / g) = 3 / g /\ Rabs (-1 / g) = 1 / g.
Proof.
  destruct N_pos as (P1 & P2 & P3). destruct N_le as (L1 & L2 & L3).
  destruct (cb (t ^ 3) P3 L3). destruct (cb N1 P1 L1). destruct (cb 1 ltac:(lra) ltac:(lra)). destruct (cb 3 ltac:(lra) ltac:(lra)).
  replace (-3 / g) with (- (3 / g)) by (unfold Rdiv; ring). replace (-1 / g) with (- (1 / g)) by (unfold Rdiv; ring). rewrite !Rabs_Ropp.
  repeat split; apply Rabs_pos_eq; lra.
Qed.
Definition lpcF := mkC c0F b1F b2F b3F.
Definition lpcR := mkC (t ^ 3 / g) (N1 / g) ((- k * t - 3) / g) (1 / g).
Lemma lp_f32_err (h : hist f32) (x : f32) (M : R) : hfin h M -> fin x -> Rabs (B2R x) <= X -> M <= 640 * X -> 0 <= M ->
  let y := fst (lp_step fadd fmul lpcF h x) in
  fin y /\ Rabs (B2R y - fst (lp_step Rplus Rmult lpcR (hR h) (B2R x))) <= 46 / 134217728 * ((t ^ 3 * X + (N1 + N2 + 1) * M) / g) + 512 * eta0.
Proof.
  intros ((F0 & F1 & F2) & B0 & B1 & B2) Fx Bx MB M0. unfold lp_step, lp_out, lpcF, lpcR, hR. cbn [fst c0 c1 Filters.c2 c3 h0 h1 h2].
  pose proof X_pos as XP. pose proof (X_rng _ MB) as M100. assert (X100 : X <= bpow radix2 100) by (apply X_rng; lra).
  destruct N_pos as (P1 & P2 & P3). destruct N_le as (L1 & L2 & L3). destruct abs_c0 as (Q0 & Q1 & Q3 & _).
  destruct (cb (t ^ 3) P3 L3). destruct (cb N1 P1 L1). destruct (cb N2 P2 L2). destruct (cb 1 ltac:(lra) ltac:(lra)).
  destruct (prod_ok _ _ x X Hc0 Fx Bx) as [A0 U0]; [rewrite Q0; lra|exact X100|].
  destruct (prod_ok _ _ (h0 h) M Hb1 F0 B0) as [A1 U1]; [rewrite Q1; lra|exact M100|].
  destruct (prod_ok _ _ (h1 h) M Hb2 F1 B1) as [A2 U2]; [rewrite n2g; lra|exact M100|].
  destruct (prod_ok _ _ (h2 h) M Hb3 F2 B2) as [A3 U3]; [rewrite Q3; lra|exact M100|].
  rewrite Q0 in A0, U0. rewrite Q1 in A1, U1. rewrite n2g in A2, U2. rewrite Q3 in A3, U3.
  pose proof eta0_pos as E0. pose proof sum107 as S107. pose proof (bpow_gt_0 radix2 107) as W0.
  aeadd T1 A0 A1.
  apply (AE_w 2 3) in A2; [|lia]. aeadd T2 T1 A2.
  apply (AE_w 2 4) in A3; [|lia]. aeadd T3 T2 A3.
  destruct T3 as (F & E & _). split; [exact F|]. apply Rle_trans with (1 := E). pose proof g_rng' as G.
  set (Mt := t ^ 3 / g * X + N1 / g * M + N2 / g * M + 1 / g * M).
  replace ((t ^ 3 * X + (N1 + N2 + 1) * M) / g) with Mt by (unfold Mt; field; lra).
  assert (0 <= Mt).
  { unfold Mt. repeat apply Rplus_le_le_0_compat; apply Rmult_le_pos; lra. }
  assert ((om ^ 5 - 1) * Mt <= 46 / 134217728 * Mt) by (apply Rmult_le_compat_r; [assumption|pose proof om_5; lra]). lra.
Qed.
Definition lpJ (h : hist f32) : Prop := hfin h (lpM t (2 * X)) /\ lpI t d (2 * X) (hR h).
Lemma lpM_le E : 0 <= E -> 0 <= lpM t E <= 7944 / 100 * E.
Proof. intro HE. pose proof t_inv as TI. split; [apply lpM_pos; lra|]. unfold lpM. apply Rmult_le_compat_r; lra. Qed.
Lemma lp_f32_step h x : lpJ h -> fin x -> Rabs (B2R x) <= X ->
  let '(y, h') := lp_step fadd fmul lpcF h x in lpJ h' /\ fin y /\ Rabs (B2R y) <= lpM t (2 * X).
Proof.
  intros [HF HI] Fx Bx. pose proof X_pos as XP. destruct (lpM_le (2 * X)) as [M0 M1]; [lra|].
  destruct (lp_f32_err h x _ HF Fx Bx) as [Fy Ey]; [lra|lra|].
  destruct N_pos as (P1 & P2 & P3). destruct N_sum as [NS NS2]. pose proof g_rng' as G.
  set (e := B2R (fst (lp_step fadd fmul lpcF h x)) - fst (lp_step Rplus Rmult lpcR (hR h) (B2R x))) in *.
  assert (BE : Rabs (e / (t ^ 3 / g)) <= 1 * X).
  { apply (err_bound 1 _ e (46 / 134217728) 2460000) with (4 := Ey); [| |lra|lra].
    - apply Rplus_le_le_0_compat; apply Rmult_le_pos; lra.
    - assert ((N1 + N2 + 1) * lpM t (2 * X) <= (15480 * t ^ 3) * (7944 / 100 * (2 * X))) by (apply Rmult_le_compat; lra).
      assert (0 < t ^ 3 * X) by (apply Rmult_lt_0_compat; lra). lra. }
  assert (HY : 0 <= 2 * X) by lra.
  pose proof (lp_step_inv t d (2 * X) ltac:(lra) Hd HY (hR h) (B2R x + e / (t ^ 3 / g)) HI) as ST.
  assert (BX : Rabs (B2R x + e / (t ^ 3 / g)) <= 2 * X) by (eapply Rle_trans; [apply Rabs_triang|]; lra). specialize (ST BX).
  assert (EQ : fst (lp_step Rplus Rmult lpcR (hR h) (B2R x + e / (t ^ 3 / g))) = B2R (fst (lp_step fadd fmul lpcF h x))).
  { transitivity (fst (lp_step Rplus Rmult lpcR (hR h) (B2R x)) + e); [|unfold e; ring].
    unfold lp_step, lp_out, lpcR. cbn [fst c0 c1 Filters.c2 c3]. field. split; lra. }
  change (lp_step Rplus Rmult _ (hR h) (B2R x + e / (t ^ 3 / g))) with (lp_step Rplus Rmult lpcR (hR h) (B2R x + e / (t ^ 3 / g))) in ST.
  clearbody e. unfold lp_step in ST, EQ, Fy |- *. cbn [fst] in EQ, Fy. rewrite EQ in ST. destruct ST as [I' Y']. 
  split; [|split; [exact Fy|exact Y']]. split; [|exact I']. destruct HF as ((F0 & F1 & F2) & B0 & B1 & B2).
  unfold hfin. cbn [h0 h1 h2]. split; [split; [exact Fy|split; assumption]|]. split; [exact Y'|]. split; assumption.
Qed.

(** ** one HighPass step: the history of outputs is a sum of an exactly filtered part and the feedback core's answer to the rounding errors *)
Variables a0F a1F a2F a3F : f32.
Hypothesis Ha0 : acc a0F (1 / g).
Hypothesis Ha1 : acc a1F (-3 / g).
Hypothesis Ha2 : acc a2F (3 / g).
Hypothesis Ha3 : acc a3F (-1 / g).
Definition hpcF := mkHPC (mkC a0F a1F a2F a3F) b1F b2F b3F.
Definition hpcR := mkHPC (mkC (1 / g) (-3 / g) (3 / g) (-1 / g)) (N1 / g) ((- k * t - 3) / g) (1 / g).
Lemma hp_f32_err (hx hy : hist f32) (x : f32) (M : R) : hfin hx X -> hfin hy M -> fin x -> Rabs (B2R x) <= X -> M <= 640 * X -> 0 <= M ->
  let y := fst (hp_step fadd fmul hpcF (hx, hy) x) in
  fin y /\ Rabs (B2R y - fst (hp_step Rplus Rmult hpcR (hR hx, hR hy) (B2R x))) <= 73 / 134217728 * ((8 * X + (N1 + N2 + 1) * M) / g) + 512 * eta0.
Proof.
  intros ((FX0 & FX1 & FX2) & BX0 & BX1 & BX2) ((F0 & F1 & F2) & B0 & B1 & B2) Fx Bx MB M0. unfold hp_step, hp_out, hpcF, hpcR, hR.
  cbn [fst hc_a hc_b1 hc_b2 hc_b3 c0 c1 Filters.c2 c3 h0 h1 h2].
  pose proof X_pos as XP. pose proof (X_rng _ MB) as M100. assert (X100 : X <= bpow radix2 100) by (apply X_rng; lra).
  destruct N_pos as (P1 & P2 & P3). destruct N_le as (L1 & L2 & L3). destruct abs_c0 as (_ & Q1 & Q3 & Q4 & Q5 & Q6).
  destruct (cb N1 P1 L1). destruct (cb N2 P2 L2). destruct (cb 1 ltac:(lra) ltac:(lra)). destruct (cb 3 ltac:(lra) ltac:(lra)).
  destruct (prod_ok _ _ x X Ha0 Fx Bx) as [C0 V0]; [rewrite Q3; lra|exact X100|].
  destruct (prod_ok _ _ (h0 hx) X Ha1 FX0 BX0) as [C1 V1]; [rewrite Q5; lra|exact X100|].
  destruct (prod_ok _ _ (h1 hx) X Ha2 FX1 BX1) as [C2 V2]; [rewrite Q4; lra|exact X100|].
  destruct (prod_ok _ _ (h2 hx) X Ha3 FX2 BX2) as [C3 V3]; [rewrite Q6; lra|exact X100|].
  destruct (prod_ok _ _ (h0 hy) M Hb1 F0 B0) as [A1 U1]; [rewrite Q1; lra|exact M100|].
  destruct (prod_ok _ _ (h1 hy) M Hb2 F1 B1) as [A2 U2]; [rewrite n2g; lra|exact M100|].
  destruct (prod_ok _ _ (h2 hy) M Hb3 F2 B2) as [A3 U3]; [rewrite Q3; lra|exact M100|].
  rewrite Q3 in C0, V0. rewrite Q5 in C1, V1. rewrite Q4 in C2, V2. rewrite Q6 in C3, V3.
  rewrite Q1 in A1, U1. rewrite n2g in A2, U2. rewrite Q3 in A3, U3.
  pose proof eta0_pos as E0. pose proof sum107 as S107. pose proof (bpow_gt_0 radix2 107) as W0.
  aeadd T1 C0 C1.
  apply (AE_w 2 3) in C2; [|lia]. aeadd T2 T1 C2.
  apply (AE_w 2 4) in C3; [|lia]. aeadd T3 T2 C3.
  apply (AE_w 2 5) in A1; [|lia]. aeadd T4 T3 A1.
  apply (AE_w 2 6) in A2; [|lia]. aeadd T5 T4 A2.
  apply (AE_w 2 7) in A3; [|lia]. aeadd T6 T5 A3.
  destruct T6 as (F & E & _). split; [exact F|]. apply Rle_trans with (1 := E). pose proof g_rng' as G.
  set (Mt := 1 / g * X + 3 / g * X + 3 / g * X + 1 / g * X + N1 / g * M + N2 / g * M + 1 / g * M).
  replace ((8 * X + (N1 + N2 + 1) * M) / g) with Mt by (unfold Mt; field; lra).
  assert (0 <= Mt).
  { unfold Mt. repeat apply Rplus_le_le_0_compat; apply Rmult_le_pos; lra. }
  assert ((om ^ 8 - 1) * Mt <= 73 / 134217728 * Mt) by (apply Rmult_le_compat_r; [assumption|pose proof om_8; lra]). lra.
Qed.
Definition hbd (h : hist R) (B : R) : Prop := Rabs (h0 h) <= B /\ Rabs (h1 h) <= B /\ Rabs (h2 h) <= B.
Definition hpY : R := 2 * X + hpM t X + lpM t (6 * X).
Definition hpJ (st : hist f32 * hist f32) : Prop :=
  let '(hx, hy) := st in hfin hx X /\ hfin hy hpY /\
  exists hA hB, hbd hA (2 * X + hpM t X) /\ hbd hB (lpM t (6 * X)) /\ hpI t d X (hR hx, hA) /\ lpI t d (6 * X) hB /\
    B2R (h0 hy) = h0 hA + h0 hB /\ B2R (h1 hy) = h1 hA + h1 hB /\ B2R (h2 hy) = h2 hA + h2 hB.
Lemma hpY_le : 0 <= hpY <= 638 * X.
Proof.
  unfold hpY. pose proof X_pos as XP. destruct (lpM_le (6 * X)) as [A B]; [lra|]. destruct (lpM_le (2 * X)) as [C D]; [lra|].
  change (hpM t X) with (lpM t (2 * X)). lra.
Qed.
Lemma hp_split (hx hy hA hB : hist R) (x e : R) : h0 hy = h0 hA + h0 hB -> h1 hy = h1 hA + h1 hB -> h2 hy = h2 hA + h2 hB ->
  fst (hp_step Rplus Rmult hpcR (hx, hy) x) + e = fst (hp_step Rplus Rmult hpcR (hx, hA) x) + fst (lp_step Rplus Rmult lpcR hB (e / (t ^ 3 / g))).
Proof.
  intros Y0 Y1 Y2. unfold lp_step, lp_out, lpcR, hp_step, hp_out, hpcR. cbn [fst hc_a hc_b1 hc_b2 hc_b3 c0 c1 Filters.c2 c3 h0 h1 h2].
  rewrite Y0, Y1, Y2. pose proof g_rng'. destruct N_pos as (_ & _ & ?). field. split; lra.
Qed.
Lemma lp_step_inv' E h x : 0 <= E -> lpI t d E h -> Rabs x <= E ->
  lpI t d E (mkH (fst (lp_step Rplus Rmult lpcR h x)) (h0 h) (h1 h)) /\ Rabs (fst (lp_step Rplus Rmult lpcR h x)) <= lpM t E.
Proof. intros HE I B. pose proof (lp_step_inv t d E ltac:(lra) Hd HE h x I B) as ST. exact ST. Qed.
Lemma hp_step_inv' hx hy x : hpI t d X (hx, hy) -> Rabs x <= X ->
  hpI t d X (mkH x (h0 hx) (h1 hx), mkH (fst (hp_step Rplus Rmult hpcR (hx, hy) x)) (h0 hy) (h1 hy)) /\
  Rabs (fst (hp_step Rplus Rmult hpcR (hx, hy) x)) <= 2 * X + hpM t X.
Proof. intros I B. pose proof X_pos. pose proof (hp_step_inv t d X ltac:(lra) Hd ltac:(lra) (hx, hy) x I B) as ST. exact ST. Qed.
Lemma hp_f32_step hx hy x : hpJ (hx, hy) -> fin x -> Rabs (B2R x) <= X ->
  let '(y, st') := hp_step fadd fmul hpcF (hx, hy) x in hpJ st' /\ fin y /\ Rabs (B2R y) <= hpY.
Proof.
  intros (HFX & HFY & hA & hB & DA & DB & IA & IB & Y0 & Y1 & Y2) Fx Bx. pose proof X_pos as XP. pose proof hpY_le as YB.
  destruct (hp_f32_err hx hy x _ HFX HFY Fx Bx) as [Fy Ey]; [lra|lra|].
  rewrite hp_step_shape. generalize dependent (fst (hp_step fadd fmul hpcF (hx, hy) x)). intros y Fy Ey.
  destruct N_pos as (P1 & P2 & P3). destruct N_sum as [NS NS2]. pose proof g_rng' as G.
  pose proof (hp_split (hR hx) (hR hy) hA hB (B2R x) (B2R y - fst (hp_step Rplus Rmult hpcR (hR hx, hR hy) (B2R x))) Y0 Y1 Y2) as EQ.
  rewrite Rplus_minus in EQ. generalize dependent (B2R y - fst (hp_step Rplus Rmult hpcR (hR hx, hR hy) (B2R x))). intros e Ey EQ.
  assert (BE : Rabs (e / (t ^ 3 / g)) <= 6 * X).
  { apply (err_bound 6 _ e (73 / 134217728) 10000000) with (4 := Ey); [| |lra|lra].
    - apply Rplus_le_le_0_compat; [lra|]. apply Rmult_le_pos; lra.
    - assert ((N1 + N2 + 1) * hpY <= (15480 * t ^ 3) * (638 * X)) by (apply Rmult_le_compat; lra).
      assert (0 < t ^ 3 * X) by (apply Rmult_lt_0_compat; lra).
      assert (X <= 2068 * (t ^ 3 * X)) by (rewrite <- Rmult_assoc; rewrite <- (Rmult_1_l X) at 1; apply Rmult_le_compat_r; lra). lra. }
  destruct (lp_step_inv' (6 * X) hB _ ltac:(lra) IB BE) as [IB' BB]. destruct (hp_step_inv' (hR hx) hA (B2R x) IA Bx) as [IA' BA].
  generalize dependent (fst (lp_step Rplus Rmult lpcR hB (e / (t ^ 3 / g)))). intros vB EQ IB' BB.
  generalize dependent (fst (hp_step Rplus Rmult hpcR (hR hx, hA) (B2R x))). intros vA IA' BA EQ.
  assert (BY : Rabs (B2R y) <= hpY) by (rewrite EQ; unfold hpY; eapply Rle_trans; [apply Rabs_triang|]; lra).
  split; [|split; [exact Fy|exact BY]].
  destruct HFX as ((FX0 & FX1 & FX2) & BX0 & BX1 & BX2). destruct HFY as ((F0 & F1 & F2) & B0 & B1 & B2).
  destruct DA as (DA0 & DA1 & DA2). destruct DB as (DB0 & DB1 & DB2).
  split; [unfold hfin; cbn [h0 h1 h2]; repeat split; assumption|]. split; [unfold hfin; cbn [h0 h1 h2]; repeat split; assumption|].
  exists (mkH vA (h0 hA) (h1 hA)), (mkH vB (h0 hB) (h1 hB)). cbn [h0 h1 h2]. unfold hbd. cbn [h0 h1 h2].
  split; [repeat split; assumption|]. split; [repeat split; assumption|]. split; [exact IA'|]. split; [exact IB'|]. repeat split; assumption.
Qed.
Lemma hfin0 B : 0 <= B -> hfin (hist0 f0) B.
Proof. intro H. unfold hfin, hist0. cbn [h0 h1 h2]. change (B2R (f0 : f32)) with 0. rewrite Rabs_R0. repeat split; try assumption; reflexivity. Qed.
Lemma hR0 : hR (hist0 f0) = hist0 0. Proof. reflexivity. Qed.
Lemma lpJ0 : lpJ (hist0 f0).
Proof.
  pose proof X_pos as XP. destruct (lpM_le (2 * X)); [lra|]. split; [apply hfin0; lra|]. rewrite hR0. apply lpI_zero; lra.
Qed.
Lemma hpJ0 : hpJ (hist0 f0, hist0 f0).
Proof.
  pose proof X_pos as XP. pose proof hpY_le. destruct (lpM_le (6 * X)); [lra|]. destruct (lpM_le (2 * X)); [lra|]. change (lpM t (2 * X)) with (hpM t X) in *.
  split; [apply hfin0; lra|]. split; [apply hfin0; lra|]. exists (hist0 0), (hist0 0). rewrite hR0.
  split; [unfold hbd, hist0; cbn [h0 h1 h2]; rewrite Rabs_R0; lra|]. split; [unfold hbd, hist0; cbn [h0 h1 h2]; rewrite Rabs_R0; lra|].
  split; [apply hpI_zero; lra|]. split; [apply lpI_zero; lra|]. unfold hist0. cbn [h0 h1 h2]. change (B2R (f0 : f32)) with 0. lra.
Qed.
Lemma lp_f32_run xs : forall h, lpJ h -> (forall x, In x xs -> fin x /\ Rabs (B2R x) <= X) ->
  forall y, In y (fst (run (lp_step fadd fmul lpcF) h xs)) -> fin y /\ Rabs (B2R y) <= lpM t (2 * X).
Proof.
  induction xs as [|x xs IH]; intros h I Hx y Hy; [destruct Hy|].
  cbn [run] in Hy. destruct (Hx x (or_introl eq_refl)) as [Fx Bx]. pose proof (lp_f32_step h x I Fx Bx) as ST.
  destruct (lp_step fadd fmul lpcF h x) as [y0 h']. destruct ST as [I' B].
  specialize (IH h' I' (fun z Hz => Hx z (or_intror Hz))).
  destruct (run (lp_step fadd fmul lpcF) h' xs) as [ys hf]. cbn [fst] in *.
  destruct Hy as [<-|Hy]; [exact B|apply IH, Hy].
Qed.
Lemma hp_f32_run xs : forall h, hpJ h -> (forall x, In x xs -> fin x /\ Rabs (B2R x) <= X) ->
  forall y, In y (fst (run (hp_step fadd fmul hpcF) h xs)) -> fin y /\ Rabs (B2R y) <= hpY.
Proof.
  induction xs as [|x xs IH]; intros [hx hy] I Hx y Hy; [destruct Hy|].
  cbn [run] in Hy. destruct (Hx x (or_introl eq_refl)) as [Fx Bx]. pose proof (hp_f32_step hx hy x I Fx Bx) as ST.
  destruct (hp_step fadd fmul hpcF (hx, hy) x) as [y0 h']. destruct ST as [I' B].
  specialize (IH h' I' (fun z Hz => Hx z (or_intror Hz))).
  destruct (run (hp_step fadd fmul hpcF) h' xs) as [ys hf]. cbn [fst] in *.
  destruct Hy as [<-|Hy]; [exact B|apply IH, Hy].
Qed.
End Num.

(** ** the filters themselves *)
Lemma lp_run_coeff xs : forall s, fst (run lp_process s xs) = fst (run (lp_step fadd fmul (lp_coeff s)) (lp_outs s) xs).
Proof.
  induction xs as [|x xs IH]; intro s; [reflexivity|]. cbn [run]. unfold lp_process at 1.
  destruct (lp_step fadd fmul (lp_coeff s) (lp_outs s) x) as [y o]. specialize (IH (mkLP (lp_fc s) (lp_r s) (lp_coeff s) o)).
  cbn [lp_coeff lp_outs] in IH. destruct (run lp_process _ xs). destruct (run (lp_step _ _ _) o xs). cbn [fst] in *. rewrite IH. reflexivity.
Qed.
Lemma hp_run_coeff xs : forall s, fst (run hp_process s xs) = fst (run (hp_step fadd fmul (hp_coeff s)) (hp_hist s) xs).
Proof.
  induction xs as [|x xs IH]; intro s; [reflexivity|]. cbn [run]. unfold hp_process at 1.
  destruct (hp_step fadd fmul (hp_coeff s) (hp_hist s) x) as [y o]. specialize (IH (mkHP (hp_fc s) (hp_r s) (hp_coeff s) o)).
  cbn [hp_coeff hp_hist] in IH. destruct (run hp_process _ xs). destruct (run (hp_step _ _ _) o xs). cbn [fst] in *. rewrite IH. reflexivity.
Qed.
Lemma params_ok fc r : fle (of_Z 600) (clamp_fc fc) = true ->
  (fin (clamp_fc fc) /\ 600 <= B2R (clamp_fc fc) <= 24000) /\ (fin (clamp_r r) /\ 0 <= B2R (clamp_r r) <= 1).
Proof.
  intro H. destruct (in_params_clamp fc r) as (A & _ & B & C & _). set (f := clamp_fc fc) in *. set (q := clamp_r r) in *.
  assert (V1 : fin (of_Z 600 : f64) /\ B2R (of_Z 600 : f64) = 600) by (apply of_Z64; lia).
  assert (V2 : fin (of_Z 24000 : f64) /\ B2R (of_Z 24000 : f64) = 24000) by (apply of_Z64; lia).
  assert (V3 : fin (of_Z 1 : f64) /\ B2R (of_Z 1 : f64) = 1) by (apply of_Z64; lia).
  assert (Ff : fin f). { generalize dependent f. intros f H1 H2. destruct f as [ | [|] | | ]; try reflexivity; revert H1 H2; vm_compute; discriminate. }
  assert (Fq : fin q). { generalize dependent q. intros q H1 H2. destruct q as [ | [|] | | ]; try reflexivity; revert H1 H2; vm_compute; discriminate. }
  apply fle_true in H; [|apply V1|exact Ff]. apply fle_true in A; [|exact Ff|apply V2]. apply fle_true in B; [|reflexivity|exact Fq]. apply fle_true in C; [|exact Fq|apply V3].
  destruct V1 as [_ V1]. destruct V2 as [_ V2]. destruct V3 as [_ V3]. rewrite V1 in H. rewrite V2 in A. rewrite V3 in C. change (B2R (f0 : f64)) with 0 in B.
  split; split; lra || assumption.
Qed.
Lemma t_600 m fc : fc_ok fc -> 600 <= B2R fc -> 785 / 10000 <= B2R (bw_t (A64 m) fc) <= 16 / 5 /\ 6 / B2R (bw_t (A64 m) fc) <= 46000 / B2R fc.
Proof.
  intros OK H6. destruct (t_val m fc OK) as [_ [L U]]. destruct (t_rng m fc OK) as [_ U2]. destruct OK as [_ OK]. pose proof PI_bounds as PB. unfold t_of in *.
  set (f := B2R fc) in *. set (t := B2R (bw_t (A64 m) fc)) in *.
  assert (TL : 6283 / 48000000 * f <= t).
  { apply Rle_trans with (2 := L). replace (2 * PI * f * / 48000 * (1 - / 100000000)) with (PI * (f * (2 * / 48000 * (1 - / 100000000)))) by ring.
    apply Rle_trans with (31415926 / 10000000 * (f * (2 * / 48000 * (1 - / 100000000)))); [lra|]. apply Rmult_le_compat_r; [lra|]. lra. }
  split; [lra|]. apply Rle_trans with (6 / (6283 / 48000000 * f)).
  - unfold Rdiv. apply Rmult_le_compat_l; [lra|]. apply Rinv_le; lra.
  - replace (6 / (6283 / 48000000 * f)) with ((6 * 48000000 / 6283) * / f) by (field; lra). unfold Rdiv. apply Rmult_le_compat_r; [left; apply Rinv_0_lt_compat; lra|]. lra.
Qed.


Lemma acc_pos c z : fin c /\ Rabs (B2R c - z) <= w32 * z -> acc c z.
Proof. intros [F H]. split; [exact F|]. apply Rle_trans with (1 := H). apply Rmult_le_compat_l; [unfold w32; lra|apply Rle_abs]. Qed.
Lemma acc_neg c z z' : fin c /\ Rabs (- B2R c - z) <= w32 * z -> z' = - z -> acc c z'.
Proof.
  intros [F H] ->. split; [exact F|]. replace (B2R c - - z) with (- (- B2R c - z)) by ring. rewrite !Rabs_Ropp.
  apply Rle_trans with (1 := H). apply Rmult_le_compat_l; [unfold w32; lra|apply Rle_abs].
Qed.
Theorem lp_f32_stable m fc r X xs : cos_accurate m -> pow_int_accurate m ->
  let s := lp_new m fc r in fle (of_Z 600) (lp_fc s) = true ->
  bpow radix2 (-100) <= X <= bpow radix2 90 -> (forall x, In x xs -> fin x /\ Rabs (B2R x) <= X) ->
  forall y, In y (fst (run lp_process s xs)) -> fin y /\ Rabs (B2R y) <= (92000 / B2R (lp_fc s) + 6) * X.
Proof.
  intros HC HP s H6 HX Hxs y Hy. destruct (params_ok fc r H6) as ((Ff & Bf) & (Fr & Br)).
  rewrite lp_run_coeff in Hy. subst s. change (lp_fc (lp_new m fc r)) with (clamp_fc fc) in *.
  change (lp_outs (lp_new m fc r)) with (hist0 (f0 : f32)) in Hy. change (lp_coeff (lp_new m fc r)) with (lp_coeffs (A64 m) to32 (clamp_fc fc) (clamp_r r)) in Hy.
  generalize dependent (clamp_fc fc). generalize dependent (clamp_r r). clear fc r. intros r Fr Br fc H6 Hy Ff Bf.
  assert (OK : fc_ok fc) by (split; [exact Ff|lra]). destruct (t_600 m fc OK (proj1 Bf)) as [TR TI].
  pose proof (k_near m HC r Br _ (lp_theta_ok m r Fr Br)) as KN. pose proof (d_of_range (B2R r) Br) as DR.
  unfold lp_coeffs in Hy. cbv zeta in Hy.
  pose proof (c0_near m HP fc OK _ _ KN DR) as A0. pose proof (b1_near m HP fc OK _ _ KN DR) as A1.
  pose proof (b2_near m HP fc OK _ _ KN DR) as A2. pose proof (over_g m HP fc OK _ _ KN DR 1 ltac:(lia)) as A3.
  assert (RX : 0 < X) by (pose proof (bpow_gt_0 radix2 (-100)); lra).
  apply acc_pos in A0. apply acc_pos in A1. apply acc_pos in A3. unfold n1 in A1. unfold n2 in A2.
  assert (A2' := fun z' => acc_neg _ _ z' A2). clear A2.
  change (to32 (fdiv (of_Z 1) (bw_g (A64 m) (bw_k (A64 m) (lp_theta (A64 m) r)) (bw_t (A64 m) fc)))) with
    (to32 (bw_b3 (A64 m) (bw_k (A64 m) (lp_theta (A64 m) r)) (bw_t (A64 m) fc))) in A3.
  generalize dependent (to32 (bw_b3 (A64 m) (bw_k (A64 m) (lp_theta (A64 m) r)) (bw_t (A64 m) fc))).
  generalize dependent (to32 (bw_b2 (A64 m) (bw_k (A64 m) (lp_theta (A64 m) r)) (bw_t (A64 m) fc))).
  generalize dependent (to32 (bw_b1 (A64 m) (bw_k (A64 m) (lp_theta (A64 m) r)) (bw_t (A64 m) fc))).
  generalize dependent (to32 (lp_c0 (A64 m) (bw_k (A64 m) (lp_theta (A64 m) r)) (bw_t (A64 m) fc))).
  intros c0F A0 b1F A1 b2F A2 b3F Hy A3. clear KN.
  generalize dependent (B2R (bw_t (A64 m) fc)). intros t TR TI A0 A1 A2 A3.
  generalize dependent (d_of (B2R r)). intros d DR A0 A1 A2 A3.
  set (g := t ^ 3 + (d + 1) * t ^ 2 + (d + 1) * t + 1) in *.
  assert (G : 1 <= g) by (apply (g_rng' t d TR DR)).
  specialize (A2 ((- (d + 1) * t - 3) / g) ltac:(field; lra)).
  destruct (lp_f32_run t d TR DR X HX c0F b1F b2F b3F A0 A1 A2 A3 xs (hist0 f0) (lpJ0 t d TR X HX) Hxs y Hy) as [Fy By].
  split; [exact Fy|]. apply Rle_trans with (1 := By). unfold lpM. rewrite <- Rmult_assoc. apply Rmult_le_compat_r; [lra|]. lra.
Qed.
Theorem hp_f32_stable m fc r X xs : cos_accurate m -> pow_int_accurate m ->
  let s := hp_new m fc r in fle (of_Z 600) (hp_fc s) = true ->
  bpow radix2 (-100) <= X <= bpow radix2 90 -> (forall x, In x xs -> fin x /\ Rabs (B2R x) <= X) ->
  forall y, In y (fst (run hp_process s xs)) -> fin y /\ Rabs (B2R y) <= (368000 / B2R (hp_fc s) + 26) * X.
Proof.
  intros HC HP s H6 HX Hxs y Hy. destruct (params_ok fc r H6) as ((Ff & Bf) & (Fr & Br)).
  rewrite hp_run_coeff in Hy. subst s. change (hp_fc (hp_new m fc r)) with (clamp_fc fc) in *.
  change (hp_hist (hp_new m fc r)) with (hist0 (f0 : f32), hist0 (f0 : f32)) in Hy. change (hp_coeff (hp_new m fc r)) with (hp_coeffs (A64 m) to32 (clamp_fc fc) (clamp_r r)) in Hy.
  generalize dependent (clamp_fc fc). generalize dependent (clamp_r r). clear fc r. intros r Fr Br fc H6 Hy Ff Bf.
  assert (OK : fc_ok fc) by (split; [exact Ff|lra]). destruct (t_600 m fc OK (proj1 Bf)) as [TR TI].
  pose proof (k_near m HC r Br _ (hp_theta_ok m r Fr Br)) as KN. pose proof (d_of_range (B2R r) Br) as DR.
  unfold hp_coeffs in Hy. cbv zeta in Hy.
  pose proof (b1_near m HP fc OK _ _ KN DR) as A1.
  pose proof (b2_near m HP fc OK _ _ KN DR) as A2. pose proof (over_g m HP fc OK _ _ KN DR 1 ltac:(lia)) as A3.
  pose proof (over_gn m HP fc OK _ _ KN DR 3 ltac:(lia)) as C1. pose proof (over_g m HP fc OK _ _ KN DR 3 ltac:(lia)) as C2.
  pose proof (over_gn m HP fc OK _ _ KN DR 1 ltac:(lia)) as C3.
  assert (RX : 0 < X) by (pose proof (bpow_gt_0 radix2 (-100)); lra).
  apply acc_pos in A1. apply acc_pos in A3. apply acc_pos in C2. unfold n1 in A1. unfold n2 in A2.
  assert (A2' := fun z' => acc_neg _ _ z' A2). clear A2. assert (C1' := fun z' => acc_neg _ _ z' C1). clear C1. assert (C3' := fun z' => acc_neg _ _ z' C3). clear C3.
  change (hp_a0 (A64 m) (bw_k (A64 m) (hp_theta (A64 m) r)) (bw_t (A64 m) fc)) with (fdiv (of_Z 1) (bw_g (A64 m) (bw_k (A64 m) (hp_theta (A64 m) r)) (bw_t (A64 m) fc))) in Hy.
  change (bw_b3 (A64 m) (bw_k (A64 m) (hp_theta (A64 m) r)) (bw_t (A64 m) fc)) with (fdiv (of_Z 1) (bw_g (A64 m) (bw_k (A64 m) (hp_theta (A64 m) r)) (bw_t (A64 m) fc))) in Hy.
  change (hp_a1 (A64 m) (bw_k (A64 m) (hp_theta (A64 m) r)) (bw_t (A64 m) fc)) with (fdiv (fneg (of_Z 3)) (bw_g (A64 m) (bw_k (A64 m) (hp_theta (A64 m) r)) (bw_t (A64 m) fc))) in Hy.
  change (hp_a2 (A64 m) (bw_k (A64 m) (hp_theta (A64 m) r)) (bw_t (A64 m) fc)) with (fdiv (of_Z 3) (bw_g (A64 m) (bw_k (A64 m) (hp_theta (A64 m) r)) (bw_t (A64 m) fc))) in Hy.
  change (hp_a3 (A64 m) (bw_k (A64 m) (hp_theta (A64 m) r)) (bw_t (A64 m) fc)) with (fdiv (fneg (of_Z 1)) (bw_g (A64 m) (bw_k (A64 m) (hp_theta (A64 m) r)) (bw_t (A64 m) fc))) in Hy.
  generalize dependent (to32 (fdiv (fneg (of_Z 1)) (bw_g (A64 m) (bw_k (A64 m) (hp_theta (A64 m) r)) (bw_t (A64 m) fc)))).
  generalize dependent (to32 (fdiv (of_Z 3) (bw_g (A64 m) (bw_k (A64 m) (hp_theta (A64 m) r)) (bw_t (A64 m) fc)))).
  generalize dependent (to32 (fdiv (fneg (of_Z 3)) (bw_g (A64 m) (bw_k (A64 m) (hp_theta (A64 m) r)) (bw_t (A64 m) fc)))).
  generalize dependent (to32 (fdiv (of_Z 1) (bw_g (A64 m) (bw_k (A64 m) (hp_theta (A64 m) r)) (bw_t (A64 m) fc)))).
  generalize dependent (to32 (bw_b2 (A64 m) (bw_k (A64 m) (hp_theta (A64 m) r)) (bw_t (A64 m) fc))).
  generalize dependent (to32 (bw_b1 (A64 m) (bw_k (A64 m) (hp_theta (A64 m) r)) (bw_t (A64 m) fc))).
  intros b1F A1 b2F A2 b3F A3 a1F C1 a2F C2 a3F Hy C3. clear KN.
  generalize dependent (B2R (bw_t (A64 m) fc)). intros t TR TI A1 A2 A3 C1 C2 C3.
  generalize dependent (d_of (B2R r)). intros d DR A1 A2 A3 C1 C2 C3.
  set (g := t ^ 3 + (d + 1) * t ^ 2 + (d + 1) * t + 1) in *.
  assert (G : 1 <= g) by (apply (g_rng' t d TR DR)).
  specialize (A2 ((- (d + 1) * t - 3) / g) ltac:(field; lra)). specialize (C1 (-3 / g) ltac:(field; lra)). specialize (C3 (-1 / g) ltac:(field; lra)).
  destruct (hp_f32_run t d TR DR X HX b1F b2F b3F A1 A2 A3 b3F a1F a2F a3F A3 C1 C2 C3 xs (hist0 f0, hist0 f0) (hpJ0 t d TR X HX) Hxs y Hy) as [Fy By].
  split; [exact Fy|]. apply Rle_trans with (1 := By). unfold hpY, hpM, lpM.
  replace (2 * X + (6 / t + 3) * (2 * X) + (6 / t + 3) * (6 * X)) with ((2 + 8 * (6 / t + 3)) * X) by ring. apply Rmult_le_compat_r; lra.
Qed.
