(** * Linear feedback loops over the reals *)
From Coq Require Import ZArith List Bool Arith Reals Lra Lia Psatz Wf_nat.
From Flocq Require Import Core.Core IEEE754.BinarySingleNaN.
From Verif Require Import Model.Floats Model.Modifiers Model.Filters Spec.Response Spec.Chain Spec.Convolve Spec.Ring Proof.ChainP2 Proof.ConvolveP.
Import ListNotations.
Local Open Scope R_scope.

Lemma sum_abs f n : Rabs (sum_f_R0 f n) <= sum_f_R0 (fun k => Rabs (f k)) n.
Proof. induction n as [|n IH]; cbn [sum_f_R0]; [lra|]. eapply Rle_trans; [apply Rabs_triang|lra]. Qed.
Lemma conv_abs h x n (b : nat -> R) : (forall i, (i <= n)%nat -> Rabs (x i) <= b i) -> Rabs (conv h x n) <= sum_f_R0 (fun k => Rabs (h k) * b (n - k)%nat) n.
Proof.
  intro H. unfold conv. eapply Rle_trans; [apply sum_abs|]. apply sum_Rle. intros k Hk. rewrite Rabs_mult. apply Rmult_le_compat_l; [apply Rabs_pos|apply H; lia].
Qed.
Lemma conv_le h G x n B : (forall k, sum_f_R0 (fun i => Rabs (h i)) k <= G) -> 0 <= B -> (forall i, (i <= n)%nat -> Rabs (x i) <= B) -> Rabs (conv h x n) <= G * B.
Proof.
  intros HG HB H. eapply Rle_trans; [apply (conv_abs h x n (fun _ => B)); exact H|]. rewrite <- scal_sum, Rmult_comm. apply Rmult_le_compat_r; [exact HB|apply HG].
Qed.
Lemma conv_sub h x y n : conv h (fun i => x i - y i) n = conv h x n - conv h y n.
Proof. rewrite (conv_ext h h _ (fun i => x i + -1 * y i) n) by (intros; ring || reflexivity). rewrite conv_lin. ring. Qed.

(** ** the solution *)
Fixpoint ring_hist (h x : nat -> R) (n : nat) : list R :=
  match n with O => [] | S k => ring_hist h x k ++ [x k + one_late (conv h (fun i => nth i (ring_hist h x k) 0)) k] end.
Definition ring_sol (h x : nat -> R) (n : nat) : R := nth n (ring_hist h x (S n)) 0.
Lemma ring_hist_len h x n : length (ring_hist h x n) = n.
Proof. induction n as [|n IH]; [reflexivity|]. cbn [ring_hist]. rewrite app_length, IH. cbn. lia. Qed.
Lemma ring_hist_nth h x n i : (i < n)%nat -> nth i (ring_hist h x n) 0 = ring_sol h x i.
Proof.
  induction n as [|n IH]; [lia|]. intro H. destruct (Nat.eq_dec i n) as [->|N]; [reflexivity|].
  cbn [ring_hist]. rewrite app_nth1 by (rewrite ring_hist_len; lia). apply IH. lia.
Qed.
Lemma ring_sol_solves h x : ring_solves h x (ring_sol h x).
Proof.
  intro n. unfold ring_sol at 1. cbn [ring_hist]. rewrite app_nth2 by (rewrite ring_hist_len; lia). rewrite ring_hist_len, Nat.sub_diag. cbn [nth]. f_equal.
  destruct n as [|k]; [reflexivity|]. unfold one_late. apply conv_ext; [reflexivity|]. intros i Hi. apply ring_hist_nth. lia.
Qed.
Lemma ring_solves_unique h x u v : ring_solves h x u -> ring_solves h x v -> forall n, u n = v n.
Proof.
  intros A B n. induction n as [n IH] using lt_wf_ind. rewrite (A n), (B n). f_equal. destruct n as [|k]; [reflexivity|]. unfold one_late. apply conv_ext; [reflexivity|]. intros i Hi. apply IH. lia.
Qed.

(** ** errors that go round *)
Section Loop.
Variables (h : nat -> R) (G : R).
Hypothesis HG : forall k, sum_f_R0 (fun i => Rabs (h i)) k <= G.
Hypothesis G1 : G < 1.
Lemma G0 : 0 <= G. Proof. specialize (HG 0%nat). cbn in HG. pose proof (Rabs_pos (h 0%nat)). lra. Qed.
Lemma ring_stable d e N : 0 <= d -> (forall n, (n <= N)%nat -> Rabs (e n - one_late (conv h e) n) <= d) -> forall n, (n <= N)%nat -> Rabs (e n) <= d / (1 - G).
Proof.
  intros Hd H n. assert (E : d / (1 - G) * (1 - G) = d) by (field; lra). assert (E0 : 0 <= d / (1 - G)) by (apply Rmult_le_pos; [exact Hd|left; apply Rinv_0_lt_compat; lra]).
  set (B := d / (1 - G)) in *. pose proof G0 as GP. induction n as [n IH] using lt_wf_ind. intro Hn. specialize (H n Hn).
  assert (C : Rabs (one_late (conv h e) n) <= G * B).
  { destruct n as [|k]; [unfold one_late; rewrite Rabs_R0; apply Rmult_le_pos; assumption|]. apply conv_le; [exact HG|exact E0|]. intros i Hi. apply IH; lia. }
  apply Rabs_le. apply Rabs_le_inv in C, H. lra.
Qed.

Lemma weights K rho q : 0 <= K -> 0 < rho < 1 -> (forall n, Rabs (h n) <= K * rho ^ n) -> 0 <= q < 1 ->
  exists r g, q <= r /\ 0 < r < 1 /\ g < 1 /\ forall k, sum_f_R0 (fun i => Rabs (h i) * r ^ (k - i)) k <= g * r ^ S k.
Proof.
  intros K0 Hr Hh Hq. set (a := (1 - G) / 4). assert (A0 : 0 < a) by (unfold a; lra). pose proof G0 as GP.
  set (r2 := (1 + rho) / 2). assert (R2 : rho < r2 < 1) by (unfold r2; lra).
  set (s := rho / r2). assert (S1 : 0 < s < 1).
  { unfold s. split; [apply Rdiv_lt_0_compat; lra|]. apply Rmult_lt_reg_r with r2; [lra|]. unfold Rdiv. rewrite Rmult_assoc, Rinv_l by lra. lra. }
  set (s1 := (1 + s) / 2). assert (S2 : s < s1 < 1) by (unfold s1; lra).
  set (s2 := s / s1). assert (S3 : 0 < s2 < 1).
  { unfold s2. split; [apply Rdiv_lt_0_compat; lra|]. apply Rmult_lt_reg_r with s1; [lra|]. unfold Rdiv. rewrite Rmult_assoc, Rinv_l by lra. lra. }
  assert (SS : s = s1 * s2) by (unfold s2; field; lra).
  destruct (pow_lt_1_zero s2 ltac:(rewrite Rabs_pos_eq; lra) (a * (1 - s1) / (K + 1))) as (N & HN).
  { apply Rdiv_lt_0_compat; [apply Rmult_lt_0_compat; lra|lra]. }
  specialize (HN N (le_n N)). rewrite Rabs_pos_eq in HN by (apply pow_le; lra).
  set (P2 := s2 ^ N) in *. assert (P20 : 0 < P2) by (apply pow_lt; lra).
  assert (HN' : K * P2 <= a * (1 - s1)).
  { apply Rle_trans with ((K + 1) * P2); [lra|]. apply Rle_trans with ((K + 1) * (a * (1 - s1) / (K + 1))); [apply Rmult_le_compat_l; lra|]. right. field. lra. }
  set (t := a / INR (S N)). assert (I1 : 1 <= INR (S N)) by (rewrite S_INR; pose proof (pos_INR N); lra).
  assert (T0 : 0 < t) by (apply Rdiv_lt_0_compat; lra). assert (TN : INR (S N) * t = a) by (unfold t; field; lra). assert (T1 : t <= a) by nra.
  set (r := Rmax (Rmax q r2) (1 - t)). assert (RA : q <= r) by (eapply Rle_trans; [apply Rmax_l|apply Rmax_l]). assert (RB : r2 <= r) by (eapply Rle_trans; [apply Rmax_r|apply Rmax_l]).
  assert (RC : 1 - t <= r) by apply Rmax_r. assert (RD : r < 1) by (apply Rmax_lub_lt; [apply Rmax_lub_lt; lra|lra]).
  assert (RN : 1 - a <= r ^ S N). { apply Rle_trans with ((1 - t) ^ S N); [rewrite <- TN; apply bernoulli; unfold a in *; lra|apply pow_incr; unfold a in *; lra]. }
  exists r, (1 - a). split; [exact RA|]. split; [lra|]. split; [lra|]. intro k.
  assert (RP : forall i, 0 < r ^ i) by (intro i; apply pow_lt; lra).
  assert (LE1 : forall i, r ^ i <= 1) by (intro i; rewrite <- (pow1 i); apply pow_incr; lra).
  (* termwise *)
  assert (TW : forall i, (i <= k)%nat -> Rabs (h i) * r ^ (k - i) * r ^ N <= Rabs (h i) * r ^ k + (K * P2) * s1 ^ i * r ^ k).
  { intros i Hi. pose proof (Rabs_pos (h i)) as HA. assert (Q0 : 0 <= (K * P2) * s1 ^ i * r ^ k) by (repeat apply Rmult_le_pos; try lra; [apply pow_le; lra|left; apply RP]).
    destruct (le_lt_dec i N) as [L|L].
    - apply Rle_trans with (Rabs (h i) * r ^ k); [|lra]. rewrite Rmult_assoc. apply Rmult_le_compat_l; [exact HA|]. rewrite <- pow_add.
      replace (k - i + N)%nat with (k + (N - i))%nat by lia. rewrite pow_add. rewrite <- (Rmult_1_r (r ^ k)) at 2. apply Rmult_le_compat_l; [left; apply RP|apply LE1].
    - apply Rle_trans with ((K * P2) * s1 ^ i * r ^ k); [|assert (0 <= Rabs (h i) * r ^ k) by (apply Rmult_le_pos; [exact HA|left; apply RP]); lra].
      apply Rle_trans with (Rabs (h i) * r ^ (k - i)); [rewrite <- (Rmult_1_r (Rabs (h i) * r ^ (k - i))) at 2; apply Rmult_le_compat_l; [apply Rmult_le_pos; [exact HA|left; apply RP]|apply LE1]|].
      apply Rle_trans with (K * rho ^ i * r ^ (k - i)); [apply Rmult_le_compat_r; [left; apply RP|apply Hh]|].
      assert (RI : rho ^ i <= P2 * s1 ^ i * r ^ i).
      { apply Rle_trans with (s ^ i * r2 ^ i).
        - rewrite <- Rpow_mult_distr. right. f_equal. unfold s. field. lra.
        - apply Rmult_le_compat; try (apply pow_le; lra); [|apply pow_incr; lra]. rewrite SS, Rpow_mult_distr, Rmult_comm. apply Rmult_le_compat_r; [apply pow_le; lra|].
          unfold P2. replace i with (N + (i - N))%nat by lia. rewrite pow_add. rewrite <- (Rmult_1_r (s2 ^ N)) at 2. apply Rmult_le_compat_l; [apply pow_le; lra|]. rewrite <- (pow1 (i - N)). apply pow_incr. lra. }
      replace (K * P2 * s1 ^ i * r ^ k) with (K * (P2 * s1 ^ i * r ^ i) * r ^ (k - i)) by (replace k with (i + (k - i))%nat at 2 by lia; rewrite pow_add; ring).
      apply Rmult_le_compat_r; [left; apply RP|]. apply Rmult_le_compat_l; assumption. }
  assert (GS : forall n, sum_f_R0 (fun i => s1 ^ i) n <= / (1 - s1)).
  { intro n. rewrite tech3 by lra. unfold Rdiv. rewrite <- (Rmult_1_l (/ (1 - s1))) at 2. apply Rmult_le_compat_r; [left; apply Rinv_0_lt_compat; lra|]. pose proof (pow_le s1 (S n) ltac:(lra)). lra. }
  assert (SUM : sum_f_R0 (fun i => Rabs (h i) * r ^ (k - i)) k * r ^ N <= (G + a) * r ^ k).
  { rewrite Rmult_comm, scal_sum. eapply Rle_trans; [apply (sum_Rle _ (fun i => Rabs (h i) * r ^ k + (K * P2) * s1 ^ i * r ^ k)); intros i Hi; apply TW, Hi|].
    rewrite plus_sum. rewrite Rmult_plus_distr_r. apply Rplus_le_compat.
    - rewrite <- scal_sum, Rmult_comm. apply Rmult_le_compat_r; [left; apply RP|apply HG].
    - rewrite <- scal_sum, Rmult_comm. apply Rmult_le_compat_r; [left; apply RP|]. rewrite (sum_eq _ (fun i => s1 ^ i * (K * P2))) by (intros; ring). rewrite <- scal_sum.
      apply Rle_trans with (a * (1 - s1) * / (1 - s1)); [|right; field; lra]. apply Rmult_le_compat; [apply Rmult_le_pos; lra|apply cond_pos_sum; intro; apply pow_le; lra|exact HN'|apply GS]. }
  apply Rmult_le_reg_r with (r ^ N); [apply RP|]. eapply Rle_trans; [exact SUM|].
  replace ((1 - a) * r ^ S k * r ^ N) with ((1 - a) * r ^ S N * r ^ k) by (cbn [pow]; ring). apply Rmult_le_compat_r; [left; apply RP|].
  assert (A2 : 0 <= a <= / 4) by (unfold a; lra). assert ((1 - a) * (1 - a) <= (1 - a) * r ^ S N) by (apply Rmult_le_compat_l; lra). assert (G = 1 - 4 * a) by (unfold a; field). nra.
Qed.
Lemma ring_settles K rho K1 q : 0 <= K -> 0 < rho < 1 -> (forall n, Rabs (h n) <= K * rho ^ n) -> 0 <= K1 -> 0 <= q < 1 ->
  exists C r, 0 <= C /\ 0 <= r < 1 /\ forall d e N, 0 <= d -> (forall n, (n <= N)%nat -> Rabs (e n - one_late (conv h e) n) <= d + K1 * q ^ n) ->
    forall n, (n <= N)%nat -> Rabs (e n) <= d / (1 - G) + C * r ^ n.
Proof.
  intros K0 Hr Hh K10 Hq. destruct (weights K rho q K0 Hr Hh Hq) as (r & g & RA & RB & GG & W). pose proof G0 as GP.
  set (C := K1 / (1 - g)). assert (CE : C * (1 - g) = K1) by (unfold C; field; lra). assert (C0 : 0 <= C) by (apply Rmult_le_pos; [exact K10|left; apply Rinv_0_lt_compat; lra]).
  exists C, r. split; [exact C0|]. split; [lra|]. intros d e N Hd H n.
  assert (E : d / (1 - G) * (1 - G) = d) by (field; lra). assert (E0 : 0 <= d / (1 - G)) by (apply Rmult_le_pos; [exact Hd|left; apply Rinv_0_lt_compat; lra]).
  set (B := d / (1 - G)) in *. assert (GB : 0 <= G * B) by (apply Rmult_le_pos; assumption). assert (RP : forall i, 0 < r ^ i) by (intro i; apply pow_lt; lra).
  assert (g0 : 0 <= g).
  { specialize (W 0%nat). cbn [sum_f_R0 Nat.sub pow] in W. pose proof (Rabs_pos (h 0%nat)). rewrite !Rmult_1_r in W. destruct (Rle_lt_dec 0 g) as [|L]; [assumption|]. exfalso.
    assert (g * r < 0) by (rewrite <- (Rmult_0_l r); apply Rmult_lt_compat_r; lra). lra. }
  induction n as [n IH] using lt_wf_ind. intro Hn. specialize (H n Hn).
  assert (QN : K1 * q ^ n <= K1 * r ^ n) by (apply Rmult_le_compat_l; [exact K10|apply pow_incr; lra]).
  assert (X : Rabs (one_late (conv h e) n) <= G * B + C * g * r ^ n).
  { destruct n as [|k]; [unfold one_late; rewrite Rabs_R0; pose proof (RP 0%nat); assert (0 <= C * g * r ^ 0) by (apply Rmult_le_pos; [apply Rmult_le_pos; assumption|lra]); lra|].
    unfold one_late. eapply Rle_trans; [apply (conv_abs h e k (fun i => B + C * r ^ i)); intros i Hi; apply IH; lia|].
    rewrite (sum_eq _ (fun i => Rabs (h i) * B + (Rabs (h i) * r ^ (k - i)) * C)) by (intros; ring). rewrite plus_sum. apply Rplus_le_compat.
    - rewrite <- scal_sum, Rmult_comm. apply Rmult_le_compat_r; [exact E0|apply HG].
    - rewrite <- scal_sum, Rmult_assoc. apply Rmult_le_compat_l; [exact C0|apply W]. }
  assert (Y : C * g * r ^ n + K1 * r ^ n = C * r ^ n) by (rewrite <- CE; ring).
  apply Rabs_le. apply Rabs_le_inv in X, H. lra.
Qed.
End Loop.
