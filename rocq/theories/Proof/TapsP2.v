(** * Generic filters: tones come out as tones *)
From Coq Require Import ZArith List Bool Arith Reals Lra Lia Psatz.
From Flocq Require Import Core.Core IEEE754.BinarySingleNaN.
From Verif Require Import Model.Floats Model.Utils Model.Modifiers Spec.Response Spec.Taps Spec.Chain
  Proof.FloatFacts Proof.SampleFormatP Proof.FormatsP Proof.CombP Proof.GenericP Proof.TapsP Proof.ChainP2.
Import ListNotations.
Local Open Scope R_scope.

Lemma before_bound x n k B : 0 <= B -> (forall i, (i <= n)%nat -> Rabs (x i) <= B) -> Rabs (before x n k) <= B.
Proof. intros H0 H. unfold before. destruct (Nat.ltb_spec n k); [rewrite Rabs_R0; exact H0|apply H; lia]. Qed.
(** bounded in, bounded out *)
Lemma sol_bound z p x B : weight p < 1 -> 0 <= B -> forall N, (forall i, (i <= N)%nat -> Rabs (x i) <= B) ->
  forall n, (n <= N)%nat -> Rabs (sol z p x n) <= taps_gain z p * B.
Proof.
  intros Wp H0 N H n. induction n as [n IH] using lt_wf_ind. intro Hn. pose proof (weight_pos z) as W0. pose proof (weight_pos p) as V0.
  set (G := taps_gain z p * B). assert (GE : G = weight z * B + weight p * G) by (unfold G, taps_gain; field; lra).
  assert (G0 : 0 <= G) by (unfold G, taps_gain; apply Rmult_le_pos; [apply Rmult_le_pos; [exact W0|left; apply Rinv_0_lt_compat; lra]|exact H0]).
  rewrite (sol_solves z p x n), GE. eapply Rle_trans; [apply Rabs_triang|]. apply Rplus_le_compat; apply tapped_bound; intros c _.
  - apply before_bound; [exact H0|]. intros i Hi. apply H. lia.
  - unfold before. destruct (Nat.ltb_spec n (S (Z.to_nat (fst c)))); [rewrite Rabs_R0; exact G0|apply IH; lia].
Qed.
(** linear in the coefficients *)
Lemma tone_tapped cs o om w k : (forall c, In c cs -> (o + Z.to_nat (fst c) <= k)%nat) ->
  tone om (cmul (taps_sum cs o om) w) k = tapped cs (fun i => tone om w (k - (o + i))).
Proof.
  unfold taps_sum, tapped. induction cs as [|c r IH]; intro H; cbn [fold_right]; [unfold tone, cmul, cre; cbn [fst snd]; ring|].
  rewrite <- (IH (fun d Hd => H d (or_intror Hd))). set (S := fold_right _ _ r). specialize (H c (or_introl eq_refl)). set (i := (o + Z.to_nat (fst c))%nat) in *.
  rewrite <- (tone_delay om w i (k - i)). replace (i + (k - i))%nat with k by lia.
  unfold tone, cmul, cadd, cre. cbn [fst snd]. ring.
Qed.
Lemma taps_sum_re cs o om : fst (taps_sum cs o om) <= weight cs.
Proof.
  unfold taps_sum, weight. induction cs as [|c r IH]; cbn [fold_right]; [unfold cre; cbn [fst]; lra|]. unfold cadd at 1. cbn [fst]. apply Rplus_le_compat; [|exact IH].
  unfold cmul, cre, zi. cbn [fst snd]. set (a := om * INR _). pose proof (COS_bound a). pose proof (Rabs_pos (B2R (snd c))) as AP. pose proof (Rle_abs (B2R (snd c))) as A1. pose proof (Rle_abs (- B2R (snd c))) as A2. rewrite Rabs_Ropp in A2.
  set (b := B2R (snd c)) in *. set (ab := Rabs b) in *. assert (b * cos a <= ab); [|lra]. assert (Rabs (b * cos a) <= ab * 1) by (rewrite Rabs_mult; apply Rmult_le_compat_l; [exact AP|apply Rabs_le; lra]).
  pose proof (Rle_abs (b * cos a)). lra.
Qed.
(** the response solves the difference equation *)
Lemma taps_H_eq z p om w : weight p < 1 -> let W := cmul (taps_H z p om) w in W = cadd (cmul (taps_sum z 0 om) w) (cmul (taps_sum p 1 om) W).
Proof.
  intro H. pose proof (taps_sum_re p 1 om) as B. unfold taps_H. destruct (taps_sum z 0 om) as [a b]. destruct (taps_sum p 1 om) as [c d]. destruct w as [u v]. cbn [fst] in B.
  assert (P : 0 < (1 - c) * (1 - c) + d * d) by (assert (0 < (1 - c) * (1 - c)) by (apply Rmult_lt_0_compat; lra); pose proof (Rle_0_sqr d); unfold Rsqr in *; lra).
  cbv zeta. unfold cdiv, cmul, cinv, csub, cadd, cre, cn2. cbn [fst snd]. f_equal; field; nra.
Qed.

Lemma sol_tone z p om w K rho : taps_ok z p -> 0 <= K -> 0 <= rho < 1 -> forall X, 0 <= X -> exists K' rho', 0 <= K' /\ 0 <= rho' < 1 /\
  forall eps x N, 0 <= eps -> (forall i, (i <= N)%nat -> Rabs (x i) <= X /\ Rabs (x i - tone om w i) <= eps + K * rho ^ i) ->
    forall n, (n <= N)%nat -> Rabs (sol z p x n - tone om (cmul (taps_H z p om) w) n) <= taps_gain z p * eps + K' * rho' ^ n.
Proof.
  intros (Oz & Op & _ & Wp & _) HK Hr X X0. pose proof (weight_pos z) as W0. pose proof (weight_pos p) as V0. set (e := 1 - weight p). assert (E0 : 0 < e <= 1) by (unfold e; lra).
  set (W := cmul (taps_H z p om) w). set (n := S (Nat.max (Z.to_nat (back_len z)) (Z.to_nat (back_len p)))).
  assert (N1 : 1 <= INR n) by (unfold n; rewrite S_INR; pose proof (pos_INR (Nat.max (Z.to_nat (back_len z)) (Z.to_nat (back_len p)))); lra).
  set (t := e / (2 * INR n)). assert (T0 : 0 < t) by (unfold t; apply Rdiv_lt_0_compat; lra).
  assert (NT : INR n * t = e / 2) by (unfold t; field; lra). assert (T1 : t <= / 2) by nra.
  set (r := Rmax rho (1 - t)). assert (R1 : rho <= r) by apply Rmax_l. assert (R2 : 1 - t <= r) by apply Rmax_r. assert (R3 : r < 1) by (apply Rmax_lub_lt; lra).
  assert (RN : 1 - e / 2 <= r ^ n) by (apply Rle_trans with ((1 - t) ^ n); [rewrite <- NT; apply bernoulli; lra|apply pow_incr; lra]).
  set (G := taps_gain z p). assert (GE : G * e = weight z) by (unfold G, taps_gain, e; field; lra).
  assert (G0 : 0 <= G) by (unfold G, taps_gain; apply Rmult_le_pos; [exact W0|left; apply Rinv_0_lt_compat; lra]).
  set (K' := 2 * (G * K + G * X + csum W)). pose proof (csum_pos W) as C0. assert (GK : 0 <= G * K) by (apply Rmult_le_pos; assumption). assert (GX : 0 <= G * X) by (apply Rmult_le_pos; assumption).
  assert (K0 : 0 <= K') by (unfold K'; lra).
  exists K', r. split; [exact K0|]. split; [lra|]. intros eps x N He Hx.
  assert (PR : forall i, 0 < r ^ i) by (intro i; apply pow_lt; lra).
  assert (PM : forall i j, (i <= j)%nat -> r ^ j <= r ^ i).
  { intros i j Hij. replace j with (i + (j - i))%nat by lia. rewrite pow_add. rewrite <- (Rmult_1_r (r ^ i)) at 2. apply Rmult_le_compat_l; [left; apply PR|]. rewrite <- (pow1 (j - i)). apply pow_incr. lra. }
  intro k. induction k as [k IH] using lt_wf_ind. intro Hk.
  destruct (Nat.lt_ge_cases k n) as [C|C].
  - pose proof (sol_bound z p x X ltac:(lra) X0 N (fun i Hi => proj1 (Hx i Hi)) k Hk) as B. fold G in B. pose proof (tone_csum om W k) as TC.
    pose proof (PM k n ltac:(lia)). assert (K' * / 2 <= K' * r ^ k) by (apply Rmult_le_compat_l; lra). assert (0 <= G * eps) by (apply Rmult_le_pos; assumption).
    apply Rabs_le_inv in B, TC. apply Rabs_le. unfold K' in *. lra.
  - rewrite (sol_solves z p x k). assert (WE := taps_H_eq z p om w Wp). cbv zeta in WE. fold W in WE. rewrite WE, tone_add.
    rewrite (tone_tapped z 0 om w k), (tone_tapped p 1 om W k).
    2:{ intros c Hc. destruct (Op c Hc). unfold n in C. lia. } 2:{ intros c Hc. destruct (Oz c Hc). unfold n in C. lia. }
    set (P := r ^ (k - n)). assert (EJ : r ^ k = r ^ n * P) by (unfold P; rewrite <- pow_add; f_equal; lia). assert (PP : 0 < P) by apply PR.
    assert (AZ : Rabs (tapped z (before x k) - tapped z (fun i => tone om w (k - (0 + i)))) <= weight z * (eps + K * P)).
    { rewrite tapped_minus. apply tapped_bound. intros c Hc. destruct (Oz c Hc) as [Q _]. unfold before. destruct (Nat.ltb_spec k (Z.to_nat (fst c))); [unfold n in C; lia|].
      cbn [Nat.add]. destruct (Hx (k - Z.to_nat (fst c))%nat ltac:(lia)) as [_ D]. eapply Rle_trans; [exact D|]. apply Rplus_le_compat_l. apply Rmult_le_compat_l; [exact HK|].
      eapply Rle_trans; [apply pow_incr; split; [lra|exact R1]|]. apply PM. unfold n in *. lia. }
    assert (AP : Rabs (tapped p (fun j => before (sol z p x) k (S j)) - tapped p (fun i => tone om W (k - (1 + i)))) <= weight p * (G * eps + K' * P)).
    { rewrite tapped_minus. apply tapped_bound. intros c Hc. destruct (Op c Hc) as [Q _]. unfold before. destruct (Nat.ltb_spec k (S (Z.to_nat (fst c)))); [unfold n in C; lia|].
      cbn [Nat.add]. eapply Rle_trans; [apply IH; lia|]. apply Rplus_le_compat_l. apply Rmult_le_compat_l; [exact K0|]. apply PM. unfold n in *. lia. }
    assert (S1 : weight z * K + weight p * K' <= K' * r ^ n).
    { assert (K' * (1 - e / 2) <= K' * r ^ n) by (apply Rmult_le_compat_l; assumption). assert (G * K * e <= K' / 2 * e) by (apply Rmult_le_compat_r; [lra|unfold K'; lra]).
      assert (weight z * K = G * K * e) by (rewrite <- GE; ring). unfold e in *. lra. }
    assert (S2 : (weight z * K + weight p * K') * P <= K' * r ^ n * P) by (apply Rmult_le_compat_r; lra).
    assert (S3 : weight z * eps + weight p * (G * eps) = G * eps) by (rewrite <- GE; unfold e; ring).
    rewrite EJ. apply Rabs_le_inv in AZ, AP. apply Rabs_le. lra.
Qed.

Lemma taps_gain_pos z p : weight p < 1 -> 0 <= taps_gain z p.
Proof. intro H. unfold taps_gain. apply Rmult_le_pos; [apply weight_pos|left; apply Rinv_0_lt_compat; lra]. Qed.
Lemma taps_drift_pos z p : weight p < 1 -> 0 <= taps_drift z p.
Proof.
  intro H. unfold taps_drift. pose proof (weight_pos z). pose proof (pos_INR (length z + length p)). pose proof (bpow_gt_0 radix2 (-24)). pose proof (bpow_gt_0 radix2 (-20)).
  apply Rmult_le_pos; [apply Rmult_le_pos; [apply Rmult_le_pos; lra|lra]|left; apply Rinv_0_lt_compat, Rmult_lt_0_compat; lra].
Qed.
(** bounded in, bounded out, in f32 *)
Lemma taps_run z p X xs : taps_ok z p -> bpow radix2 (-100) <= X <= bpow radix2 90 -> (forall x, In x xs -> fin x /\ Rabs (B2R x) <= X) ->
  exists ys s, run_res generic_process (generic_new z p) xs = Ok (ys, s) /\ length ys = length xs /\
  forall y, solves z p (fun i => B2R (nth i xs f0)) y -> forall n, (n < length xs)%nat -> fin (nth n ys f0) /\
    Rabs (B2R (nth n ys f0) - y n) <= taps_drift z p * X /\ Rabs (B2R (nth n ys f0)) <= (taps_gain z p + taps_drift z p) * X.
Proof.
  intros OK HX Hx. destruct (taps_tracks z p X xs OK HX Hx) as (ys & s & E & L & T). exists ys, s. split; [exact E|]. split; [exact L|].
  intros y Hy n Hn. destruct (T n Hn) as [F D]. split; [exact F|]. rewrite (solves_unique z p _ y _ Hy (sol_solves z p _) n). split; [exact D|].
  assert (XP : 0 <= X) by (pose proof (bpow_gt_0 radix2 (-100)); lra). destruct OK as (_ & _ & _ & Wp & _).
  assert (B := sol_bound z p (fun i => B2R (nth i xs f0)) X Wp XP n).
  specialize (B ltac:(intros i Hi; apply Hx, nth_In; lia) n (le_n n)). apply Rabs_le_inv in B, D. apply Rabs_le. lra.
Qed.
Lemma taps_tone z p om w K rho X : taps_ok z p -> 0 <= K -> 0 <= rho < 1 -> bpow radix2 (-100) <= X <= bpow radix2 90 ->
  exists K' rho', 0 <= K' /\ 0 <= rho' < 1 /\ forall eps xs, 0 <= eps -> near_tone om w eps K rho X xs ->
    exists ys s, run_res generic_process (generic_new z p) xs = Ok (ys, s) /\ length ys = length xs /\
      near_tone om (cmul (taps_H z p om) w) (taps_drift z p * X + taps_gain z p * eps) K' rho' ((1 + taps_gain z p + taps_drift z p) * X) ys.
Proof.
  intros OK HK Hr HX. assert (XP : 0 < X) by (pose proof (bpow_gt_0 radix2 (-100)); lra).
  destruct (sol_tone z p om w K rho OK HK Hr X ltac:(lra)) as (K' & rho' & A & B & T). exists K', rho'. split; [exact A|]. split; [exact B|].
  intros eps xs He N. destruct (taps_run z p X xs OK HX (near_in _ _ _ _ _ _ _ N)) as (ys & s & E & L & Y). exists ys, s. split; [exact E|]. split; [exact L|].
  intros j y Hj. assert (HL : (j < length xs)%nat) by (rewrite <- L; apply nth_error_Some; congruence). apply (List.nth_error_nth _ _ f0) in Hj.
  destruct (Y _ (sol_solves z p _) j HL) as (F & D & M). rewrite Hj in *. split; [exact F|]. split; [lra|].
  specialize (T eps (fun i => B2R (nth i xs f0)) j He).
  assert (Q : forall i, (i <= j)%nat -> Rabs (B2R (nth i xs f0)) <= X /\ Rabs (B2R (nth i xs f0) - tone om w i) <= eps + K * rho ^ i).
  { intros i Hi. assert (Hi' : (i < length xs)%nat) by lia. apply (N i (nth i xs f0) (List.nth_error_nth' xs f0 Hi')). }
  specialize (T Q j (le_n j)).
  apply Rabs_le_inv in D, T. apply Rabs_le. lra.
Qed.
