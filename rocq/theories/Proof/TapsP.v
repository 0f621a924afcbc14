(** * Generic filters: rounding errors of the sums, boundedness, the exact difference equation *)
From Coq Require Import ZArith List Bool Arith Reals Lra Lia Psatz.
From Flocq Require Import Core.Core IEEE754.BinarySingleNaN.
From Verif Require Import Model.Floats Model.Modifiers Spec.Response Spec.Taps
  Proof.FloatFacts Proof.SampleFormatP Proof.FormatsP Proof.CombP Proof.GenericP.
Import ListNotations.
Local Open Scope R_scope.

Lemma weight_pos cs : 0 <= weight cs.
Proof. unfold weight. induction cs as [|c r IH]; cbn [fold_right]; [lra|]. pose proof (Rabs_pos (B2R (snd c))). lra. Qed.
Lemma tapped_bound cs h B : (forall c, In c cs -> Rabs (h (Z.to_nat (fst c))) <= B) -> Rabs (tapped cs h) <= weight cs * B.
Proof.
  unfold tapped, weight. induction cs as [|c r IH]; intro H; cbn [fold_right]; [rewrite Rabs_R0; lra|].
  assert (A := H c (or_introl eq_refl)). specialize (IH (fun d Hd => H d (or_intror Hd))).
  eapply Rle_trans; [apply Rabs_triang|]. rewrite Rabs_mult, Rmult_plus_distr_r. apply Rplus_le_compat; [|exact IH]. apply Rmult_le_compat_l; [apply Rabs_pos|exact A].
Qed.
Lemma tapped_minus cs h k : tapped cs h - tapped cs k = tapped cs (fun i => h i - k i).
Proof. unfold tapped. induction cs as [|c r IH]; cbn [fold_right]; [lra|]. rewrite <- IH. ring. Qed.
Lemma tapped_ext cs h k : (forall c, In c cs -> h (Z.to_nat (fst c)) = k (Z.to_nat (fst c))) -> tapped cs h = tapped cs k.
Proof. unfold tapped. induction cs as [|c r IH]; intro H; cbn [fold_right]; [reflexivity|]. rewrite (H c (or_introl eq_refl)), IH; [reflexivity|]. intros d Hd. apply H. right. exact Hd. Qed.

(** ** the solution exists and is unique *)
Lemma sol_hist_nth z p x n : forall j, nth j (sol_hist z p x n) 0 = before (sol z p x) n (S j).
Proof.
  unfold before. induction n as [|n IH]; intro j.
  - destruct j; reflexivity.
  - destruct j as [|j].
    + destruct (Nat.ltb_spec (S n) 1); [lia|]. replace (S n - 1)%nat with n by lia. reflexivity.
    + change (nth (S j) (sol_hist z p x (S n)) 0) with (nth j (sol_hist z p x n) 0). rewrite IH.
      destruct (Nat.ltb_spec n (S j)), (Nat.ltb_spec (S n) (S (S j))); try lia; [reflexivity|f_equal; lia].
Qed.
Lemma sol_solves z p x : solves z p x (sol z p x).
Proof.
  intro n. unfold sol at 1. cbn [sol_hist hd]. f_equal. apply tapped_ext. intros c _. apply sol_hist_nth.
Qed.
Lemma solves_unique z p x y y' : solves z p x y -> solves z p x y' -> forall n, y n = y' n.
Proof.
  intros H H' n. induction n as [n IH] using lt_wf_ind. rewrite H, H'. f_equal. apply tapped_ext. intros c _.
  unfold before. destruct (Nat.ltb_spec n (S (Z.to_nat (fst c)))); [reflexivity|apply IH; lia].
Qed.

(** ** sums of products in f32 *)
Lemma sum_step (acc v c : f32) M T e : fin acc -> fin v -> fin c -> bpow radix2 (-120) <= M <= bpow radix2 125 ->
  Rabs (B2R v * B2R c) <= M -> Rabs (T + B2R v * B2R c) <= M -> Rabs (B2R acc - T) <= e -> e <= M / 2 ->
  fin (fadd acc (fmul v c)) /\ Rabs (B2R (fadd acc (fmul v c)) - (T + B2R v * B2R c)) <= e + 3 * bpow radix2 (-24) * M.
Proof.
  intros Fa Fv Fc HM BP BT BE He.  assert (M0 : 0 < M) by (pose proof (bpow_gt_0 radix2 (-120)); lra).
  assert (TINY : bpow radix2 (-150) <= bpow radix2 (-24) * M / 8).
  { apply Rle_trans with (bpow radix2 (-24) * bpow radix2 (-120) * bpow radix2 (-3)); [rewrite <- !bpow_plus; apply bpow_le; lia|].
    change (bpow radix2 (-3)) with (/ 8). unfold Rdiv. apply Rmult_le_compat_r; [lra|]. apply Rmult_le_compat_l; [apply bpow_ge_0|lra]. }
  assert (U : bpow radix2 (-24) = u24) by reflexivity. rewrite U in *.
  destruct (fmul_le (prec:=24) (emax:=128) v c (bpow radix2 125) Fv Fc) as (FM & RM & _).
  { apply generic_format_bpow. vm_compute. discriminate. } { apply bpow_lt. lia. } { lra. }
  pose proof (rnd32_gen _ _ BP) as EM. rewrite <- RM in EM. set (q := fmul v c) in *. set (P := B2R v * B2R c) in *.

  assert (EM' : Rabs (B2R q - P) <= u24 * M * (9 / 8)) by lra.
  assert (BS : Rabs (B2R acc + B2R q) <= 13 / 8 * M).
  { apply Rabs_le_inv in EM', BT, BE. apply Rabs_le. lra. }
  assert (BS2 : Rabs (B2R acc + B2R q) <= bpow radix2 126).
  { eapply Rle_trans; [exact BS|]. change (bpow radix2 126) with (bpow radix2 (1 + 125)). rewrite bpow_plus. change (bpow radix2 1) with 2. pose proof (bpow_gt_0 radix2 125). lra. }
  destruct (fadd_le (prec:=24) (emax:=128) acc q (bpow radix2 126) Fa FM) as (FA & RA & _).
  { apply generic_format_bpow. vm_compute. discriminate. } { apply bpow_lt. lia. } { exact BS2. }
  pose proof (rnd32_gen _ _ BS) as EA. rewrite <- RA in EA. split; [exact FA|].
  apply Rabs_le_inv in EM', BE, EA. apply Rabs_le. lra.
Qed.

Definition psum (cs : list (Z * f32)) (v : Z -> f32) : R := fold_right (fun c a => B2R (v (fst c)) * B2R (snd c) + a) 0 cs.
Definition pabs (cs : list (Z * f32)) (v : Z -> f32) : R := fold_right (fun c a => Rabs (B2R (v (fst c)) * B2R (snd c)) + a) 0 cs.
Lemma pabs_pos cs v : 0 <= pabs cs v.
Proof. unfold pabs. induction cs as [|c r IH]; cbn [fold_right]; [lra|]. pose proof (Rabs_pos (B2R (v (fst c)) * B2R (snd c))). lra. Qed.
Lemma dot_err M (v : Z -> f32) cs : bpow radix2 (-120) <= M <= bpow radix2 125 -> (forall c, In c cs -> fin (snd c) /\ fin (v (fst c))) ->
  forall acc T e, fin acc -> Rabs T + pabs cs v <= M -> Rabs (B2R acc - T) <= e -> e + 3 * INR (length cs) * bpow radix2 (-24) * M <= M / 2 ->
  fin (dot cs v acc) /\ Rabs (B2R (dot cs v acc) - (T + psum cs v)) <= e + 3 * INR (length cs) * bpow radix2 (-24) * M.
Proof.
  intros HM. induction cs as [|c r IH]; intros HF acc T e Fa BT BE He.
  - cbn [dot fold_left psum fold_right length]. change (INR 0) with 0. split; [exact Fa|]. rewrite Rplus_0_r. lra.
  - destruct (HF c (or_introl eq_refl)) as [Fc Fv]. cbn [pabs fold_right] in BT. fold (pabs r v) in BT. pose proof (pabs_pos r v) as P0.
    cbn [length] in He |- *. rewrite S_INR in He |- *. pose proof (pos_INR (length r)) as N0. pose proof (bpow_gt_0 radix2 (-24)) as U0.
    assert (M0 : 0 < M) by (pose proof (bpow_gt_0 radix2 (-120)); lra). set (u := bpow radix2 (-24)) in *. set (n := INR (length r)) in *.
    assert (UM : 0 <= u * M) by (apply Rmult_le_pos; lra). assert (NUM : 0 <= n * (u * M)) by (apply Rmult_le_pos; assumption).
    set (P := B2R (v (fst c)) * B2R (snd c)) in *. pose proof (Rabs_pos P) as PP. pose proof (Rabs_pos T) as TP. pose proof (Rabs_triang T P) as TT.
    destruct (sum_step acc (v (fst c)) (snd c) M T e Fa Fv Fc HM) as [F E]; try (fold P; lra).
    fold P u in E. cbn [dot fold_left psum fold_right]. fold P (psum r v).
    destruct (IH (fun d Hd => HF d (or_intror Hd)) (fadd acc (fmul (v (fst c)) (snd c))) (T + P) (e + 3 * u * M) F) as [FD ED]; try (fold u n; lra).
    fold u n in ED. split; [exact FD|]. replace (T + (P + psum r v)) with (T + P + psum r v) by ring. eapply Rle_trans; [exact ED|]. lra.
Qed.
Lemma psum_tapped cs v h : (forall c, In c cs -> B2R (v (fst c)) = h (Z.to_nat (fst c))) -> psum cs v = tapped cs h.
Proof.
  unfold psum, tapped. induction cs as [|c r IH]; intro H; cbn [fold_right]; [reflexivity|]. rewrite (H c (or_introl eq_refl)), IH; [ring|]. intros d Hd. apply H. right. exact Hd.
Qed.
Lemma pabs_bound cs v B : (forall c, In c cs -> Rabs (B2R (v (fst c))) <= B) -> pabs cs v <= weight cs * B.
Proof.
  unfold pabs, weight. induction cs as [|c r IH]; intro H; cbn [fold_right]; [lra|]. specialize (IH (fun d Hd => H d (or_intror Hd))). assert (A := H c (or_introl eq_refl)).
  rewrite Rabs_mult, Rmult_plus_distr_r. apply Rplus_le_compat; [|exact IH]. rewrite Rmult_comm. apply Rmult_le_compat_l; [apply Rabs_pos|exact A].
Qed.
Lemma psum_abs cs v : Rabs (psum cs v) <= pabs cs v.
Proof. unfold psum, pabs. induction cs as [|c r IH]; cbn [fold_right]; [rewrite Rabs_R0; lra|]. eapply Rle_trans; [apply Rabs_triang|]. lra. Qed.

(** ** the filter *)
Lemma past_before l n k : (n < length l)%nat \/ (0 < k)%nat -> B2R (past l (Z.of_nat n - Z.of_nat k)) = before (fun i => B2R (nth i l f0)) n k.
Proof.
  intros _. unfold past, before. destruct (Z.ltb_spec (Z.of_nat n - Z.of_nat k) 0), (Nat.ltb_spec n k); try lia; [reflexivity|]. f_equal. f_equal. lia.
Qed.
Section Filter.
Variables (z p : list (Z * f32)) (X : R) (xs : list f32).
Hypothesis OK : taps_ok z p. Hypothesis HX : bpow radix2 (-100) <= X <= bpow radix2 90.
Hypothesis Hx : forall x, In x xs -> fin x /\ Rabs (B2R x) <= X.
Let x := fun i => B2R (nth i xs f0).
Let n0 := INR (length z + length p).
Let t := bpow radix2 (-20).
Let e := 1 - weight p.
Let Y := 2 * (weight z + t) * X / e.
Let D := 3 * n0 * bpow radix2 (-24) * Y / e.
Lemma taps_tracks : exists ys s, run_res generic_process (generic_new z p) xs = Ok (ys, s) /\ length ys = length xs /\
  forall n, (n < length xs)%nat -> fin (nth n ys f0) /\ Rabs (B2R (nth n ys f0) - sol z p x n) <= taps_drift z p * X.
Proof.
  destruct OK as (Oz & Op & Wz & Wp & Ro).
  destruct (generic_run z p (fun c Hc => proj1 (Oz c Hc)) (fun c Hc => proj1 (Op c Hc)) xs) as (ys & s & E & _ & _ & L & _ & _ & REC).
  exists ys, s. split; [exact E|]. split; [exact L|].
  pose proof (weight_pos z) as W0. pose proof (weight_pos p) as V0. set (u := bpow radix2 (-24)) in *.
  assert (XP : 0 < X) by (pose proof (bpow_gt_0 radix2 (-100)); lra). assert (TP : 0 < t) by apply bpow_gt_0. assert (U0 : 0 < u) by apply bpow_gt_0.
  assert (E0 : 0 < e <= 1) by (unfold e; lra). assert (N0 : 0 <= n0) by apply pos_INR. fold n0 e in Ro.
  assert (YE : Y * e = 2 * (weight z + t) * X) by (unfold Y; field; lra).
  assert (Y0 : 0 < Y) by (unfold Y; apply Rdiv_lt_0_compat; [apply Rmult_lt_0_compat; lra|lra]).
  assert (DE : D * e = 3 * n0 * u * Y) by (unfold D; fold u; field; lra).
  assert (D0 : 0 <= D) by (unfold D; fold u; apply Rmult_le_pos; [apply Rmult_le_pos; [apply Rmult_le_pos; lra|lra]|left; apply Rinv_0_lt_compat; lra]).
  assert (DR : taps_drift z p * X = D) by (unfold taps_drift, D, Y; fold u n0 t e; field; lra). rewrite DR.
  (* M: the magnitudes of all products together *)
  set (M := (weight z + t) * X + weight p * Y).
  assert (MY : M = Y * (1 - e / 2)) by (unfold M, e in *; lra).
  assert (M1 : bpow radix2 (-120) <= M).
  { assert (0 <= weight z * X) by (apply Rmult_le_pos; lra). assert (0 <= weight p * Y) by (apply Rmult_le_pos; lra).
    assert (t * bpow radix2 (-100) <= t * X) by (apply Rmult_le_compat_l; lra). unfold t in H1. rewrite <- bpow_plus in H1. unfold M. fold t in H1. change (-20 + -100)%Z with (-120)%Z in H1. lra. }
  assert (M2 : Y <= bpow radix2 125 /\ M <= bpow radix2 125).
  { assert (Y <= bpow radix2 125); [|split; [assumption|rewrite MY; nra]].
    assert (YB : Y * e <= 8194 * bpow radix2 90).
    { rewrite YE. apply Rmult_le_compat; try lra. change (bpow radix2 12) with 4096 in Wz. unfold t. change (bpow radix2 (-20)) with (/ 1048576). lra. }
    assert (EB : / 2796203 <= e).
    { unfold n0 in Ro. destruct (length z + length p)%nat as [|k] eqn:EN.
      - assert (Q : p = []) by (destruct p; [reflexivity|cbn [length] in EN; lia]). unfold e. rewrite Q. cbn [weight fold_right]. lra.
      - rewrite S_INR in Ro. pose proof (pos_INR k). change u with (/ 16777216) in Ro. lra. }
    change (bpow radix2 125) with (bpow radix2 (90 + 35)). rewrite bpow_plus. change (bpow radix2 35) with 34359738368. pose proof (bpow_gt_0 radix2 90).
    assert (Y * / 2796203 <= Y * e) by (apply Rmult_le_compat_l; lra). lra. }
  assert (MM : 0 < M) by (pose proof (bpow_gt_0 radix2 (-120)); lra).
  assert (R1 : 3 * n0 * u * M <= M / 2) by (assert (3 * n0 * u <= / 2) by lra; assert (3 * n0 * u * M <= / 2 * M) by (apply Rmult_le_compat_r; lra); lra).
  assert (R2 : 3 * n0 * u * M <= 3 * n0 * u * Y) by (apply Rmult_le_compat_l; [apply Rmult_le_pos; [lra|lra]|rewrite MY; nra]).
  enough (ALL : forall n, (n < length xs)%nat -> fin (nth n ys f0) /\ Rabs (B2R (nth n ys f0)) <= Y /\ Rabs (B2R (nth n ys f0) - sol z p x n) <= D)
    by (intros n Hn; destruct (ALL n Hn) as (A & _ & B); exact (conj A B)).
  intro n. induction n as [n IH] using lt_wf_ind. intro Hn.
  assert (BY : forall k, (k < n)%nat -> fin (nth k ys f0) /\ Rabs (B2R (nth k ys f0)) <= Y /\ Rabs (B2R (nth k ys f0) - sol z p x k) <= D) by (intros k Hk; apply IH; lia).
  assert (PX : forall c, In c z -> fin (past xs (Z.of_nat n - fst c)) /\ Rabs (B2R (past xs (Z.of_nat n - fst c))) <= X).
  { intros c Hc. unfold past. destruct (Z.ltb_spec (Z.of_nat n - fst c) 0); [split; [reflexivity|change (B2R (f0 : f32)) with 0; rewrite Rabs_R0; lra]|].
    destruct (Oz c Hc). apply Hx, nth_In. lia. }
  assert (PY : forall c, In c p -> fin (past ys (Z.of_nat n - 1 - fst c)) /\ Rabs (B2R (past ys (Z.of_nat n - 1 - fst c))) <= Y).
  { intros c Hc. unfold past. destruct (Z.ltb_spec (Z.of_nat n - 1 - fst c) 0); [split; [reflexivity|change (B2R (f0 : f32)) with 0; rewrite Rabs_R0; lra]|].
    destruct (Op c Hc). destruct (BY (Z.to_nat (Z.of_nat n - 1 - fst c)) ltac:(lia)) as (A & B & _). exact (conj A B). }
  assert (AX := pabs_bound z (fun i => past xs (Z.of_nat n - i)) X (fun c Hc => proj2 (PX c Hc))).
  assert (AY := pabs_bound p (fun j => past ys (Z.of_nat n - 1 - j)) Y (fun c Hc => proj2 (PY c Hc))).
  set (vx := fun i => past xs (Z.of_nat n - i)) in *. set (vy := fun j => past ys (Z.of_nat n - 1 - j)) in *.
  pose proof (pabs_pos p vy) as AY0. pose proof (pabs_pos z vx) as AX0. assert (TX : 0 < t * X) by (apply Rmult_lt_0_compat; lra).
  assert (NN : n0 = INR (length z) + INR (length p)) by (unfold n0; apply plus_INR). pose proof (pos_INR (length z)) as NZ. pose proof (pos_INR (length p)) as NP.
  assert (UM : 0 < u * M) by (apply Rmult_lt_0_compat; lra).
  assert (NZM : 0 <= INR (length z) * (u * M)) by (apply Rmult_le_pos; lra). assert (NPM : 0 <= INR (length p) * (u * M)) by (apply Rmult_le_pos; lra).
  destruct (dot_err M vx z (conj M1 (proj2 M2)) (fun c Hc => conj (proj2 (Oz c Hc)) (proj1 (PX c Hc))) f0 0 0) as [F1 E1].
  { reflexivity. } { rewrite Rabs_R0. unfold M. lra. } { change (B2R (f0 : f32)) with 0. rewrite Rminus_0_r, Rabs_R0. lra. } { fold u. rewrite NN in R1. lra. }
  fold u in E1. rewrite !Rplus_0_l in E1. pose proof (psum_abs z vx) as SX.
  destruct (dot_err M vy p (conj M1 (proj2 M2)) (fun c Hc => conj (proj2 (Op c Hc)) (proj1 (PY c Hc))) (dot z vx f0) (psum z vx) (3 * INR (length z) * u * M)) as [F2 E2].
  { exact F1. } { unfold M. lra. } { exact E1. } { fold u. rewrite NN in R1. lra. }
  fold u in E2. assert (EY : nth n ys f0 = dot p vy (dot z vx f0)) by (apply List.nth_error_nth; exact (REC n Hn)). rewrite EY. split; [exact F2|].
  pose proof (psum_abs p vy) as SY. assert (EN : 3 * INR (length z) * u * M + 3 * INR (length p) * u * M = 3 * n0 * u * M) by (rewrite NN; ring). rewrite EN in E2.
  split.
  - assert (YM : M + 3 * n0 * u * M <= Y).
    { assert (3 * n0 * u * M <= e / 2 * M) by (apply Rmult_le_compat_r; lra). assert (e / 2 * M <= e / 2 * Y) by (apply Rmult_le_compat_l; [lra|rewrite MY; nra]). rewrite MY in *. lra. }
    apply Rabs_le_inv in E2, SX, SY. apply Rabs_le. unfold M in *. lra.
  - rewrite (sol_solves z p x n).
    assert (QX : psum z vx = tapped z (before x n)).
    { apply psum_tapped. intros c Hc. destruct (Oz c Hc) as [Q _]. unfold vx. rewrite <- (Z2Nat.id (fst c)) at 1 by lia. apply past_before. left. exact Hn. }
    assert (QY : Rabs (psum p vy - tapped p (fun k => before (sol z p x) n (S k))) <= weight p * D).
    { rewrite (psum_tapped p vy (fun k => before (fun i => B2R (nth i ys f0)) n (S k))).
      - rewrite tapped_minus. apply tapped_bound. intros c Hc. destruct (Op c Hc) as [Q _]. unfold before.
        destruct (Nat.ltb_spec n (S (Z.to_nat (fst c)))); [rewrite Rminus_0_r, Rabs_R0; exact D0|]. apply BY. lia.
      - intros c Hc. destruct (Op c Hc) as [Q _]. unfold vy. rewrite <- (past_before ys n (S (Z.to_nat (fst c)))) by lia. f_equal. f_equal. lia. }
    rewrite <- QX. assert (DD : D = 3 * n0 * u * Y + weight p * D) by (unfold e in DE; lra).
    apply Rabs_le_inv in E2, QY. apply Rabs_le. lra.
Qed.
End Filter.
