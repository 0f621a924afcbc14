(** * Relative-error bookkeeping for positive f64 expressions *)
From Coq Require Import ZArith List Bool Reals Lra Lia Psatz.
From Flocq Require Import Core.Core IEEE754.BinarySingleNaN.
From Verif Require Import Model.Floats Proof.FloatFacts Proof.SampleFormatP Proof.FormatsP.
Local Open Scope R_scope.

(** [a] is [b] up to [n] factors of 1 +- 2^-32 *)
Definition rho : R := 1 + / 4294967296.
Definition near (n : nat) (a b : R) : Prop := 0 < b /\ b <= a * rho ^ n /\ a <= b * rho ^ n.
Lemma rho_gt1 : 1 < rho. Proof. unfold rho. lra. Qed.
Lemma rho_pos n : 0 < rho ^ n. Proof. apply pow_lt. pose proof rho_gt1. lra. Qed.
Lemma rho_ge1 n : 1 <= rho ^ n. Proof. apply pow_R1_Rle. pose proof rho_gt1. lra. Qed.
Lemma rho_le n m : (n <= m)%nat -> rho ^ n <= rho ^ m.
Proof. intro H. apply Rle_pow; [pose proof rho_gt1; lra|exact H]. Qed.
Lemma rho_2 n : (n <= 64)%nat -> rho ^ n <= 2.
Proof.
  intro H. apply Rle_trans with (rho ^ 64); [apply rho_le, H|].
  assert (P : forall k, (k <= 64)%nat -> rho ^ k <= 1 + INR k * / 2147483648).
  { induction k as [|k IH]; intro K; [cbn [pow INR]; lra|]. rewrite S_INR. cbn [pow].
    specialize (IH ltac:(lia)). assert (IK : INR k <= 64) by (replace 64 with (INR 64) by (cbn; lra); apply le_INR; lia).
    pose proof (pos_INR k). pose proof (rho_pos k).
    apply Rle_trans with (rho * (1 + INR k * / 2147483648)); [apply Rmult_le_compat_l; [unfold rho; lra|exact IH]|].
    unfold rho. lra. }
  specialize (P 64%nat (le_n _)). replace (INR 64) with 64 in P by (cbn; lra). lra.
Qed.
Lemma near_pos n a b : near n a b -> 0 < a.
Proof. intros (P & L & U). pose proof (rho_pos n). apply Rmult_lt_reg_r with (rho ^ n); [lra|]. lra. Qed.
Lemma near_refl b : 0 < b -> near 0 b b.
Proof. intro P. unfold near. cbn [pow]. lra. Qed.
Lemma near_w n m a b : (n <= m)%nat -> near n a b -> near m a b.
Proof.
  intros H N. pose proof (near_pos _ _ _ N). destruct N as (P & L & U). pose proof (rho_le n m H).
  split; [exact P|]. split; [apply Rle_trans with (a * rho ^ n)|apply Rle_trans with (b * rho ^ n)]; try assumption; apply Rmult_le_compat_l; lra.
Qed.
Lemma near_trans n m a b c : near n a b -> near m b c -> near (n + m) a c.
Proof.
  intros N1 N2. pose proof (near_pos _ _ _ N1) as A0. destruct N1 as (P & L & U). destruct N2 as (P' & L' & U').
  pose proof (rho_pos n). pose proof (rho_pos m). unfold near. rewrite pow_add. split; [exact P'|]. split.
  - apply Rle_trans with (1 := L'). rewrite <- Rmult_assoc. apply Rmult_le_compat_r; lra.
  - apply Rle_trans with (1 := U). rewrite (Rmult_comm (rho ^ n)), <- Rmult_assoc. apply Rmult_le_compat_r; lra.
Qed.
Lemma near_add n a b c d : near n a b -> near n c d -> near n (a + c) (b + d).
Proof. intros (P & L & U) (P' & L' & U'). unfold near. rewrite !Rmult_plus_distr_r. lra. Qed.
Lemma near_mul n m a b c d : near n a b -> near m c d -> near (n + m) (a * c) (b * d).
Proof.
  intros N1 N2. pose proof (near_pos _ _ _ N1) as A0. pose proof (near_pos _ _ _ N2) as C0.
  destruct N1 as (P & L & U). destruct N2 as (P' & L' & U'). pose proof (rho_pos n). pose proof (rho_pos m).
  unfold near. rewrite pow_add. split; [apply Rmult_lt_0_compat; assumption|]. split.
  - replace (a * c * (rho ^ n * rho ^ m)) with ((a * rho ^ n) * (c * rho ^ m)) by ring. apply Rmult_le_compat; lra.
  - replace (b * d * (rho ^ n * rho ^ m)) with ((b * rho ^ n) * (d * rho ^ m)) by ring. apply Rmult_le_compat; lra.
Qed.
Lemma near_inv n a b : near n a b -> near n (/ a) (/ b).
Proof.
  intro N. pose proof (near_pos _ _ _ N) as A0. destruct N as (P & L & U). pose proof (rho_pos n).
  split; [apply Rinv_0_lt_compat, P|]. split.
  - apply Rmult_le_reg_r with (a * b); [apply Rmult_lt_0_compat; assumption|].
    replace (/ b * (a * b)) with a by (field; lra). replace (/ a * rho ^ n * (a * b)) with (b * rho ^ n) by (field; lra). exact U.
  - apply Rmult_le_reg_r with (a * b); [apply Rmult_lt_0_compat; assumption|].
    replace (/ a * (a * b)) with b by (field; lra). replace (/ b * rho ^ n * (a * b)) with (a * rho ^ n) by (field; lra). exact L.
Qed.
Lemma near_div n m a b c d : near n a b -> near m c d -> near (n + m) (a / c) (b / d).
Proof. intros N1 N2. unfold Rdiv. apply near_mul; [exact N1|apply near_inv, N2]. Qed.
Lemma near_2 n a b : (n <= 64)%nat -> near n a b -> b <= 2 * a /\ a <= 2 * b.
Proof.
  intros H N. pose proof (near_pos _ _ _ N) as A0. destruct N as (P & L & U). pose proof (rho_2 n H).
  split; [apply Rle_trans with (1 := L)|apply Rle_trans with (1 := U)]; rewrite (Rmult_comm 2); apply Rmult_le_compat_l; lra.
Qed.
(** small relative difference *)
Lemma near_1 a b : 0 < b -> Rabs (a - b) <= b * (/ 4294967296 * (1 - / 1000000000)) -> near 1 a b.
Proof.
  intros P H. apply Rabs_le_inv in H. unfold near, rho. cbn [pow]. rewrite Rmult_1_r. split; [exact P|]. split; nra.
Qed.
Lemma near_rnd (x : R) : bpow radix2 (-1000) <= x -> near 1 (round radix2 (SpecFloat.fexp 53 1024) ZnearestE x) x.
Proof.
  intro H. assert (X0 : 0 < x) by (eapply Rlt_le_trans; [apply (bpow_gt_0 radix2 (-1000))|exact H]).
  destruct (rnd_rel (prec:=53) (emax:=1024) x) as (d & D & E).
  { rewrite Rabs_pos_eq by lra. eapply Rle_trans; [|exact H]. apply bpow_le. unfold SpecFloat.emin. lia. }
  apply near_1; [exact X0|]. rewrite E. replace (x * (1 + d) - x) with (x * d) by ring. rewrite Rabs_mult, (Rabs_pos_eq x) by lra.
  apply Rmult_le_compat_l; [lra|]. change (bpow radix2 (- (53))) with (/ 9007199254740992) in D. lra.
Qed.

(** a float that is near a positive number of known magnitude; [sg] is its sign *)
Definition sgn (sg : bool) (x : R) : R := if sg then - x else x.
Definition nf (sg : bool) (n : nat) (j : Z) (x : f64) (b : R) : Prop :=
  fin x /\ near n (sgn sg (B2R x)) b /\ bpow radix2 (- j) <= b <= bpow radix2 j.
Lemma nf_w sg n m j x b : (n <= m)%nat -> nf sg n j x b -> nf sg m j x b.
Proof. intros H (F & N & R). split; [exact F|]. split; [exact (near_w _ _ _ _ H N)|exact R]. Qed.
Lemma nf_wj sg n j i x b : (j <= i)%Z -> nf sg n j x b -> nf sg n i x b.
Proof.
  intros H (F & N & L & U). split; [exact F|]. split; [exact N|].
  split; [apply Rle_trans with (2 := L)|apply Rle_trans with (1 := U)]; apply bpow_le; lia.
Qed.
Lemma nf_neg sg n j x b : nf sg n j x b -> nf (negb sg) n j (fneg x) b.
Proof. intros (F & N & R). unfold nf. rewrite fneg_fin, fneg_R. split; [exact F|]. split; [|exact R]. destruct sg; cbn [negb sgn] in *; rewrite ?Ropp_involutive; exact N. Qed.
Lemma nf_const sg j x b : fin x -> sgn sg (B2R x) = b -> bpow radix2 (- j) <= b <= bpow radix2 j -> nf sg 0 j x b.
Proof. intros F E R. split; [exact F|]. split; [|exact R]. rewrite E. apply near_refl. pose proof (bpow_gt_0 radix2 (-j)). lra. Qed.

Lemma sgn_rnd sg x : sgn sg (round radix2 (SpecFloat.fexp 53 1024) ZnearestE x) = round radix2 (SpecFloat.fexp 53 1024) ZnearestE (sgn sg x).
Proof. destruct sg; cbn [sgn]; [rewrite rnd_opp|]; reflexivity. Qed.
Lemma sgn_abs sg x : Rabs (sgn sg x) = Rabs x.
Proof. destruct sg; cbn [sgn]; [apply Rabs_Ropp|reflexivity]. Qed.
(** the common end of every operator: exact result v near b in range, then one rounding *)
Lemma nf_round sg n j (v b : R) : (n <= 63)%nat -> (0 <= j <= 500)%Z -> near n (sgn sg v) b -> bpow radix2 (- j) <= b <= bpow radix2 j ->
  Rabs (round radix2 (SpecFloat.fexp 53 1024) ZnearestE v) < bpow radix2 1024 /\
  near (S n) (sgn sg (round radix2 (SpecFloat.fexp 53 1024) ZnearestE v)) b.
Proof.
  intros Hn Hj N [L U]. pose proof (near_pos _ _ _ N) as V0. destruct (near_2 n _ _ ltac:(lia) N) as [A B].
  assert (VU : Rabs v <= bpow radix2 (j + 1)).
  { rewrite <- (sgn_abs sg), Rabs_pos_eq by lra. rewrite bpow_plus. change (bpow radix2 1) with 2. lra. }
  split.
  - eapply Rle_lt_trans; [apply rnd_abs_le; [apply fmt64_b|exact VU]; lia|]. apply bpow_lt. lia.
  - rewrite sgn_rnd. replace (S n) with (1 + n)%nat by lia. apply near_trans with (2 := N). apply near_rnd.
    apply Rle_trans with (bpow radix2 (-j - 1)); [apply bpow_le; lia|].
    unfold Zminus. rewrite bpow_plus. change (bpow radix2 (-(1))) with (/ 2). lra.
Qed.
Lemma nf_add n j x y a b : (n <= 63)%nat -> (0 <= j < 500)%Z -> nf false n j x a -> nf false n j y b -> nf false (S n) (j + 1) (fadd x y) (a + b).
Proof.
  intros Hn Hj (F & N & R) (F' & N' & R'). cbn [sgn] in *.
  assert (RR : bpow radix2 (- (j + 1)) <= a + b <= bpow radix2 (j + 1)).
  { rewrite (bpow_plus radix2 j 1). change (bpow radix2 1) with 2. split; [|lra].
    apply Rle_trans with (bpow radix2 (- j)); [apply bpow_le; lia|]. pose proof (bpow_gt_0 radix2 (-j)). lra. }
  destruct (nf_round false n (j + 1) (B2R x + B2R y) (a + b) Hn ltac:(lia)) as [O NN]; [apply near_add; assumption|exact RR|].
  destruct (fadd_ok x y F F' O) as [FF E]. split; [exact FF|]. split; [|exact RR]. rewrite E. exact NN.
Qed.
(** -x - y for positive x, y *)
Lemma nf_sub_neg n j x y a b : (n <= 63)%nat -> (0 <= j < 500)%Z -> nf true n j x a -> nf false n j y b -> nf true (S n) (j + 1) (fsub x y) (a + b).
Proof.
  intros Hn Hj (F & N & R) (F' & N' & R'). cbn [sgn] in *.
  assert (RR : bpow radix2 (- (j + 1)) <= a + b <= bpow radix2 (j + 1)).
  { rewrite (bpow_plus radix2 j 1). change (bpow radix2 1) with 2. split; [|lra].
    apply Rle_trans with (bpow radix2 (- j)); [apply bpow_le; lia|]. pose proof (bpow_gt_0 radix2 (-j)). lra. }
  destruct (nf_round true n (j + 1) (B2R x - B2R y) (a + b) Hn ltac:(lia)) as [O NN]; [|exact RR|].
  { cbn [sgn]. replace (- (B2R x - B2R y)) with (- B2R x + B2R y) by ring. apply near_add; assumption. }
  destruct (fsub_ok x y F F' O) as [FF E]. split; [exact FF|]. split; [|exact RR]. rewrite E. exact NN.
Qed.
Lemma nf_mul sg n m j i x y a b : (n + m <= 63)%nat -> (0 <= j)%Z -> (0 <= i)%Z -> (j + i <= 500)%Z -> nf sg n j x a -> nf false m i y b ->
  nf sg (S (n + m)) (j + i) (fmul x y) (a * b).
Proof.
  intros Hn Hj Hi Hji (F & N & R) (F' & N' & R'). pose proof (bpow_gt_0 radix2 (-j)). pose proof (bpow_gt_0 radix2 (-i)).
  assert (RR : bpow radix2 (- (j + i)) <= a * b <= bpow radix2 (j + i)).
  { replace (- (j + i))%Z with (- j + - i)%Z by ring. rewrite !bpow_plus. split; apply Rmult_le_compat; lra. }
  destruct (nf_round sg (n + m) (j + i) (B2R x * B2R y) (a * b) Hn ltac:(lia)) as [O NN]; [|exact RR|].
  { replace (sgn sg (B2R x * B2R y)) with (sgn sg (B2R x) * B2R y) by (destruct sg; cbn [sgn]; ring). apply near_mul; assumption. }
  destruct (fmul_ok x y F F' O) as [FF E]. split; [exact FF|]. split; [|exact RR]. rewrite E. exact NN.
Qed.
Lemma nf_div sg n m j i x y a b : (n + m <= 63)%nat -> (0 <= j)%Z -> (0 <= i)%Z -> (j + i <= 500)%Z -> nf sg n j x a -> nf false m i y b ->
  nf sg (S (n + m)) (j + i) (fdiv x y) (a / b).
Proof.
  intros Hn Hj Hi Hji (F & N & R) (F' & N' & R'). pose proof (bpow_gt_0 radix2 (-j)). pose proof (bpow_gt_0 radix2 (-i)). cbn [sgn] in N'.
  pose proof (near_pos _ _ _ N') as Y0.
  assert (RI : bpow radix2 (- i) <= / b <= bpow radix2 i).
  { replace (bpow radix2 i) with (/ bpow radix2 (- i)) by (rewrite <- bpow_opp; f_equal; lia).
    rewrite (bpow_opp radix2 i) at 1. split; apply Rinv_le; try lra. }
  assert (RR : bpow radix2 (- (j + i)) <= a / b <= bpow radix2 (j + i)).
  { replace (- (j + i))%Z with (- j + - i)%Z by ring. rewrite !bpow_plus. unfold Rdiv. split; apply Rmult_le_compat; lra. }
  destruct (nf_round sg (n + m) (j + i) (B2R x / B2R y) (a / b) Hn ltac:(lia)) as [O NN]; [|exact RR|].
  { replace (sgn sg (B2R x / B2R y)) with (sgn sg (B2R x) / B2R y) by (destruct sg; cbn [sgn]; field; lra). apply near_div; assumption. }
  destruct (fdiv_ok x y F ltac:(lra) O) as [FF E]. split; [exact FF|]. split; [|exact RR]. rewrite E. exact NN.
Qed.
(** the cast to f32 *)
Lemma rho_20 n : (n <= 20)%nat -> rho ^ n <= 1 + 21 / 4294967296.
Proof.
  intro H. apply Rle_trans with (rho ^ 20); [apply rho_le, H|].
  assert (P : forall k, (k <= 20)%nat -> rho ^ k <= 1 + INR k * (105 / 100 / 4294967296)).
  { induction k as [|k IH]; intro K; [cbn [pow INR]; lra|]. rewrite S_INR. cbn [pow].
    specialize (IH ltac:(lia)). assert (IK : INR k <= 20) by (replace 20 with (INR 20) by (cbn; lra); apply le_INR; lia).
    pose proof (pos_INR k). pose proof (rho_pos k).
    apply Rle_trans with (rho * (1 + INR k * (105 / 100 / 4294967296))); [apply Rmult_le_compat_l; [unfold rho; lra|exact IH]|].
    unfold rho. lra. }
  specialize (P 20%nat (le_n _)). replace (INR 20) with 20 in P by (cbn; lra). lra.
Qed.
(** 9/8 * 2^-24 *)
Definition w32 : R := 9 / 134217728.
Lemma nf_cast sg n j x b : (n <= 20)%nat -> (0 <= j <= 124)%Z -> nf sg n j x b ->
  fin (to32 x) /\ Rabs (sgn sg (B2R (to32 x)) - b) <= w32 * b.
Proof.
  intros Hn Hj (F & N & L & U). pose proof (near_pos _ _ _ N) as V0. destruct (near_2 n _ _ ltac:(lia) N) as [A B].
  pose proof (bpow_gt_0 radix2 (-j)) as J0.
  assert (VU : Rabs (B2R x) <= bpow radix2 (j + 1)).
  { rewrite <- (sgn_abs sg), Rabs_pos_eq by lra. rewrite bpow_plus. change (bpow radix2 1) with 2. lra. }
  destruct (fcast_le (p2:=24) (e2:=128) x (bpow radix2 (j + 1)) F) as (FC & EC & _); [apply fmt_bpow; unfold SpecFloat.emin; lia|apply bpow_lt; lia|exact VU|].
  split; [exact FC|]. unfold to32. rewrite EC.
  destruct (rnd_rel (prec:=24) (emax:=128) (B2R x)) as (d & D & E).
  { rewrite <- (sgn_abs sg), Rabs_pos_eq by lra. unfold SpecFloat.emin.
    apply Rle_trans with (bpow radix2 (-j - 1)); [apply bpow_le; lia|].
    unfold Zminus. rewrite bpow_plus. change (bpow radix2 (-(1))) with (/ 2). lra. }
  rewrite E. replace (sgn sg (B2R x * (1 + d))) with (sgn sg (B2R x) * (1 + d)) by (destruct sg; cbn [sgn]; ring).
  set (v := sgn sg (B2R x)) in *. destruct N as (P & NL & NU). pose proof (rho_20 n Hn) as R20. pose proof (rho_ge1 n).
  assert (V1 : v <= b * (1 + 21 / 4294967296)) by (apply Rle_trans with (1 := NU); apply Rmult_le_compat_l; lra).
  assert (V2 : b <= v * (1 + 21 / 4294967296)) by (apply Rle_trans with (1 := NL); apply Rmult_le_compat_l; lra).
  change (bpow radix2 (- (24))) with (/ 16777216) in D. apply Rabs_le_inv in D.
  assert (D1 : - (v * / 16777216) <= v * d <= v * / 16777216) by (split; nra).
  unfold w32. apply Rabs_le. split; lra.
Qed.
