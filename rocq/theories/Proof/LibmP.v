(** * The assumptions of Spec/Libm.v are satisfied by the correctly rounded library *)
From Coq Require Import ZArith Reals Lra Lia Psatz.
From Flocq Require Import Core.Core IEEE754.BinarySingleNaN.
From Verif Require Import Model.Floats Spec.Libm Proof.FloatFacts Proof.SampleFormatP Proof.FormatsP.
Local Open Scope R_scope.

Section BofR.
Context {p e : Z} {Hp : Prec_gt_0 p} {He : Prec_lt_emax p e}.
Notation fexp := (SpecFloat.fexp p e).
Notation rnd := (round radix2 fexp ZnearestE).
Lemma BofR_ok r : Rabs (rnd r) < bpow radix2 e -> fin (BofR p e r) /\ B2R (BofR p e r) = rnd r.
Proof.
  intro H. unfold BofR.
  generalize (binary_normalize_correct p e Hp He mode_NE
    (ZnearestE (scaled_mantissa radix2 fexp r)) (cexp radix2 fexp r) false).
  cbv zeta. simpl round_mode.
  change (F2R (Float radix2 (ZnearestE (scaled_mantissa radix2 fexp r)) (cexp radix2 fexp r))) with (rnd r).
  assert (E : rnd (rnd r) = rnd r).
  { apply rnd_fmt. apply generic_format_round; typeclasses eauto. }
  rewrite E, Rlt_bool_true by exact H. intros (A & B & _). split; assumption.
Qed.
End BofR.

Lemma Rpower10_mono x y : x <= y -> Rpower 10 x <= Rpower 10 y.
Proof. intro H. apply Rle_Rpower; lra. Qed.
Lemma Rpower10_pos x : 0 < Rpower 10 x.
Proof. unfold Rpower. apply exp_pos. Qed.
Lemma Rpower10_100 : Rpower 10 100 = 10 ^ 100.
Proof. rewrite <- Rpower_pow by lra. f_equal. rewrite INR_IZR_INZ. reflexivity. Qed.
Lemma Rpower10_m100 : Rpower 10 (-100) = / 10 ^ 100.
Proof. replace (-100) with (- (100)) by lra. rewrite Rpower_Ropp, Rpower10_100. reflexivity. Qed.

Lemma ideal_pow10 : pow10_accurate ideal_libm.
Proof.
  intros y Fy Hy. unfold ideal_libm, pow64.
  destruct (of_Z64 10) as [F10 V10]; [lia|]. rewrite V10.
  apply Rabs_le_inv in Hy. destruct Hy as [L U].
  set (q := Rpower 10 (B2R y)).
  assert (Q1 : q <= 10 ^ 100) by (rewrite <- Rpower10_100; apply Rpower10_mono, U).
  assert (Q2 : / 10 ^ 100 <= q) by (rewrite <- Rpower10_m100; apply Rpower10_mono, L).
  assert (Q0 : 0 < q) by apply Rpower10_pos.
  assert (B1 : 10 ^ 100 <= bpow radix2 400).
  { change (bpow radix2 400) with (IZR (2 ^ 400)). rewrite pow_IZR. apply IZR_le. vm_compute. congruence. }
  assert (B2 : bpow radix2 (-400) <= / 10 ^ 100).
  { change (-400)%Z with (- (400))%Z. rewrite bpow_opp. apply Rinv_le; [apply pow_lt; lra|exact B1]. }
  destruct (BofR_ok (p:=53) (e:=1024) q) as [A B].
  { eapply Rle_lt_trans; [apply (rnd_abs_le _ (bpow radix2 400))|].
    - apply fmt64_b; lia.
    - rewrite Rabs_pos_eq by lra. lra.
    - apply bpow_lt. lia. }
  split; [exact A|]. rewrite B.
  destruct (rnd_rel (prec:=53) (emax:=1024) q) as (d & D & E).
  { rewrite Rabs_pos_eq by lra. eapply Rle_trans; [|apply Rle_trans with (1 := B2); exact Q2].
    apply bpow_le. unfold SpecFloat.emin. lia. }
  rewrite E. replace (q * (1 + d) - q) with (q * d) by ring.
  rewrite Rabs_mult, (Rabs_pos_eq q) by lra. apply Rmult_le_compat_l; [lra|].
  eapply Rle_trans; [exact D|]. apply bpow_le. lia.
Qed.

Lemma ideal_sin_bounded : sin_bounded ideal_libm.
Proof.
  intros x Fx. unfold ideal_libm, sin64.
  assert (S : Rabs (sin (B2R x)) <= 1) by (apply Rabs_le; pose proof (SIN_bound (B2R x)); lra).
  pose proof (rnd_abs_le (prec:=53) (emax:=1024) _ 1 (fmt64_Z 1 ltac:(lia)) S) as S'.
  destruct (BofR_ok (p:=53) (e:=1024) (sin (B2R x))) as [A B].
  - pose proof bpow_1024_big. lra.
  - rewrite B. auto.
Qed.

Lemma ideal_sin_zero : sin_zero ideal_libm.
Proof.
  unfold sin_zero, ideal_libm, sin64. simpl B2R. rewrite sin_0. unfold BofR.
  rewrite scaled_mantissa_0. rewrite Znearest_imp with (n := 0%Z).
  - reflexivity.
  - rewrite Rminus_diag_eq by reflexivity. rewrite Rabs_R0. lra.
Qed.

Lemma ideal_sin_accurate : sin_accurate ideal_libm.
Proof.
  intros x Fx Hx. destruct (ideal_sin_bounded x Fx) as [A _]. split; [exact A|].
  cbn [sin64 ideal_libm].
  assert (B1 : Rabs (sin (B2R x)) <= 1) by (apply Rabs_le, SIN_bound).
  destruct (BofR_ok (p:=53) (e:=1024) (sin (B2R x))) as [_ B].
  { eapply Rle_lt_trans; [apply rnd_abs_le; [|exact B1]; exact (fmt64_Z 1 ltac:(lia))|]. change 1 with (bpow radix2 0). apply bpow_lt. lia. }
  rewrite B. eapply Rle_trans; [apply (rnd_err 0); [unfold SpecFloat.emin; lia|exact B1]|]. apply bpow_le. lia.
Qed.

Lemma ideal_pow10_unit : pow10_unit ideal_libm.
Proof.
  intros y Fy Hy. unfold ideal_libm, pow64.
  destruct (of_Z64 10) as [F10 V10]; [lia|]. rewrite V10.
  pose proof (Rpower10_pos (B2R y)) as Q0.
  assert (Q1 : Rpower 10 (B2R y) <= 1).
  { rewrite <- (Rpower_O 10) by lra. apply Rpower10_mono, Hy. }
  set (q := Rpower 10 (B2R y)) in *.
  assert (L : 0 <= round radix2 (SpecFloat.fexp 53 1024) ZnearestE q) by (apply rnd_nonneg; lra).
  assert (U : round radix2 (SpecFloat.fexp 53 1024) ZnearestE q <= 1) by (apply rnd_le_fmt; [exact (fmt64_Z 1 ltac:(lia))|exact Q1]).
  destruct (BofR_ok (p:=53) (e:=1024) q) as [A B].
  { rewrite Rabs_pos_eq by exact L. pose proof bpow_1024_big. lra. }
  split; [exact A|]. rewrite B. split; assumption.
Qed.

Lemma ideal_cos_accurate : cos_accurate ideal_libm.
Proof.
  intros x Fx Hx. cbn [cos64 ideal_libm].
  assert (B1 : Rabs (cos (B2R x)) <= 1) by (apply Rabs_le, COS_bound).
  destruct (BofR_ok (p:=53) (e:=1024) (cos (B2R x))) as [A B].
  { eapply Rle_lt_trans; [apply rnd_abs_le; [|exact B1]; exact (fmt64_Z 1 ltac:(lia))|]. change 1 with (bpow radix2 0). apply bpow_lt. lia. }
  split; [exact A|].
  rewrite B. eapply Rle_trans; [apply (rnd_err 0); [unfold SpecFloat.emin; lia|exact B1]|]. apply bpow_le. lia.
Qed.

Lemma ideal_pow_int : pow_int_accurate ideal_libm.
Proof.
  intros x n Fx [L U] Hn. cbn [pow64 ideal_libm].
  destruct (of_Z64 n ltac:(lia)) as [_ Vn]. rewrite Vn.
  assert (X0 : 0 < B2R x) by (eapply Rlt_le_trans; [apply (bpow_gt_0 radix2 (-100))|exact L]).
  assert (E : Rpower (B2R x) (IZR n) = B2R x ^ Z.to_nat n).
  { rewrite <- Rpower_pow by exact X0. f_equal. rewrite INR_IZR_INZ. f_equal. lia. }
  rewrite E. set (q := B2R x ^ Z.to_nat n).
  assert (Q2 : bpow radix2 (-400) <= q).
  { apply Rle_trans with (bpow radix2 (-100) ^ Z.to_nat n); [|apply pow_incr; split; [apply bpow_ge_0|exact L]].
    assert (C : n = 2%Z \/ n = 3%Z) by lia. destruct C; subst n.
    - change (Z.to_nat 2) with 2%nat. unfold pow. rewrite Rmult_1_r, <- bpow_plus. apply bpow_le. lia.
    - change (Z.to_nat 3) with 3%nat. unfold pow. rewrite Rmult_1_r, <- !bpow_plus. apply bpow_le. lia. }
  assert (Q1 : q <= bpow radix2 400).
  { apply Rle_trans with (8 ^ Z.to_nat n); [apply pow_incr; lra|]. apply Rle_trans with (bpow radix2 9); [|apply bpow_le; lia].
    change (bpow radix2 9) with 512. assert (C : n = 2%Z \/ n = 3%Z) by lia. destruct C; subst n.
    - change (Z.to_nat 2) with 2%nat. lra.
    - change (Z.to_nat 3) with 3%nat. lra. }
  assert (Q0 : 0 < q) by (apply pow_lt, X0).
  destruct (BofR_ok (p:=53) (e:=1024) q) as [A B].
  { eapply Rle_lt_trans; [apply (rnd_abs_le _ (bpow radix2 400))|].
    - apply fmt64_b; lia.
    - rewrite Rabs_pos_eq by lra. exact Q1.
    - apply bpow_lt. lia. }
  split; [exact A|]. rewrite B.
  destruct (rnd_rel (prec:=53) (emax:=1024) q) as (d & D & E').
  { rewrite Rabs_pos_eq by lra. eapply Rle_trans; [|exact Q2]. apply bpow_le. unfold SpecFloat.emin. lia. }
  rewrite E'. replace (q * (1 + d) - q) with (q * d) by ring.
  rewrite Rabs_mult, (Rabs_pos_eq q) by lra. apply Rmult_le_compat_l; [lra|].
  eapply Rle_trans; [exact D|]. apply bpow_le. lia.
Qed.
