(** * Basic facts about the float operations of Model/Floats.v *)

From Coq Require Import ZArith List Bool Reals Lra Lia Psatz.
From Flocq Require Import Core.Core IEEE754.BinarySingleNaN Relative Sterbenz Plus_error.
From Verif Require Import Model.Floats.
Local Open Scope R_scope.

Notation fin x := (is_finite x = true).

Section Facts.
Context {prec emax : Z} {Hp : Prec_gt_0 prec} {He : Prec_lt_emax prec emax}.
Notation fl := (binary_float prec emax).
Notation fexp := (SpecFloat.fexp prec emax).
Notation emin := (SpecFloat.emin prec emax).
Notation rnd := (round radix2 fexp ZnearestE).
Notation fmt := (generic_format radix2 fexp).

#[local] Instance fexp_valid : Valid_exp fexp := FLT_exp_valid emin prec.
#[local] Instance fexp_mono : Monotone_exp fexp := FLT_exp_monotone emin prec.

Lemma prec_pos : (0 < prec)%Z.
Proof. exact Hp. Qed.

Lemma fmt_B2R (x : fl) : fmt (B2R x).
Proof. apply generic_format_B2R. Qed.

Lemma rnd_fmt x : fmt x -> rnd x = x.
Proof. intro H. apply round_generic; [typeclasses eauto | exact H]. Qed.

Lemma rnd_B2R (x : fl) : rnd (B2R x) = B2R x.
Proof. apply rnd_fmt, fmt_B2R. Qed.

Lemma rnd_le x y : x <= y -> rnd x <= rnd y.
Proof. intro H. apply round_le; [typeclasses eauto | typeclasses eauto | exact H]. Qed.

Lemma rnd_le_fmt x M : fmt M -> x <= M -> rnd x <= M.
Proof. intros HM H. rewrite <- (rnd_fmt M HM). apply rnd_le, H. Qed.

Lemma rnd_ge_fmt x M : fmt M -> M <= x -> M <= rnd x.
Proof. intros HM H. rewrite <- (rnd_fmt M HM). apply rnd_le, H. Qed.

Lemma fmt_opp M : fmt M -> fmt (- M).
Proof. apply generic_format_opp. Qed.

Lemma fmt_0 : fmt 0.
Proof. apply generic_format_0. Qed.

Lemma rnd_0 : rnd 0 = 0.
Proof. apply round_0; typeclasses eauto. Qed.

Lemma rnd_opp x : rnd (- x) = - rnd x.
Proof. apply round_NE_opp. Qed.

Lemma rnd_abs_le x M : fmt M -> Rabs x <= M -> Rabs (rnd x) <= M.
Proof.
  intros HM H. apply Rabs_le. apply Rabs_le_inv in H. destruct H as [H1 H2].
  split; [apply rnd_ge_fmt; [apply fmt_opp, HM | exact H1] | apply rnd_le_fmt; assumption].
Qed.

Lemma fmt_bpow e : (emin <= e)%Z -> fmt (bpow radix2 e).
Proof.
  intro H. apply generic_format_bpow'; [typeclasses eauto |].
  unfold SpecFloat.fexp. pose proof prec_pos. lia.
Qed.

Lemma fmt_FLT m e : (Z.abs m < 2 ^ prec)%Z -> (emin <= e)%Z -> fmt (IZR m * bpow radix2 e).
Proof.
  intros Hm Hemin. apply (generic_format_FLT radix2 emin prec).
  exists (Float radix2 m e); [reflexivity | exact Hm | exact Hemin].
Qed.

Lemma emin_neg : (emin <= 0)%Z.
Proof.
  unfold SpecFloat.emin. pose proof prec_pos. pose proof He as He0.
  unfold Prec_lt_emax in He0. lia.
Qed.

Lemma fmt_IZR z : (Z.abs z <= 2 ^ prec)%Z -> fmt (IZR z).
Proof.
  intro H. pose proof prec_pos as Hp0. pose proof emin_neg as Hm.
  destruct (Z.eq_dec (Z.abs z) (2 ^ prec)) as [E|E].
  - assert (Hb : fmt (bpow radix2 prec)) by (apply fmt_bpow; lia).
    assert (Hz : bpow radix2 prec = IZR (2 ^ prec)).
    { rewrite <- IZR_Zpower by lia. reflexivity. }
    rewrite Hz in Hb. rewrite <- E in Hb.
    destruct (Z.abs_eq_or_opp z) as [A|A]; rewrite A in Hb; [exact Hb|].
    apply fmt_opp in Hb. rewrite opp_IZR in Hb. rewrite Ropp_involutive in Hb. exact Hb.
  - replace (IZR z) with (IZR z * bpow radix2 0) by (simpl; ring).
    apply fmt_FLT; lia.
Qed.

Lemma IZR_pow2 e : (0 <= e)%Z -> IZR (2 ^ e) = bpow radix2 e.
Proof. intro H. rewrite <- IZR_Zpower by exact H. reflexivity. Qed.

(** ** finite operations *)

Lemma fadd_ok (x y : fl) : fin x -> fin y -> Rabs (rnd (B2R x + B2R y)) < bpow radix2 emax ->
  fin (fadd x y) /\ B2R (fadd x y) = rnd (B2R x + B2R y).
Proof.
  intros Fx Fy H. generalize (Bplus_correct prec emax Hp He mode_NE x y Fx Fy).
  simpl round_mode. rewrite Rlt_bool_true by exact H. intros (A & B & _). split; assumption.
Qed.

Lemma fsub_ok (x y : fl) : fin x -> fin y -> Rabs (rnd (B2R x - B2R y)) < bpow radix2 emax ->
  fin (fsub x y) /\ B2R (fsub x y) = rnd (B2R x - B2R y).
Proof.
  intros Fx Fy H. generalize (Bminus_correct prec emax Hp He mode_NE x y Fx Fy).
  simpl round_mode. rewrite Rlt_bool_true by exact H. intros (A & B & _). split; assumption.
Qed.

Lemma fmul_ok (x y : fl) : fin x -> fin y -> Rabs (rnd (B2R x * B2R y)) < bpow radix2 emax ->
  fin (fmul x y) /\ B2R (fmul x y) = rnd (B2R x * B2R y).
Proof.
  intros Fx Fy H. generalize (Bmult_correct prec emax Hp He mode_NE x y).
  simpl round_mode. rewrite Rlt_bool_true by exact H. intros (A & B & _).
  rewrite Fx, Fy in B. split; assumption.
Qed.

Lemma fdiv_ok (x y : fl) : fin x -> B2R y <> 0 -> Rabs (rnd (B2R x / B2R y)) < bpow radix2 emax ->
  fin (fdiv x y) /\ B2R (fdiv x y) = rnd (B2R x / B2R y).
Proof.
  intros Fx Fy H. generalize (Bdiv_correct prec emax Hp He mode_NE x y Fy).
  simpl round_mode. rewrite Rlt_bool_true by exact H. intros (A & B & _).
  rewrite Fx in B. split; assumption.
Qed.

(** same, with a representable bound on the exact result *)
Lemma fadd_le (x y : fl) M : fin x -> fin y -> fmt M -> M < bpow radix2 emax ->
  Rabs (B2R x + B2R y) <= M ->
  fin (fadd x y) /\ B2R (fadd x y) = rnd (B2R x + B2R y) /\ Rabs (B2R (fadd x y)) <= M.
Proof.
  intros Fx Fy FM HM H. pose proof (rnd_abs_le _ _ FM H) as H'.
  destruct (fadd_ok x y Fx Fy) as [A B]; [lra|]. rewrite B. auto.
Qed.

Lemma fsub_le (x y : fl) M : fin x -> fin y -> fmt M -> M < bpow radix2 emax ->
  Rabs (B2R x - B2R y) <= M ->
  fin (fsub x y) /\ B2R (fsub x y) = rnd (B2R x - B2R y) /\ Rabs (B2R (fsub x y)) <= M.
Proof.
  intros Fx Fy FM HM H. pose proof (rnd_abs_le _ _ FM H) as H'.
  destruct (fsub_ok x y Fx Fy) as [A B]; [lra|]. rewrite B. auto.
Qed.

Lemma fmul_le (x y : fl) M : fin x -> fin y -> fmt M -> M < bpow radix2 emax ->
  Rabs (B2R x * B2R y) <= M ->
  fin (fmul x y) /\ B2R (fmul x y) = rnd (B2R x * B2R y) /\ Rabs (B2R (fmul x y)) <= M.
Proof.
  intros Fx Fy FM HM H. pose proof (rnd_abs_le _ _ FM H) as H'.
  destruct (fmul_ok x y Fx Fy) as [A B]; [lra|]. rewrite B. auto.
Qed.

Lemma fdiv_le (x y : fl) M : fin x -> B2R y <> 0 -> fmt M -> M < bpow radix2 emax ->
  Rabs (B2R x / B2R y) <= M ->
  fin (fdiv x y) /\ B2R (fdiv x y) = rnd (B2R x / B2R y) /\ Rabs (B2R (fdiv x y)) <= M.
Proof.
  intros Fx Fy FM HM H. pose proof (rnd_abs_le _ _ FM H) as H'.
  destruct (fdiv_ok x y Fx Fy) as [A B]; [lra|]. rewrite B. auto.
Qed.

Lemma bpow_lt_emax e : (e < emax)%Z -> bpow radix2 e < bpow radix2 emax.
Proof. apply bpow_lt. Qed.

Lemma abs_B2R_lt (x : fl) : Rabs (B2R x) < bpow radix2 emax.
Proof. apply abs_B2R_lt_emax. Qed.

(** ** comparisons *)
Lemma flt_R (x y : fl) : fin x -> fin y -> flt x y = Rlt_bool (B2R x) (B2R y).
Proof. apply Bltb_correct. Qed.
Lemma fle_R (x y : fl) : fin x -> fin y -> fle x y = Rle_bool (B2R x) (B2R y).
Proof. apply Bleb_correct. Qed.
Lemma fge_R (x y : fl) : fin x -> fin y -> fge x y = Rle_bool (B2R y) (B2R x).
Proof. intros Fx Fy; apply Bleb_correct; assumption. Qed.
Lemma fgt_R (x y : fl) : fin x -> fin y -> fgt x y = Rlt_bool (B2R y) (B2R x).
Proof. intros Fx Fy; apply Bltb_correct; assumption. Qed.

Lemma flt_true (x y : fl) : fin x -> fin y -> (flt x y = true <-> B2R x < B2R y).
Proof.
  intros Fx Fy. rewrite (flt_R _ _ Fx Fy).
  destruct (Rlt_bool_spec (B2R x) (B2R y)); split; intros; try lra; congruence.
Qed.
Lemma flt_false (x y : fl) : fin x -> fin y -> (flt x y = false <-> B2R y <= B2R x).
Proof.
  intros Fx Fy. rewrite (flt_R _ _ Fx Fy).
  destruct (Rlt_bool_spec (B2R x) (B2R y)); split; intros; try lra; congruence.
Qed.
Lemma fle_true (x y : fl) : fin x -> fin y -> (fle x y = true <-> B2R x <= B2R y).
Proof.
  intros Fx Fy. rewrite (fle_R _ _ Fx Fy).
  destruct (Rle_bool_spec (B2R x) (B2R y)); split; intros; try lra; congruence.
Qed.
Lemma fle_false (x y : fl) : fin x -> fin y -> (fle x y = false <-> B2R y < B2R x).
Proof.
  intros Fx Fy. rewrite (fle_R _ _ Fx Fy).
  destruct (Rle_bool_spec (B2R x) (B2R y)); split; intros; try lra; congruence.
Qed.
Lemma fge_true (x y : fl) : fin x -> fin y -> (fge x y = true <-> B2R y <= B2R x).
Proof. intros Fx Fy. apply fle_true; assumption. Qed.
Lemma fge_false (x y : fl) : fin x -> fin y -> (fge x y = false <-> B2R x < B2R y).
Proof. intros Fx Fy. apply fle_false; assumption. Qed.
Lemma fgt_true (x y : fl) : fin x -> fin y -> (fgt x y = true <-> B2R y < B2R x).
Proof. intros Fx Fy. apply flt_true; assumption. Qed.
Lemma fgt_false (x y : fl) : fin x -> fin y -> (fgt x y = false <-> B2R x <= B2R y).
Proof. intros Fx Fy. apply flt_false; assumption. Qed.

(** ** integers and constants *)
Lemma of_Z_ok z : (Z.abs z <= 2 ^ prec)%Z ->
  fin (@of_Z prec emax Hp He z) /\ B2R (@of_Z prec emax Hp He z) = IZR z.
Proof.
  intro H. pose proof (fmt_IZR z H) as Hf.
  unfold of_Z. generalize (binary_normalize_correct prec emax Hp He mode_NE z 0 false).
  cbv zeta. simpl round_mode.
  assert (E : F2R (Float radix2 z 0) = IZR z) by (unfold F2R; simpl; ring).
  rewrite E. rewrite (rnd_fmt _ Hf). rewrite Rlt_bool_true.
  - intros (A & B & _). split; assumption.
  - rewrite <- abs_IZR. apply Rle_lt_trans with (bpow radix2 prec).
    + rewrite <- IZR_pow2 by (pose proof prec_pos; lia). apply IZR_le, H.
    + apply bpow_lt. apply He.
Qed.

Lemma lit_ok m e : fmt (IZR m * bpow radix2 e) -> Rabs (IZR m * bpow radix2 e) < bpow radix2 emax ->
  fin (@lit prec emax Hp He m e) /\ B2R (@lit prec emax Hp He m e) = IZR m * bpow radix2 e.
Proof.
  intros Hf Hl.
  unfold lit. generalize (binary_normalize_correct prec emax Hp He mode_NE m e false).
  cbv zeta. simpl round_mode.
  assert (E : F2R (Float radix2 m e) = IZR m * bpow radix2 e) by reflexivity.
  rewrite E. rewrite (rnd_fmt _ Hf). rewrite Rlt_bool_true by exact Hl.
  intros (A & B & _). split; assumption.
Qed.

Lemma fabs_R (x : fl) : B2R (fabs x) = Rabs (B2R x).
Proof. apply B2R_Babs. Qed.
Lemma fabs_fin (x : fl) : is_finite (fabs x) = is_finite x.
Proof. apply is_finite_Babs. Qed.
Lemma fneg_R (x : fl) : B2R (fneg x) = - B2R x.
Proof. apply B2R_Bopp. Qed.
Lemma fneg_fin (x : fl) : is_finite (fneg x) = is_finite x.
Proof. apply is_finite_Bopp. Qed.

(** ** rounding to integer *)
Lemma round_FIX0 (rm : R -> Z) x : round radix2 (FIX_exp 0) rm x = IZR (rm x).
Proof.
  unfold round, F2R, scaled_mantissa, cexp, FIX_exp. simpl.
  rewrite Rmult_1_r, Rmult_1_r. reflexivity.
Qed.
Lemma ffloor_ok (x : fl) : fin x -> fin (ffloor x) /\ B2R (ffloor x) = IZR (Zfloor (B2R x)).
Proof.
  intro Fx. destruct (Bnearbyint_correct prec emax He mode_DN x) as (A & B & _).
  unfold ffloor. rewrite B, A. split; [exact Fx|]. apply round_FIX0.
Qed.
Lemma ftrunc_ok (x : fl) : fin x -> fin (ftrunc x) /\ B2R (ftrunc x) = IZR (Ztrunc (B2R x)).
Proof.
  intro Fx. destruct (Bnearbyint_correct prec emax He mode_ZR x) as (A & B & _).
  unfold ftrunc. rewrite B, A. split; [exact Fx|]. apply round_FIX0.
Qed.
Lemma fround_ok (x : fl) : fin x -> fin (fround x) /\ B2R (fround x) = IZR (ZnearestA (B2R x)).
Proof.
  intro Fx. destruct (Bnearbyint_correct prec emax He mode_NA x) as (A & B & _).
  unfold fround. rewrite B, A. split; [exact Fx|]. apply round_FIX0.
Qed.
Lemma Btrunc_Ztrunc (x : fl) : Btrunc x = Ztrunc (B2R x).
Proof.
  apply eq_IZR. rewrite (Btrunc_correct prec emax He). apply round_FIX0.
Qed.
Lemma to_int_fin lo hi (x : fl) : fin x -> to_int lo hi x = Z.max lo (Z.min hi (Ztrunc (B2R x))).
Proof.
  intro Fx. destruct x as [s|s| |s m e Hb]; try discriminate.
  - unfold to_int. rewrite Btrunc_Ztrunc. reflexivity.
  - unfold to_int. rewrite Btrunc_Ztrunc. reflexivity.
Qed.

(** ** rounding errors *)
Lemma half_bpow e : / 2 * bpow radix2 e = bpow radix2 (e - 1).
Proof. replace (e - 1)%Z with (-1 + e)%Z by ring. rewrite bpow_plus. simpl. lra. Qed.

Lemma rnd_err e x : (emin <= e - prec)%Z -> Rabs x <= bpow radix2 e ->
  Rabs (rnd x - x) <= bpow radix2 (e - prec - 1).
Proof.
  intros Hem H. destruct (Req_dec x 0) as [->|Hx].
  { rewrite rnd_0, Rminus_0_r, Rabs_R0. apply bpow_ge_0. }
  destruct (Rle_lt_or_eq_dec _ _ H) as [Hl|He'].
  - pose proof (error_le_half_ulp radix2 fexp (fun z => negb (Z.even z)) x) as E.
    eapply Rle_trans; [exact E|].
    replace (e - prec - 1)%Z with (-1 + (e - prec))%Z by ring.
    rewrite bpow_plus. simpl bpow at 1. change (/ IZR 2) with (/2).
    apply Rmult_le_compat_l; [lra|].
    rewrite ulp_neq_0 by exact Hx. apply bpow_le. unfold cexp, SpecFloat.fexp.
    pose proof (mag_le_bpow radix2 x e Hx Hl). lia.
  - assert (F : fmt x).
    { unfold Rabs in He'. destruct (Rcase_abs x).
      - rewrite <- (Ropp_involutive x). rewrite He'. apply fmt_opp, fmt_bpow.
        pose proof prec_pos. lia.
      - rewrite He'. apply fmt_bpow. pose proof prec_pos. lia. }
    rewrite (rnd_fmt _ F). rewrite Rminus_diag_eq by reflexivity. rewrite Rabs_R0. apply bpow_ge_0.
Qed.

(** relative error in the normal range *)
Lemma rnd_rel x : bpow radix2 (emin + prec - 1) <= Rabs x ->
  exists d, Rabs d <= bpow radix2 (- prec) /\ rnd x = x * (1 + d).
Proof.
  intro H.
  destruct (relative_error_N_FLT_ex radix2 emin prec Hp (fun z => negb (Z.even z)) x H) as (d & Hd & E).
  exists d. split; [|exact E].
  eapply Rle_trans; [exact Hd|].
  replace (/2 * bpow radix2 (- prec + 1)) with (bpow radix2 (-prec)).
  - lra.
  - replace (- prec)%Z with (-1 + (- prec + 1))%Z at 1 by ring. rewrite bpow_plus. simpl. lra.
Qed.

(** general error: relative or subnormal absolute *)
Lemma rnd_err_gen x :
  exists d e, Rabs d <= bpow radix2 (- prec) /\ Rabs e <= bpow radix2 (emin - 1) /\
    rnd x = x * (1 + d) + e.
Proof.
  destruct (error_N_FLT radix2 emin prec Hp (fun z => negb (Z.even z)) x) as (d & e & Hd & He' & _ & E).
  exists d, e. repeat split; [| |exact E].
  - rewrite half_bpow in Hd. replace (- prec + 1 - 1)%Z with (- prec)%Z in Hd by ring. exact Hd.
  - rewrite half_bpow in He'. exact He'.
Qed.

(** a rounded sum is zero only when the exact sum is *)
Lemma rnd_plus_eq_0 x y : fmt x -> fmt y -> rnd (x + y) = 0 -> x + y = 0.
Proof. intros Fx Fy H. apply (round_plus_eq_0 radix2 fexp ZnearestE) in H; assumption. Qed.

(** ** equality *)
Lemma fin_eq (x y : fl) : fin x -> fin y -> B2R x = B2R y -> B2R x <> 0 -> x = y.
Proof.
  intros Fx Fy E N. apply B2R_inj; [| |exact E].
  - destruct x; simpl in *; try discriminate; try reflexivity; elim N; reflexivity.
  - destruct y; simpl in *; try discriminate; try reflexivity; elim N; rewrite E; reflexivity.
Qed.

Lemma not_nan_fin (x : fl) : fin x -> is_nan x = false.
Proof. destruct x; simpl; congruence. Qed.

(** ** extended reals: infinities are represented by +-2^emax *)
Definition ext (x : fl) : R :=
  match x with
  | B754_infinity true => - bpow radix2 emax
  | B754_infinity false => bpow radix2 emax
  | _ => B2R x
  end.
Definition sat (r : R) : R := Rmax (- bpow radix2 emax) (Rmin (bpow radix2 emax) r).

Lemma ext_fin (x : fl) : fin x -> ext x = B2R x.
Proof. destruct x; simpl; intro; congruence. Qed.

Lemma ext_bound (x : fl) : Rabs (ext x) <= bpow radix2 emax.
Proof.
  pose proof (bpow_gt_0 radix2 emax).
  destruct x as [s|s| |s m e Hb].
  - simpl. rewrite Rabs_R0. lra.
  - destruct s; simpl; [rewrite Rabs_Ropp|]; rewrite Rabs_pos_eq; lra.
  - simpl. rewrite Rabs_R0. lra.
  - apply Rlt_le, abs_B2R_lt.
Qed.

Lemma sat_le x y : x <= y -> sat x <= sat y.
Proof. intro H. unfold sat, Rmax, Rmin. repeat destruct Rle_dec; lra. Qed.
Lemma sat_id x : Rabs x <= bpow radix2 emax -> sat x = x.
Proof.
  intro H. apply Rabs_le_inv in H. unfold sat, Rmax, Rmin. repeat destruct Rle_dec; lra.
Qed.

Lemma fle_ext (x y : fl) : is_nan x = false -> is_nan y = false ->
  (fle x y = true <-> ext x <= ext y).
Proof.
  intros Nx Ny. pose proof (bpow_gt_0 radix2 emax) as B0.
  destruct (is_finite x) eqn:Fx; destruct (is_finite y) eqn:Fy.
  - rewrite (ext_fin x Fx), (ext_fin y Fy). apply fle_true; assumption.
  - destruct y as [s|s| |s m e Hb]; try discriminate.
    rewrite (ext_fin x Fx). pose proof (abs_B2R_lt x) as A. apply Rabs_lt_inv in A.
    destruct s; simpl ext.
    + split; intro H; [|exfalso; lra].
      destruct x as [s|s| |s m e Hb]; try discriminate; simpl in H; try discriminate.
    + split; intro H; [lra|].
      destruct x as [s|s| |[] m e Hb]; try discriminate; reflexivity.
  - destruct x as [s|s| |s m e Hb]; try discriminate.
    rewrite (ext_fin y Fy). pose proof (abs_B2R_lt y) as A. apply Rabs_lt_inv in A.
    destruct s; simpl ext.
    + split; intro H; [lra|].
      destruct y as [s|s| |[] m e Hb]; try discriminate; reflexivity.
    + split; intro H; [|exfalso; lra].
      destruct y as [s|s| |[] m e Hb]; try discriminate; simpl in H; try discriminate.
  - destruct x as [s|s| |s m e Hb]; try discriminate.
    destruct y as [s'|s'| |s' m' e' Hb']; try discriminate.
    destruct s, s'; simpl; split; intro H; try reflexivity; try lra; discriminate.
Qed.

Lemma Bsign_pos (x : fl) : 0 < B2R x -> Bsign x = false.
Proof.
  destruct x as [s|s| |s m e Hb]; simpl; intro H; try (exfalso; lra).
  destruct s; [|reflexivity]. exfalso.
  assert (F2R (Float radix2 (Zneg m) e) < 0) by (apply F2R_lt_0; reflexivity).
  simpl in H0. change (cond_Zopp true (Z.pos m)) with (Z.neg m) in H. lra.
Qed.
Lemma Bsign_neg (x : fl) : B2R x < 0 -> Bsign x = true.
Proof.
  destruct x as [s|s| |s m e Hb]; simpl; intro H; try (exfalso; lra).
  destruct s; [reflexivity|]. exfalso.
  assert (0 < F2R (Float radix2 (Zpos m) e)) by (apply F2R_gt_0; reflexivity).
  change (cond_Zopp false (Z.pos m)) with (Z.pos m) in H. lra.
Qed.

Lemma rnd_nonneg x : 0 <= x -> 0 <= rnd x.
Proof. intro H. rewrite <- rnd_0. apply rnd_le, H. Qed.
Lemma rnd_nonpos x : x <= 0 -> rnd x <= 0.
Proof. intro H. rewrite <- rnd_0. apply rnd_le, H. Qed.

Lemma rnd_big_pos x : bpow radix2 emax <= Rabs (rnd x) -> 0 <= x -> bpow radix2 emax <= rnd x.
Proof. intros H H0. rewrite Rabs_pos_eq in H by (apply rnd_nonneg, H0). exact H. Qed.
Lemma rnd_big_neg x : bpow radix2 emax <= Rabs (rnd x) -> x <= 0 -> rnd x <= - bpow radix2 emax.
Proof. intros H H0. rewrite Rabs_left1 in H by (apply rnd_nonpos, H0). lra. Qed.

Lemma sat_big r : bpow radix2 emax <= r -> sat r = bpow radix2 emax.
Proof. intro H. pose proof (bpow_gt_0 radix2 emax). unfold sat, Rmax, Rmin. repeat destruct Rle_dec; lra. Qed.
Lemma sat_small r : r <= - bpow radix2 emax -> sat r = - bpow radix2 emax.
Proof. intro H. pose proof (bpow_gt_0 radix2 emax). unfold sat, Rmax, Rmin. repeat destruct Rle_dec; lra. Qed.

Lemma SF_inf_ext (x : fl) s : B2SF x = SpecFloat.S754_infinity s ->
  is_nan x = false /\ ext x = if s then - bpow radix2 emax else bpow radix2 emax.
Proof. destruct x as [?|b| |? ? ? ?]; simpl; intro H; try discriminate. inversion H; subst. destruct s; auto. Qed.

Lemma fmul_ext_fin (x y : fl) : fin x -> fin y ->
  is_nan (fmul x y) = false /\ ext (fmul x y) = sat (rnd (B2R x * B2R y)).
Proof.
  intros Fx Fy. generalize (Bmult_correct prec emax Hp He mode_NE x y). simpl round_mode.
  destruct (Rlt_bool_spec (Rabs (rnd (B2R x * B2R y))) (bpow radix2 emax)) as [H|H].
  - intros (A & B & _). rewrite Fx, Fy in B. simpl in B. change (fin (fmul x y)) in B. split.
    + destruct (fmul x y); simpl in *; congruence.
    + rewrite (ext_fin _ B). rewrite sat_id by lra. exact A.
  - intro A. change (B2SF (fmul x y) = SpecFloat.S754_infinity (xorb (Bsign x) (Bsign y))) in A.
    destruct (SF_inf_ext _ _ A) as [N E]. split; [exact N|]. rewrite E.
    destruct (Rlt_le_dec 0 (B2R x * B2R y)) as [P|P].
    + rewrite (sat_big _ (rnd_big_pos _ H (Rlt_le _ _ P))).
      destruct (Rlt_le_dec 0 (B2R x)) as [Px|Px].
      * assert (0 < B2R y) by nra. rewrite (Bsign_pos x), (Bsign_pos y) by lra. reflexivity.
      * assert (B2R x < 0) by (destruct Px; [lra|nra]). assert (B2R y < 0) by nra.
        rewrite (Bsign_neg x), (Bsign_neg y) by lra. reflexivity.
    + rewrite (sat_small _ (rnd_big_neg _ H P)).
      assert (B2R x * B2R y <> 0).
      { intro Z. rewrite Z, rnd_0, Rabs_R0 in H. pose proof (bpow_gt_0 radix2 emax). lra. }
      destruct (Rlt_le_dec 0 (B2R x)) as [Px|Px].
      * assert (B2R y < 0) by nra. rewrite (Bsign_pos x), (Bsign_neg y) by lra. reflexivity.
      * assert (B2R x < 0) by (destruct Px; [lra|nra]). assert (0 < B2R y) by nra.
        rewrite (Bsign_neg x), (Bsign_pos y) by lra. reflexivity.
Qed.

Lemma fmul_ext (x k : fl) : is_nan x = false -> fin k -> 1 <= B2R k ->
  is_nan (fmul x k) = false /\ ext (fmul x k) = sat (rnd (ext x * B2R k)).
Proof.
  intros Nx Fk Hk. destruct (is_finite x) eqn:Fx.
  - rewrite (ext_fin _ Fx). apply fmul_ext_fin; assumption.
  - destruct x as [s|s| |s m e Hb]; try discriminate.
    pose proof (bpow_gt_0 radix2 emax) as B0.
    assert (Fm : fmt (bpow radix2 emax)).
    { apply fmt_bpow. pose proof emin_neg. pose proof prec_pos. pose proof He as He0.
      unfold Prec_lt_emax in He0. lia. }
    destruct k as [s'|s'| |s' m' e' Hb']; try discriminate; [simpl in Hk; exfalso; lra|].
    pose proof (Bsign_pos (B754_finite s' m' e' Hb') ltac:(lra)) as Sk. simpl in Sk. subst s'.
    assert (E : fmul (B754_infinity s) (B754_finite false m' e' Hb') = B754_infinity s).
    { destruct s; reflexivity. }
    rewrite E. split; [reflexivity|].
    set (k := B2R _) in *.
    destruct s; simpl ext.
    + rewrite sat_small; [reflexivity|]. apply rnd_le_fmt; [apply fmt_opp, Fm|]. nra.
    + rewrite sat_big; [reflexivity|]. apply rnd_ge_fmt; [exact Fm|]. nra.
Qed.

Lemma fadd_ext_fin (x y : fl) : fin x -> fin y ->
  is_nan (fadd x y) = false /\ ext (fadd x y) = sat (rnd (B2R x + B2R y)).
Proof.
  intros Fx Fy. generalize (Bplus_correct prec emax Hp He mode_NE x y Fx Fy). simpl round_mode.
  destruct (Rlt_bool_spec (Rabs (rnd (B2R x + B2R y))) (bpow radix2 emax)) as [H|H].
  - intros (A & B & _). change (fin (fadd x y)) in B. split.
    + destruct (fadd x y); simpl in *; congruence.
    + rewrite (ext_fin _ B). rewrite sat_id by lra. exact A.
  - intros [A S]. change (B2SF (fadd x y) = SpecFloat.S754_infinity (Bsign x)) in A.
    destruct (SF_inf_ext _ _ A) as [N E]. split; [exact N|]. rewrite E.
    assert (NZ : B2R x + B2R y <> 0).
    { intro Z. rewrite Z, rnd_0, Rabs_R0 in H. pose proof (bpow_gt_0 radix2 emax). lra. }
    destruct (Rlt_le_dec 0 (B2R x + B2R y)) as [P|P].
    + rewrite (sat_big _ (rnd_big_pos _ H (Rlt_le _ _ P))).
      destruct (Rlt_le_dec 0 (B2R x)) as [Px|Px].
      * rewrite (Bsign_pos x) by lra. reflexivity.
      * assert (0 < B2R y) by lra. rewrite S, (Bsign_pos y) by lra. reflexivity.
    + rewrite (sat_small _ (rnd_big_neg _ H P)).
      destruct (Rlt_le_dec (B2R x) 0) as [Px|Px].
      * rewrite (Bsign_neg x) by lra. reflexivity.
      * assert (B2R y < 0) by lra. rewrite S, (Bsign_neg y) by lra. reflexivity.
Qed.

Lemma fadd_mono (x y k : fl) : is_nan x = false -> is_nan y = false -> fin k ->
  fle x y = true ->
  is_nan (fadd x k) = false /\ is_nan (fadd y k) = false /\ fle (fadd x k) (fadd y k) = true.
Proof.
  intros Nx Ny Fk H.
  assert (P : forall z : fl, is_nan z = false -> is_nan (fadd z k) = false).
  { intros z Nz. destruct (is_finite z) eqn:Fz.
    - apply fadd_ext_fin; assumption.
    - destruct z; try discriminate; destruct k; try discriminate; reflexivity. }
  split; [auto|]. split; [auto|].
  apply fle_ext; auto. rewrite fle_ext in H by assumption.
  pose proof (bpow_gt_0 radix2 emax) as B0.
  destruct (is_finite x) eqn:Fx; destruct (is_finite y) eqn:Fy.
  - destruct (fadd_ext_fin x k Fx Fk) as [_ E1]. destruct (fadd_ext_fin y k Fy Fk) as [_ E2].
    rewrite E1, E2. apply sat_le, rnd_le. rewrite (ext_fin x Fx), (ext_fin y Fy) in H. lra.
  - destruct y as [s|s| |s m e Hb]; try discriminate.
    pose proof (ext_bound (fadd x k)) as A. apply Rabs_le_inv in A.
    destruct s.
    + rewrite (ext_fin x Fx) in H. simpl in H. pose proof (abs_B2R_lt x) as A'.
      apply Rabs_lt_inv in A'. exfalso; lra.
    + replace (fadd (B754_infinity false) k) with (B754_infinity false : fl)
        by (destruct k; try discriminate; reflexivity). simpl ext at 2. lra.
  - destruct x as [s|s| |s m e Hb]; try discriminate.
    pose proof (ext_bound (fadd y k)) as A. apply Rabs_le_inv in A.
    destruct s.
    + replace (fadd (B754_infinity true) k) with (B754_infinity true : fl)
        by (destruct k; try discriminate; reflexivity). simpl ext at 1. lra.
    + rewrite (ext_fin y Fy) in H. simpl in H. pose proof (abs_B2R_lt y) as A'.
      apply Rabs_lt_inv in A'. exfalso; lra.
  - destruct x as [s|s| |s m e Hb]; try discriminate.
    destruct y as [s'|s'| |s' m' e' Hb']; try discriminate.
    replace (fadd (B754_infinity s) k) with (B754_infinity s : fl)
        by (destruct k; try discriminate; destruct s; reflexivity).
    replace (fadd (B754_infinity s') k) with (B754_infinity s' : fl)
        by (destruct k; try discriminate; destruct s'; reflexivity).
    exact H.
Qed.

Lemma fround_nan (x : fl) : is_nan x = false -> is_nan (fround x) = false.
Proof.
  intro N. destruct (is_finite x) eqn:Fx.
  - destruct (fround_ok x Fx) as [A _]. destruct (fround x); simpl in *; congruence.
  - destruct x; try discriminate. reflexivity.
Qed.

(** [round() as int] is monotone on everything but NaN *)
Lemma round_to_int_mono lo hi (x y : fl) : (lo <= hi)%Z ->
  is_nan x = false -> is_nan y = false -> fle x y = true ->
  (to_int lo hi (fround x) <= to_int lo hi (fround y))%Z.
Proof.
  intros Hlh Nx Ny H. rewrite fle_ext in H by assumption.
  assert (P : forall z : fl, fin z -> to_int lo hi (fround z) = Z.max lo (Z.min hi (ZnearestA (B2R z)))).
  { intros z Fz. destruct (fround_ok z Fz) as [A B]. rewrite (to_int_fin _ _ _ A), B, Ztrunc_IZR. reflexivity. }
  destruct (is_finite x) eqn:Fx; destruct (is_finite y) eqn:Fy.
  - rewrite (P x Fx), (P y Fy). rewrite (ext_fin x Fx), (ext_fin y Fy) in H.
    assert (ZnearestA (B2R x) <= ZnearestA (B2R y))%Z by (apply (valid_rnd_N (Z.leb 0)), H).
    lia.
  - rewrite (P x Fx). destruct y as [s|s| |s m e Hb]; try discriminate. destruct s.
    + rewrite (ext_fin x Fx) in H. simpl in H. pose proof (abs_B2R_lt x) as A'.
      apply Rabs_lt_inv in A'. exfalso; lra.
    + simpl. lia.
  - rewrite (P y Fy). destruct x as [s|s| |s m e Hb]; try discriminate. destruct s.
    + simpl. lia.
    + rewrite (ext_fin y Fy) in H. simpl in H. pose proof (abs_B2R_lt y) as A'.
      apply Rabs_lt_inv in A'. exfalso; lra.
  - destruct x as [s|s| |s m e Hb]; try discriminate.
    destruct y as [s'|s'| |s' m' e' Hb']; try discriminate.
    pose proof (bpow_gt_0 radix2 emax). destruct s, s'; simpl in *; try lia; exfalso; lra.
Qed.

Lemma to_int_range lo hi (x : fl) : (lo <= 0 <= hi)%Z -> (lo <= to_int lo hi x <= hi)%Z.
Proof. intro H. destruct x as [s|[]| |s m e Hb]; unfold to_int; lia. Qed.

Lemma flt_negb_fle (x y : fl) : is_nan x = false -> is_nan y = false -> flt x y = negb (fle y x).
Proof.
  intros Nx Ny. unfold flt, fle, Bltb, Bleb, SpecFloat.SFltb, SpecFloat.SFleb.
  change (SpecFloat.SFcompare (B2SF x) (B2SF y)) with (Bcompare x y).
  change (SpecFloat.SFcompare (B2SF y) (B2SF x)) with (Bcompare y x).
  rewrite (Bcompare_swap prec emax x y). destruct (Bcompare x y) as [[]|] eqn:E; try reflexivity.
  exfalso. destruct x as [[]|[]| |[] ? ? ?]; try discriminate; destruct y as [[]|[]| |[] ? ? ?]; try discriminate; simpl in E;
    repeat match type of E with context [match ?c with _ => _ end] => destruct c end; discriminate.
Qed.
Lemma flt_ext (x y : fl) : is_nan x = false -> is_nan y = false ->
  (flt x y = true <-> ext x < ext y).
Proof.
  intros Nx Ny. rewrite (flt_negb_fle x y Nx Ny).
  destruct (fle y x) eqn:E; simpl.
  - apply fle_ext in E; try assumption. split; [discriminate|lra].
  - split; [|reflexivity]. intros _. destruct (Rlt_le_dec (ext x) (ext y)) as [H|H]; [exact H|].
    apply fle_ext in H; try assumption. congruence.
Qed.
Lemma flt_ext_false (x y : fl) : is_nan x = false -> is_nan y = false ->
  (flt x y = false <-> ext y <= ext x).
Proof.
  intros Nx Ny. pose proof (flt_ext x y Nx Ny) as H. destruct (flt x y).
  - split; [discriminate|]. intro. assert (ext x < ext y) by (apply H; reflexivity). lra.
  - split; [|reflexivity]. intros _. destruct (Rle_lt_dec (ext y) (ext x)) as [L|L]; [exact L|].
    apply H in L. discriminate.
Qed.

End Facts.

(** constants: read off the value by computation *)
Lemma B2R_of_SF {p e} (x : binary_float p e) s m ex :
  B2SF x = SpecFloat.S754_finite s m ex -> fin x /\ B2R x = IZR (cond_Zopp s (Zpos m)) * bpow radix2 ex.
Proof. destruct x as [?|?| |s' m' e' H]; simpl; intro E; try discriminate. inversion E; subst. auto. Qed.

Lemma B2R_of_SF0 {p e} (x : binary_float p e) s :
  B2SF x = SpecFloat.S754_zero s -> fin x /\ B2R x = 0.
Proof. destruct x as [?|?| |s' m' e' H]; simpl; intro E; try discriminate. auto. Qed.

(** ** casts *)
Section Cast.
Context {p1 e1 : Z} {Hp1 : Prec_gt_0 p1} {He1 : Prec_lt_emax p1 e1}.
Context {p2 e2 : Z} {Hp2 : Prec_gt_0 p2} {He2 : Prec_lt_emax p2 e2}.
Notation rnd2 := (round radix2 (SpecFloat.fexp p2 e2) ZnearestE).

Lemma fcast_ok (x : binary_float p1 e1) : fin x -> Rabs (rnd2 (B2R x)) < bpow radix2 e2 ->
  fin (fcast p2 e2 x) /\ B2R (fcast p2 e2 x) = rnd2 (B2R x).
Proof.
  intros Fx H. destruct x as [s|s| |s m e Hb]; try discriminate.
  - simpl in *. rewrite round_0 by typeclasses eauto. auto.
  - unfold fcast.
    generalize (binary_normalize_correct p2 e2 Hp2 He2 mode_NE (cond_Zopp s (Zpos m)) e s).
    cbv zeta. simpl round_mode.
    change (F2R (Float radix2 (cond_Zopp s (Z.pos m)) e)) with (B2R (B754_finite s m e Hb)).
    rewrite Rlt_bool_true by exact H. intros (A & B & _). split; assumption.
Qed.

Lemma fcast_le (x : binary_float p1 e1) M : fin x ->
  generic_format radix2 (SpecFloat.fexp p2 e2) M -> M < bpow radix2 e2 -> Rabs (B2R x) <= M ->
  fin (fcast p2 e2 x) /\ B2R (fcast p2 e2 x) = rnd2 (B2R x) /\ Rabs (B2R (fcast p2 e2 x)) <= M.
Proof.
  intros Fx FM HM H. pose proof (rnd_abs_le _ _ FM H) as H'.
  destruct (fcast_ok x Fx) as [A B]; [lra|]. rewrite B. auto.
Qed.
End Cast.

Lemma fmt32_64 x : generic_format radix2 (SpecFloat.fexp 24 128) x ->
  generic_format radix2 (SpecFloat.fexp 53 1024) x.
Proof.
  intro H. apply generic_inclusion_mag with (2 := H).
  intros _. unfold SpecFloat.fexp, SpecFloat.emin. lia.
Qed.

Lemma to64_ok (x : f32) : fin x -> fin (to64 x) /\ B2R (to64 x) = B2R x.
Proof.
  intro Fx. unfold to64.
  assert (E : round radix2 (SpecFloat.fexp 53 1024) ZnearestE (B2R x) = B2R x)
    by (apply rnd_fmt, fmt32_64, fmt_B2R).
  destruct (@fcast_ok 24 128 53 1024 _ _ x Fx) as [A B].
  - rewrite E. eapply Rlt_trans; [apply abs_B2R_lt|]. apply bpow_lt. lia.
  - rewrite E in B. auto.
Qed.
