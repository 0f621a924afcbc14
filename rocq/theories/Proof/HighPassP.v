(** * HighPass in f32: antisymmetric coefficients, what is left of a constant input *)
From Coq Require Import ZArith List Bool Reals Lra Lia Psatz.
From Flocq Require Import Core.Core IEEE754.BinarySingleNaN Relative Sterbenz.
From Verif Require Import Model.Floats Model.Modifiers Model.Filters Spec.Libm Proof.FloatFacts Proof.SampleFormatP Proof.FormatsP
  Proof.LibmP Proof.WavP Proof.GenericP Proof.FiltersP.
Import ListNotations.
Local Open Scope R_scope.

(** ** sign symmetry of division, multiplication and casts, bit for bit *)
Section Sym.
Context {p e : Z} {Hp : Prec_gt_0 p} {He : Prec_lt_emax p e}.
Notation fl := (binary_float p e).
Notation rnd := (round radix2 (SpecFloat.fexp p e) ZnearestE).
Lemma binary_overflow_neg (b : bool) (x y : fl) : B2SF x = binary_overflow p e mode_NE (negb b) -> B2SF y = binary_overflow p e mode_NE b -> x = fneg y.
Proof.
  intros A B. apply B2SF_inj. unfold binary_overflow in *. cbn in A, B. rewrite A.
  destruct y; cbn in B |- *; try discriminate. injection B as <-. reflexivity.
Qed.
Lemma Bsign_fneg (x : fl) : is_nan x = false -> Bsign (fneg x) = negb (Bsign x).
Proof. intro H. destruct x; try discriminate; reflexivity. Qed.
Lemma is_nan_fneg (x : fl) : is_nan (fneg x) = is_nan x.
Proof. destruct x; reflexivity. Qed.
Lemma neg_eq (x y : fl) : fin x -> fin y -> B2R x = - B2R y -> Bsign x = negb (Bsign y) -> x = fneg y.
Proof.
  intros Fx Fy R S. apply B2R_Bsign_inj; [exact Fx|rewrite fneg_fin; exact Fy|rewrite fneg_R; exact R|].
  rewrite Bsign_fneg by (destruct y; try discriminate; reflexivity). exact S.
Qed.
Lemma fin_not_nan (x : fl) : fin x -> is_nan x = false.
Proof. destruct x; try discriminate; reflexivity. Qed.
Lemma fdiv_neg_l (x y : fl) : fdiv (fneg x) y = fneg (fdiv x y).
Proof.
  destruct x as [s|s| |s m ex Hb]; destruct y as [s'|s'| |s' m' ex' Hb']; try reflexivity;
    try (destruct s, s'; reflexivity).
  set (x := B754_finite s m ex Hb : fl). set (y := B754_finite s' m' ex' Hb' : fl).
  assert (NY : B2R y <> 0).
  { unfold y, B2R. intro K. apply eq_0_F2R in K. destruct s'; discriminate. }
  pose proof (Bdiv_correct p e Hp He mode_NE x y NY) as C1. pose proof (Bdiv_correct p e Hp He mode_NE (fneg x) y NY) as C2.
  change (round_mode mode_NE) with ZnearestE in *. rewrite fneg_R in C2.
  replace (- B2R x / B2R y) with (- (B2R x / B2R y)) in C2 by (field; exact NY).
  change (round radix2 (SpecFloat.fexp p e) ZnearestE) with (rnd) in *.
  rewrite rnd_opp, Rabs_Ropp in C2. change (Bdiv mode_NE) with (@fdiv p e Hp He) in *.
  destruct (Rlt_bool _ _).
  - destruct C1 as (A1 & A2 & A3), C2 as (B1 & B2 & B3). rewrite fneg_fin in B2.
    assert (F1 : fin (fdiv x y)) by exact A2. assert (F2 : fin (fdiv (fneg x) y)) by exact B2.
    apply neg_eq; [exact F2|exact F1|rewrite A1, B1; reflexivity|].
    rewrite A3 by (apply fin_not_nan, F1). rewrite B3 by (apply fin_not_nan, F2).
    rewrite Bsign_fneg by reflexivity. rewrite negb_xorb_l. reflexivity.
  - apply (binary_overflow_neg (xorb (Bsign x) (Bsign y))); [|exact C1]. rewrite C2, Bsign_fneg by reflexivity. rewrite negb_xorb_l. reflexivity.
Qed.
Lemma fmul_neg_l (x y : fl) : fmul (fneg x) y = fneg (fmul x y).
Proof.
  destruct x as [s|s| |s m ex Hb]; destruct y as [s'|s'| |s' m' ex' Hb']; try reflexivity;
    try (destruct s, s'; reflexivity).
  set (x := B754_finite s m ex Hb : fl). set (y := B754_finite s' m' ex' Hb' : fl).
  pose proof (Bmult_correct p e Hp He mode_NE x y) as C1. pose proof (Bmult_correct p e Hp He mode_NE (fneg x) y) as C2.
  change (round_mode mode_NE) with ZnearestE in *. rewrite fneg_R in C2.
  rewrite Ropp_mult_distr_l_reverse in C2.
  change (round radix2 (SpecFloat.fexp p e) ZnearestE) with (rnd) in *.
  rewrite rnd_opp, Rabs_Ropp in C2. change (Bmult mode_NE) with (@fmul p e Hp He) in *.
  destruct (Rlt_bool _ _).
  - destruct C1 as (A1 & A2 & A3), C2 as (B1 & B2 & B3). rewrite fneg_fin in B2.
    assert (F1 : fin (fmul x y)) by exact A2. assert (F2 : fin (fmul (fneg x) y)) by exact B2.
    apply neg_eq; [exact F2|exact F1|rewrite A1, B1; reflexivity|].
    rewrite A3 by (apply fin_not_nan, F1). rewrite B3 by (apply fin_not_nan, F2).
    rewrite Bsign_fneg by reflexivity. rewrite negb_xorb_l. reflexivity.
  - apply (binary_overflow_neg (xorb (Bsign x) (Bsign y))); [|exact C1]. rewrite C2, Bsign_fneg by reflexivity. rewrite negb_xorb_l. reflexivity.
Qed.
End Sym.
Lemma to32_neg (x : f64) : to32 (fneg x) = fneg (to32 x).
Proof.
  destruct x as [s|s| |s m ex Hb]; try reflexivity. unfold to32, fcast, fneg. cbn [Bopp].
  pose proof (binary_normalize_correct 24 128 _ _ mode_NE (cond_Zopp s (Zpos m)) ex s) as C1.
  pose proof (binary_normalize_correct 24 128 _ _ mode_NE (cond_Zopp (negb s) (Zpos m)) ex (negb s)) as C2.
  cbv zeta in C1, C2. change (round_mode mode_NE) with ZnearestE in *.
  set (r := F2R (Float radix2 (cond_Zopp s (Z.pos m)) ex)) in *.
  assert (E : F2R (Float radix2 (cond_Zopp (negb s) (Z.pos m)) ex) = - r).
  { unfold r. rewrite <- F2R_Zopp. f_equal. f_equal. destruct s; reflexivity. }
  rewrite E in C2. change (round radix2 (SpecFloat.fexp 24 128) ZnearestE) with rnd32 in *.
  assert (NR : r <> 0) by (unfold r; intro K; apply eq_0_F2R in K; destruct s; discriminate).
  assert (SG : Rlt_bool (- r) 0 = negb (Rlt_bool r 0)).
  { destruct (Rtotal_order r 0) as [H|[H|H]]; [|congruence|].
    - rewrite (Rlt_bool_true r 0 H), Rlt_bool_false by lra. reflexivity.
    - rewrite (Rlt_bool_true (- r) 0) by lra. rewrite Rlt_bool_false by lra. reflexivity. }
  assert (SC : match Rcompare (- r) 0 with Eq => negb s | Lt => true | Gt => false end = negb (match Rcompare r 0 with Eq => s | Lt => true | Gt => false end)).
  { destruct (Rtotal_order r 0) as [H|[H|H]]; [|congruence|].
    - rewrite (Rcompare_Lt r 0 H), Rcompare_Gt by lra. reflexivity.
    - rewrite (Rcompare_Gt r 0 H), Rcompare_Lt by lra. reflexivity. }
  rewrite (rnd_opp (prec:=24) (emax:=128)), Rabs_Ropp in C2.
  destruct (Rlt_bool (Rabs (rnd32 r)) _).
  - destruct C1 as (A1 & A2 & A3), C2 as (B1 & B2 & B3).
    apply (neg_eq (p:=24) (e:=128)); [exact B2|exact A2|rewrite A1, B1; reflexivity|]. rewrite A3, B3. exact SC.
  - apply (binary_overflow_neg (p:=24) (e:=128) (Rlt_bool r 0)); [|exact C1]. rewrite C2, SG. reflexivity.
Qed.

Lemma hp_antisym m fc r : let c := hc_a (hp_coeffs (A64 m) to32 fc r) in c3 c = fneg (c0 c) /\ c1 c = fneg (c2 c).
Proof.
  unfold hp_coeffs, hp_a0, hp_a1, hp_a2, hp_a3. cbn [hc_a c0 c1 c2 c3 a_div a_neg a_Z A64].
  split; rewrite fdiv_neg_l, to32_neg; reflexivity.
Qed.
Lemma hp_antisym_hist m fc r l : let c := hc_a (hp_coeff (fold_left (hp_op m) l (hp_new m fc r))) in c3 c = fneg (c0 c) /\ c1 c = fneg (c2 c).
Proof.
  pose proof (hp_hist_inv m (hp_new m fc r) l (hp_new_inv m fc r)) as [_ E]. rewrite E. apply hp_antisym.
Qed.
