(** * An echo turns a tone into a tone *)
From Coq Require Import ZArith List Bool Reals Lra Lia Psatz.
From Flocq Require Import Core.Core IEEE754.BinarySingleNaN.
From Verif Require Import Model.Floats Model.Utils Model.Modifiers Model.Filters Model.Parts Spec.Libm Spec.Response Spec.Track Spec.Comb Spec.Taps Spec.Chain
  Proof.FloatFacts Proof.SampleFormatP Proof.FormatsP Proof.ModifiersP Proof.FilterNanP Proof.CombP Proof.GenericP Proof.ResponseP Proof.ResponseP2 Proof.ChainP Proof.ChainP2 Proof.TapsP2.
Import ListNotations.
Local Open Scope R_scope.

Lemma below_one (g : f32) : Rabs (B2R g) < 1 -> bpow radix2 (-24) <= 1 - Rabs (B2R g).
Proof.
  intro H. assert (P : Rabs (B2R g) <= pred radix2 (SpecFloat.fexp 24 128) (bpow radix2 0)).
  { apply pred_ge_gt; [typeclasses eauto|apply generic_format_abs, fmt_B2R|apply generic_format_bpow; vm_compute; discriminate|exact H]. }
  rewrite pred_bpow in P. change (SpecFloat.fexp 24 128 0) with (-24)%Z in P. change (bpow radix2 0) with 1 in P. lra.
Qed.
Lemma power_f32 e : (-149 <= e < 128)%Z -> exists B : f32, fin B /\ B2R B = bpow radix2 e.
Proof.
  intro H. assert (F : generic_format radix2 (SpecFloat.fexp 24 128) (bpow radix2 e)) by (apply fmt32_b; lia).
  exists (binary_normalize 24 128 eq_refl eq_refl mode_NE 1 e false).
  pose proof (binary_normalize_correct 24 128 eq_refl eq_refl mode_NE 1 e false) as C.
  assert (E : F2R {| Fnum := 1; Fexp := e |} = bpow radix2 e) by (unfold F2R; cbn [Fnum Fexp]; apply Rmult_1_l).
  cbv zeta in C. rewrite E in C. assert (RG : rnd32 (bpow radix2 e) = bpow radix2 e) by (apply round_generic; [typeclasses eauto|exact F]).
  cbn [round_mode] in C. rewrite RG in C. rewrite Rlt_bool_true in C; [destruct C as (V & FF & _); exact (conj FF V)|].
  rewrite Rabs_pos_eq by apply bpow_ge_0. apply bpow_lt. lia.
Qed.
(** the response of the recurrence solves it *)
Lemma echo_H_eq g z (w : C) : Rabs g < 1 -> fst z * fst z + snd z * snd z = 1 ->
  let W := cmul (cinv (csub (cre 1) (cmul (cre g) z))) w in W = cadd w (cmul (cre g) (cmul z W)).
Proof.
  intros G Z. destruct z as [a b]. destruct w as [u v]. cbn [fst snd] in Z.
  assert (G2 : -1 < g < 1) by (apply Rabs_lt_inv in G; lra).
  assert (A1 : -1 <= a <= 1) by nra.
  assert (P : 0 < (1 - g * a) * (1 - g * a) + g * b * (g * b)).
  { assert (g * a < 1) by nra. assert (0 < (1 - g * a) * (1 - g * a)) by (apply Rmult_lt_0_compat; lra). pose proof (Rle_0_sqr (g * b)). unfold Rsqr in *. lra. }
  cbv zeta. unfold cmul, cinv, csub, cadd, cre, cn2. cbn [fst snd]. f_equal; field; nra.
Qed.

Lemma echo_passes m om w K rho X d g : 0 <= K -> 0 <= rho < 1 -> bpow radix2 (-100) <= X <= bpow radix2 90 -> l_ok m (LEcho d g) -> passes m om w K rho X (LEcho d g).
Proof.
  intros HK Hr HX (NE & Fg & G1). set (n := length (e_delay (echo_new d g))). set (gf := to32 g) in *. set (G := B2R gf) in *. set (a := Rabs G) in *.
  assert (a0 : 0 <= a) by apply Rabs_pos. assert (HG := below_one gf G1). fold G a in HG.
  assert (Hn : (0 < n)%nat) by (unfold n; destruct (e_delay (echo_new d g)); [congruence|simpl; lia]).
  set (e := 1 - a) in *. assert (e0 : 0 < e <= 1) by (pose proof (bpow_gt_0 radix2 (-24)); unfold e in *; lra).
  assert (XP : 0 < X) by (pose proof (bpow_gt_0 radix2 (-100)); lra).
  set (W := cmul (l_H m (LEcho d g) om) w).
  assert (N1 : 1 <= INR n) by (replace 1 with (INR 1) by reflexivity; apply le_INR; lia).
  set (t := e / (2 * INR n)). assert (T0 : 0 < t) by (unfold t; apply Rdiv_lt_0_compat; lra).
  assert (NT : INR n * t = e / 2) by (unfold t; field; lra).
  assert (T1 : t <= / 2) by nra.
  set (r := Rmax rho (1 - t)). assert (R1 : rho <= r) by apply Rmax_l. assert (R2 : 1 - t <= r) by apply Rmax_r. assert (R3 : r < 1) by (apply Rmax_lub_lt; lra).
  assert (RN : 1 - e / 2 <= r ^ n).
  { apply Rle_trans with ((1 - t) ^ n); [rewrite <- NT; apply bernoulli; lra|apply pow_incr; lra]. }
  set (K' := 2 * (K + X + csum W) / e). pose proof (csum_pos W) as C0.
  assert (KE : K' * e = 2 * (K + X + csum W)) by (unfold K'; field; lra).
  assert (K0 : 0 <= K') by (unfold K'; apply Rmult_le_pos; [lra|left; apply Rinv_0_lt_compat; lra]).
  exists K', r. split; [exact K0|]. split; [lra|]. intros eps xs He N.
  (* a power of two that bounds the output *)
  set (B0 := X / e). assert (BE : B0 * e = X) by (unfold B0; field; lra).
  assert (BP : X <= B0) by (assert (0 <= B0) by (unfold B0; apply Rmult_le_pos; [lra|left; apply Rinv_0_lt_compat; lra]); nra).
  assert (BU : B0 <= bpow radix2 114).
  { assert (B0 * bpow radix2 (-24) <= bpow radix2 90) by (apply Rle_trans with (B0 * e); [apply Rmult_le_compat_l; lra|lra]).
    apply Rmult_le_reg_r with (bpow radix2 (-24)); [apply bpow_gt_0|]. rewrite <- bpow_plus. exact H. }
  destruct (mag radix2 B0) as (ex & HE0). assert (HE := HE0 ltac:(lra)). rewrite Rabs_pos_eq in HE by lra. clear HE0.
  assert (E1 : (ex <= 115)%Z) by (assert (ex - 1 < 115)%Z; [apply (lt_bpow radix2); apply Rle_lt_trans with B0; [apply HE|]; apply Rle_lt_trans with (1 := BU); apply bpow_lt; lia|lia]).
  assert (E2 : (-100 < ex)%Z) by (apply (lt_bpow radix2); lra).
  destruct (power_f32 ex ltac:(lia)) as (B & FB & VB).
  assert (B2 : B2R B <= 2 * B0) by (rewrite VB; replace ex with (ex - 1 + 1)%Z by lia; rewrite bpow_plus; change (bpow radix2 1) with 2; lra).
  destruct (echo_tracks n gf X B xs Hn Fg FB) as (ys & e' & E & L & Y).
  { rewrite VB. apply bpow_le. lia. } { lra. } { exact G1. }
  { fold G a. rewrite VB. assert (B0 * e <= bpow radix2 ex * e) by (apply Rmult_le_compat_r; lra). unfold e in *. lra. }
  { exact (near_in _ _ _ _ _ _ _ N). }
  exists ys, (MEcho e').
  assert (EQ : echo_new d g = mkEcho (repeat f0 n) gf) by (unfold n, echo_new, zeros; cbn [e_delay]; rewrite repeat_length; reflexivity).
  split; [cbn [l_part]; rewrite EQ, (wrap_res echo_process MEcho m (fun s x => eq_refl)), E; reflexivity|]. split; [exact L|].
  cbn [l_gain l_drift]. fold gf G a e. set (x := fun i => B2R (nth i xs f0)) in *.
  assert (NX : forall i, (i < length xs)%nat -> Rabs (x i) <= X /\ Rabs (x i - tone om w i) <= eps + K * rho ^ i).
  { intros i Hi. destruct (N i (nth i xs f0) (List.nth_error_nth' xs f0 Hi)) as (_ & Q). exact Q. }
  assert (DB : bpow radix2 (-22) * B2R B / (1 - Rabs (B2R gf)) <= bpow radix2 (-21) / (e * e) * X).
  { fold G a e. replace (bpow radix2 (-21) / (e * e) * X) with (bpow radix2 (-22) * (2 * B0) / e).
    - apply Rmult_le_compat_r; [left; apply Rinv_0_lt_compat; lra|]. apply Rmult_le_compat_l; [apply bpow_ge_0|exact B2].
    - unfold B0. change (bpow radix2 (-21)) with (bpow radix2 (-22 + 1)). rewrite bpow_plus. change (bpow radix2 1) with 2. field. lra. }
  assert (EX : eps * / e = eps + a * (eps * / e)).
  { assert (eps * / e * e = eps) by (field; lra). unfold e in *. nra. }
  set (V := eps * / e) in *. assert (V0 : 0 <= V) by (unfold V; apply Rmult_le_pos; [lra|left; apply Rinv_0_lt_compat; lra]).
  assert (WEQ : W = cadd w (cmul (cre G) (cmul (zi (om * INR n)) W))).
  { unfold W at 1 2. cbn [l_H]. fold gf G. fold n. apply echo_H_eq; [exact G1|]. unfold zi. cbn [fst snd]. pose proof (sin2_cos2 (om * INR n)) as Q. unfold Rsqr in Q. lra. }
  assert (WT : forall k, tone om W (n + k) = tone om w (n + k) + G * tone om W k).
  { intro k. rewrite WEQ at 1. rewrite tone_add, tone_scale, tone_delay. reflexivity. }
  assert (ALL : forall k, (k < length xs)%nat -> Rabs (comb n G x k) <= B0 /\ Rabs (comb n G x k - tone om W k) <= V + K' * r ^ k).
  { intro k. induction k as [k IH] using lt_wf_ind. intro Hk. destruct (NX k Hk) as [A D].
    assert (PR : forall i, 0 < r ^ i) by (intro i; apply pow_lt; lra).
    destruct (Nat.lt_ge_cases k n) as [C|C].
    - rewrite comb_small by exact C. split; [lra|].
      assert (PJ : r ^ n <= r ^ k).
      { replace n with (k + (n - k))%nat by lia. rewrite pow_add. rewrite <- (Rmult_1_r (r ^ k)) at 2. apply Rmult_le_compat_l; [left; apply PR|]. rewrite <- (pow1 (n - k)). apply pow_incr. lra. }
      assert (H2 : / 2 <= r ^ k) by lra. pose proof (tone_csum om W k) as TC.
      assert (K2 : X + csum W <= K' * / 2) by (assert (K' * e <= K' * 1) by (apply Rmult_le_compat_l; lra); lra).
      assert (K' * / 2 <= K' * r ^ k) by (apply Rmult_le_compat_l; lra).
      apply Rabs_le. apply Rabs_le_inv in A, TC. lra.
    - rewrite comb_rec by lia. destruct (IH (k - n)%nat ltac:(lia) ltac:(lia)) as [IA ID].
      assert (GA : Rabs (G * comb n G x (k - n)) <= a * B0) by (rewrite Rabs_mult; apply Rmult_le_compat_l; assumption).
      assert (GD : Rabs (G * (comb n G x (k - n) - tone om W (k - n))) <= a * (V + K' * r ^ (k - n))) by (rewrite Rabs_mult; apply Rmult_le_compat_l; assumption).
      split; [apply Rabs_le; apply Rabs_le_inv in A, GA; unfold e in BE; lra|].
      assert (TT : tone om W k = tone om w k + G * tone om W (k - n)) by (rewrite <- (WT (k - n)%nat) || idtac; replace k with (n + (k - n))%nat at 1 2 by lia; apply WT).
      rewrite TT.
      assert (PI' : rho ^ k <= r ^ k) by (apply pow_incr; lra).
      assert (KR : K * rho ^ k <= K * r ^ k) by (apply Rmult_le_compat_l; assumption).
      assert (EJ : r ^ k = r ^ n * r ^ (k - n)) by (rewrite <- pow_add; f_equal; lia).
      specialize (PR (k - n)%nat). set (P := r ^ (k - n)) in *. set (Q := r ^ n) in *.
      assert (Q1 : Q <= 1) by (unfold Q; rewrite <- (pow1 n); apply pow_incr; lra).
      assert (S1 : K * Q + a * K' <= K' * Q).
      { assert (K * Q <= K * 1) by (apply Rmult_le_compat_l; assumption). assert (K' * (1 - e / 2) <= K' * Q) by (apply Rmult_le_compat_l; assumption). unfold e in *. lra. }
      assert (S2 : (K * Q + a * K') * P <= K' * Q * P) by (apply Rmult_le_compat_r; lra).
      rewrite EJ in KR |- *. apply Rabs_le. apply Rabs_le_inv in D, GD. lra. }
  intros j y Hj. assert (HL : (j < length xs)%nat) by (rewrite <- L; apply nth_error_Some; congruence).
  destruct (Y j HL) as [FY DY]. apply (List.nth_error_nth _ _ f0) in Hj. rewrite Hj in FY, DY. destruct (ALL j HL) as [A D].
  split; [exact FY|]. fold G in DY. assert (DY2 : Rabs (B2R y - comb n G x j) <= bpow radix2 (-21) / (e * e) * X) by (eapply Rle_trans; [exact DY|exact DB]).
  fold W. set (dd := bpow radix2 (-21) / (e * e)) in *.
  split.
  - assert (B0 = / e * X) by (unfold B0; field; lra). apply Rabs_le. apply Rabs_le_inv in DY2, A. lra.
  - replace (/ e * eps) with V by (unfold V; ring). apply Rabs_le. apply Rabs_le_inv in DY2, D. lra.
Qed.

Lemma taps_passes m om w K rho X z p : 0 <= K -> 0 <= rho < 1 -> bpow radix2 (-100) <= X <= bpow radix2 90 -> l_ok m (LTaps z p) -> passes m om w K rho X (LTaps z p).
Proof.
  intros HK Hr HX OK. destruct (taps_tone z p om w K rho X OK HK Hr HX) as (K' & rho' & A & B & T). exists K', rho'. split; [exact A|]. split; [exact B|].
  intros eps xs He N. destruct (T eps xs He N) as (ys & s & E & L & NT). exists ys, (MGeneric s). split; [|split; [exact L|exact NT]].
  cbn [l_part]. rewrite (wrap_res generic_process MGeneric m (fun s x => eq_refl)), E. reflexivity.
Qed.

(** ** any part *)
Lemma part_passes m om w K rho X p : cos_accurate m -> pow_int_accurate m -> tan_accurate m ->
  0 <= K -> 0 <= rho < 1 -> bpow radix2 (-100) <= X <= bpow radix2 90 -> l_ok m p -> passes m om w K rho X p.
Proof.
  intros HC HP HT HK Hr HX OK. destruct p as [|a|d|d g|fc r|fc r|f q|z p].
  - apply pass_passes; assumption.
  - apply gain_passes; assumption.
  - apply delay_passes; assumption.
  - apply echo_passes; assumption.
  - apply low_passes; assumption.
  - apply high_passes; assumption.
  - apply band_passes; assumption.
  - apply taps_passes; assumption.
Qed.
