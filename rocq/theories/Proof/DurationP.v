(** * Seconds to nanoseconds: floor, or nearest with ties to even *)
From Coq Require Import ZArith List Bool Reals Lra Lia.
From Flocq Require Import Core.Core IEEE754.BinarySingleNaN.
From Verif Require Import Model.Floats Model.Utils Proof.FloatFacts Proof.SampleFormatP Proof.FormatsP Proof.UtilsP Proof.ModifiersP.
Import ListNotations.
Local Open Scope R_scope.

Lemma div_ne_nearest a k : (0 <= k)%Z -> div_ne a k = ZnearestE (IZR a / bpow radix2 k).
Proof.
  intro Hk. assert (P : (0 < 2 ^ k)%Z) by (apply Z.pow_pos_nonneg; lia). assert (P' : 0 < IZR (2 ^ k)) by (apply IZR_lt; exact P). rewrite <- IZR_pow2 by exact Hk.
  set (b := (2 ^ k)%Z) in *. assert (F : Zfloor (IZR a / IZR b) = (a / b)%Z) by (apply Zfloor_div; lia).
  assert (E : IZR a / IZR b - IZR (a / b) = IZR (a mod b) / IZR b) by (rewrite (Z.div_mod a b) at 1 by lia; rewrite plus_IZR, mult_IZR; field; lra).
  assert (M := Z.mod_pos_bound a b P). unfold div_ne. cbv zeta. fold b. unfold Znearest. rewrite F, E.
  assert (C1 : (0 < a mod b)%Z -> Zceil (IZR a / IZR b) = (a / b + 1)%Z).
  { intro H. rewrite Zceil_floor_neq, F; [reflexivity|]. rewrite F. intro Q. assert (Z0 : IZR (a mod b) / IZR b = 0) by lra. assert (0 < IZR (a mod b) / IZR b) by (apply Rdiv_lt_0_compat; [apply IZR_lt, H|exact P']). lra. }
  assert (T : IZR (a mod b) / IZR b - / 2 = IZR (2 * (a mod b) - b) / (2 * IZR b)) by (rewrite minus_IZR, mult_IZR; field; lra).
  assert (B2 : 0 < 2 * IZR b) by lra.
  destruct (Z.ltb_spec (2 * (a mod b)) b) as [H | H].
  - rewrite Rcompare_Lt; [reflexivity|]. assert (IZR (2 * (a mod b) - b) / (2 * IZR b) < 0); [|lra]. apply Rmult_lt_reg_r with (2 * IZR b); [exact B2|]. unfold Rdiv. rewrite Rmult_assoc, Rinv_l, Rmult_1_r, Rmult_0_l by lra. apply IZR_lt. lia.
  - destruct (Z.ltb_spec b (2 * (a mod b))) as [H' | H'].
    + rewrite Rcompare_Gt, C1; [reflexivity|lia|]. assert (0 < IZR (2 * (a mod b) - b) / (2 * IZR b)) by (apply Rdiv_lt_0_compat; [apply IZR_lt; lia|exact B2]). lra.
    + rewrite Rcompare_Eq by (replace (2 * (a mod b) - b)%Z with 0%Z in T by lia; unfold Rdiv in T at 2; rewrite Rmult_0_l in T; lra). rewrite C1 by lia. destruct (Z.even (a / b)); reflexivity.
Qed.
Lemma nanos_exact (x : f64) : fin x -> 0 <= B2R x ->
  nanos_of_f64 ExactTrunc x = Ok (Zfloor (B2R x * 1000000000)) /\ nanos_of_f64 ExactNearest x = Ok (ZnearestE (B2R x * 1000000000)).
Proof.
  intros Fx Hx. destruct x as [s|s| |s m e Hb]; try discriminate.
  { cbn [nanos_of_f64 B2R]. rewrite Rmult_0_l. rewrite (Zfloor_IZR 0), (Znearest_imp _ 0 0); [split; reflexivity|]. rewrite Rminus_0_r, Rabs_R0. lra. }
  assert (s = false) as -> by (destruct s; [exfalso|reflexivity]; assert (F2R (Float radix2 (Zneg m) e) < 0) by (apply F2R_lt_0; reflexivity); simpl in Hx; lra).
  cbn [nanos_of_f64]. unfold GIGA. change (B2R (B754_finite false m e Hb)) with (IZR (Zpos m) * bpow radix2 e). destruct (Z.leb_spec 0 e) as [He|He].
  - replace (IZR (Zpos m) * bpow radix2 e * 1000000000) with (IZR (Zpos m * 2 ^ e * 1000000000)) by (rewrite !mult_IZR, IZR_pow2 by exact He; reflexivity).
    rewrite Zfloor_IZR, (Znearest_imp _ _ (Zpos m * 2 ^ e * 1000000000)); [split; reflexivity|]. rewrite Rminus_diag_eq, Rabs_R0 by reflexivity. lra.
  - replace (IZR (Zpos m) * bpow radix2 e * 1000000000) with (IZR (Zpos m * 1000000000) / bpow radix2 (- e)) by (rewrite mult_IZR; unfold Rdiv; rewrite <- bpow_opp, Z.opp_involutive; ring).
    rewrite div_ne_nearest by lia. rewrite <- IZR_pow2 by lia. rewrite Zfloor_div by (assert (0 < 2 ^ (- e))%Z by (apply Z.pow_pos_nonneg; lia); lia). split; reflexivity.
Qed.
Lemma nanos_mul (x : f64) : fin x -> 0 <= B2R x <= bpow radix2 64 -> nanos_of_f64 MulTrunc x = Ok (Zfloor (rnd64 (B2R x * 1000000000))).
Proof.
  intros Fx Hx. destruct GIGA_ok as [FG VG]. cbn [nanos_of_f64]. change (bpow radix2 64) with 18446744073709551616 in Hx.
  destruct (fmul_le x (of_Z GIGA) (bpow radix2 100) Fx FG) as (A & B & C); [apply fmt64_b; lia|apply bpow_lt; lia| |].
  { rewrite VG, Rabs_pos_eq by lra. change (bpow radix2 100) with 1267650600228229401496703205376. lra. }
  rewrite VG in B. assert (P : 0 <= B2R (fmul x (of_Z GIGA))) by (rewrite B; apply rnd_nonneg; lra).
  rewrite A. rewrite (proj2 (fle_true f0 _ eq_refl A)) by exact P. cbn [andb]. rewrite Btrunc_Ztrunc, B, Ztrunc_floor by (rewrite <- B; exact P). reflexivity.
Qed.
Lemma from_secs_exact (md : dur_mode) (x : f64) : fin x -> 0 <= B2R x < bpow radix2 63 ->
  let n := match md with MulTrunc => Zfloor (rnd64 (B2R x * 1000000000)) | ExactTrunc => Zfloor (B2R x * 1000000000) | ExactNearest => ZnearestE (B2R x * 1000000000) end in
  from_secs_f64 md x = Ok (mkDur (n / 1000000000) (n mod 1000000000)).
Proof.
  intros Fx [Hx Hx1] n. change (bpow radix2 63) with 9223372036854775808 in Hx1.
  assert (E : nanos_of_f64 md x = Ok n) by (destruct (nanos_exact x Fx Hx) as [A B]; destruct md; [apply nanos_mul; [exact Fx|change (bpow radix2 64) with 18446744073709551616; lra]|exact A|exact B]).
  assert (S1 : rnd64 (B2R x * 1000000000) <= bpow radix2 93). { apply (rnd_le_fmt (prec:=53) (emax:=1024)); [apply fmt64_b; lia|]. change (bpow radix2 93) with 9903520314283042199192993792. lra. }
  change (bpow radix2 93) with 9903520314283042199192993792 in S1.
  assert (L : (n < 2 ^ 64 * GIGA)%Z).
  { unfold GIGA. apply lt_IZR. change (IZR (2 ^ 64 * 1000000000)) with 18446744073709551616000000000. unfold n. destruct md.
    - pose proof (Zfloor_lb (rnd64 (B2R x * 1000000000))). lra.
    - pose proof (Zfloor_lb (B2R x * 1000000000)). lra.
    - pose proof (Znearest_half (fun z => negb (Z.even z)) (B2R x * 1000000000)) as H. apply Rabs_le_inv in H. lra. }
  unfold from_secs_f64. rewrite E. cbn [bind]. destruct (Z.ltb_spec n (2 ^ 64 * GIGA)); [reflexivity|lia].
Qed.
