(** * HighPass at 130 Hz, resonance 0, in f32: a constant input is not removed *)
From Coq Require Import ZArith NArith List Bool Reals Lra Lia Psatz Floats.SpecFloat.
From Flocq Require Import Core.Core IEEE754.BinarySingleNaN.
From Verif Require Import Model.Floats Model.Modifiers Model.Filters Spec.Libm Proof.FloatFacts Proof.SampleFormatP Proof.FormatsP
  Proof.GenericP Proof.GeneratorsP4 Proof.SpecFloatP Proof.FiltersP Proof.FiltersP2 Proof.FilterNanP.
Import ListNotations.
Local Open Scope R_scope.

(** ** the coefficients at 130 Hz, resonance 0 *)
Local Notation t130 := (lit 4904804841406385 (-58) : f64).
Local Notation th0 := (lit 4716158501352293 (-51) : f64).
Definition cl0 : f64 := lit (-2147483649) (-32).
Definition ch0 : f64 := lit (-2147483647) (-32).
Definition r2l : f64 := lit 5341751603778697 (-64).
Definition r2h : f64 := lit 5341751603778708 (-64).
Definition r3l : f64 := lit 5817623966520652 (-70).
Definition r3h : f64 := lit 5817623966520663 (-70).
Definition kl0 : f64 := fsub (of_Z 1) (fmul (of_Z 2) ch0).
Definition kh0 : f64 := fsub (of_Z 1) (fmul (of_Z 2) cl0).
Definition gl0 : f64 := fadd (fadd (fadd r3l (fmul kl0 r2l)) (fmul kl0 t130)) (of_Z 1).
Definition gh0 : f64 := fadd (fadd (fadd r3h (fmul kh0 r2h)) (fmul kh0 t130)) (of_Z 1).
Definition m1l : f64 := fadd (fadd (fmul kl0 r2l) (fmul (fmul (of_Z 2) kl0) t130)) (of_Z 3).
Definition m1h : f64 := fadd (fadd (fmul kh0 r2h) (fmul (fmul (of_Z 2) kh0) t130)) (of_Z 3).
Definition m2l : f64 := fsub (fmul (fneg kh0) t130) (of_Z 3).
Definition m2h : f64 := fsub (fmul (fneg kl0) t130) (of_Z 3).

Section Pin.
Variable m : libm.
Hypothesis HC : cos_accurate m.
Hypothesis HP : pow_int_accurate m.
Let A := A64 m.
Lemma t130_eq : bw_t A (of_Z 130) = t130.
Proof. unfold A, bw_t. cbn [a_mul a_Z a_pi a_inv A64]. apply B2SF_inj. vmr. Qed.
Lemma th0_eq : hp_theta A f0 = th0.
Proof. unfold A, hp_theta. cbn [a_mul a_div a_sub a_Z a_pi a_inv A64]. apply B2SF_inj. vmr. Qed.
Lemma t130_R : fin t130 /\ B2R t130 = 4904804841406385 * bpow radix2 (-58).
Proof. apply lit64_R. vmr. Qed.
Lemma cos0_bw : bw cl0 ch0 (cos64 m th0).
Proof.
  assert (T : fin th0 /\ B2R th0 = 4716158501352293 * bpow radix2 (-51)) by (apply lit64_R; vmr).
  destruct T as [FT RT]. change (bpow radix2 (-51)) with (/ 2251799813685248) in RT.
  pose proof PI_bounds as PB.
  destruct (HC th0 FT) as [FC EC]; [rewrite RT; apply Rabs_le; lra|].
  assert (C23 : cos (2 * (PI / 3)) = -1 / 2) by (rewrite cos_2PI3; lra).
  assert (L : Rabs (cos (B2R th0) + 1 / 2) <= / 5000000000).
  { replace (cos (B2R th0) + 1 / 2) with (cos (B2R th0) - cos (2 * (PI / 3))) by (rewrite C23; field).
    eapply Rle_trans; [apply cos_lip|]. rewrite RT. apply Rabs_le. lra. }
  assert (VL : fin cl0 /\ B2R cl0 = - (4503599629467648 * bpow radix2 (-53))) by (apply lit64_Rn; vmr).
  assert (VH : fin ch0 /\ B2R ch0 = - (9007199250546688 * bpow radix2 (-54))) by (apply lit64_Rn; vmr).
  destruct VL as [FL VL]. destruct VH as [FH VH]. change (bpow radix2 (-50)) with (/ 1125899906842624) in EC.
  change (bpow radix2 (-53)) with (/ 9007199254740992) in VL. change (bpow radix2 (-54)) with (/ 18014398509481984) in VH.
  apply Rabs_le_inv in EC. apply Rabs_le_inv in L. unfold bw. rewrite VL, VH. repeat split; try assumption; lra.
Qed.
Lemma k0_bw : bw kl0 kh0 (bw_k A th0).
Proof.
  unfold bw_k, A. cbn [a_sub a_mul a_cos a_Z A64]. unfold kl0, kh0.
  apply bw_sub; [apply bw_point; vmr| |vmr|vmr]. apply bw_mulc; [vmr|vmr|apply cos0_bw|vmr|vmr].
Qed.
Lemma pow0_bw (n : Z) (l h : f64) (a b : positive) (ex : Z) : (2 <= n <= 3)%Z ->
  B2SF l = SpecFloat.S754_finite false a ex -> B2SF h = SpecFloat.S754_finite false b ex ->
  IZR (Zpos a) * bpow radix2 ex <= B2R t130 ^ Z.to_nat n * (1 - bpow radix2 (-50)) ->
  B2R t130 ^ Z.to_nat n * (1 + bpow radix2 (-50)) <= IZR (Zpos b) * bpow radix2 ex ->
  bw l h (pow64 m t130 (of_Z n)).
Proof.
  intros Hn EL EH IL IH. destruct (lit64_R _ _ _ EL) as [FL VL]. destruct (lit64_R _ _ _ EH) as [FH VH].
  destruct t130_R as [FT RT]. destruct (HP t130 n FT) as [FP EP]; [|exact Hn|].
  { rewrite RT. change (bpow radix2 (-58)) with (/ 288230376151711744). split; [|lra].
    apply Rle_trans with (bpow radix2 (-10)); [apply bpow_le; lia|]. change (bpow radix2 (-10)) with (/ 1024). lra. }
  apply Rabs_le_inv in EP. unfold bw. rewrite VL, VH. repeat split; try assumption; lra.
Qed.
Lemma p20_bw : bw r2l r2h (pow64 m t130 (of_Z 2)).
Proof.
  destruct t130_R as [_ RT].
  apply (pow0_bw 2 r2l r2h 5341751603778697 5341751603778708 (-64)); [lia|vmr|vmr| |]; rewrite RT; change (Z.to_nat 2) with 2%nat;
    change (bpow radix2 (-58)) with (/ 288230376151711744); change (bpow radix2 (-64)) with (/ 18446744073709551616);
    change (bpow radix2 (-50)) with (/ 1125899906842624); lra.
Qed.
Lemma p30_bw : bw r3l r3h (pow64 m t130 (of_Z 3)).
Proof.
  destruct t130_R as [_ RT].
  apply (pow0_bw 3 r3l r3h 5817623966520652 5817623966520663 (-70)); [lia|vmr|vmr| |]; rewrite RT; change (Z.to_nat 3) with 3%nat;
    change (bpow radix2 (-58)) with (/ 288230376151711744); change (bpow radix2 (-70)) with (/ 1180591620717411303424);
    change (bpow radix2 (-50)) with (/ 1125899906842624); lra.
Qed.
Lemma t130_bw : bw t130 t130 t130.
Proof. apply bw_point. vmr. Qed.
Lemma g0_bw : bw gl0 gh0 (bw_g A (bw_k A th0) t130).
Proof.
  unfold bw_g. set (k := bw_k A th0). unfold A. cbn [a_add a_mul a_pow a_Z A64]. unfold gl0, gh0.
  apply bw_add; [|apply bw_point; vmr|vmr|vmr]. apply bw_add; [| |vmr|vmr].
  - apply bw_add; [exact p30_bw| |vmr|vmr]. apply bw_mul; [exact k0_bw|exact p20_bw|vmr..].
  - apply bw_mul; [exact k0_bw|exact t130_bw|vmr..].
Qed.
Lemma m1_bw : let k := bw_k A th0 in bw m1l m1h (a_add A (a_add A (a_mul A k (a_pow A t130 2)) (a_mul A (a_mul A (a_Z A 2) k) t130)) (a_Z A 3)).
Proof.
  intro k. unfold A. cbn [a_add a_mul a_pow a_Z A64]. unfold m1l, m1h.
  apply bw_add; [|apply bw_point; vmr|vmr|vmr]. apply bw_add; [| |vmr|vmr].
  - apply bw_mul; [exact k0_bw|exact p20_bw|vmr..].
  - apply bw_mul; [|exact t130_bw|vmr..]. apply bw_mulc; [vmr|vmr|exact k0_bw|vmr|vmr].
Qed.
Lemma m2_bw : let k := bw_k A th0 in bw m2l m2h (a_sub A (a_mul A (a_neg A k) t130) (a_Z A 3)).
Proof.
  intro k. unfold A. cbn [a_sub a_mul a_neg a_Z A64]. unfold m2l, m2h.
  apply bw_sub; [|apply bw_point; vmr|vmr|vmr]. apply bw_mul_np; [apply bw_neg; exact k0_bw|exact t130_bw|vmr..].
Qed.
Definition b1G : f32 := lit 12440184 (-22).
Definition b2G : f32 := lit (-12299864) (-22).
Definition b3G : f32 := lit 16215855 (-24).
Definition a2G : f32 := lit 12161892 (-22).
Lemma b1G_pin : to32 (bw_b1 A (bw_k A th0) t130) = b1G.
Proof.
  transitivity (to32 (fdiv m1l gh0)); [|apply B2SF_inj; vmr].
  apply (bw_cast _ (fdiv m1h gl0)); [|vmr..]. unfold bw_b1. apply bw_div; [exact m1_bw|exact g0_bw|vmr..].
Qed.
Lemma b2G_pin : to32 (bw_b2 A (bw_k A th0) t130) = b2G.
Proof.
  transitivity (to32 (fdiv m2l gl0)); [|apply B2SF_inj; vmr].
  apply (bw_cast _ (fdiv m2h gh0)); [|vmr..]. unfold bw_b2. apply bw_div_np; [exact m2_bw|exact g0_bw|vmr..].
Qed.
Lemma b3G_pin : to32 (bw_b3 A (bw_k A th0) t130) = b3G.
Proof.
  transitivity (to32 (fdiv (of_Z 1) gh0)); [|apply B2SF_inj; vmr].
  apply (bw_cast _ (fdiv (of_Z 1) gl0)); [|vmr..]. unfold bw_b3. apply bw_div; [apply bw_point; vmr|exact g0_bw|vmr..].
Qed.
Lemma a1G_pin : to32 (hp_a1 A (bw_k A th0) t130) = fneg a2G.
Proof.
  transitivity (to32 (fdiv (fneg (of_Z 3)) gl0)); [|apply B2SF_inj; vmr].
  apply (bw_cast _ (fdiv (fneg (of_Z 3)) gh0)); [|vmr..]. unfold hp_a1. apply bw_div_np; [apply bw_point; vmr|exact g0_bw|vmr..].
Qed.
Lemma a2G_pin : to32 (hp_a2 A (bw_k A th0) t130) = a2G.
Proof.
  transitivity (to32 (fdiv (of_Z 3) gh0)); [|apply B2SF_inj; vmr].
  apply (bw_cast _ (fdiv (of_Z 3) gl0)); [|vmr..]. unfold hp_a2. apply bw_div; [apply bw_point; vmr|exact g0_bw|vmr..].
Qed.
Lemma a3G_pin : to32 (hp_a3 A (bw_k A th0) t130) = fneg b3G.
Proof.
  transitivity (to32 (fdiv (fneg (of_Z 1)) gl0)); [|apply B2SF_inj; vmr].
  apply (bw_cast _ (fdiv (fneg (of_Z 1)) gh0)); [|vmr..]. unfold hp_a3. apply bw_div_np; [apply bw_point; vmr|exact g0_bw|vmr..].
Qed.
Lemma hpG_pin : hp_coeffs A to32 (of_Z 130) f0 = mkHPC (mkC b3G (fneg a2G) a2G (fneg b3G)) b1G b2G b3G.
Proof.
  unfold hp_coeffs. cbv zeta. rewrite t130_eq, th0_eq, b1G_pin, b2G_pin, b3G_pin, a1G_pin, a2G_pin, a3G_pin.
  replace (hp_a0 A (bw_k A th0) t130) with (bw_b3 A (bw_k A th0) t130) by reflexivity. rewrite b3G_pin. reflexivity.
Qed.
End Pin.

(** ** simulation to a fixed state *)
Definition hpG_SF : hpc spec_float :=
  mkHPC (mkC (S754_finite false 16215855 (-24)) (S754_finite true 12161892 (-22)) (S754_finite false 12161892 (-22)) (S754_finite true 16215855 (-24)))
       (S754_finite false 12440184 (-22)) (S754_finite true 12299864 (-22)) (S754_finite false 16215855 (-24)).
Definition vSF : spec_float := S754_finite false 13252724 (-30).
Definition fixSF : hist spec_float * hist spec_float := (hist0 oneSF, hist0 vSF).
Definition hpG_sim (n : N) : hist spec_float * hist spec_float :=
  N.iter n (fun h => snd (hp_step SFa SFm hpG_SF h oneSF)) (hist0 (S754_zero false), hist0 (S754_zero false)).
(** a boolean test, so that kernels without a virtual machine evaluate the simulation against a constructor *)
Definition SFeqb (a b : spec_float) : bool :=
  match a, b with
  | S754_zero s, S754_zero s' => Bool.eqb s s'
  | S754_infinity s, S754_infinity s' => Bool.eqb s s'
  | S754_nan, S754_nan => true
  | S754_finite s m e, S754_finite s' m' e' => Bool.eqb s s' && Pos.eqb m m' && Z.eqb e e'
  | _, _ => false
  end.
Lemma SFeqb_eq a b : SFeqb a b = true -> a = b.
Proof.
  destruct a, b; cbn [SFeqb]; intro H; try discriminate; try reflexivity.
  - apply Bool.eqb_prop in H. subst. reflexivity.
  - apply Bool.eqb_prop in H. subst. reflexivity.
  - apply andb_true_iff in H as [H H3]. apply andb_true_iff in H as [H1 H2].
    apply Bool.eqb_prop in H1. apply Pos.eqb_eq in H2. apply Z.eqb_eq in H3. subst. reflexivity.
Qed.
Definition hist_eqb (a b : hist spec_float) : bool := SFeqb (h0 a) (h0 b) && SFeqb (h1 a) (h1 b) && SFeqb (h2 a) (h2 b).
Lemma hist_eqb_eq a b : hist_eqb a b = true -> a = b.
Proof.
  destruct a as [a0 a1 a2], b as [b0 b1 b2]. unfold hist_eqb. cbn [h0 h1 h2]. intro H.
  apply andb_true_iff in H as [H H3]. apply andb_true_iff in H as [H1 H2]. apply SFeqb_eq in H1, H2, H3. subst. reflexivity.
Qed.
Definition fix_reached (p : hist spec_float * hist spec_float) : bool := let '(a, b) := p in hist_eqb a (hist0 oneSF) && hist_eqb b (hist0 vSF).
Lemma hpG_sim_fixb : fix_reached (hpG_sim 15275) = true.
Proof. vm_cast_no_check (eq_refl true). Qed.
Lemma hpG_sim_fix : hpG_sim 15275 = fixSF.
Proof.
  pose proof hpG_sim_fixb as H. revert H. generalize (hpG_sim 15275). intros [a b] H. unfold fix_reached in H.
  apply andb_true_iff in H as [H1 H2]. apply hist_eqb_eq in H1, H2. subst. reflexivity.
Qed.
Lemma hpG_fix_step : fst (hp_step SFa SFm hpG_SF fixSF oneSF) = vSF.
Proof. vm_compute. reflexivity. Qed.
Definition vG : f32 := lit 13252724 (-30).
Lemma vG_SF : B2SF vG = vSF. Proof. vmr. Qed.
Lemma hp_out_SF (c : hpc f32) h x :
  B2SF (fst (hp_step fadd fmul c h x)) = fst (hp_step SFa SFm (hcmap B2SF c) (hmap B2SF (fst h), hmap B2SF (snd h)) (B2SF x)).
Proof.
  destruct h as [xs ys]. unfold hp_step, hp_out, hmap, hcmap, cmap.
  cbn [fst snd h0 h1 h2 c0 c1 c2 c3 hc_a hc_b1 hc_b2 hc_b3]. rewrite !sf_add, !sf_mul. reflexivity.
Qed.
Lemma hist_SF (h : hist f32) a b c : hmap B2SF h = mkH (B2SF a) (B2SF b) (B2SF c) -> h = mkH a b c.
Proof. destruct h as [p q r]. unfold hmap. cbn [h0 h1 h2]. intro E. injection E as E1 E2 E3. apply B2SF_inj in E1, E2, E3. subst. reflexivity. Qed.
Lemma hpG_coeff_SF : hcmap B2SF (mkHPC (mkC b3G (fneg a2G) a2G (fneg b3G)) b1G b2G b3G) = hpG_SF.
Proof. vm_compute. reflexivity. Qed.
Lemma hp_shape {S} (add mul : S -> S -> S) (c : hpc S) hx hy x : hp_step add mul c (hx, hy) x =
  (fst (hp_step add mul c (hx, hy) x), (mkH x (h0 hx) (h1 hx), mkH (fst (hp_step add mul c (hx, hy) x)) (h0 hy) (h1 hy))).
Proof. reflexivity. Qed.
Lemma hp_fixed_run (s : highpass) (v : f32) k : fst (hp_step fadd fmul (hp_coeff s) (hp_hist s) f1) = v -> hp_hist s = (hist0 f1, hist0 v) ->
  fst (run hp_process s (repeat f1 k)) = repeat v k.
Proof.
  intros E H. assert (ST : hp_process s f1 = (v, s)).
  { unfold hp_process. rewrite H in *. rewrite hp_shape, E. cbn [hist0 h0 h1 h2].
    destruct s as [fc r c h]. cbn [hp_fc hp_r hp_coeff hp_hist] in *. subst h. reflexivity. }
  induction k as [|k IH]; [reflexivity|]. cbn [repeat run]. rewrite ST. destruct (run hp_process s (repeat f1 k)). cbn [fst] in *. rewrite IH. reflexivity.
Qed.
Lemma hp_leaks_n m (n : N) : cos_accurate m -> pow_int_accurate m -> hpG_sim n = fixSF -> forall k,
  fst (run hp_process (snd (run hp_process (hp_new m (of_Z 130) f0) (repeat f1 (N.to_nat n)))) (repeat f1 k)) = repeat vG k.
Proof.
  intros HC HP HN k. rewrite run_repeat_state.
  assert (E1 : clamp_fc (of_Z 130) = of_Z 130) by (apply B2SF_inj; vmr).
  assert (E2 : clamp_r f0 = f0) by (apply B2SF_inj; vmr).
  unfold hp_new, hp_reset. cbn [hp_fc hp_r hp_hist]. rewrite E1, E2, (hpG_pin m HC HP).
  match goal with |- context [mkHP ?a ?b ?c ?h] => destruct (hp_iter_SF a b c h (N.to_nat n)) as [EC E]; set (s := Nat.iter (N.to_nat n) _ (mkHP a b c h)) in * end.
  cbv zeta in EC, E. fold s in EC, E. rewrite <- N_iter_nat in E. cbn [fst snd] in E. rewrite hpG_coeff_SF in E.
  replace (B2SF (f1 : f32)) with oneSF in E by (symmetry; vmr).
  change (N.iter n _ _) with (hpG_sim n) in E. rewrite HN in E. clearbody s. unfold fixSF, hist0 in E.
  assert (EH : hp_hist s = (hist0 f1, hist0 vG)).
  { assert (EX := f_equal fst E). assert (EY := f_equal snd E). clear E. destruct (hp_hist s) as [hx hy]. cbn [fst snd] in EX, EY.
    f_equal; apply hist_SF; [replace (B2SF (f1 : f32)) with oneSF by (symmetry; vmr)|rewrite vG_SF]; assumption. }
  apply hp_fixed_run; [|exact EH]. rewrite EC, EH. apply B2SF_inj. rewrite hp_out_SF, hpG_coeff_SF, vG_SF. cbn [fst snd].
  change (hmap B2SF (hist0 vG)) with (hist0 (B2SF vG)). change (hmap B2SF (hist0 (f1 : f32))) with (hist0 (B2SF (f1 : f32))). rewrite vG_SF.
  replace (B2SF (f1 : f32)) with oneSF by (symmetry; vmr). exact hpG_fix_step.
Qed.
Lemma vG_R : fin vG /\ 1 / 100 < B2R vG < 1 / 50.
Proof.
  assert (H : fin vG /\ B2R vG = 13252724 * bpow radix2 (-30)).
  { pose proof vG_SF as E. destruct vG as [| | |s m' e' H]; try discriminate. injection E as -> -> ->. split; reflexivity. }
  destruct H as [F ->]. split; [exact F|]. change (bpow radix2 (-30)) with (/ 1073741824). lra.
Qed.
Lemma hp_dc_leaks m : cos_accurate m -> pow_int_accurate m -> exists (n : nat) (v : f32), fin v /\ 1 / 100 < B2R v /\
  forall k, fst (run hp_process (snd (run hp_process (hp_new m (of_Z 130) f0) (repeat f1 n))) (repeat f1 k)) = repeat v k.
Proof.
  intros HC HP. exists (N.to_nat 15275), vG. destruct vG_R as [F [B _]]. split; [exact F|]. split; [exact B|].
  exact (hp_leaks_n m 15275 HC HP hpG_sim_fix).
Qed.
