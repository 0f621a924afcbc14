(** * BandPass corner frequencies in the f64 arithmetic of the program *)
From Coq Require Import ZArith List Bool Reals Lra Lia Psatz.
From Flocq Require Import Core.Core IEEE754.BinarySingleNaN.
From Verif Require Import Model.Floats Model.Modifiers Model.Filters Proof.FloatFacts Proof.SampleFormatP Proof.FormatsP Proof.NearP Proof.BandPassP.
Local Open Scope R_scope.
Local Notation rnd64 := (round radix2 (SpecFloat.fexp 53 1024) ZnearestE).

Lemma near_sqrt n a b : near n a b -> near n (sqrt a) (sqrt b).
Proof.
  intro N. pose proof (near_pos _ _ _ N) as A0. destruct N as (P & L & U). pose proof (rho_ge1 n) as G.
  assert (S : sqrt (rho ^ n) <= rho ^ n).
  { rewrite <- (sqrt_square (rho ^ n)) at 2 by lra. apply sqrt_le_1; nra. }
  split; [apply sqrt_lt_R0, P|]. split.
  - apply Rle_trans with (sqrt (a * rho ^ n)); [apply sqrt_le_1; nra|]. rewrite sqrt_mult by lra. apply Rmult_le_compat_l; [apply sqrt_pos|exact S].
  - apply Rle_trans with (sqrt (b * rho ^ n)); [apply sqrt_le_1; nra|]. rewrite sqrt_mult by lra. apply Rmult_le_compat_l; [apply sqrt_pos|exact S].
Qed.
Lemma fsqrt_R (x : f64) : B2R (fsqrt x) = rnd64 (sqrt (B2R x)) /\ (fin x -> 0 < B2R x -> fin (fsqrt x)).
Proof.
  unfold fsqrt. destruct (Bsqrt_correct 53 1024 _ _ mode_NE x) as (V & F & _). split; [exact V|].
  intros FX P. rewrite F. destruct x as [| | |[] mx ex Hx]; try reflexivity; try discriminate.
  exfalso. unfold B2R, F2R in P. cbn in P. pose proof (bpow_gt_0 radix2 ex). assert (IZR (Z.neg mx) < 0) by (apply IZR_lt; lia). nra.
Qed.
Lemma sqrt_bpow2 e : sqrt (bpow radix2 (2 * e)) = bpow radix2 e.
Proof. replace (2 * e)%Z with (e + e)%Z by ring. rewrite bpow_plus. apply sqrt_square, bpow_ge_0. Qed.
Lemma nf_sqrt n j x b : (n <= 63)%nat -> (0 <= j <= 400)%Z -> nf false n j x b -> nf false (S n) j (fsqrt x) (sqrt b).
Proof.
  intros Hn Hj (F & N & L & U). cbn [sgn] in *. pose proof (near_pos _ _ _ N) as X0. pose proof (proj1 N) as B0.
  assert (RR : bpow radix2 (- j) <= sqrt b <= bpow radix2 j).
  { split.
    - apply Rle_trans with (sqrt (bpow radix2 (2 * - j))); [rewrite sqrt_bpow2; lra|]. apply sqrt_le_1; [apply bpow_ge_0|lra|].
      apply Rle_trans with (2 := L). apply bpow_le. lia.
    - apply Rle_trans with (sqrt (bpow radix2 (2 * j))); [|rewrite sqrt_bpow2; lra]. apply sqrt_le_1; [lra|apply bpow_ge_0|].
      apply Rle_trans with (1 := U). apply bpow_le. lia. }
  destruct (nf_round false n j (sqrt (B2R x)) (sqrt b) Hn ltac:(lia)) as [_ NN]; [apply near_sqrt, N|exact RR|].
  destruct (fsqrt_R x) as [V FF]. split; [apply FF; assumption|]. split; [|exact RR]. rewrite V. exact NN.
Qed.
(** products and differences with the other signs *)
Lemma nf_mul_s sg sg' n m j i x y a b : (n + m <= 63)%nat -> (0 <= j)%Z -> (0 <= i)%Z -> (j + i <= 500)%Z -> nf sg n j x a -> nf sg' m i y b ->
  nf (xorb sg sg') (S (n + m)) (j + i) (fmul x y) (a * b).
Proof.
  intros Hn Hj Hi Hji (F & N & R) (F' & N' & R'). pose proof (bpow_gt_0 radix2 (-j)). pose proof (bpow_gt_0 radix2 (-i)).
  assert (RR : bpow radix2 (- (j + i)) <= a * b <= bpow radix2 (j + i)).
  { replace (- (j + i))%Z with (- j + - i)%Z by ring. rewrite !bpow_plus. split; apply Rmult_le_compat; lra. }
  destruct (nf_round (xorb sg sg') (n + m) (j + i) (B2R x * B2R y) (a * b) Hn ltac:(lia)) as [O NN]; [|exact RR|].
  { replace (sgn (xorb sg sg') (B2R x * B2R y)) with (sgn sg (B2R x) * sgn sg' (B2R y)) by (destruct sg, sg'; cbn [xorb sgn]; ring). apply near_mul; assumption. }
  destruct (fmul_ok x y F F' O) as [FF E]. split; [exact FF|]. split; [|exact RR]. rewrite E. exact NN.
Qed.
Lemma nf_sub_pn n j x y a b : (n <= 63)%nat -> (0 <= j < 500)%Z -> nf false n j x a -> nf true n j y b -> nf false (S n) (j + 1) (fsub x y) (a + b).
Proof.
  intros Hn Hj (F & N & R) (F' & N' & R'). cbn [sgn] in *.
  assert (RR : bpow radix2 (- (j + 1)) <= a + b <= bpow radix2 (j + 1)).
  { rewrite (bpow_plus radix2 j 1). change (bpow radix2 1) with 2. split; [|lra].
    apply Rle_trans with (bpow radix2 (- j)); [apply bpow_le; lia|]. pose proof (bpow_gt_0 radix2 (-j)). lra. }
  destruct (nf_round false n (j + 1) (B2R x - B2R y) (a + b) Hn ltac:(lia)) as [O NN]; [cbn [sgn]; unfold Rminus; apply near_add; assumption|exact RR|].
  destruct (fsub_ok x y F F' O) as [FF E]. split; [exact FF|]. split; [|exact RR]. rewrite E. exact NN.
Qed.
Lemma nf_abs n j x b : nf false n j x b -> nf false n j (fabs x) b.
Proof.
  intros (F & N & R). cbn [sgn] in N. pose proof (near_pos _ _ _ N). split; [rewrite fabs_fin; exact F|]. split; [|exact R].
  cbn [sgn]. rewrite fabs_R, Rabs_pos_eq by lra. exact N.
Qed.
Lemma nf_t b b' sg n j x : nf sg n j x b -> b = b' -> nf sg n j x b'.
Proof. intros H <-. exact H. Qed.

Lemma rho_lin n : (n <= 30)%nat -> rho ^ n <= 1 + INR n * (101 / 100 / 4294967296).
Proof.
  induction n as [|n IH]; intro K; [cbn [pow INR]; lra|]. rewrite S_INR. cbn [pow].
  specialize (IH ltac:(lia)). assert (IK : INR n <= 30) by (replace 30 with (INR 30) by (cbn; lra); apply le_INR; lia).
  pose proof (pos_INR n). pose proof (rho_pos n).
  apply Rle_trans with (rho * (1 + INR n * (101 / 100 / 4294967296))); [apply Rmult_le_compat_l; [unfold rho; lra|exact IH]|].
  unfold rho. lra.
Qed.
Lemma near_abs n a b : (n <= 30)%nat -> near n a b -> Rabs (a - b) <= b * (INR n * (102 / 100 / 4294967296)).
Proof.
  intros H N. pose proof (near_pos _ _ _ N) as A0. destruct N as (P & L & U). pose proof (rho_lin n H) as R. pose proof (rho_ge1 n).
  assert (IK : INR n <= 30) by (replace 30 with (INR 30) by (cbn; lra); apply le_INR; lia). pose proof (pos_INR n) as I0.
  set (r := rho ^ n) in *. set (k := INR n) in *. apply Rabs_le. split.
  - assert (L2 : b <= a * (1 + k * (101 / 100 / 4294967296))) by (apply Rle_trans with (1 := L); apply Rmult_le_compat_l; lra).
    destruct (Rle_dec b a); [assert (0 <= b * (k * (102 / 100 / 4294967296))) by (apply Rmult_le_pos; [lra|apply Rmult_le_pos; lra]); lra|].
    assert (a * (k * (101 / 100 / 4294967296)) <= b * (k * (102 / 100 / 4294967296))); [|lra].
    apply Rmult_le_compat; [lra|apply Rmult_le_pos; lra|lra|apply Rmult_le_compat_l; lra].
  - assert (U2 : a <= b * (1 + k * (101 / 100 / 4294967296))) by (apply Rle_trans with (1 := U); apply Rmult_le_compat_l; lra).
    assert (b * (k * (101 / 100 / 4294967296)) <= b * (k * (102 / 100 / 4294967296))); [|lra].
    apply Rmult_le_compat_l; [lra|apply Rmult_le_compat_l; lra].
Qed.

(** the computed corners, from a frequency and a quality that are themselves only near F and Q *)
Lemma corners_near m f q n k F Q : (n + k <= 6)%nat -> nf false n 40 f F -> nf false k 60 q Q ->
  let lo := (sqrt ((F / Q) * (F / Q) + 4 * (F * F)) - F / Q) / 2 in
  let hi := (sqrt ((F / Q) * (F / Q) + 4 * (F * F)) + F / Q) / 2 in
  let c := bp_corners (A64 m) f q in
  fin (fst c) /\ fin (snd c) /\ B2R (fst c) <= B2R (snd c) /\
  Rabs (B2R (fst c) - lo) <= bpow radix2 (-27) * hi /\ Rabs (B2R (snd c) - hi) <= bpow radix2 (-27) * hi.
Proof.
  intros Hnk NF NQ lo hi c. pose proof (proj1 (proj1 (proj2 NF))) as PF. pose proof (proj1 (proj1 (proj2 NQ))) as PQ.
  destruct (of_Z64 1 ltac:(lia)) as [F1 V1]. destruct (of_Z64 2 ltac:(lia)) as [F2 V2]. destruct (of_Z64 4 ltac:(lia)) as [F4 V4].
  assert (N1 : nf false 0 2 (of_Z 1) 1) by (apply nf_const; [exact F1|exact V1|cbn; lra]).
  assert (N2 : nf false 0 2 (of_Z 2) 2) by (apply nf_const; [exact F2|exact V2|cbn; lra]).
  assert (N4 : nf false 0 2 (of_Z 4) 4) by (apply nf_const; [exact F4|exact V4|cbn; lra]).
  unfold c, bp_corners, quadratic. cbn [a_add a_sub a_mul a_div a_neg a_sqrt a_lt a_Z A64]. cbv zeta. cbn [fst snd].
  assert (NB : nf true (S (n + k)) 100 (fdiv (fneg f) q) (F / Q)).
  { apply (nf_div true n k 40 60); try lia; [exact (nf_neg _ _ _ _ _ NF)|exact NQ]. }
  set (b := fdiv (fneg f) q) in *. clearbody b. set (W := F / Q) in *.
  assert (PW : 0 < W) by (apply Rdiv_lt_0_compat; assumption).
  assert (NBB : nf false (S (S (n + k) + S (n + k))) 200 (fmul b b) (W * W)) by (apply (nf_mul_s true true _ _ 100 100); try lia; assumption).
  assert (NC : nf true (S (n + n)) 80 (fmul (fneg f) f) (F * F)) by (apply (nf_mul true n n 40 40); try lia; [exact (nf_neg _ _ _ _ _ NF)|exact NF]).
  assert (N41 : nf false 1 4 (fmul (of_Z 4) (of_Z 1)) (4 * 1)) by (apply (nf_mul false 0 0 2 2); try lia; assumption).
  assert (N4C : nf true (S (1 + S (n + n))) 84 (fmul (fmul (of_Z 4) (of_Z 1)) (fmul (fneg f) f)) (4 * 1 * (F * F))) by (apply (nf_mul_s false true _ _ 4 80); try lia; assumption).
  assert (N21 : nf false 1 4 (fmul (of_Z 2) (of_Z 1)) (2 * 1)) by (apply (nf_mul false 0 0 2 2); try lia; assumption).
  generalize dependent (fmul (fmul (of_Z 4) (of_Z 1)) (fmul (fneg f) f)). intros c4 N4C. generalize dependent (fmul b b). intros bb NBB.
  generalize dependent (fmul (of_Z 2) (of_Z 1) : f64). intros tw N21.
  set (D := sqrt (W * W + 4 * (F * F))) in *.
  assert (ND : nf false 16 200 bb (W * W)) by (apply nf_w with (2 := NBB); lia).
  assert (NE : nf true 16 200 c4 (4 * 1 * (F * F))) by (apply nf_wj with 84%Z; [lia|]; apply nf_w with (2 := N4C); lia).
  pose proof (nf_sub_pn 16 200 bb c4 _ _ ltac:(lia) ltac:(lia) ND NE) as NDI.
  pose proof (nf_sqrt 17 201 _ _ ltac:(lia) ltac:(lia) NDI) as NS. clear NDI ND NE. replace (4 * 1 * (F * F)) with (4 * (F * F)) in NS by ring. fold D in NS.
  set (r := fsqrt (fsub bb c4)) in *. clearbody r. clear NBB N4C bb c4.
  assert (NB' : nf false 18 201 (fneg b) W) by (apply nf_wj with 100%Z; [lia|]; apply nf_w with (S (n + k)); [lia|exact (nf_neg _ _ _ _ _ NB)]).
  pose proof (nf_add 18 201 _ _ _ _ ltac:(lia) ltac:(lia) NB' NS) as NA.
  pose proof (nf_div false 19 1 202 4 _ _ _ _ ltac:(lia) ltac:(lia) ltac:(lia) ltac:(lia) NA N21) as NP.
  apply (nf_t _ hi) in NP; [|unfold hi; field]. change (S (19 + 1)) with 21%nat in NP. set (p := fdiv (fadd (fneg b) r) tw) in *. clearbody p.
  set (z := fdiv (fsub (fneg b) r) tw). clearbody z. clear NA NB' NS r.
  destruct NP as (Fp & NP & Lp & Up). cbn [sgn] in NP. pose proof (near_pos _ _ _ NP) as P0.
  assert (T1 : flt (of_Z 0) p = true) by (apply flt_true; [reflexivity|exact Fp|]; change (B2R (of_Z 0 : f64)) with 0; exact P0).
  rewrite T1. destruct NB as (Fb & NB & _). cbn [sgn] in NB. pose proof (near_pos _ _ _ NB) as B0.
  assert (PD : W < D). { unfold D. rewrite <- (sqrt_square W) at 1 by lra. apply sqrt_lt_1; nra. }
  assert (HI : W <= hi) by (unfold hi; lra). assert (H0 : 0 < hi) by lra.
  pose proof (near_abs 21 _ _ ltac:(lia) NP) as EP. pose proof (near_abs (S (n + k)) _ _ ltac:(lia) NB) as EB.
  assert (IN : INR (S (n + k)) <= 7) by (replace 7 with (INR 7) by (cbn; lra); apply le_INR; lia). replace (INR 21) with 21 in EP by (cbn; lra).
  assert (EB' : Rabs (- B2R b - W) <= hi * (7 * (102 / 100 / 4294967296))).
  { apply Rle_trans with (1 := EB). apply Rmult_le_compat; [lra|apply Rmult_le_pos; [apply pos_INR|lra]|exact HI|]. apply Rmult_le_compat_r; lra. }
  set (e := hi * (102 / 100 / 4294967296)) in *.
  replace (hi * (7 * (102 / 100 / 4294967296))) with (7 * e) in EB' by (unfold e; ring). replace (hi * (21 * (102 / 100 / 4294967296))) with (21 * e) in EP by (unfold e; ring).
  apply Rabs_le_inv in EP. apply Rabs_le_inv in EB'.
  assert (EE : e <= hi / 1000 /\ 0 < e) by (unfold e; lra).
  assert (SB : Rabs (B2R p + B2R b) <= 2 * hi) by (apply Rabs_le; lra).
  assert (O : Rabs (rnd64 (B2R p + B2R b)) < bpow radix2 1024 /\ Rabs (rnd64 (B2R p + B2R b) - (B2R p + B2R b)) <= e / 10).
  { split.
    - eapply Rle_lt_trans; [apply (rnd_abs_le (prec:=53) (emax:=1024)) with (M := bpow radix2 900); [apply fmt64_b; lia|]|apply bpow_lt; lia].
      apply Rle_trans with (1 := SB). replace (bpow radix2 900) with (bpow radix2 1 * bpow radix2 899) by (rewrite <- bpow_plus; reflexivity). change (bpow radix2 1) with 2.
      apply Rmult_le_compat_l; [lra|]. apply Rle_trans with (1 := Up). apply bpow_le. lia.
    - destruct (rnd_err_gen (prec:=53) (emax:=1024) (B2R p + B2R b)) as (d & g & DD & G & EQ). rewrite EQ.
      replace ((B2R p + B2R b) * (1 + d) + g - (B2R p + B2R b)) with ((B2R p + B2R b) * d + g) by ring.
      eapply Rle_trans; [apply Rabs_triang|]. rewrite Rabs_mult. change (bpow radix2 (- (53))) with (/ 9007199254740992) in DD.
      assert (G' : Rabs g <= / 68719476736 * hi).
      { apply Rle_trans with (1 := G). apply Rle_trans with (bpow radix2 (-36) * bpow radix2 (-207)); [rewrite <- bpow_plus; apply bpow_le; unfold SpecFloat.emin; lia|].
        change (bpow radix2 (-36)) with (/ 68719476736). apply Rmult_le_compat_l; [lra|]. apply Rle_trans with (2 := Lp). apply bpow_le. lia. }
      assert (Rabs (B2R p + B2R b) * Rabs d <= 2 * hi * / 9007199254740992) by (apply Rmult_le_compat; auto using Rabs_pos). unfold e. lra. }
  destruct O as [O ER]. destruct (fadd_ok p b Fp Fb O) as [FL EL]. rewrite <- EL in ER. apply Rabs_le_inv in ER.
  assert (LE : B2R (fadd p b) <= B2R p). { rewrite EL. apply rnd_le_fmt; [apply fmt_B2R|lra]. }
  assert (T2 : flt p (fadd p b) = false) by (apply flt_false; assumption). rewrite T2. cbn [fst snd].
  assert (LO : lo = hi - W) by (unfold lo, hi; field).
  split; [exact FL|]. split; [exact Fp|]. split; [exact LE|]. change (bpow radix2 (-27)) with (/ 134217728).
  split; apply Rabs_le; unfold e in *; lra.
Qed.

(** a usable corner frequency: 1/1024 Hz to 2^20 Hz *)
Definition usable (x : f64) : Prop := fin x /\ bpow radix2 (-10) <= B2R x <= bpow radix2 20.
Lemma usable_nf x : usable x -> nf false 0 20 x (B2R x).
Proof. intros [F R]. apply nf_const; [exact F|reflexivity|]. split; [|apply R]. apply Rle_trans with (2 := proj1 R). apply bpow_le. lia. Qed.
Lemma nf_dist x y : usable x -> usable y -> bpow radix2 (-20) <= Rabs (B2R x - B2R y) -> nf false 1 20 (fabs (fsub x y)) (Rabs (B2R x - B2R y)).
Proof.
  intros [Fx Rx] [Fy Ry] D. pose proof (bpow_gt_0 radix2 (-20)) as G. pose proof (bpow_gt_0 radix2 (-10)) as G'.
  assert (RR : bpow radix2 (- (20)) <= Rabs (B2R x - B2R y) <= bpow radix2 20) by (split; [exact D|apply Rabs_le; lra]).
  destruct (nf_round (Rlt_bool (B2R x - B2R y) 0) 0 20 (B2R x - B2R y) (Rabs (B2R x - B2R y)) ltac:(lia) ltac:(lia)) as [O NN]; [|exact RR|].
  { destruct (Rlt_bool_spec (B2R x - B2R y) 0); cbn [sgn]; [rewrite Rabs_left in * by lra|rewrite Rabs_pos_eq in * by lra]; apply near_refl; lra. }
  destruct (fsub_ok x y Fx Fy O) as [FF E]. rewrite <- E in NN. split; [rewrite fabs_fin; exact FF|]. split; [|exact RR].
  cbn [sgn]. rewrite fabs_R. rewrite <- (sgn_abs (Rlt_bool (B2R x - B2R y) 0)). rewrite (Rabs_pos_eq (sgn _ _)) by (left; exact (near_pos _ _ _ NN)). exact NN.
Qed.
Section From.
Variables (m : libm) (a b : f64).
Hypothesis (Ha : usable a) (Hb : usable b) (D : bpow radix2 (-20) <= Rabs (B2R a - B2R b)).
Let F := sqrt (B2R a * B2R b). Let Q := F / Rabs (B2R a - B2R b).
Lemma nf_F (f : f64) : f = fsqrt (fmul a b) \/ f = fsqrt (fabs (fmul a b)) -> nf false 2 40 f F.
Proof.
  intro H. pose proof (nf_mul false 0 0 20 20 a b _ _ ltac:(lia) ltac:(lia) ltac:(lia) ltac:(lia) (usable_nf a Ha) (usable_nf b Hb)) as N.
  change (20 + 20)%Z with 40%Z in N. destruct H as [->| ->]; apply nf_sqrt; try lia; [exact N|apply nf_abs, N].
Qed.
Lemma nf_Q f d : nf false 2 40 f F -> nf false 1 20 d (Rabs (B2R a - B2R b)) -> nf false 4 60 (fdiv f d) Q.
Proof. intros NF ND. apply (nf_div false 2 1 40 20); try lia; assumption. Qed.
Lemma F_lohi : 0 < F /\ 0 < Q /\ F / Q = Rabs (B2R a - B2R b) /\ F * F = B2R a * B2R b.
Proof.
  destruct Ha as [_ Ra]. destruct Hb as [_ Rb]. pose proof (bpow_gt_0 radix2 (-10)). pose proof (bpow_gt_0 radix2 (-20)).
  assert (P : 0 < B2R a * B2R b) by (apply Rmult_lt_0_compat; lra). assert (PF : 0 < F) by (apply sqrt_lt_R0, P).
  assert (PQ : 0 < Q) by (apply Rdiv_lt_0_compat; lra).
  split; [exact PF|]. split; [exact PQ|]. split; [unfold Q; field; lra|apply sqrt_sqrt; lra].
Qed.
Definition round_trip (f q : f64) : Prop :=
  let c := bp_corners (A64 m) f q in let lo := Rmin (B2R a) (B2R b) in let hi := Rmax (B2R a) (B2R b) in
  fin (fst c) /\ fin (snd c) /\ B2R (fst c) <= B2R (snd c) /\
  Rabs (B2R (fst c) - lo) <= bpow radix2 (-27) * hi /\ Rabs (B2R (snd c) - hi) <= bpow radix2 (-27) * hi /\
  Rabs (B2R f - F) <= bpow radix2 (-29) * F /\ Rabs (B2R q - Q) <= bpow radix2 (-29) * Q.
Lemma from_ok f q : nf false 2 40 f F -> nf false 4 60 q Q -> round_trip f q.
Proof.
  intros NF NQ. destruct F_lohi as (PF & PQ & EW & EF). pose proof (corners_near m f q 2 4 F Q ltac:(lia) NF NQ) as C.
  assert (SQ : sqrt (F / Q * (F / Q) + 4 * (F * F)) = B2R a + B2R b).
  { rewrite EW, EF. rewrite <- Rabs_mult, Rabs_pos_eq by apply Rle_0_sqr. replace ((B2R a - B2R b) * (B2R a - B2R b) + 4 * (B2R a * B2R b)) with ((B2R a + B2R b) * (B2R a + B2R b)) by ring.
    apply sqrt_square. destruct Ha as [_ Ra]. destruct Hb as [_ Rb]. pose proof (bpow_gt_0 radix2 (-10)). lra. }
  cbv zeta in C. rewrite SQ, EW in C. unfold round_trip. cbv zeta.
  replace (Rmin (B2R a) (B2R b)) with ((B2R a + B2R b - Rabs (B2R a - B2R b)) / 2).
  2: { unfold Rmin. destruct (Rle_dec (B2R a) (B2R b)); [rewrite Rabs_left1 by lra|rewrite Rabs_pos_eq by lra]; lra. }
  replace (Rmax (B2R a) (B2R b)) with ((B2R a + B2R b + Rabs (B2R a - B2R b)) / 2).
  2: { unfold Rmax. destruct (Rle_dec (B2R a) (B2R b)); [rewrite Rabs_left1 by lra|rewrite Rabs_pos_eq by lra]; lra. }
  destruct C as (C1 & C2 & C3 & C4 & C5). repeat (split; [assumption|]).
  change (bpow radix2 (-29)) with (/ 536870912). destruct NF as (_ & NF & _). destruct NQ as (_ & NQ & _). cbn [sgn] in *.
  pose proof (near_abs 2 _ _ ltac:(lia) NF) as E1. pose proof (near_abs 4 _ _ ltac:(lia) NQ) as E2.
  replace (INR 2) with 2 in E1 by (cbn; lra). replace (INR 4) with 4 in E2 by (cbn; lra).
  split; [apply Rle_trans with (1 := E1)|apply Rle_trans with (1 := E2)]; lra.
Qed.
Lemma from_corners_ok : round_trip (bp_f (bp_from_corners m (a, b))) (bp_q (bp_from_corners m (a, b))).
Proof.
  change (bp_f (bp_from_corners m (a, b))) with (fsqrt (fabs (fmul a b))). change (bp_q (bp_from_corners m (a, b))) with (fdiv (fsqrt (fabs (fmul a b))) (fabs (fsub b a))).
  assert (NF := nf_F _ (or_intror eq_refl)). apply from_ok; [exact NF|]. apply nf_Q; [exact NF|]. rewrite Rabs_minus_sym. apply nf_dist; try assumption. rewrite Rabs_minus_sym. exact D.
Qed.
Lemma set_corners_ok s : round_trip (bp_f (bp_set_corners m s (a, b))) (bp_q (bp_set_corners m s (a, b))).
Proof.
  change (bp_f (bp_set_corners m s (a, b))) with (fsqrt (fmul a b)). change (bp_q (bp_set_corners m s (a, b))) with (fdiv (fsqrt (fmul a b)) (fabs (fsub a b))).
  assert (NF := nf_F _ (or_introl eq_refl)). apply from_ok; [exact NF|]. apply nf_Q; [exact NF|]. apply nf_dist; assumption.
Qed.
End From.
(** the corners of a given frequency and quality *)
Lemma corners_ok m f q : fin f -> fin q -> bpow radix2 (-40) <= B2R f <= bpow radix2 40 -> bpow radix2 (-60) <= B2R q <= bpow radix2 60 ->
  let e := bp_corners AR (B2R f) (B2R q) in let c := bp_corners (A64 m) f q in
  fin (fst c) /\ fin (snd c) /\ B2R (fst c) <= B2R (snd c) /\
  Rabs (B2R (fst c) - fst e) <= bpow radix2 (-27) * snd e /\ Rabs (B2R (snd c) - snd e) <= bpow radix2 (-27) * snd e.
Proof.
  intros Ff Fq Rf Rq e c. unfold e. rewrite bp_corners_R; [|pose proof (bpow_gt_0 radix2 (-40)); lra|pose proof (bpow_gt_0 radix2 (-60)); lra].
  apply (corners_near m f q 0 0); [lia|apply nf_const; auto|apply nf_const; auto].
Qed.
