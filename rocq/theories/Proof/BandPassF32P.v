(** * BandPass in the program's arithmetic (f64 coefficients, f32 samples) for corners between 20 Hz and 20 kHz *)
From Coq Require Import ZArith List Bool Reals Lra Lia Psatz.
From Flocq Require Import Core.Core IEEE754.BinarySingleNaN.
From Verif Require Import Model.Floats Model.Modifiers Model.Filters Spec.Libm Proof.FloatFacts Proof.SampleFormatP Proof.FormatsP
  Proof.GenericP Proof.GeneratorsP Proof.GeneratorsP4 Proof.LibmP Proof.FiltersP Proof.FiltersP2 Proof.NearP Proof.FilterF32P Proof.FilterF32P2 Proof.BandPassP.
Import ListNotations.
Local Open Scope R_scope.

(** ** the tangent *)
Lemma atan_le x : 0 <= x -> atan x <= x.
Proof.
  intros [H|<-]; [|rewrite atan_0; lra].
  destruct (MVT_cor2 atan (fun c => / (1 + c * c)) 0 x H) as (c & E & C).
  { intros c _. pose proof (derivable_pt_lim_atan c) as D. replace (/ (1 + c * c)) with (/ (1 + c ^ 2)) by (f_equal; ring). exact D. }
  rewrite atan_0, !Rminus_0_r in E. rewrite E. rewrite <- (Rmult_1_l x) at 2. apply Rmult_le_compat_r; [lra|].
  rewrite <- Rinv_1. apply Rinv_le; nra.
Qed.
Lemma tan_ge x : 0 <= x < PI / 2 -> x <= tan x.
Proof.
  intro H. assert (0 <= tan x) by (destruct (proj1 H) as [P|<-]; [left; apply tan_gt_0; lra|rewrite tan_0; lra]).
  rewrite <- (atan_tan x) at 1 by lra. apply atan_le. assumption.
Qed.
Lemma tan_le x : 0 < x < PI / 2 -> tan x <= / (PI / 2 - x).
Proof.
  intro H. assert (P : 0 < tan x) by (apply tan_gt_0; lra).
  assert (I : PI / 2 - x <= / tan x).
  { rewrite <- (atan_tan x) at 1 by lra. rewrite <- atan_inv by exact P. apply atan_le. left. apply Rinv_0_lt_compat, P. }
  rewrite <- (Rinv_inv (tan x)). apply Rinv_le; [lra|exact I].
Qed.
Lemma ideal_tan : tan_accurate ideal_libm.
Proof.
  intros x Fx [L U]. cbn [tan64 ideal_libm]. pose proof PI_bounds as PB. pose proof (bpow_gt_0 radix2 (-20)) as P20.
  assert (T1 : bpow radix2 (-20) <= tan (B2R x)) by (apply Rle_trans with (1 := L); apply tan_ge; lra).
  assert (T2 : tan (B2R x) <= 8).
  { apply Rle_trans with (1 := tan_le (B2R x) ltac:(lra)). replace 8 with (/ (/ 8)) by field. apply Rinv_le; lra. }
  set (q := tan (B2R x)) in *.
  destruct (BofR_ok (p:=53) (e:=1024) q) as [A B].
  { eapply Rle_lt_trans; [apply (rnd_abs_le _ (bpow radix2 3))|].
    - apply fmt64_b; lia.
    - rewrite Rabs_pos_eq by lra. change (bpow radix2 3) with 8. lra.
    - apply bpow_lt. lia. }
  split; [exact A|]. rewrite B. destruct (rnd_rel (prec:=53) (emax:=1024) q) as (d & D & E').
  { rewrite Rabs_pos_eq by lra. eapply Rle_trans; [|exact T1]. apply bpow_le. unfold SpecFloat.emin. lia. }
  rewrite E'. replace (q * (1 + d) - q) with (q * d) by ring.
  rewrite Rabs_mult, (Rabs_pos_eq q) by lra. apply Rmult_le_compat_l; [lra|].
  eapply Rle_trans; [exact D|]. apply bpow_le. lia.
Qed.

(** ** theta *)
Definition th_ok (fr th : f64) : Prop := fin th /\ B2R fr * (6544 / 100000000) <= B2R th <= 4.
Lemma theta_range m fr : tan_accurate m -> fin fr -> 20 <= B2R fr <= 20000 -> th_ok fr (bp_theta (A64 m) fr).
Proof.
  intros HT F R. unfold bp_theta. cbn [a_tan a_mul a_pi a_inv A64]. pose proof PI_bounds as PB.
  destruct PI64_R as [FP VP]. pose proof PI64_PI as EP. destruct INV_ok as [FI _].
  assert (N2 : nf false 1 2 PI64 PI).
  { split; [exact FP|]. cbn [sgn]. split; [apply near_1; [lra|]|change (bpow radix2 (-(2))) with (/ 4); change (bpow radix2 2) with 4; lra].
    eapply Rle_trans; [exact EP|]. lra. }
  assert (N3 : nf false 0 15 fr (B2R fr)).
  { apply nf_const; [exact F|reflexivity|]. change (bpow radix2 (-(15))) with (/ 32768). change (bpow radix2 15) with 32768. lra. }
  assert (N4 : nf false 1 16 INV_SAMPLE_RATE (/ 48000)).
  { split; [exact FI|]. cbn [sgn]. split; [apply near_1; [lra|]; rewrite INV_val; apply Rabs_le; lra|].
    change (bpow radix2 (-(16))) with (/ 65536). change (bpow radix2 16) with 65536. lra. }
  pose proof (nf_mul false 1 0 2 15 _ _ _ _ ltac:(lia) ltac:(lia) ltac:(lia) ltac:(lia) N2 N3) as M2. cbn [Nat.add] in M2.
  pose proof (nf_mul false 2 1 (2 + 15) 16 _ _ _ _ ltac:(lia) ltac:(lia) ltac:(lia) ltac:(lia) M2 N4) as M3. cbn [Nat.add] in M3.
  destruct M3 as (FA & (P & L & U) & _). cbn [sgn] in *. set (arg := fmul (fmul PI64 fr) INV_SAMPLE_RATE) in *. clearbody arg.
  pose proof (rho_20 4 ltac:(lia)) as R4. pose proof (rho_ge1 4).
  assert (Pa : 0 < B2R arg) by (apply Rmult_lt_reg_r with (rho ^ 4); lra).
  assert (L2 : PI * B2R fr * / 48000 <= B2R arg * (1 + 21 / 4294967296)) by (apply Rle_trans with (1 := L); apply Rmult_le_compat_l; lra).
  assert (U2 : B2R arg <= PI * B2R fr * / 48000 * (1 + 21 / 4294967296)) by (apply Rle_trans with (1 := U); apply Rmult_le_compat_l; lra).
  assert (PL : 31415926 / 10000000 * B2R fr <= PI * B2R fr) by (apply Rmult_le_compat_r; lra).
  assert (PU : PI * B2R fr <= 31415927 / 10000000 * 20000) by (apply Rmult_le_compat; lra).
  assert (AU : B2R arg <= 13091 / 10000) by lra.
  assert (AL : B2R fr * (65448 / 1000000000) <= B2R arg) by lra.
  destruct (HT arg FA) as [FT ET].
  { split; [|lra]. change (bpow radix2 (-20)) with (/ 1048576). lra. }
  assert (T1 : B2R arg <= tan (B2R arg)) by (apply tan_ge; lra).
  assert (T2 : tan (B2R arg) <= 383 / 100).
  { apply Rle_trans with (1 := tan_le (B2R arg) ltac:(lra)). replace (383 / 100) with (/ (100 / 383)) by field. apply Rinv_le; lra. }
  change (bpow radix2 (-40)) with (/ 1099511627776) in ET. apply Rabs_le_inv in ET. split; [exact FT|]. lra.
Qed.

(** ** the coefficients, given the thetas *)
Local Notation e50 := (/ 1125899906842624).
Section Coef.
Variable m : libm.
Let A := A64 m.
Lemma inv_diff s t : 1 <= s -> 1 <= t -> Rabs (/ s - / t) <= Rabs (s - t).
Proof.
  intros Hs Ht. replace (/ s - / t) with ((t - s) * (/ s * / t)) by (field; lra). rewrite Rabs_mult, Rabs_minus_sym.
  rewrite <- (Rmult_1_r (Rabs (s - t))) at 2. apply Rmult_le_compat_l; [apply Rabs_pos|].
  assert (0 < / s <= 1) by (split; [apply Rinv_0_lt_compat; lra|rewrite <- Rinv_1; apply Rinv_le; lra]).
  assert (0 < / t <= 1) by (split; [apply Rinv_0_lt_compat; lra|rewrite <- Rinv_1; apply Rinv_le; lra]).
  rewrite Rabs_pos_eq by (apply Rmult_le_pos; lra). rewrite <- (Rmult_1_r 1). apply Rmult_le_compat; lra.
Qed.
Lemma one_plus th : fin th -> 0 < B2R th <= 4 ->
  fin (fadd (of_Z 1) th) /\ 1 <= B2R (fadd (of_Z 1) th) /\ Rabs (B2R (fadd (of_Z 1) th) - (1 + B2R th)) <= e50.
Proof.
  intros F R. destruct (of_Z64 1 ltac:(lia)) as [F1 V1].
  assert (B : Rabs (B2R (of_Z 1 : f64) + B2R th) <= 16) by (rewrite V1; apply Rabs_le; lra).
  destruct (fadd_ok (of_Z 1) th F1 F (big64 _ B)) as [FS ES]. pose proof (err64 _ B) as ER. rewrite <- ES, V1 in ER. split; [exact FS|]. split; [|exact ER].
  rewrite ES, V1. apply (rnd_ge_fmt (prec:=53) (emax:=1024)); [exact (fmt64_Z 1 ltac:(lia))|]. lra.
Qed.
Lemma al_ok th : fin th -> 0 < B2R th <= 4 -> fin (bp_al A th) /\ Rabs (B2R (bp_al A th) - / (1 + B2R th)) <= 2 * e50.
Proof.
  intros F R. unfold bp_al, A. cbn [a_add a_div a_Z A64]. destruct (of_Z64 1 ltac:(lia)) as [F1 V1].
  destruct (one_plus th F R) as (FS & S1 & ES). set (s := fadd (of_Z 1) th) in *.
  pose proof (inv_diff (B2R s) (1 + B2R th) S1 ltac:(lra)) as D.
  assert (I1 : 0 < / B2R s <= 1) by (split; [apply Rinv_0_lt_compat; lra|rewrite <- Rinv_1; apply Rinv_le; lra]).
  assert (B : Rabs (B2R (of_Z 1 : f64) / B2R s) <= 16) by (rewrite V1; unfold Rdiv; rewrite Rmult_1_l; apply Rabs_le; lra).
  destruct (fdiv_ok (of_Z 1) s F1 ltac:(lra) (big64 _ B)) as [FD ED]. pose proof (err64 _ B) as ER. rewrite <- ED, V1 in ER.
  unfold Rdiv in ER. rewrite Rmult_1_l in ER. split; [exact FD|]. apply Rabs_le_inv in ER. apply Rabs_le_inv in ES.
  assert (D' : Rabs (/ B2R s - / (1 + B2R th)) <= e50) by (apply Rle_trans with (1 := D); apply Rabs_le; lra).
  apply Rabs_le_inv in D'. apply Rabs_le. lra.
Qed.
Definition beta (th : R) : R := (1 - th) / (1 + th).
Lemma beta_rng th : 0 < th -> -1 < beta th < 1.
Proof. exact (bp_bl_range th). Qed.
Lemma bl_ok th : fin th -> 0 < B2R th <= 4 -> fin (bp_bl A th) /\ Rabs (B2R (bp_bl A th) - beta (B2R th)) <= 5 * e50.
Proof.
  intros F R. unfold bp_bl, A, beta. cbn [a_add a_sub a_div a_Z A64]. destruct (of_Z64 1 ltac:(lia)) as [F1 V1].
  destruct (one_plus th F R) as (FS & S1 & ES). set (s := fadd (of_Z 1) th) in *.
  assert (BN : Rabs (B2R (of_Z 1 : f64) - B2R th) <= 16) by (rewrite V1; apply Rabs_le; lra).
  destruct (fsub_ok (of_Z 1) th F1 F (big64 _ BN)) as [FN EN]. pose proof (err64 _ BN) as ERN. rewrite <- EN, V1 in ERN.
  set (n := fsub (of_Z 1) th) in *.
  assert (I1 : 0 < / B2R s <= 1) by (split; [apply Rinv_0_lt_compat; lra|rewrite <- Rinv_1; apply Rinv_le; lra]).
  pose proof (inv_diff (B2R s) (1 + B2R th) S1 ltac:(lra)) as D.
  assert (D' : Rabs (/ B2R s - / (1 + B2R th)) <= e50) by lra.
  assert (Q : Rabs (B2R n / B2R s - (1 - B2R th) / (1 + B2R th)) <= 4 * e50).
  { replace (B2R n / B2R s - (1 - B2R th) / (1 + B2R th)) with ((B2R n - (1 - B2R th)) * / B2R s + (1 - B2R th) * (/ B2R s - / (1 + B2R th))) by (field; lra).
    eapply Rle_trans; [apply Rabs_triang|]. rewrite !Rabs_mult.
    assert (Rabs (B2R n - (1 - B2R th)) * Rabs (/ B2R s) <= e50 * 1) by (apply Rmult_le_compat; auto using Rabs_pos; rewrite Rabs_pos_eq; lra).
    assert (Rabs (1 - B2R th) * Rabs (/ B2R s - / (1 + B2R th)) <= 3 * e50) by (apply Rmult_le_compat; auto using Rabs_pos; apply Rabs_le; lra). lra. }
  pose proof (beta_rng (B2R th) ltac:(lra)) as BR. unfold beta in BR.
  assert (B : Rabs (B2R n / B2R s) <= 16) by (apply Rabs_le_inv in Q; apply Rabs_le; lra).
  destruct (fdiv_ok n s FN ltac:(lra) (big64 _ B)) as [FD ED]. pose proof (err64 _ B) as ER. rewrite <- ED in ER. split; [exact FD|].
  apply Rabs_le_inv in ER. apply Rabs_le_inv in Q. apply Rabs_le. lra.
Qed.
Definition del : R := 16 * e50.
Lemma prod_err u v U V du dv : Rabs (u - U) <= du -> Rabs (v - V) <= dv -> Rabs U <= 1 -> Rabs V <= 1 -> du <= / 1000 -> dv <= / 1000 ->
  Rabs (u * v - U * V) <= 11 / 10 * (du + dv) /\ Rabs (u * v) <= 2.
Proof.
  intros Hu Hv HU HV Du Dv. assert (W : Rabs v <= 11 / 10) by (replace v with ((v - V) + V) by ring; eapply Rle_trans; [apply Rabs_triang|]; lra).
  assert (E : Rabs (u * v - U * V) <= 11 / 10 * (du + dv)).
  { replace (u * v - U * V) with ((u - U) * v + U * (v - V)) by ring. eapply Rle_trans; [apply Rabs_triang|]. rewrite !Rabs_mult.
    assert (Rabs (u - U) * Rabs v <= du * (11 / 10)) by (apply Rmult_le_compat; auto using Rabs_pos).
    assert (Rabs U * Rabs (v - V) <= 1 * dv) by (apply Rmult_le_compat; auto using Rabs_pos).
    pose proof (Rabs_pos (v - V)). lra. }
  split; [exact E|]. replace (u * v) with ((u * v - U * V) + U * V) by ring. eapply Rle_trans; [apply Rabs_triang|]. rewrite (Rabs_mult U).
  assert (Rabs U * Rabs V <= 1 * 1) by (apply Rmult_le_compat; auto using Rabs_pos). pose proof (Rabs_pos (u - U)). lra.
Qed.
Lemma coeff_ok lo hi tl th : tl = bp_theta A lo -> th = bp_theta A hi -> fin tl -> fin th -> 0 < B2R tl <= 4 -> 0 < B2R th <= 4 ->
  fin (bp_a0 A lo hi) /\ Rabs (B2R (bp_a0 A lo hi) - (1 - / (1 + B2R th)) * / (1 + B2R tl)) <= del /\
  fin (bp_b1 A lo hi) /\ Rabs (B2R (bp_b1 A lo hi) - (beta (B2R th) + beta (B2R tl))) <= del /\
  fin (bp_b2 A lo hi) /\ Rabs (B2R (bp_b2 A lo hi) - beta (B2R th) * beta (B2R tl)) <= del.
Proof.
  intros ETl ETh Fl Fh Rl Rh. unfold bp_a0, bp_b1, bp_b2. rewrite <- ETl, <- ETh.
  destruct (al_ok tl Fl Rl) as [FAl EAl]. destruct (al_ok th Fh Rh) as [FAh EAh].
  destruct (bl_ok tl Fl Rl) as [FBl EBl]. destruct (bl_ok th Fh Rh) as [FBh EBh].
  pose proof (beta_rng _ (proj1 Rl)) as Bl. pose proof (beta_rng _ (proj1 Rh)) as Bh.
  assert (Il : 0 < / (1 + B2R tl) < 1) by (split; [apply Rinv_0_lt_compat; lra|rewrite <- Rinv_1; apply Rinv_lt; lra]).
  assert (Ih : 0 < / (1 + B2R th) < 1) by (split; [apply Rinv_0_lt_compat; lra|rewrite <- Rinv_1; apply Rinv_lt; lra]).
  unfold A in *. cbn [a_add a_sub a_mul a_Z A64]. destruct (of_Z64 1 ltac:(lia)) as [F1 V1]. unfold del.
  generalize dependent (beta (B2R th)). generalize dependent (beta (B2R tl)). generalize dependent (/ (1 + B2R th)). generalize dependent (/ (1 + B2R tl)).
  generalize dependent (bp_al (A64 m) tl). generalize dependent (bp_al (A64 m) th). generalize dependent (bp_bl (A64 m) tl). generalize dependent (bp_bl (A64 m) th).
  intros bh Fbh bl Fbl ah Fah al Fal il Eal Il ih Eah Ih pl Ebl Pl ph Ebh Ph.
  assert (E1 : Rabs ((1 - B2R ah) - (1 - ih)) <= 2 * e50) by (replace (1 - B2R ah - (1 - ih)) with (- (B2R ah - ih)) by ring; rewrite Rabs_Ropp; exact Eah).
  assert (BS : Rabs (B2R (of_Z 1 : f64) - B2R ah) <= 16) by (rewrite V1; apply Rabs_le_inv in E1; apply Rabs_le; lra).
  destruct (fsub_ok (of_Z 1) ah F1 Fah (big64 _ BS)) as [FS ES]. pose proof (err64 _ BS) as ERS. rewrite <- ES, V1 in ERS.
  set (u := fsub (of_Z 1) ah) in *. clearbody u.
  assert (EU : Rabs (B2R u - (1 - ih)) <= 3 * e50) by (apply Rabs_le_inv in ERS; apply Rabs_le_inv in E1; apply Rabs_le; lra).
  destruct (prod_err (B2R u) (B2R al) (1 - ih) il _ _ EU Eal) as [EP BP]; [apply Rabs_le; lra|apply Rabs_le; lra|lra|lra|].
  assert (B0 : Rabs (B2R u * B2R al) <= 16) by lra.
  destruct (fmul_ok u al FS Fal (big64 _ B0)) as [F0 EQ0]. pose proof (err64 _ B0) as ER0. rewrite <- EQ0 in ER0.
  split; [exact F0|]. split; [apply Rabs_le_inv in ER0; apply Rabs_le_inv in EP; apply Rabs_le; lra|].
  assert (BA : Rabs (B2R bh + B2R bl) <= 16) by (apply Rabs_le_inv in Ebh; apply Rabs_le_inv in Ebl; apply Rabs_le; lra).
  destruct (fadd_ok bh bl Fbh Fbl (big64 _ BA)) as [F2 EQ2]. pose proof (err64 _ BA) as ER2. rewrite <- EQ2 in ER2.
  split; [exact F2|]. split; [apply Rabs_le_inv in ER2; apply Rabs_le_inv in Ebh; apply Rabs_le_inv in Ebl; apply Rabs_le; lra|].
  destruct (prod_err (B2R bh) (B2R bl) ph pl _ _ Ebh Ebl) as [EP2 BP2]; [apply Rabs_le; lra|apply Rabs_le; lra|lra|lra|].
  assert (B3 : Rabs (B2R bh * B2R bl) <= 16) by lra.
  destruct (fmul_ok bh bl Fbh Fbl (big64 _ B3)) as [F3 EQ3]. pose proof (err64 _ B3) as ER3. rewrite <- EQ3 in ER3.
  split; [exact F3|]. apply Rabs_le_inv in ER3; apply Rabs_le_inv in EP2; apply Rabs_le; lra.
Qed.
End Coef.

(** ** one step: distance of the program's output from the exact recurrence with the exact poles *)
Lemma gen64 v B : Rabs v <= B -> bpow radix2 (-900) <= B <= bpow radix2 900 ->
  Rabs (rnd64 v) < bpow radix2 1024 /\ Rabs (rnd64 v - v) <= e50 * B.
Proof.
  intros HV [BL BU]. split.
  - eapply Rle_lt_trans; [apply (rnd_abs_le (prec:=53) (emax:=1024)) with (M := bpow radix2 900); [apply fmt64_b; lia|lra]|]. apply bpow_lt. lia.
  - destruct (rnd_err_gen (prec:=53) (emax:=1024) v) as (d & e & D & E & EQ). rewrite EQ.
    replace (v * (1 + d) + e - v) with (v * d + e) by ring. eapply Rle_trans; [apply Rabs_triang|]. rewrite Rabs_mult.
    assert (Rabs v * Rabs d <= B * bpow radix2 (-53)) by (apply Rmult_le_compat; auto using Rabs_pos).
    assert (Rabs e <= / 2251799813685248 * B).
    { apply Rle_trans with (1 := E). apply Rle_trans with (bpow radix2 (-51) * bpow radix2 (-900)); [rewrite <- bpow_plus; apply bpow_le; unfold SpecFloat.emin; lia|].
      change (bpow radix2 (-51)) with (/ 2251799813685248). apply Rmult_le_compat_l; lra. }
    change (bpow radix2 (-53)) with (/ 9007199254740992) in *. pose proof (Rabs_pos v). lra.
Qed.
Section Step.
Variable m : libm.
Variables (c : bpc f64) (A P Q X M : R).
Hypothesis FA : fin (bc_a0 c). Hypothesis FP : fin (bc_b1 c). Hypothesis FQ : fin (bc_b2 c).
Hypothesis EA : Rabs (B2R (bc_a0 c) - A) <= del.
Hypothesis EP : Rabs (B2R (bc_b1 c) - P) <= del.
Hypothesis EQ : Rabs (B2R (bc_b2 c) - Q) <= del.
Hypothesis BA : Rabs A <= 1. Hypothesis BP : Rabs P <= 2. Hypothesis BQ : Rabs Q <= 1.
Hypothesis HX : bpow radix2 (-100) <= X <= bpow radix2 90.
Hypothesis HM : X <= M <= bpow radix2 14 * X.
Lemma mul_bd a b x y : Rabs a <= x -> Rabs b <= y -> Rabs (a * b) <= x * y.
Proof. intros. rewrite Rabs_mult. apply Rmult_le_compat; auto using Rabs_pos. Qed.
Lemma tri a b x y : Rabs a <= x -> Rabs b <= y -> Rabs (a + b) <= x + y.
Proof. intros. eapply Rle_trans; [apply Rabs_triang|]. lra. Qed.
Lemma trim a b x y : Rabs a <= x -> Rabs b <= y -> Rabs (a - b) <= x + y.
Proof. intros. unfold Rminus. apply tri; rewrite ?Rabs_Ropp; assumption. Qed.
Lemma bp_err (h : bph f32) (x : f32) : fin x -> fin (bh_x2 h) -> fin (bh_y1 h) -> fin (bh_y2 h) ->
  Rabs (B2R x) <= X -> Rabs (B2R (bh_x2 h)) <= X -> Rabs (B2R (bh_y1 h)) <= M -> Rabs (B2R (bh_y2 h)) <= M ->
  let y := fst (bp_step (A64 m) fsub to64 to32 c h x) in
  fin y /\ Rabs (B2R y - (A * (B2R x - B2R (bh_x2 h)) + P * B2R (bh_y1 h) - Q * B2R (bh_y2 h))) <= w32 * (301 / 100 * M + 43 / 10 * X).
Proof.
  intros Fx Fx2 Fy1 Fy2 Bx Bx2 By1 By2 y. subst y. unfold bp_step. cbn [fst a_add a_sub a_mul A64].
  set (x2 := bh_x2 h) in *. set (y1 := bh_y1 h) in *. set (y2 := bh_y2 h) in *. clearbody x2 y1 y2.
  pose proof (bpow_gt_0 radix2 (-100)) as P100.
  assert (X0 : 0 < X) by lra. assert (M0 : 0 < M) by lra.
  assert (ETA : eta0 <= / 562949953421312 * X).
  { apply Rle_trans with (bpow radix2 (-49) * bpow radix2 (-100)); [unfold eta0; rewrite <- bpow_plus; apply bpow_le; lia|].
    change (bpow radix2 (-49)) with (/ 562949953421312). apply Rmult_le_compat_l; lra. }
  assert (M105 : M <= bpow radix2 104).
  { apply Rle_trans with (1 := proj2 HM). apply Rle_trans with (bpow radix2 14 * bpow radix2 90); [apply Rmult_le_compat_l; [apply bpow_ge_0|lra]|].
    rewrite <- bpow_plus. apply bpow_le. lia. }
  assert (RB : bpow radix2 (-900) <= 8 * M <= bpow radix2 900).
  { split.
    - apply Rle_trans with (bpow radix2 (-100)); [apply bpow_le; lia|]. lra.
    - apply Rle_trans with (bpow radix2 3 * bpow radix2 104); [change (bpow radix2 3) with 8; lra|]. rewrite <- bpow_plus. apply bpow_le. lia. }
  (* the difference of the inputs, in f32 *)
  assert (BD : Rabs (B2R x - B2R x2) <= 2 * X) by (replace (2 * X) with (X + X) by ring; apply trim; assumption).
  assert (BD' : Rabs (B2R x - B2R x2) <= bpow radix2 115).
  { apply Rle_trans with (1 := BD). apply Rle_trans with (bpow radix2 1 * bpow radix2 90); [change (bpow radix2 1) with 2; lra|]. rewrite <- bpow_plus. apply bpow_le. lia. }
  destruct (fsub_ok x x2 Fx Fx2 (fin32 _ BD')) as [FD ED]. pose proof (gen32 (B2R x - B2R x2)) as GD. rewrite <- ED in GD.
  assert (ED' : Rabs (B2R (fsub x x2) - (B2R x - B2R x2)) <= w32 * (2001 / 1000 * X)).
  { apply Rle_trans with (1 := GD). assert (w32 * Rabs (B2R x - B2R x2) <= w32 * (2 * X)) by (apply Rmult_le_compat_l; [unfold w32; lra|exact BD]). unfold w32 in *. lra. }
  set (d := fsub x x2) in *. clearbody d. clear ED GD.
  assert (Bd : Rabs (B2R d) <= 21 / 10 * X).
  { replace (B2R d) with ((B2R d - (B2R x - B2R x2)) + (B2R x - B2R x2)) by ring. eapply Rle_trans; [apply tri; [exact ED'|exact BD]|]. unfold w32. lra. }
  (* to64 is exact *)
  destruct (to64_ok d FD) as [F64d V64d]. destruct (to64_ok y1 Fy1) as [F64y1 V64y1]. destruct (to64_ok y2 Fy2) as [F64y2 V64y2].
  unfold del in *.
  assert (BA' : Rabs (B2R (bc_a0 c)) <= 11 / 10) by (replace (B2R (bc_a0 c)) with ((B2R (bc_a0 c) - A) + A) by ring; eapply Rle_trans; [apply tri; [exact EA|exact BA]|lra]).
  assert (BP' : Rabs (B2R (bc_b1 c)) <= 21 / 10) by (replace (B2R (bc_b1 c)) with ((B2R (bc_b1 c) - P) + P) by ring; eapply Rle_trans; [apply tri; [exact EP|exact BP]|lra]).
  assert (BQ' : Rabs (B2R (bc_b2 c)) <= 11 / 10) by (replace (B2R (bc_b2 c)) with ((B2R (bc_b2 c) - Q) + Q) by ring; eapply Rle_trans; [apply tri; [exact EQ|exact BQ]|lra]).
  assert (W0 : Rabs (B2R (bc_a0 c) * B2R (to64 d)) <= 8 * M) by (rewrite V64d; eapply Rle_trans; [apply mul_bd; [exact BA'|exact Bd]|]; lra).
  assert (W1 : Rabs (B2R (bc_b1 c) * B2R (to64 y1)) <= 8 * M) by (rewrite V64y1; eapply Rle_trans; [apply mul_bd; [exact BP'|exact By1]|]; lra).
  assert (W2 : Rabs (B2R (bc_b2 c) * B2R (to64 y2)) <= 8 * M) by (rewrite V64y2; eapply Rle_trans; [apply mul_bd; [exact BQ'|exact By2]|]; lra).
  destruct (gen64 _ _ W0 RB) as [O0 G0]. destruct (gen64 _ _ W1 RB) as [O1 G1]. destruct (gen64 _ _ W2 RB) as [O2 G2].
  destruct (fmul_ok _ _ FA F64d O0) as [F0 E0]. destruct (fmul_ok _ _ FP F64y1 O1) as [F1 E1]. destruct (fmul_ok _ _ FQ F64y2 O2) as [F2 E2].
  rewrite <- E0 in G0. rewrite <- E1 in G1. rewrite <- E2 in G2. rewrite V64d in G0. rewrite V64y1 in G1. rewrite V64y2 in G2. rewrite V64d in W0. rewrite V64y1 in W1. rewrite V64y2 in W2.
  generalize dependent (fmul (bc_a0 c) (to64 d)). intros p0 G0 F0 _. generalize dependent (fmul (bc_b1 c) (to64 y1)). intros p1 G1 F1 _.
  generalize dependent (fmul (bc_b2 c) (to64 y2)). intros p2 G2 F2 _. clear O0 O1 O2.
  assert (B0 : Rabs (B2R p0) <= 24 / 10 * X + 8 * e50 * M).
  { replace (B2R p0) with ((B2R p0 - B2R (bc_a0 c) * B2R d) + B2R (bc_a0 c) * B2R d) by ring.
    eapply Rle_trans; [apply tri; [exact G0|apply mul_bd; [exact BA'|exact Bd]]|]. lra. }
  assert (B1 : Rabs (B2R p1) <= 22 / 10 * M).
  { replace (B2R p1) with ((B2R p1 - B2R (bc_b1 c) * B2R y1) + B2R (bc_b1 c) * B2R y1) by ring.
    eapply Rle_trans; [apply tri; [exact G1|apply mul_bd; [exact BP'|exact By1]]|]. lra. }
  assert (B2 : Rabs (B2R p2) <= 12 / 10 * M).
  { replace (B2R p2) with ((B2R p2 - B2R (bc_b2 c) * B2R y2) + B2R (bc_b2 c) * B2R y2) by ring.
    eapply Rle_trans; [apply tri; [exact G2|apply mul_bd; [exact BQ'|exact By2]]|]. lra. }
  assert (W3 : Rabs (B2R p0 + B2R p1) <= 8 * M) by (eapply Rle_trans; [apply tri; [exact B0|exact B1]|]; lra).
  destruct (gen64 _ _ W3 RB) as [O3 G3]. destruct (fadd_ok p0 p1 F0 F1 O3) as [F3 E3]. rewrite <- E3 in G3.
  generalize dependent (fadd p0 p1). intros s1 G3 F3 _. clear O3.
  assert (B3 : Rabs (B2R s1) <= 47 / 10 * M).
  { replace (B2R s1) with ((B2R s1 - (B2R p0 + B2R p1)) + (B2R p0 + B2R p1)) by ring.
    eapply Rle_trans; [apply tri; [exact G3|apply tri; [exact B0|exact B1]]|]. lra. }
  assert (W4 : Rabs (B2R s1 - B2R p2) <= 8 * M) by (eapply Rle_trans; [apply trim; [exact B3|exact B2]|]; lra).
  destruct (gen64 _ _ W4 RB) as [O4 G4]. destruct (fsub_ok s1 p2 F3 F2 O4) as [F4 E4]. rewrite <- E4 in G4.
  generalize dependent (fsub s1 p2). intros s2 G4 F4 _. clear O4.
  (* against the exact recurrence *)
  set (z := A * (B2R x - B2R x2) + P * B2R y1 - Q * B2R y2).
  assert (EZ : Rabs (B2R s2 - z) <= 40 * e50 * M + (17 * e50 * (21 / 10 * X) + w32 * (2001 / 1000 * X)) + 17 * e50 * M + 17 * e50 * M).
  { replace (B2R s2 - z) with ((B2R s2 - (B2R s1 - B2R p2)) + (B2R s1 - (B2R p0 + B2R p1)) + (B2R p0 - B2R (bc_a0 c) * B2R d) + (B2R p1 - B2R (bc_b1 c) * B2R y1)
      - (B2R p2 - B2R (bc_b2 c) * B2R y2) + ((B2R (bc_a0 c) - A) * B2R d + A * (B2R d - (B2R x - B2R x2))) + (B2R (bc_b1 c) - P) * B2R y1 - (B2R (bc_b2 c) - Q) * B2R y2)
      by (unfold z; ring).
    eapply Rle_trans; [apply trim; [apply tri; [apply tri; [apply trim; [apply tri; [apply tri; [apply tri; [exact G4|exact G3]|exact G0]|exact G1]|exact G2]
      |apply tri; [apply mul_bd; [exact EA|exact Bd]|apply mul_bd; [exact BA|exact ED']]]|apply mul_bd; [exact EP|exact By1]]|apply mul_bd; [exact EQ|exact By2]]|]. lra. }
  assert (BZ : Rabs z <= 2 * X + 3 * M).
  { unfold z. eapply Rle_trans; [apply trim; [apply tri; [apply mul_bd; [exact BA|exact BD]|apply mul_bd; [exact BP|exact By1]]|apply mul_bd; [exact BQ|exact By2]]|]. lra. }
  clearbody z.
  assert (BS : Rabs (B2R s2) <= 3001 / 1000 * M + 21 / 10 * X).
  { replace (B2R s2) with ((B2R s2 - z) + z) by ring. eapply Rle_trans; [apply tri; [exact EZ|exact BZ]|]. unfold w32. lra. }
  assert (BS' : Rabs (B2R s2) <= bpow radix2 115).
  { apply Rle_trans with (1 := BS). apply Rle_trans with (bpow radix2 3 * bpow radix2 104); [change (bpow radix2 3) with 8; lra|]. rewrite <- bpow_plus. apply bpow_le. lia. }
  destruct (fcast_le (p2:=24) (e2:=128) s2 (bpow radix2 115) F4) as (FC & EC & _); [apply fmt_bpow; unfold SpecFloat.emin; lia|apply bpow_lt; lia|exact BS'|].
  split; [exact FC|]. unfold to32. rewrite EC. pose proof (gen32 (B2R s2)) as G.
  replace (rnd32 (B2R s2) - z) with ((rnd32 (B2R s2) - B2R s2) + (B2R s2 - z)) by ring.
  assert (w32 * Rabs (B2R s2) <= w32 * (3001 / 1000 * M + 21 / 10 * X)) by (apply Rmult_le_compat_l; [unfold w32; lra|exact BS]).
  eapply Rle_trans; [apply tri; [exact G|exact EZ]|]. unfold w32 in *. lra.
Qed.
End Step.

(** ** the invariant *)
Section Inv.
Variable m : libm.
Variables (c : bpc f64) (tl th X : R).
Hypothesis Rl : 13 / 10000 <= tl <= 4.
Hypothesis Rh : 13 / 10000 <= th <= 4.
Let A := (1 - / (1 + th)) * / (1 + tl).
Hypothesis FA : fin (bc_a0 c). Hypothesis FP : fin (bc_b1 c). Hypothesis FQ : fin (bc_b2 c).
Hypothesis EA : Rabs (B2R (bc_a0 c) - A) <= del.
Hypothesis EP : Rabs (B2R (bc_b1 c) - (beta th + beta tl)) <= del.
Hypothesis EQ : Rabs (B2R (bc_b2 c) - beta th * beta tl) <= del.
Hypothesis HX : bpow radix2 (-100) <= X <= bpow radix2 90.
Definition mu (t : R) : R := Rmin t 1.
Definition gap (t : R) : R := 1 - Rabs (beta t).
Let M := 22 / 10 / mu tl * X.
Let E := w32 * (301 / 100 * M + 43 / 10 * X).
Let F := 2 * A * X + E.
Lemma gap_eq t : 0 < t -> gap t = 2 * mu t / (1 + t).
Proof.
  intro H. unfold gap, mu, beta. destruct (Rle_dec t 1) as [L|L].
  - rewrite Rmin_left by exact L. rewrite Rabs_pos_eq; [field; lra|]. apply Rmult_le_pos; [lra|]. left. apply Rinv_0_lt_compat. lra.
  - rewrite Rmin_right by lra. rewrite Rabs_left1; [field; lra|]. rewrite <- (Ropp_involutive (1 - t)). unfold Rdiv. rewrite <- Ropp_mult_distr_l.
    assert (0 <= - (1 - t) * / (1 + t)) by (apply Rmult_le_pos; [lra|left; apply Rinv_0_lt_compat; lra]). lra.
Qed.
Lemma mu_rng t : 13 / 10000 <= t <= 4 -> 13 / 10000 <= mu t <= 1 /\ t <= 4 * mu t /\ 1 + t <= 772 * mu t.
Proof. intro H. unfold mu. destruct (Rle_dec t 1) as [L|L]; [rewrite Rmin_left by lra|rewrite Rmin_right by lra]; lra. Qed.
Lemma gap_rng t : 13 / 10000 <= t <= 4 -> 0 < gap t /\ / gap t <= 386.
Proof.
  intro H. rewrite gap_eq by lra. destruct (mu_rng t H) as (R1 & R2 & R3). split.
  - apply Rdiv_lt_0_compat; lra.
  - replace (/ (2 * mu t / (1 + t))) with ((1 + t) / (2 * mu t)) by (field; lra).
    apply Rmult_le_reg_r with (2 * mu t); [lra|]. unfold Rdiv. rewrite Rmult_assoc, Rinv_l by lra. lra.
Qed.
Lemma A_rng : 0 <= A <= 1.
Proof.
  assert (Il : 0 < / (1 + tl) < 1) by (split; [apply Rinv_0_lt_compat; lra|rewrite <- Rinv_1; apply Rinv_lt; lra]).
  assert (Ih : 0 < / (1 + th) < 1) by (split; [apply Rinv_0_lt_compat; lra|rewrite <- Rinv_1; apply Rinv_lt; lra]).
  unfold A. split; [apply Rmult_le_pos; lra|]. apply Rle_trans with (1 * 1); [apply Rmult_le_compat; lra|lra].
Qed.
Lemma A_gap : A / gap th / gap tl <= / mu tl.
Proof.
  destruct (mu_rng tl Rl) as (L1 & L2 & _). destruct (mu_rng th Rh) as (H1 & H2 & _).
  rewrite !gap_eq by lra. unfold A.
  replace ((1 - / (1 + th)) * / (1 + tl) / (2 * mu th / (1 + th)) / (2 * mu tl / (1 + tl))) with (th / (4 * mu th) * / mu tl) by (field; repeat split; lra).
  rewrite <- (Rmult_1_l (/ mu tl)) at 2. apply Rmult_le_compat_r; [left; apply Rinv_0_lt_compat; lra|].
  apply Rmult_le_reg_r with (4 * mu th); [lra|]. unfold Rdiv. rewrite Rmult_assoc, Rinv_l by lra. lra.
Qed.
Lemma XM : 0 < X /\ X <= M <= bpow radix2 14 * X.
Proof.
  assert (X0 : 0 < X) by (pose proof (bpow_gt_0 radix2 (-100)); lra). split; [exact X0|].
  destruct (mu_rng tl Rl) as (L1 & _ & _). unfold M.
  assert (I : 1 <= / mu tl <= 10000 / 13).
  { split; [rewrite <- Rinv_1; apply Rinv_le; lra|]. replace (10000 / 13) with (/ (13 / 10000)) by field. apply Rinv_le; lra. }
  change (bpow radix2 14) with 16384. unfold Rdiv at 1 4.
  split; [rewrite <- (Rmult_1_l X) at 1|]; apply Rmult_le_compat_r; lra.
Qed.
Lemma E_pos : 0 <= E.
Proof. destruct XM as (X0 & X1 & _). unfold E, w32. lra. Qed.
Lemma F_M : 0 <= F /\ F / gap th / gap tl <= M.
Proof.
  destruct (gap_rng tl Rl) as [Gl Il]. destruct (gap_rng th Rh) as [Gh Ih]. pose proof A_rng as AR. pose proof A_gap as AG. pose proof E_pos as E0.
  destruct XM as (X0 & X1 & X2). destruct (mu_rng tl Rl) as (L1 & _ & _).
  split; [unfold F; apply Rplus_le_le_0_compat; [apply Rmult_le_pos; lra|exact E0]|].
  assert (I : 1 <= / mu tl) by (rewrite <- Rinv_1; apply Rinv_le; lra).
  unfold F. replace ((2 * A * X + E) / gap th / gap tl) with (2 * X * (A / gap th / gap tl) + E * (/ gap th * / gap tl)) by (field; split; lra).
  assert (T1 : 2 * X * (A / gap th / gap tl) <= 2 * X * / mu tl) by (apply Rmult_le_compat_l; lra).
  assert (GG : / gap th * / gap tl <= 386 * 386) by (apply Rmult_le_compat; try lra; left; apply Rinv_0_lt_compat; lra).
  assert (T2 : E * (/ gap th * / gap tl) <= E * (386 * 386)) by (apply Rmult_le_compat_l; lra).
  assert (T3 : X <= X * / mu tl) by (rewrite <- (Rmult_1_r X) at 1; apply Rmult_le_compat_l; lra).
  assert (EM : M = 22 / 10 * (X * / mu tl)) by (unfold M; field; lra). unfold E, w32 in *. rewrite EM in *. lra.
Qed.
Definition bpJ (h : bph f32) : Prop :=
  fin (bh_x1 h) /\ fin (bh_x2 h) /\ fin (bh_y1 h) /\ fin (bh_y2 h) /\ Rabs (B2R (bh_x1 h)) <= X /\ Rabs (B2R (bh_x2 h)) <= X /\
  Rabs (B2R (bh_y1 h)) <= F / gap th / gap tl /\ Rabs (B2R (bh_y2 h)) <= F / gap th / gap tl /\
  Rabs (B2R (bh_y1 h) - beta tl * B2R (bh_y2 h)) <= F / gap th.
Lemma bp_step_shape (S : Type) (T : Type) (Ar : arith T) (sb : S -> S -> S) up dn cc h x : bp_step Ar sb up dn cc h x =
  (fst (bp_step Ar sb up dn cc h x), mkBPH x (bh_x1 h) (fst (bp_step Ar sb up dn cc h x)) (bh_y1 h)).
Proof. reflexivity. Qed.
Lemma bp_f32_step h x : bpJ h -> fin x -> Rabs (B2R x) <= X ->
  let '(y, h') := bp_step (A64 m) fsub to64 to32 c h x in bpJ h' /\ fin y /\ Rabs (B2R y) <= M.
Proof.
  intros (Fx1 & Fx2 & Fy1 & Fy2 & Bx1 & Bx2 & By1 & By2 & BW) Fx Bx. destruct F_M as [F0 FM].
  destruct XM as (X0 & XM1).
  assert (Pl : -1 < beta tl < 1) by (apply beta_rng; lra). assert (Ph : -1 < beta th < 1) by (apply beta_rng; lra).
  assert (BA : Rabs A <= 1) by (pose proof A_rng; rewrite Rabs_pos_eq; lra).
  assert (BP : Rabs (beta th + beta tl) <= 2) by (apply Rabs_le; lra).
  assert (BQ : Rabs (beta th * beta tl) <= 1) by (rewrite <- (Rmult_1_r 1); apply mul_bd; apply Rabs_le; lra).
  pose proof (bp_err m c A (beta th + beta tl) (beta th * beta tl) X M FA FP FQ EA EP EQ BA BP BQ HX XM1 h x Fx Fx2 Fy1 Fy2 Bx Bx2 ltac:(lra) ltac:(lra)) as [Fy Ey].
  rewrite bp_step_shape. generalize dependent (fst (bp_step (A64 m) fsub to64 to32 c h x)). intros y Fy Ey.
  destruct h as [x1 x2 y1 y2]. cbn [bh_x1 bh_x2 bh_y1 bh_y2] in *. fold E in Ey.
  set (e := B2R y - (A * (B2R x - B2R x2) + (beta th + beta tl) * B2R y1 - beta th * beta tl * B2R y2)) in *.
  assert (FF : Rabs (A * (B2R x - B2R x2) + e) <= F).
  { unfold F. apply tri; [|exact Ey]. replace (2 * A * X) with (A * (X + X)) by ring. apply mul_bd; [rewrite Rabs_pos_eq; [lra|apply A_rng]|apply trim; assumption]. }
  assert (W : Rabs (B2R y - beta tl * B2R y1) <= F / gap th).
  { replace (B2R y - beta tl * B2R y1) with (beta th * (B2R y1 - beta tl * B2R y2) + (A * (B2R x - B2R x2) + e)) by (unfold e; ring).
    apply (contraction (beta th) _ _ (F / gap th) F Ph BW FF eq_refl). }
  assert (Y : Rabs (B2R y) <= F / gap th / gap tl).
  { replace (B2R y) with (beta tl * B2R y1 + (B2R y - beta tl * B2R y1)) by ring.
    apply (contraction (beta tl) _ _ (F / gap th / gap tl) (F / gap th) Pl By1 W eq_refl). }
  split; [|split; [exact Fy|lra]]. unfold bpJ. cbn [bh_x1 bh_x2 bh_y1 bh_y2]. repeat (split; [assumption|]). assumption.
Qed.
Lemma bpJ0 : bpJ bph0.
Proof.
  destruct F_M as [F0 _]. destruct (gap_rng tl Rl) as [Gl _]. destruct (gap_rng th Rh) as [Gh _]. destruct XM as (X0 & _).
  assert (W0 : 0 <= F / gap th) by (apply Rmult_le_pos; [exact F0|left; apply Rinv_0_lt_compat; exact Gh]).
  assert (Y0 : 0 <= F / gap th / gap tl) by (apply Rmult_le_pos; [exact W0|left; apply Rinv_0_lt_compat; exact Gl]).
  unfold bpJ, bph0. cbn [bh_x1 bh_x2 bh_y1 bh_y2]. change (B2R (f0 : f32)) with 0. rewrite Rmult_0_r, Rminus_0_r, Rabs_R0.
  repeat (split; [reflexivity||lra|]). lra.
Qed.
Lemma bp_f32_run xs : forall h, bpJ h -> (forall x, In x xs -> fin x /\ Rabs (B2R x) <= X) ->
  forall y, In y (fst (run (bp_step (A64 m) fsub to64 to32 c) h xs)) -> fin y /\ Rabs (B2R y) <= M.
Proof.
  induction xs as [|x xs IH]; intros h I Hx y Hy; [destruct Hy|].
  cbn [run] in Hy. destruct (Hx x (or_introl eq_refl)) as [Fx Bx]. pose proof (bp_f32_step h x I Fx Bx) as ST.
  destruct (bp_step (A64 m) fsub to64 to32 c h x) as [y0 h']. destruct ST as [I' B].
  specialize (IH h' I' (fun z Hz => Hx z (or_intror Hz))).
  destruct (run (bp_step (A64 m) fsub to64 to32 c) h' xs) as [ys hf]. cbn [fst] in *.
  destruct Hy as [<-|Hy]; [exact B|apply IH, Hy].
Qed.
End Inv.

Lemma bp_run_coeff m xs : forall s, fst (run (bp_process m) s xs) = fst (run (bp_step (A64 m) fsub to64 to32 (bp_coeff s)) (bp_hist s) xs).
Proof.
  induction xs as [|x xs IH]; intro s; [reflexivity|]. cbn [run]. unfold bp_process at 1.
  destruct (bp_step (A64 m) fsub to64 to32 (bp_coeff s) (bp_hist s) x) as [y o]. specialize (IH (mkBP (bp_f s) (bp_q s) (bp_coeff s) o)).
  cbn [bp_coeff bp_hist] in IH. destruct (run (bp_process m) _ xs). destruct (run (bp_step _ _ _ _ _) o xs). cbn [fst] in *. rewrite IH. reflexivity.
Qed.
Definition audible (f : f64) : Prop := fle (of_Z 20) f = true /\ fle f (of_Z 20000) = true.
Lemma audible_R f : audible f -> fin f /\ 20 <= B2R f <= 20000.
Proof.
  intros [H1 H2]. destruct (of_Z64 20 ltac:(lia)) as [F1 V1]. destruct (of_Z64 20000 ltac:(lia)) as [F2 V2].
  assert (Ff : fin f). { destruct f as [ | [|] | | ]; try reflexivity; revert H1 H2; vm_compute; discriminate. }
  apply fle_true in H1; [|exact F1|exact Ff]. apply fle_true in H2; [|exact Ff|exact F2]. rewrite V1 in H1. rewrite V2 in H2. auto.
Qed.
Theorem bp_f32_stable m f q X xs : tan_accurate m -> let s := bp_new m f q in
  audible (fst (bp_get_corners m s)) -> audible (snd (bp_get_corners m s)) ->
  bpow radix2 (-100) <= X <= bpow radix2 90 -> (forall x, In x xs -> fin x /\ Rabs (B2R x) <= X) ->
  forall y, In y (fst (run (bp_process m) s xs)) -> fin y /\ Rabs (B2R y) <= (34000 / B2R (fst (bp_get_corners m s)) + 3) * X.
Proof.
  intros HT s HL HH HX Hxs y Hy. rewrite bp_run_coeff in Hy. subst s.
  change (bp_hist (bp_new m f q)) with bph0 in Hy. change (bp_coeff (bp_new m f q)) with (bp_coeffs (A64 m) f q) in Hy.
  change (bp_get_corners m (bp_new m f q)) with (bp_corners (A64 m) f q) in *. unfold bp_coeffs in Hy.
  destruct (bp_corners (A64 m) f q) as [lo hi]. cbn [fst snd] in *.
  destruct (audible_R _ HL) as [FL RL]. destruct (audible_R _ HH) as [FH RH].
  destruct (theta_range m lo HT FL RL) as [Fl Tl]. destruct (theta_range m hi HT FH RH) as [Fh Th].
  destruct (coeff_ok m lo hi _ _ eq_refl eq_refl Fl Fh ltac:(lra) ltac:(lra)) as (FA & EA & FP & EP & FQ & EQ).
  set (tl := B2R (bp_theta (A64 m) lo)) in *. set (th := B2R (bp_theta (A64 m) hi)) in *.
  assert (Rl : 13 / 10000 <= tl <= 4) by lra. assert (Rh : 13 / 10000 <= th <= 4) by lra.
  destruct (bp_f32_run m (mkBPC (bp_a0 (A64 m) lo hi) (bp_b1 (A64 m) lo hi) (bp_b2 (A64 m) lo hi)) tl th X Rl Rh FA FP FQ EA EP EQ HX xs bph0) with (y := y) as [Fy By];
    [apply bpJ0; assumption|exact Hxs|exact Hy|].
  split; [exact Fy|]. apply Rle_trans with (1 := By). assert (X0 : 0 < X) by (pose proof (bpow_gt_0 radix2 (-100)); lra).
  apply Rmult_le_compat_r; [lra|]. unfold mu. set (l := B2R lo) in *.
  assert (0 < / l) by (apply Rinv_0_lt_compat; lra).
  destruct (Rle_dec tl 1) as [L|L]; [rewrite Rmin_left by lra|rewrite Rmin_right by lra; unfold Rdiv at 3; lra].
  assert (/ tl <= / (l * (6544 / 100000000))) by (apply Rinv_le; lra).
  replace (/ (l * (6544 / 100000000))) with (100000000 / 6544 * / l) in * by (field; lra). unfold Rdiv at 1 3. lra.
Qed.
