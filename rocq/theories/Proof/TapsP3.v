(** * Generic filters: convolution with the impulse response, starting late *)
From Coq Require Import ZArith List Bool Arith Reals Lra Lia Psatz.
From Flocq Require Import Core.Core IEEE754.BinarySingleNaN.
From Verif Require Import Model.Floats Model.Utils Model.Modifiers Spec.Response Spec.Taps Spec.Chain Spec.Convolve
  Proof.FloatFacts Proof.SampleFormatP Proof.FormatsP Proof.GenericP Proof.ChainP2 Proof.TapsP Proof.TapsP2 Proof.ConvolveP.
Import ListNotations.
Local Open Scope R_scope.

Lemma conv_before g x i n : conv (fun k => before g k i) x n = before (conv g x) n i.
Proof.
  rewrite (conv_ext (fun k => before g k i) (conv (late i) g) x x n) by (intros; try (rewrite conv_late); reflexivity).
  rewrite conv_assoc, conv_late. reflexivity.
Qed.
Lemma conv_zero x n : conv (fun _ => 0) x n = 0.
Proof. unfold conv. rewrite (sum_eq _ (fun _ => 0)) by (intros; ring). apply sum_eq_R0. reflexivity. Qed.
Lemma conv_tapped cs (g : nat -> nat -> R) x n : conv (fun k => tapped cs (fun i => g i k)) x n = tapped cs (fun i => conv (g i) x n).
Proof.
  unfold tapped. induction cs as [|c r IH]; cbn [fold_right]; [apply conv_zero|]. rewrite <- IH. rewrite conv_comm.
  rewrite (conv_ext x x _ (fun k => fold_right (fun c a => B2R (snd c) * g (Z.to_nat (fst c)) k + a) 0 r + B2R (snd c) * g (Z.to_nat (fst c)) k) n) by (intros; ring).
  rewrite conv_lin, (conv_comm x), (conv_comm x). ring.
Qed.
Lemma sol_conv z p x n : sol z p x n = conv (sol z p impulse) x n.
Proof.
  apply (solves_unique z p x); [apply sol_solves|]. clear n. intro n. set (h := sol z p impulse).
  rewrite (conv_ext h (fun k => tapped p (fun j => before h k (S j)) + 1 * tapped z (fun i => before impulse k i)) x x n) by (intros; try reflexivity; unfold h; rewrite (sol_solves z p impulse k) at 1; rewrite Rmult_1_l, Rplus_comm; reflexivity).
  rewrite conv_comm, conv_lin, !(conv_comm x), (conv_tapped p (fun j k => before h k (S j))), (conv_tapped z (fun i k => before impulse k i)).
  rewrite Rmult_1_l, Rplus_comm. f_equal; apply tapped_ext; intros c _; rewrite conv_before; [|reflexivity].
  unfold before. destruct (n <? _)%nat; [reflexivity|apply impulse_conv].
Qed.
Lemma sol_minus z p x x' n : sol z p x n - sol z p x' n = sol z p (fun i => x i - x' i) n.
Proof.
  rewrite !sol_conv. rewrite (conv_ext _ (sol z p impulse) (fun i => x i - x' i) (fun i => x i + -1 * x' i) n) by (intros; try ring; reflexivity). rewrite conv_lin. ring.
Qed.

(** ** feedback of exactly one: a counter *)
Lemma fmt_int z : (Z.abs z <= 2 ^ 24)%Z -> generic_format radix2 (SpecFloat.fexp 24 128) (IZR z).
Proof. intro H. destruct (of_Z32 z H) as [_ <-]. apply fmt_B2R. Qed.
Lemma int_lt z : (Z.abs z <= 2 ^ 24)%Z -> Rabs (IZR z) < bpow radix2 128.
Proof. intro H. destruct (of_Z32 z H) as [_ <-]. apply abs_B2R_lt. Qed.
Lemma fadd_int (x y : f32) a b : fin x -> fin y -> B2R x = IZR a -> B2R y = IZR b -> (Z.abs (a + b) <= 2 ^ 24)%Z -> fin (fadd x y) /\ B2R (fadd x y) = IZR (a + b).
Proof.
  intros Fx Fy Ex Ey H. assert (E : rnd32 (B2R x + B2R y) = IZR (a + b)) by (rewrite Ex, Ey, <- plus_IZR; apply round_generic; [typeclasses eauto|apply fmt_int, H]).
  destruct (fadd_ok (prec:=24) (emax:=128) x y Fx Fy) as [A B]; [rewrite E; apply int_lt, H|]. rewrite B. auto.
Qed.
Lemma fmul_int (x y : f32) a b : fin x -> fin y -> B2R x = IZR a -> B2R y = IZR b -> (Z.abs (a * b) <= 2 ^ 24)%Z -> fin (fmul x y) /\ B2R (fmul x y) = IZR (a * b).
Proof.
  intros Fx Fy Ex Ey H. assert (E : rnd32 (B2R x * B2R y) = IZR (a * b)) by (rewrite Ex, Ey, <- mult_IZR; apply round_generic; [typeclasses eauto|apply fmt_int, H]).
  destruct (fmul_ok (prec:=24) (emax:=128) x y Fx Fy) as [A B]; [rewrite E; apply int_lt, H|]. rewrite B. auto.
Qed.
Lemma counter (N : nat) : (Z.of_nat N <= 2 ^ 24)%Z -> exists ys s, run_res generic_process (generic_new [(0%Z, of_Z 1)] [(0%Z, of_Z 1)]) (repeat (of_Z 1) N) = Ok (ys, s) /\
  length ys = N /\ forall n, (n < N)%nat -> fin (nth n ys f0) /\ B2R (nth n ys f0) = INR (S n).
Proof.
  intro HN. set (one := of_Z 1 : f32). destruct (of_Z32 1 ltac:(lia)) as [F1 V1]. fold one in F1, V1.
  destruct (generic_run [(0%Z, one)] [(0%Z, one)]) with (xs := repeat one N) as (ys & s & E & _ & _ & L & _ & _ & REC); try (intros c [<-|[]]; cbn; lia).
  exists ys, s. split; [exact E|]. rewrite repeat_length in *. split; [exact L|]. clear E.
  intro n. induction n as [n IH] using lt_wf_ind. intro Hn. specialize (REC n Hn). apply (List.nth_error_nth _ _ f0) in REC.
  rewrite REC. unfold diff_eq, dot. cbn [fold_left fst snd].
  assert (PX : past (repeat one N) (Z.of_nat n - 0) = one).
  { unfold past. destruct (Z.ltb_spec (Z.of_nat n - 0) 0); [lia|]. replace (Z.to_nat (Z.of_nat n - 0)) with n by lia.
    apply (repeat_spec N). apply nth_In. rewrite repeat_length. exact Hn. }
  rewrite PX. destruct (fmul_int one one 1 1 F1 F1 V1 V1 ltac:(lia)) as [F2 V2].
  destruct (fadd_int f0 (fmul one one) 0 1 eq_refl F2 eq_refl V2 ltac:(lia)) as [F3 V3].
  assert (PY : fin (past ys (Z.of_nat n - 1 - 0)) /\ B2R (past ys (Z.of_nat n - 1 - 0)) = IZR (Z.of_nat n)).
  { unfold past. destruct (Z.ltb_spec (Z.of_nat n - 1 - 0) 0); [replace n with 0%nat by lia; split; reflexivity|].
    destruct n as [|k]; [lia|]. replace (Z.to_nat (Z.of_nat (S k) - 1 - 0)) with k by lia. destruct (IH k ltac:(lia) ltac:(lia)) as [A B]. split; [exact A|]. rewrite B. apply INR_IZR_INZ. }
  destruct PY as [FY VY]. destruct (fmul_int _ one (Z.of_nat n) 1 FY F1 VY V1 ltac:(lia)) as [F4 V4].
  destruct (fadd_int _ _ 1 (Z.of_nat n * 1) F3 F4 V3 V4 ltac:(lia)) as [F5 V5]. split; [exact F5|]. rewrite V5, INR_IZR_INZ. f_equal. lia.
Qed.

Lemma one_solution z p x : solves z p x (sol z p x) /\ forall y, solves z p x y -> forall n, y n = sol z p x n.
Proof. split; [apply sol_solves|]. intros y H. exact (solves_unique z p x y _ H (sol_solves z p x)). Qed.
Lemma sol_settles z p om w : taps_ok z p -> settles (sol z p (fun n => tone om w n)) (fun n => tone om (cmul (taps_H z p om) w) n).
Proof.
  intro OK. destruct (sol_tone z p om w 0 0 OK (Rle_refl 0) ltac:(lra) (csum w) (csum_pos w)) as (K & rho & _ & R & T).
  exists K, rho. split; [exact R|]. intro n. specialize (T 0 (fun i => tone om w i) n (Rle_refl 0)). rewrite <- (Rplus_0_l (K * rho ^ n)), <- (Rmult_0_r (taps_gain z p)). apply T; [|lia].
  intros i _. split; [apply tone_csum|]. rewrite Rminus_diag_eq, Rabs_R0 by reflexivity. lra.
Qed.
Lemma lit_half : B2R (lit 1 (-1) : f32) = / 2.
Proof. destruct (B2R_of_SF (lit 1 (-1) : f32) false 8388608 (-24)) as [_ ->]; [vm_compute; reflexivity|cbn; lra]. Qed.
Lemma lit_fourth : B2R (lit 1 (-2) : f32) = / 4.
Proof. destruct (B2R_of_SF (lit 1 (-2) : f32) false 8388608 (-25)) as [_ ->]; [vm_compute; reflexivity|cbn; lra]. Qed.
Lemma taps_example : let z := [(0%Z, lit 1 (-2)); (1%Z, lit 1 (-1)); (2%Z, lit 1 (-2))] in let p := [(0%Z, lit 1 (-1))] in
  taps_ok z p /\ taps_H z p 0 = cre 2 /\ taps_H z p PI = cre 0 /\ taps_gain z p = 2 /\ taps_drift z p < / 100000 /\
  match run_res generic_process (generic_new z p) (map of_Z [16; 0; 0; 0; 0]%Z) with Ok (ys, _) => map B2SF ys = map (fun k => B2SF (of_Z k : f32)) [4; 10; 9]%Z ++ map B2SF [lit 9 (-1) : f32; lit 9 (-2)] | _ => False end.
Proof.
  intros z p. assert (Wz : weight z = 1) by (unfold z, weight; cbn [fold_right fst snd]; rewrite lit_half, lit_fourth, !Rabs_pos_eq by lra; lra).
  assert (Wp : weight p = / 2) by (unfold p, weight; cbn [fold_right fst snd]; rewrite lit_half, !Rabs_pos_eq by lra; lra).
  assert (N : INR (length z + length p) = 4) by (cbn; lra).
  split; [|split; [|split; [|split; [|split]]]].
  - unfold taps_ok. rewrite Wz, Wp, N. change (bpow radix2 (-24)) with (/ 16777216). change (bpow radix2 12) with 4096.
    split; [|split; [|lra]]; intros c Hc.
    + assert (back_len z = 3%Z) as -> by (vm_compute; reflexivity). destruct Hc as [<-|[<-|[<-|[]]]]; (split; [cbn [fst]; lia|vm_compute; reflexivity]).
    + assert (back_len p = 1%Z) as -> by (vm_compute; reflexivity). destruct Hc as [<-|[]]; (split; [cbn [fst]; lia|vm_compute; reflexivity]).
  - unfold taps_H, taps_sum, z, p. cbn [fold_right fst snd]. rewrite lit_half, lit_fourth. unfold zi. rewrite !Rmult_0_l, cos_0, sin_0.
    unfold cdiv, cmul, cinv, csub, cadd, cre, cn2. cbn [fst snd]. f_equal; field; lra.
  - unfold taps_H, taps_sum, z, p. cbn [fold_right fst snd]. rewrite lit_half, lit_fourth. unfold zi.
    change (0 + Z.to_nat 0)%nat with 0%nat. change (0 + Z.to_nat 1)%nat with 1%nat. change (1 + Z.to_nat 0)%nat with 1%nat. change (0 + Z.to_nat 2)%nat with 2%nat.
    cbn [INR]. replace (PI * (1 + 1)) with (2 * PI) by ring. rewrite !Rmult_0_r, !Rmult_1_r, cos_0, sin_0, cos_PI, sin_PI, cos_2PI, sin_2PI.
    unfold cdiv, cmul, cinv, csub, cadd, cre, cn2. cbn [fst snd]. f_equal; field; lra.
  - unfold taps_gain. rewrite Wz, Wp. lra.
  - unfold taps_drift. rewrite Wz, Wp, N. change (bpow radix2 (-24)) with (/ 16777216). change (bpow radix2 (-20)) with (/ 1048576). lra.
  - vm_compute. reflexivity.
Qed.
