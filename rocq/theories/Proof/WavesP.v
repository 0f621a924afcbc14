(** * Triangle and Sawtooth against the ideal waveforms *)

From Coq Require Import ZArith List Bool Reals Lra Lia Psatz.
From Flocq Require Import Core.Core IEEE754.BinarySingleNaN Relative.
From Verif Require Import Model.Floats Model.Generators Spec.Waves
  Proof.FloatFacts Proof.SampleFormatP Proof.FormatsP Proof.UtilsP Proof.ResamplerP Proof.GeneratorsP Proof.GeneratorsP2 Proof.GeneratorsP3.
Import ListNotations.
Local Open Scope R_scope.

Definition sg (W : Z) : R := if Z.even W then 1 else -1.
Lemma sg_cases W : sg W = 1 \/ sg W = -1.
Proof. unfold sg. destruct (Z.even W); auto. Qed.
Lemma sg_succ W : sg (W + 1) = - sg W.
Proof. unfold sg. rewrite Z.add_1_r, Z.even_succ, <- Z.negb_even. destruct (Z.even W); simpl; lra. Qed.
Lemma sg_pred W : sg (W - 1) = - sg W.
Proof. rewrite <- (Z.sub_simpl_r W 1) at 2. rewrite sg_succ. ring. Qed.

Lemma sin_shift (W : Z) : forall x, sin (x + IZR W * PI) = sg W * sin x.
Proof.
  assert (P : forall n : nat, forall x, sin (x + INR n * PI) = sg (Z.of_nat n) * sin x).
  { induction n as [|n IH]; intro x.
    - simpl INR. replace (x + 0 * PI) with x by ring. unfold sg. simpl. ring.
    - rewrite S_INR, Nat2Z.inj_succ, <- Z.add_1_r, sg_succ.
      replace (x + (INR n + 1) * PI) with (x + INR n * PI + PI) by ring. rewrite neg_sin, IH. ring. }
  intro x. destruct (Z_le_gt_dec 0 W) as [H|H].
  - rewrite <- (Z2Nat.id W H) at 1. rewrite <- INR_IZR_INZ, P, Z2Nat.id by exact H. reflexivity.
  - pose proof (P (Z.to_nat (- W)) (x + IZR W * PI)) as Q. rewrite INR_IZR_INZ, Z2Nat.id in Q by lia.
    rewrite opp_IZR in Q. replace (x + IZR W * PI + - IZR W * PI) with x in Q by ring. rewrite Q.
    assert (S : sg (- W) = sg W) by (unfold sg; rewrite Z.even_opp; reflexivity). rewrite S.
    destruct (sg_cases W) as [-> | ->]; ring.
Qed.

(** the triangle, unfolded: [p] half-slopes elapsed *)
Definition tri4 (p : R) : R := triangle_wave (p / 4).
Lemma tri4_on (p : R) (W : Z) : -1 <= p - 2 * IZR W <= 1 -> tri4 p = sg W * (p - 2 * IZR W).
Proof.
  intro H. unfold tri4, triangle_wave. pose proof PI_RGT_0 as HP.
  replace (2 * PI * (p / 4)) with (PI / 2 * (p - 2 * IZR W) + IZR W * PI) by field. rewrite sin_shift.
  assert (A : asin (sg W * sin (PI / 2 * (p - 2 * IZR W))) = sg W * (PI / 2 * (p - 2 * IZR W))).
  { destruct (sg_cases W) as [-> | ->].
    - rewrite !Rmult_1_l. apply asin_sin. nra.
    - replace (-1 * sin (PI / 2 * (p - 2 * IZR W))) with (- sin (PI / 2 * (p - 2 * IZR W))) by ring.
      rewrite <- Rtrigo1.sin_neg, asin_sin by nra. ring. }
  rewrite A. field. lra.
Qed.
Lemma tri4_where (p : R) : exists W : Z, -1 <= p - 2 * IZR W <= 1.
Proof.
  exists (Zfloor ((p + 1) / 2)). pose proof (Zfloor_lb ((p + 1) / 2)). pose proof (Zfloor_ub ((p + 1) / 2)). lra.
Qed.
Lemma tri4_range p : -1 <= tri4 p <= 1.
Proof. destruct (tri4_where p) as [W H]. rewrite (tri4_on p W H). destruct (sg_cases W) as [-> | ->]; lra. Qed.
Lemma tri4_lip p q : Rabs (tri4 p - tri4 q) <= Rabs (p - q).
Proof.
  assert (G : forall p q V W, -1 <= p - 2 * IZR W <= 1 -> -1 <= q - 2 * IZR V <= 1 -> (W <= V)%Z -> Rabs (tri4 p - tri4 q) <= Rabs (p - q)).
  { clear p q. intros p q V W H K L. pose proof (tri4_range p) as R1. pose proof (tri4_range q) as R2.
    destruct (Z_le_gt_dec (W + 2) V) as [G|G].
    - apply IZR_le in G. rewrite plus_IZR in G. rewrite (Rabs_left1 (p - q)) by lra. apply Rabs_le. lra.
    - rewrite (tri4_on p W H), (tri4_on q V K).
      assert (C : V = W \/ V = (W + 1)%Z) by lia. destruct C as [-> | ->].
      + replace (sg W * (p - 2 * IZR W) - sg W * (q - 2 * IZR W)) with (sg W * (p - q)) by ring.
        rewrite Rabs_mult. destruct (sg_cases W) as [-> | ->]; [rewrite Rabs_R1|rewrite Rabs_left by lra]; lra.
      + rewrite sg_succ, plus_IZR in *. rewrite (Rabs_left1 (p - q)) by lra.
        destruct (sg_cases W) as [-> | ->]; apply Rabs_le; lra. }
  destruct (tri4_where p) as [W H]. destruct (tri4_where q) as [V K]. destruct (Z_le_gt_dec W V).
  - eapply G; eassumption.
  - rewrite (Rabs_minus_sym (tri4 p)), (Rabs_minus_sym p). eapply G; [exact K|exact H|lia].
Qed.

(** the state after n samples lies on the ideal triangle, at a phase close to n slopes *)
Lemma tri_phase n : forall f, fin f -> Rabs (B2R f) <= 24000 ->
  let s := nsteps tri_process n (tri_new f) in let r := B2R (tri_rate f) in
  exists (P : R) (W : Z), B2R (tri_inc s) = sg W * (P - 2 * IZR W) /\ B2R (tri_irate s) = sg W * r /\
    Rabs (P - INR n * r) <= INR n * bpow radix2 (-52).
Proof.
  intros f F H. pose proof (tri_new_inv f F H) as I0. induction n as [|n IH].
  - cbn [nsteps tri_new tri_inc tri_irate]. exists 0, 0%Z. change (B2R (f0 : f64)) with 0. change (sg 0) with 1. simpl.
    repeat split; try ring. rewrite !Rmult_0_l, Rminus_0_r, Rabs_R0. lra.
  - cbv zeta in *. destruct IH as (P & W & E1 & E2 & E3). rewrite nsteps_S.
    pose proof (tri_nsteps_inv n _ I0) as I. set (s := nsteps tri_process n (tri_new f)) in *. set (r := B2R (tri_rate f)) in *.
    destruct (tri_step s I) as (_ & _ & _ & _ & _ & K).
    destruct I as (_ & I1 & _ & I2).
    assert (D : Rabs (tri_sum s - (B2R (tri_inc s) + B2R (tri_irate s))) <= bpow radix2 (-52)).
    { unfold tri_sum. change (-52)%Z with (2 - 53 - 1)%Z. apply rnd_err; [unfold SpecFloat.emin; lia|].
      change (bpow radix2 2) with 4. eapply Rle_trans; [apply Rabs_triang|]. lra. }
    set (e := tri_sum s - (B2R (tri_inc s) + B2R (tri_irate s))) in *.
    assert (S1 : tri_sum s = sg W * (P + r + sg W * e - 2 * IZR W)).
    { unfold e. rewrite E1, E2. destruct (sg_cases W) as [-> | ->]; ring. }
    assert (B : Rabs (P + r + sg W * e - INR (S n) * r) <= INR (S n) * bpow radix2 (-52)).
    { rewrite S_INR. replace (P + r + sg W * e - (INR n + 1) * r) with ((P - INR n * r) + sg W * e) by ring.
      eapply Rle_trans; [apply Rabs_triang|]. rewrite Rabs_mult.
      replace (Rabs (sg W)) with 1 by (destruct (sg_cases W) as [-> | ->]; [rewrite Rabs_R1|rewrite Rabs_left by lra]; lra). lra. }
    exists (P + r + sg W * e).
    assert (N : B2R (fneg (tri_irate s)) = - (sg W * r)) by (rewrite fneg_R, E2; ring).
    destruct K as [(K1 & K2 & K3)|[(K1 & K2 & K3)|(K1 & K2 & K3)]]; rewrite K2, K3, S1.
    + destruct (sg_cases W) as [C|C].
      * exists (W + 1)%Z. rewrite sg_succ, plus_IZR, N, C. split; [ring|]. split; [ring|]. rewrite C in B. exact B.
      * exists (W - 1)%Z. rewrite sg_pred, minus_IZR, N, C. split; [ring|]. split; [ring|]. rewrite C in B. exact B.
    + destruct (sg_cases W) as [C|C].
      * exists (W - 1)%Z. rewrite sg_pred, minus_IZR, N, C. split; [ring|]. split; [ring|]. rewrite C in B. exact B.
      * exists (W + 1)%Z. rewrite sg_succ, plus_IZR, N, C. split; [ring|]. split; [ring|]. rewrite C in B. exact B.
    + exists W. rewrite E2. auto.
Qed.

Lemma tri_rate_err (f : f64) : fin f -> Rabs (B2R f) <= 24000 ->
  Rabs (B2R (tri_rate f) - 4 * B2R f / 48000) <= bpow radix2 (-51).
Proof.
  intros F H. destruct (tri_rate_ok f F H) as (_ & B & C). rewrite B.
  assert (I : Rabs (B2R INV_SAMPLE_RATE - / 48000) <= / 48000 * bpow radix2 (-53)).
  { rewrite INV_val. change (bpow radix2 (-53)) with (/ 9007199254740992). apply Rabs_le. lra. }
  assert (E : Rabs (rnd64 (4 * B2R f * B2R INV_SAMPLE_RATE) - 4 * B2R f * B2R INV_SAMPLE_RATE) <= bpow radix2 (-52)).
  { change (-52)%Z with (2 - 53 - 1)%Z. apply rnd_err; [unfold SpecFloat.emin; lia|].
    change (bpow radix2 2) with 4. apply Rabs_le_inv in H. assert (J : 0 < B2R INV_SAMPLE_RATE < / 47999) by (rewrite INV_val; lra).
    apply Rabs_le. nra. }
  replace (rnd64 (4 * B2R f * B2R INV_SAMPLE_RATE) - 4 * B2R f / 48000)
    with ((rnd64 (4 * B2R f * B2R INV_SAMPLE_RATE) - 4 * B2R f * B2R INV_SAMPLE_RATE) + 4 * B2R f * (B2R INV_SAMPLE_RATE - / 48000)) by field.
  eapply Rle_trans; [apply Rabs_triang|]. rewrite Rabs_mult, (Rabs_mult 4), (Rabs_pos_eq 4) by lra.
  assert (M : 4 * Rabs (B2R f) * Rabs (B2R INV_SAMPLE_RATE - / 48000) <= 4 * 24000 * (/ 48000 * bpow radix2 (-53))).
  { apply Rmult_le_compat; try apply Rabs_pos; try lra. pose proof (Rabs_pos (B2R f)). lra. }
  change (bpow radix2 (-53)) with (/ 9007199254740992) in *. change (bpow radix2 (-52)) with (/ 4503599627370496) in *.
  change (bpow radix2 (-51)) with (/ 2251799813685248). lra.
Qed.

(** rounding a value of [-1,1] to a sample *)
Lemma to32_unit_err (y : f64) : fin y -> -1 <= B2R y <= 1 -> Rabs (B2R (to32 y) - B2R y) <= bpow radix2 (-25).
Proof.
  intros F H. destruct (fcast_le (p2:=24) (e2:=128) y 1 F) as (_ & B & _).
  - exact (fmt32_Z 1 ltac:(lia)).
  - change 1 with (bpow radix2 0). apply bpow_lt. lia.
  - apply Rabs_le. exact H.
  - unfold to32. rewrite B. change (-25)%Z with (0 - 24 - 1)%Z. apply rnd_err; [unfold SpecFloat.emin; lia|].
    change (bpow radix2 0) with 1. apply Rabs_le. exact H.
Qed.

Lemma triangle_accuracy (n : nat) (f : f64) : fin f -> Rabs (B2R f) <= 24000 ->
  let y := nth_out tri_process n (tri_new f) in
  fin y /\ Rabs (B2R y - triangle_wave (B2R f * INR n / 48000)) <= bpow radix2 (-25) + INR n * bpow radix2 (-50).
Proof.
  intros F H. cbv zeta. pose proof (tri_nsteps_inv n _ (tri_new_inv f F H)) as I.
  destruct (tri_phase n f F H) as (P & W & E1 & _ & E3).
  destruct (tri_step _ I) as (_ & O1 & _ & O3 & _). unfold nth_out. split; [exact O1|]. rewrite O3.
  destruct I as (_ & _ & I3 & I4). set (s := nsteps tri_process n (tri_new f)) in *. apply Rabs_le_inv in I4.
  assert (T : B2R (tri_inc s) = tri4 P).
  { rewrite (tri4_on P W); [exact E1|]. destruct (sg_cases W) as [C|C]; rewrite C in E1; lra. }
  pose proof (to32_unit_err _ I3 I4) as R1. pose proof (tri_rate_err f F H) as R2. pose proof (pos_INR n) as Pn.
  assert (Q : triangle_wave (B2R f * INR n / 48000) = tri4 (INR n * (4 * B2R f / 48000))) by (unfold tri4; f_equal; field).
  rewrite Q. pose proof (tri4_lip P (INR n * (4 * B2R f / 48000))) as L.
  assert (D : Rabs (P - INR n * (4 * B2R f / 48000)) <= INR n * bpow radix2 (-50)).
  { replace (P - INR n * (4 * B2R f / 48000)) with ((P - INR n * B2R (tri_rate f)) + INR n * (B2R (tri_rate f) - 4 * B2R f / 48000)) by ring.
    eapply Rle_trans; [apply Rabs_triang|]. rewrite (Rabs_mult (INR n)), (Rabs_pos_eq (INR n)) by exact Pn.
    assert (B : INR n * Rabs (B2R (tri_rate f) - 4 * B2R f / 48000) <= INR n * bpow radix2 (-51)) by (apply Rmult_le_compat_l; assumption).
    change (bpow radix2 (-50)) with (/ 1125899906842624). change (bpow radix2 (-52)) with (/ 4503599627370496) in *.
    change (bpow radix2 (-51)) with (/ 2251799813685248) in *. lra. }
  replace (B2R (to32 (tri_inc s)) - tri4 (INR n * (4 * B2R f / 48000)))
    with ((B2R (to32 (tri_inc s)) - B2R (tri_inc s)) + (tri4 P - tri4 (INR n * (4 * B2R f / 48000)))) by (rewrite T; ring).
  eapply Rle_trans; [apply Rabs_triang|]. lra.
Qed.

(** setting the frequency that is already playing turns a falling triangle around *)
Lemma tri_reset_turns (f : f64) : fin f -> bpow radix2 (-20) <= B2R f <= 24000 ->
  exists n, let s := nsteps tri_process n (tri_new f) in
    tri_irate (tri_set_frequency s f) = tri_rate f /\ B2R (tri_irate s) = - B2R (tri_rate f) /\ 0 < B2R (tri_rate f).
Proof.
  intros F H. destruct (tri_turns f F H) as [n E]. exists n. cbv zeta. rewrite E, fneg_R.
  split; [reflexivity|]. split; [reflexivity|]. apply tri_rate_pos; assumption.
Qed.

(** ** Sawtooth *)
Lemma sawtooth_accuracy (n : nat) (f : f64) : fin f -> 0 <= B2R f <= 24000 ->
  let y := nth_out saw_process n (saw_new f) in let w := sawtooth_wave (B2R f * INR n / 48000) in
  fin y /\ (Rabs w < 1 - INR n * bpow radix2 (-51) -> Rabs (B2R y - w) <= bpow radix2 (-25) + INR n * bpow radix2 (-51)).
Proof.
  intros F H. cbv zeta. destruct (saw_tuning n f F H) as [W E].
  destruct (saw_nsteps_inv n _ (saw_new_inv f F H)) as [I _].
  destruct (saw_step _ I) as (_ & O). unfold nth_out.
  set (s := nsteps saw_process n (saw_new f)) in *. change (fst (saw_process s)) with (to32 (saw_inc s)) in *.
  destruct I as (_ & _ & I3 & I4). destruct O as (O1 & _). split; [exact O1|]. intro G.
  pose proof (to32_unit_err _ I3 ltac:(lra)) as R1. set (d := INR n * bpow radix2 (-51)) in *.
  unfold sawtooth_wave in *. set (V := Zfloor (B2R f * INR n / 48000 + / 2)) in *.
  replace (2 * INR n * B2R f / 48000) with (2 * (B2R f * INR n / 48000)) in E by field.
  set (p := B2R f * INR n / 48000) in *. set (x := B2R (saw_inc s)) in *.
  apply Rabs_le_inv in E. apply Rabs_lt_inv in G.
  assert (EQ : V = W).
  { assert (L : -1 < IZR (V - W) < 1) by (rewrite minus_IZR; lra). destruct L as [L1 L2]. apply lt_IZR in L1. apply lt_IZR in L2. lia. }
  rewrite EQ in *. replace (B2R (to32 (saw_inc s)) - (2 * p - 2 * IZR W)) with ((B2R (to32 (saw_inc s)) - x) + (x - (2 * p - 2 * IZR W))) by ring.
  eapply Rle_trans; [apply Rabs_triang|]. apply Rplus_le_compat; [exact R1|]. apply Rabs_le. lra.
Qed.
