(** * Proofs about Sawtooth, Triangle, Noise *)

From Coq Require Import ZArith List Bool Reals Lra Lia Psatz.
From Flocq Require Import Core.Core IEEE754.BinarySingleNaN Relative Sterbenz Plus_error.
From Verif Require Import Model.Floats Model.Generators
  Proof.FloatFacts Proof.SampleFormatP Proof.FormatsP Proof.UtilsP.
Import ListNotations.
Local Open Scope R_scope.

(** ** constants *)
Lemma INV_ok : fin INV_SAMPLE_RATE /\ B2R INV_SAMPLE_RATE = IZR 6148914691236517 * bpow radix2 (-68).
Proof.
  assert (E : INV_SAMPLE_RATE = lit 6148914691236517 (-68)) by (apply B2SF_inj; vm_compute; reflexivity).
  rewrite E. apply lit_ok.
  - apply fmt_FLT; [reflexivity|unfold SpecFloat.emin; lia].
  - change (bpow radix2 (-68)) with (/ IZR (2 ^ 68)). change (2 ^ 68)%Z with 295147905179352825856%Z.
    rewrite Rabs_pos_eq by lra. apply Rlt_trans with 1; [lra|]. change 1 with (bpow radix2 0). apply bpow_lt. lia.
Qed.
Lemma INV_val : B2R INV_SAMPLE_RATE = 6148914691236517 / 295147905179352825856.
Proof. rewrite (proj2 INV_ok). reflexivity. Qed.

Lemma fmt64_double x : fmt64 x -> fmt64 (2 * x).
Proof.
  intro F. replace (2 * x) with (x * bpow radix2 1) by (change (bpow radix2 1) with 2; ring).
  apply generic_format_FLT. apply FLT_format_generic in F; [|reflexivity].
  destruct F as [[m e] H1 H2 H3]. exists (Float radix2 m (e + 1)).
  - rewrite H1. unfold F2R. cbn [Fnum Fexp]. rewrite bpow_plus. ring.
  - exact H2.
  - simpl in *. lia.
Qed.
Lemma fmt64_quad x : fmt64 x -> fmt64 (4 * x).
Proof. intro F. replace (4 * x) with (2 * (2 * x)) by ring. apply fmt64_double, fmt64_double, F. Qed.

Lemma b1024 M : M <= IZR (2 ^ 200) -> M < bpow radix2 1024.
Proof. intro H. pose proof bpow_1024_big. lra. Qed.
Lemma IZR_2_200 : IZR (2 ^ 60) <= IZR (2 ^ 200).
Proof. apply IZR_le. apply Z.pow_le_mono_r; lia. Qed.
Lemma b1024s M : M <= IZR (2 ^ 60) -> M < bpow radix2 1024.
Proof. intro H. apply b1024. pose proof IZR_2_200. lra. Qed.

(** scaled frequency: c*f*INV with c = 2 or 4 *)
Lemma c2 : fin (of_Z 2 : f64) /\ B2R (of_Z 2 : f64) = 2.
Proof. exact (of_Z64 2 ltac:(lia)). Qed.
Lemma c4 : fin (of_Z 4 : f64) /\ B2R (of_Z 4 : f64) = 4.
Proof. exact (of_Z64 4 ltac:(lia)). Qed.
Lemma cm2 : fin (of_Z (-2) : f64) /\ B2R (of_Z (-2) : f64) = -2.
Proof. exact (of_Z64 (-2) ltac:(lia)). Qed.

Lemma sixty : IZR (2 ^ 60) = 1152921504606846976. Proof. reflexivity. Qed.

Lemma double_ok (f : f64) : fin f -> Rabs (B2R f) <= 1048576 -> fin (fmul (of_Z 2) f) /\ B2R (fmul (of_Z 2) f) = 2 * B2R f.
Proof.
  intros F H. destruct c2 as [F2 V2].
  assert (Fd : fmt64 (2 * B2R f)) by (apply fmt64_double, fmt_B2R).
  destruct (fmul_ok (of_Z 2) f F2 F) as [A B]; rewrite V2, rnd_fmt in * by exact Fd; auto.
  apply b1024s. rewrite sixty, Rabs_mult, (Rabs_pos_eq 2) by lra. lra.
Qed.
Lemma quad_ok (f : f64) : fin f -> Rabs (B2R f) <= 1048576 -> fin (fmul (of_Z 4) f) /\ B2R (fmul (of_Z 4) f) = 4 * B2R f.
Proof.
  intros F H. destruct c4 as [F2 V2].
  assert (Fd : fmt64 (4 * B2R f)) by (apply fmt64_quad, fmt_B2R).
  destruct (fmul_ok (of_Z 4) f F2 F) as [A B]; rewrite V2, rnd_fmt in * by exact Fd; auto.
  apply b1024s. rewrite sixty, Rabs_mult, (Rabs_pos_eq 4) by lra. lra.
Qed.

Lemma fmt64_1 : fmt64 1. Proof. exact (fmt64_Z 1 ltac:(lia)). Qed.
Lemma fmt64_2 : fmt64 2. Proof. exact (fmt64_Z 2 ltac:(lia)). Qed.
Lemma fmt64_4 : fmt64 4. Proof. exact (fmt64_Z 4 ltac:(lia)). Qed.

Lemma rnd_48000 : rnd64 (48000 * B2R INV_SAMPLE_RATE) = 1.
Proof.
  destruct (of_Z64 48000 ltac:(lia)) as [F V]. destruct INV_ok as [FI VI].
  assert (E : fmul (of_Z 48000) INV_SAMPLE_RATE = of_Z 1) by (apply B2SF_inj; vm_compute; reflexivity).
  destruct (fmul_ok (of_Z 48000) INV_SAMPLE_RATE F FI) as [_ B].
  - rewrite V. apply Rle_lt_trans with 2; [|apply b1024s; rewrite sixty; lra].
    apply rnd_abs_le; [exact fmt64_2|]. rewrite INV_val. rewrite Rabs_pos_eq; lra.
  - rewrite E, V in B. destruct one64 as [_ O]. rewrite O in B. symmetry. exact B.
Qed.
Lemma rnd_96000 : rnd64 (96000 * B2R INV_SAMPLE_RATE) = 2.
Proof.
  destruct (of_Z64 96000 ltac:(lia)) as [F V]. destruct INV_ok as [FI VI].
  assert (E : fmul (of_Z 96000) INV_SAMPLE_RATE = of_Z 2) by (apply B2SF_inj; vm_compute; reflexivity).
  destruct (fmul_ok (of_Z 96000) INV_SAMPLE_RATE F FI) as [_ B].
  - rewrite V. apply Rle_lt_trans with 4; [|apply b1024s; rewrite sixty; lra].
    apply rnd_abs_le; [exact fmt64_4|]. rewrite INV_val. rewrite Rabs_pos_eq; lra.
  - rewrite E, V in B. destruct c2 as [_ O]. rewrite O in B. symmetry. exact B.
Qed.

Lemma saw_rate_ok (f : f64) : fin f -> Rabs (B2R f) <= 24000 ->
  fin (saw_rate f) /\ B2R (saw_rate f) = rnd64 (2 * B2R f * B2R INV_SAMPLE_RATE) /\ Rabs (B2R (saw_rate f)) <= 1.
Proof.
  intros F H. destruct (double_ok f F ltac:(lra)) as [A B]. destruct INV_ok as [FI _].
  assert (Q : Rabs (rnd64 (2 * B2R f * B2R INV_SAMPLE_RATE)) <= 1).
  { apply Rabs_le_inv in H. assert (I0 : 0 < B2R INV_SAMPLE_RATE) by (rewrite INV_val; lra).
    apply Rabs_le. split.
    - rewrite <- rnd_48000, <- (rnd_opp (prec:=53) (emax:=1024)). apply rnd_le. nra.
    - rewrite <- rnd_48000. apply rnd_le. nra. }
  destruct (fmul_ok (fmul (of_Z 2) f) INV_SAMPLE_RATE A FI) as [C D]; rewrite B in *.
  - eapply Rle_lt_trans; [exact Q|]. apply b1024s. rewrite sixty. lra.
  - unfold saw_rate. rewrite D. auto.
Qed.
Lemma tri_rate_ok (f : f64) : fin f -> Rabs (B2R f) <= 24000 ->
  fin (tri_rate f) /\ B2R (tri_rate f) = rnd64 (4 * B2R f * B2R INV_SAMPLE_RATE) /\ Rabs (B2R (tri_rate f)) <= 2.
Proof.
  intros F H. destruct (quad_ok f F ltac:(lra)) as [A B]. destruct INV_ok as [FI _].
  assert (Q : Rabs (rnd64 (4 * B2R f * B2R INV_SAMPLE_RATE)) <= 2).
  { apply Rabs_le_inv in H. assert (I0 : 0 < B2R INV_SAMPLE_RATE) by (rewrite INV_val; lra).
    apply Rabs_le. split.
    - rewrite <- rnd_96000, <- (rnd_opp (prec:=53) (emax:=1024)). apply rnd_le. nra.
    - rewrite <- rnd_96000. apply rnd_le. nra. }
  destruct (fmul_ok (fmul (of_Z 4) f) INV_SAMPLE_RATE A FI) as [C D]; rewrite B in *.
  - eapply Rle_lt_trans; [exact Q|]. apply b1024s. rewrite sixty. lra.
  - unfold tri_rate. rewrite D. auto.
Qed.
Lemma saw_rate_nonneg (f : f64) : fin f -> 0 <= B2R f <= 24000 -> fin (saw_rate f) /\ 0 <= B2R (saw_rate f) <= 1.
Proof.
  intros F H. destruct (saw_rate_ok f F) as (A & B & C); [rewrite Rabs_pos_eq; lra|].
  split; [exact A|]. apply Rabs_le_inv in C. split; [|lra]. rewrite B. apply rnd_nonneg. rewrite INV_val. nra.
Qed.

(** conversion of a value in [-1,1] to f32 *)
Lemma to32_unit (y : f64) : fin y -> -1 <= B2R y <= 1 -> fin (to32 y) /\ -1 <= B2R (to32 y) <= 1.
Proof.
  intros F H. destruct (fcast_le (p2:=24) (e2:=128) y 1 F) as (A & _ & C).
  - exact (fmt32_Z 1 ltac:(lia)).
  - change 1 with (bpow radix2 0). apply bpow_lt. lia.
  - apply Rabs_le. exact H.
  - split; [exact A|]. apply Rabs_le_inv in C. exact C.
Qed.

(** ** Sawtooth *)
Definition saw_inv (s : sawtooth) : Prop :=
  fin (saw_irate s) /\ 0 <= B2R (saw_irate s) <= 1 /\ fin (saw_inc s) /\ -1 <= B2R (saw_inc s) < 1.

(** one step: exact rounding error and wrap *)
Lemma saw_step s : saw_inv s -> saw_inv (snd (saw_process s)) /\
  fin (fst (saw_process s)) /\ -1 <= B2R (fst (saw_process s)) <= 1 /\
  exists (w : Z) d, (w = 0 \/ w = 1)%Z /\ Rabs d <= bpow radix2 (-53) /\
    B2R (saw_inc (snd (saw_process s))) = B2R (saw_inc s) + B2R (saw_irate s) - 2 * IZR w + d.
Proof.
  intros (F1 & H1 & F2 & H2). unfold saw_process. cbn [fst snd saw_irate saw_inc].
  destruct (to32_unit (saw_inc s) F2 ltac:(lra)) as [O1 O2].
  destruct (fadd_le (saw_inc s) (saw_irate s) 2 F2 F1 fmt64_2) as (A & B & C).
  { apply b1024s. rewrite sixty. lra. } { apply Rabs_le. lra. }
  set (x := fadd (saw_inc s) (saw_irate s)) in *.
  assert (E : Rabs (B2R x - (B2R (saw_inc s) + B2R (saw_irate s))) <= bpow radix2 (-53)).
  { rewrite B. change (-53)%Z with (1 - 53 - 1)%Z. apply rnd_err; [unfold SpecFloat.emin; lia|].
    simpl (bpow radix2 1). apply Rabs_le. lra. }
  assert (X : -1 <= B2R x <= 2).
  { rewrite B. split; [|apply (rnd_le_fmt (prec:=53) (emax:=1024)); [exact fmt64_2|lra]].
    apply (rnd_ge_fmt (prec:=53) (emax:=1024)); [exact (fmt_opp _ fmt64_1)|lra]. }
  destruct one64 as [FO VO]. destruct c2 as [FT VT].
  destruct (fge x (of_Z 1)) eqn:G.
  - apply fge_true in G; try assumption. rewrite VO in G.
    assert (FS : fmt64 (B2R x - 2)).
    { apply (sterbenz radix2 (SpecFloat.fexp 53 1024)); [apply fmt_B2R|exact fmt64_2|lra]. }
    destruct (fsub_ok x (of_Z 2) A FT) as [P Q]; rewrite VT, rnd_fmt in * by exact FS.
    { apply b1024s. rewrite sixty. apply Rabs_le. lra. }
    split; [|split; [exact O1|split; [exact O2|]]].
    + unfold saw_inv. cbn [saw_irate saw_inc]. repeat split; try assumption; lra.
    + exists 1%Z, (B2R x - (B2R (saw_inc s) + B2R (saw_irate s))). split; [auto|]. split; [exact E|]. rewrite Q. simpl. ring.
  - apply fge_false in G; try assumption. rewrite VO in G.
    split; [|split; [exact O1|split; [exact O2|]]].
    + unfold saw_inv. cbn [saw_irate saw_inc]. repeat split; try assumption; lra.
    + exists 0%Z, (B2R x - (B2R (saw_inc s) + B2R (saw_irate s))). split; [auto|]. split; [exact E|]. simpl. ring.
Qed.

(** the frequencies of a history satisfy [P] *)
Definition freqs (P : f64 -> Prop) (ops : list gop) : Prop :=
  Forall (fun o => match o with GFreq f => P f | GNext => True end) ops.

Lemma saw_hist ops : freqs (fun f => is_finite f = true /\ 0 <= B2R f <= 24000) ops -> forall s ys s', saw_inv s ->
  saw_run ops s = Ok (ys, s') -> saw_inv s' /\ Forall (fun y => is_finite y = true /\ -1 <= B2R y <= 1) ys.
Proof.
  intro H. induction H as [|o ops Ho H IH]; intros s ys s' I E.
  - injection E as <- <-. auto.
  - destruct o as [f|]; unfold saw_run in E; cbn [grun] in E; fold saw_run in E.
    + apply (IH (saw_set_frequency s f)); [|exact E]. destruct Ho as [Hf1 Hf2].
      destruct (saw_rate_nonneg f Hf1 Hf2) as [A B]. destruct I as (_ & _ & I3 & I4).
      unfold saw_inv, saw_set_frequency. cbn [saw_irate saw_inc]. auto.
    + cbn [bind] in E. destruct (saw_step s I) as (I' & O1 & O2 & _).
      destruct (saw_process s) as [y s1]. cbn [fst snd] in *.
      change (grun saw_set_frequency (fun s => Ok (saw_process s)) ops s1) with (saw_run ops s1) in E.
      destruct (saw_run ops s1) as [[zs s2]|] eqn:E2; [|discriminate]. cbn [bind] in E. injection E as <- <-.
      destruct (IH s1 zs s2 I' E2) as [J1 J2]. split; [exact J1|]. constructor; auto.
Qed.
(** total: never panics *)
Lemma total_run {S} (setf : S -> f64 -> S) (step : S -> f32 * S) ops : forall s,
  exists ys s', grun setf (fun s => Ok (step s)) ops s = Ok (ys, s').
Proof.
  induction ops as [|[f|] ops IH]; intro s.
  - exists [], s. reflexivity.
  - cbn [grun]. apply IH.
  - cbn [grun bind]. destruct (step s) as [y s1]. destruct (IH s1) as (ys & s' & E). rewrite E. cbn [bind]. eauto.
Qed.

Lemma saw_new_inv f : fin f -> 0 <= B2R f <= 24000 -> saw_inv (saw_new f).
Proof.
  intros F H. destruct (saw_rate_nonneg f F H) as [A B]. unfold saw_inv, saw_new. cbn [saw_irate saw_inc].
  repeat split; try apply B; try assumption; simpl; lra.
Qed.

Lemma nsteps_S {St} (step : St -> f32 * St) n : forall s, nsteps step (S n) s = snd (step (nsteps step n s)).
Proof. induction n as [|n IH]; intro s; [reflexivity|]. cbn [nsteps] in *. apply IH. Qed.

Lemma saw_nsteps_inv n s : saw_inv s -> saw_inv (nsteps saw_process n s) /\ saw_irate (nsteps saw_process n s) = saw_irate s.
Proof.
  intro I. induction n as [|n IH]; [auto|]. rewrite nsteps_S. destruct IH as [J1 J2].
  split; [apply (saw_step _ J1)|]. unfold saw_process. cbn [snd saw_irate]. exact J2.
Qed.

Lemma saw_drift n : forall s, saw_inv s -> exists W : Z, (0 <= W <= Z.of_nat n)%Z /\
  Rabs (B2R (saw_inc (nsteps saw_process n s)) - (B2R (saw_inc s) + INR n * B2R (saw_irate s) - 2 * IZR W)) <= INR n * bpow radix2 (-53).
Proof.
  intros s I. induction n as [|n IH].
  - exists 0%Z. split; [lia|]. cbn [nsteps]. simpl INR. rewrite !Rmult_0_l. simpl.
    rewrite Rmult_0_r, Rplus_0_r, Rminus_0_r, Rminus_diag_eq, Rabs_R0 by reflexivity. lra.
  - destruct IH as (W & HW & E). destruct (saw_nsteps_inv n s I) as [J1 J2].
    destruct (saw_step _ J1) as (_ & _ & _ & w & d & Hw & Hd & V). rewrite nsteps_S, V, J2.
    exists (W + w)%Z. split; [lia|]. rewrite S_INR, plus_IZR.
    match goal with |- Rabs ?e <= _ => replace e with ((B2R (saw_inc (nsteps saw_process n s)) - (B2R (saw_inc s) + INR n * B2R (saw_irate s) - 2 * IZR W)) + d) by ring end.
    eapply Rle_trans; [apply Rabs_triang|]. rewrite Rmult_plus_distr_r, Rmult_1_l. apply Rplus_le_compat; assumption.
Qed.

(** against the ideal phase 2*n*f/48000 *)
Lemma saw_rate_err (f : f64) : fin f -> 0 <= B2R f <= 24000 ->
  Rabs (B2R (saw_rate f) - 2 * B2R f / 48000) <= bpow radix2 (-52).
Proof.
  intros F H. destruct (saw_rate_ok f F) as (_ & B & _); [rewrite Rabs_pos_eq; lra|]. rewrite B.
  assert (I0 : Rabs (2 * B2R f * B2R INV_SAMPLE_RATE) <= bpow radix2 1).
  { change (bpow radix2 1) with 2. rewrite INV_val, Rabs_pos_eq; nra. }
  assert (E1 : Rabs (rnd64 (2 * B2R f * B2R INV_SAMPLE_RATE) - 2 * B2R f * B2R INV_SAMPLE_RATE) <= bpow radix2 (-53)).
  { change (-53)%Z with (1 - 53 - 1)%Z. apply rnd_err; [unfold SpecFloat.emin; lia|exact I0]. }
  assert (E2 : Rabs (2 * B2R f * B2R INV_SAMPLE_RATE - 2 * B2R f / 48000) <= bpow radix2 (-53)).
  { replace (2 * B2R f * B2R INV_SAMPLE_RATE - 2 * B2R f / 48000) with (2 * B2R f * (B2R INV_SAMPLE_RATE - / 48000)) by (field).
    rewrite INV_val. change (bpow radix2 (-53)) with (/ 9007199254740992).
    rewrite Rabs_mult, (Rabs_pos_eq (2 * B2R f)) by lra.
    assert (D : Rabs (6148914691236517 / 295147905179352825856 - / 48000) <= / 9007199254740992 / 48000).
    { apply Rabs_le. lra. }
    apply Rle_trans with (48000 * (/ 9007199254740992 / 48000)); [|lra].
    apply Rmult_le_compat; [lra|apply Rabs_pos|lra|exact D]. }
  eapply Rle_trans; [apply (Rabs_tri3 _ (2 * B2R f * B2R INV_SAMPLE_RATE))|].
  change (bpow radix2 (-52)) with (bpow radix2 (-53 + 1)). rewrite bpow_double. lra.
Qed.
Lemma saw_tuning n (f : f64) : fin f -> 0 <= B2R f <= 24000 -> exists W : Z,
  Rabs (B2R (saw_inc (nsteps saw_process n (saw_new f))) - (2 * INR n * B2R f / 48000 - 2 * IZR W)) <= INR n * bpow radix2 (-51).
Proof.
  intros F H. destruct (saw_drift n (saw_new f) (saw_new_inv f F H)) as (W & _ & E). exists W.
  unfold saw_new in E at 2 3. cbn [saw_inc saw_irate] in E. change (B2R (f0 : f64)) with 0 in E.
  pose proof (saw_rate_err f F H) as E2. pose proof (pos_INR n) as Pn.
  set (x := B2R (saw_inc (nsteps saw_process n (saw_new f)))) in *.
  replace (x - (2 * INR n * B2R f / 48000 - 2 * IZR W))
    with ((x - (0 + INR n * B2R (saw_rate f) - 2 * IZR W)) + INR n * (B2R (saw_rate f) - 2 * B2R f / 48000)) by field.
  eapply Rle_trans; [apply Rabs_triang|]. rewrite (Rabs_mult (INR n)), (Rabs_pos_eq (INR n)) by exact Pn.
  assert (B : INR n * Rabs (B2R (saw_rate f) - 2 * B2R f / 48000) <= INR n * bpow radix2 (-52)) by (apply Rmult_le_compat_l; assumption).
  change (bpow radix2 (-53)) with (/ 9007199254740992) in *. change (bpow radix2 (-52)) with (/ 4503599627370496) in *.
  change (bpow radix2 (-51)) with (/ 2251799813685248). lra.
Qed.

Lemma INR_unbounded (x : R) : exists n : nat, x < INR n.
Proof.
  exists (Z.to_nat (up x)). destruct (archimed x) as [A _]. rewrite INR_IZR_INZ.
  eapply Rlt_le_trans; [exact A|]. apply IZR_le. lia.
Qed.

(** escape: a sequence growing by at least r below a threshold crosses it *)
Lemma escape (x : nat -> R) (T r : R) : 0 < r -> (forall n, (forall k, (k <= n)%nat -> x k < T) -> x n + r <= x (S n)) ->
  exists n, T <= x n /\ forall k, (k < n)%nat -> x k < T.
Proof.
  intros Hr Hs.
  assert (G : forall n, (exists m, (m <= n)%nat /\ T <= x m /\ forall k, (k < m)%nat -> x k < T) \/
    ((forall k, (k <= n)%nat -> x k < T) /\ x O + INR n * r <= x n)).
  { induction n as [|n IH].
    - destruct (Rle_lt_dec T (x O)) as [L|L].
      + left. exists O. split; [lia|]. split; [exact L|]. intros k Hk. lia.
      + right. split; [intros k Hk; replace k with O by lia; exact L|]. simpl. lra.
    - destruct IH as [(m & M1 & M2 & M3)|[A B]].
      + left. exists m. split; [lia|]. auto.
      + pose proof (Hs n A) as St. destruct (Rle_lt_dec T (x (S n))) as [L|L].
        * left. exists (S n). split; [lia|]. split; [exact L|]. intros k Hk. apply A. lia.
        * right. split.
          -- intros k Hk. destruct (Nat.eq_dec k (S n)) as [->|]; [exact L|apply A; lia].
          -- rewrite S_INR. lra. }
  destruct (INR_unbounded ((T - x O) / r)) as [N HN].
  destruct (G N) as [(m & _ & M2 & M3)|[A B]]; [exists m; auto|exfalso].
  specialize (A N (le_n _)). apply Rmult_lt_compat_r with (r := r) in HN; [|exact Hr].
  unfold Rdiv in HN. rewrite Rmult_assoc, Rinv_l, Rmult_1_r in HN by lra. lra.
Qed.

(** negative frequencies leave the range *)
Lemma saw_neg_step s : fin (saw_irate s) -> -1 <= B2R (saw_irate s) <= - bpow radix2 (-50) -> fin (saw_inc s) ->
  -2 < B2R (saw_inc s) <= 0 ->
  saw_irate (snd (saw_process s)) = saw_irate s /\ fin (saw_inc (snd (saw_process s))) /\
  B2R (saw_inc (snd (saw_process s))) <= B2R (saw_inc s) - bpow radix2 (-51) /\ -4 <= B2R (saw_inc (snd (saw_process s))).
Proof.
  intros F1 H1 F2 H2. change (bpow radix2 (-50)) with (/ 1125899906842624) in H1. change (bpow radix2 (-51)) with (/ 2251799813685248). unfold saw_process. cbn [fst snd saw_irate saw_inc].
  destruct (fadd_le (saw_inc s) (saw_irate s) 4 F2 F1 fmt64_4) as (A & B & C).
  { apply b1024s. rewrite sixty. lra. } { apply Rabs_le. lra. }
  set (x := fadd (saw_inc s) (saw_irate s)) in *.
  assert (E : Rabs (B2R x - (B2R (saw_inc s) + B2R (saw_irate s))) <= bpow radix2 (-52)).
  { rewrite B. change (-52)%Z with (2 - 53 - 1)%Z. apply rnd_err; [unfold SpecFloat.emin; lia|].
    change (bpow radix2 2) with 4. apply Rabs_le. lra. }
  change (bpow radix2 (-52)) with (/ 4503599627370496) in E. apply Rabs_le_inv in E.
  destruct one64 as [FO VO]. assert (G : fge x (of_Z 1) = false) by (apply fge_false; try assumption; rewrite VO; lra).
  rewrite G. apply Rabs_le_inv in C. repeat split; try assumption; lra.
Qed.

Lemma saw_neg_escapes (f : f64) : fin f -> -24000 <= B2R f <= - bpow radix2 (-20) ->
  exists n, is_finite (nth_out saw_process n (saw_new f)) = true /\ B2R (nth_out saw_process n (saw_new f)) < -1.
Proof.
  intros F H.
  change (bpow radix2 (-20)) with (/ 1048576) in H.
  destruct (saw_rate_ok f F) as (A & B & C); [apply Rabs_le; lra|].
  assert (R1 : B2R (saw_rate f) <= - bpow radix2 (-50)).
  { rewrite B. rewrite <- (Ropp_involutive (rnd64 _)), <- (rnd_opp (prec:=53) (emax:=1024)). apply Ropp_le_contravar.
    apply (rnd_ge_fmt (prec:=53) (emax:=1024)); [apply fmt64_b; lia|]. rewrite INV_val.
    change (bpow radix2 (-50)) with (/ 1125899906842624). nra. }
  apply Rabs_le_inv in C.
  set (x := fun n => - B2R (saw_inc (nsteps saw_process n (saw_new f)))).
  set (T := 1 + / 1024).
  assert (J : forall n, (forall k, (k < n)%nat -> x k < T) ->
    saw_irate (nsteps saw_process n (saw_new f)) = saw_rate f /\ fin (saw_inc (nsteps saw_process n (saw_new f))) /\
    -4 <= B2R (saw_inc (nsteps saw_process n (saw_new f))) <= 0).
  { induction n as [|n IH]; intro Hk.
    - cbn [nsteps saw_new saw_irate saw_inc]. change (B2R (f0 : f64)) with 0. repeat split; try reflexivity; lra.
    - destruct IH as (I1 & I2 & I3); [intros k Hk'; apply Hk; lia|].
      specialize (Hk n (Nat.lt_succ_diag_r n)). unfold x, T in Hk.
      destruct (saw_neg_step (nsteps saw_process n (saw_new f))) as (S1 & S2 & S3 & S4);
        [rewrite I1; exact A|rewrite I1; lra|exact I2|lra|].
      rewrite nsteps_S. rewrite S1, I1. change (bpow radix2 (-51)) with (/ 2251799813685248) in S3. repeat split; try assumption; lra. }
  destruct (escape x T (bpow radix2 (-51))) as (n & N1 & N2).
  - apply bpow_gt_0.
  - intros n Hn. destruct (J n) as (I1 & I2 & I3); [intros k Hk; apply Hn; lia|].
    specialize (Hn n (le_n _)). unfold x, T in Hn.
    destruct (saw_neg_step (nsteps saw_process n (saw_new f))) as (S1 & S2 & S3 & S4);
        [rewrite I1; exact A|rewrite I1; lra|exact I2|lra|].
    unfold x. rewrite nsteps_S. lra.
  - destruct (J n N2) as (I1 & I2 & I3). exists n. unfold nth_out, saw_process. cbn [fst].
    unfold x, T in N1.
    destruct (fcast_le (p2:=24) (e2:=128) (saw_inc (nsteps saw_process n (saw_new f))) 4 I2) as (P & Q & _).
    + exact (fmt32_Z 4 ltac:(lia)).
    + change 4 with (bpow radix2 2). apply bpow_lt. lia.
    + apply Rabs_le. lra.
    + split; [exact P|]. eapply Rle_lt_trans; [apply Req_le; exact Q|]. apply Rle_lt_trans with (- (1 + / 1024)); [|lra].
      apply (rnd_le_fmt (prec:=24) (emax:=128)); [|lra]. apply fmt_opp.
      replace (1 + / 1024) with (IZR 1025 * bpow radix2 (-10)) by (simpl; lra).
      apply fmt_FLT; [reflexivity|unfold SpecFloat.emin; lia].
Qed.

(** ** Noise *)
Lemma noise_exact (u : f32) k : (0 <= k < 2 ^ 24)%Z -> fin u -> B2R u = IZR k * bpow radix2 (-24) ->
  fin (noise_process u) /\ B2R (noise_process u) = 2 * B2R u - 1 /\ -1 <= B2R (noise_process u) < 1.
Proof.
  intros Hk F V. unfold noise_process.
  destruct (of_Z32 2 ltac:(lia)) as [F2 V2]. destruct (of_Z32 1 ltac:(lia)) as [F1 V1].
  change (bpow radix2 (-24)) with (/ 16777216) in *.
  assert (K : 0 <= IZR k <= 16777215) by (split; apply IZR_le; lia).
  assert (FA : fmt32 (B2R u * 2)).
  { replace (B2R u * 2) with (IZR k * bpow radix2 (-23)).
    - apply fmt_FLT; [lia|unfold SpecFloat.emin; lia].
    - rewrite V. change (bpow radix2 (-23)) with (/ 8388608). lra. }
  destruct (fmul_ok u (of_Z 2) F F2) as [A B]; rewrite V2, rnd_fmt in * by exact FA.
  { rewrite V, Rabs_pos_eq by lra. apply Rle_lt_trans with 2; [lra|]. change 2 with (bpow radix2 1). apply bpow_lt. lia. }
  assert (FB : fmt32 (B2R u * 2 - 1)).
  { replace (B2R u * 2 - 1) with (IZR (k - 2 ^ 23) * bpow radix2 (-23)).
    - apply fmt_FLT; [lia|unfold SpecFloat.emin; lia].
    - rewrite V, minus_IZR. change (2 ^ 23)%Z with 8388608%Z. change (bpow radix2 (-23)) with (/ 8388608). lra. }
  destruct (fsub_ok (fmul u (of_Z 2)) (of_Z 1) A F1) as [C D]; rewrite V1, B, rnd_fmt in * by exact FB.
  { rewrite V. apply Rle_lt_trans with 2; [apply Rabs_le; lra|]. change 2 with (bpow radix2 1). apply bpow_lt. lia. }
  split; [exact C|]. rewrite D. split; [ring|]. rewrite V. lra.
Qed.
