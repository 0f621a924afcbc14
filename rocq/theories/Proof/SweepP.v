(** * The square wave at any frequency *)

From Coq Require Import ZArith List Bool Reals Lra Lia Psatz.
From Flocq Require Import Core.Core IEEE754.BinarySingleNaN Relative Sterbenz Plus_error.
From Verif Require Import Model.Floats Model.Generators Spec.Sweep
  Proof.FloatFacts Proof.SampleFormatP Proof.FormatsP Proof.GeneratorsP Proof.GeneratorsP2 Proof.GeneratorsP3.
Import ListNotations.
Local Open Scope R_scope.

Lemma b53 : bpow radix2 (-53) = / 9007199254740992. Proof. reflexivity. Qed.

(** one sample: the phase [x] in samples, the half period [h] *)
Lemma sq_real_step (s : square) (h : R) : fin (sq_ind s) -> fin (sq_inv s) -> B2R (sq_inv s) = h -> 1 <= h <= 1099511627776 ->
  0 <= B2R (sq_ind s) <= rnd64 (2 * h + 1) ->
  fst (sq_process s) = (if Rle_bool h (B2R (sq_ind s)) && Rlt_bool (B2R (sq_ind s)) (2 * h) then of_Z (-1) else of_Z 1) /\
  let s' := snd (sq_process s) in fin (sq_ind s') /\ sq_inv s' = sq_inv s /\ 0 <= B2R (sq_ind s') <= rnd64 (2 * h + 1) /\
  exists w : nat, (w <= 1)%nat /\ Rabs (B2R (sq_ind s') - (B2R (sq_ind s) + 1 - 2 * h * INR w)) <= (2 * h + 1) * bpow radix2 (-53).
Proof.
  intros F1 F2 V2 Hh H1. destruct (of_Z64 2 ltac:(lia)) as [F3 V3]. destruct (of_Z64 1 ltac:(lia)) as [F4 V4].
  assert (FD : fmt64 (2 * B2R (sq_inv s))) by (apply fmt64_double, fmt_B2R).
  destruct (fmul_ok (of_Z 2) (sq_inv s) F3 F2) as [A B]; rewrite V3, rnd_fmt in * by exact FD.
  { apply b1024s. rewrite V2, sixty, Rabs_pos_eq; lra. }
  rewrite V2 in B, FD.
  assert (U4 : rnd64 (2 * h + 1) <= 4 * h).
  { apply rnd_le_fmt; [replace (4 * h) with (2 * (2 * h)) by ring; apply fmt64_double, FD|lra]. }
  assert (L2 : 2 * h <= rnd64 (2 * h + 1)) by (apply rnd_ge_fmt; [exact FD|lra]).
  unfold sq_process. cbn [fst snd sq_ind sq_inv].
  rewrite (fge_R (sq_ind s) (sq_inv s)), (flt_R (sq_ind s)), (fge_R (sq_ind s) (fmul _ _)) by assumption. rewrite B, V2.
  split; [reflexivity|]. cbv zeta.
  set (z := if Rle_bool (2 * h) (B2R (sq_ind s)) then fsub (sq_ind s) (fmul (of_Z 2) (sq_inv s)) else sq_ind s).
  assert (Z : exists w : nat, (w <= 1)%nat /\ fin z /\ B2R z = B2R (sq_ind s) - 2 * h * INR w /\ 0 <= B2R z <= 2 * h).
  { unfold z. destruct (Rle_bool_spec (2 * h) (B2R (sq_ind s))) as [G|G].
    - assert (FS : fmt64 (B2R (sq_ind s) - 2 * h)).
      { apply (sterbenz radix2 (SpecFloat.fexp 53 1024)); [apply fmt_B2R|exact FD|lra]. }
      destruct (fsub_ok (sq_ind s) _ F1 A) as [P Q]; rewrite B, rnd_fmt in * by exact FS.
      { apply b1024s. rewrite sixty. apply Rabs_le. lra. }
      exists 1%nat. split; [lia|]. split; [exact P|]. rewrite Q. simpl INR. split; [ring|lra].
    - exists 0%nat. split; [lia|]. split; [exact F1|]. simpl INR. split; [ring|lra]. }
  destruct Z as (w & W1 & Fz & Vz & Hz).
  destruct (fadd_ok z (of_Z 1) Fz F4) as [P Q]; rewrite V4 in *.
  { apply b1024s. rewrite sixty. rewrite Rabs_pos_eq by (apply rnd_ge_fmt; [apply generic_format_0|lra]).
    apply Rle_trans with (IZR (2 ^ 50)); [|change (IZR (2 ^ 50)) with 1125899906842624; lra].
    apply rnd_le_fmt; [exact (fmt64_Z (2 ^ 50) ltac:(lia))|]. change (IZR (2 ^ 50)) with 1125899906842624. lra. }
  split; [exact P|]. split; [reflexivity|]. rewrite Q. split.
  - split; [apply rnd_ge_fmt; [apply generic_format_0|lra]|]. apply rnd_le. lra.
  - exists w. split; [exact W1|].
    destruct (rnd_rel64 (B2R z + 1)) as (d & D & E). { apply b_small. rewrite Rabs_pos_eq; lra. }
    rewrite E. replace ((B2R z + 1) * (1 + d) - (B2R (sq_ind s) + 1 - 2 * h * INR w)) with ((B2R z + 1) * d) by (rewrite Vz; ring).
    rewrite Rabs_mult. rewrite Rabs_pos_eq by lra. apply Rmult_le_compat; [lra|apply Rabs_pos|lra|exact D].
Qed.

Lemma sq_real_run (n : nat) (s : square) (h : R) : fin (sq_inv s) -> B2R (sq_inv s) = h -> 1 <= h <= 1099511627776 -> sq_ind s = f0 ->
  let s' := nsteps sq_process n s in fin (sq_ind s') /\ sq_inv s' = sq_inv s /\ 0 <= B2R (sq_ind s') <= rnd64 (2 * h + 1) /\
  exists W : nat, Rabs (B2R (sq_ind s') - (INR n - 2 * h * INR W)) <= INR n * ((2 * h + 1) * bpow radix2 (-53)).
Proof.
  intros F V Hh E0. induction n as [|n IH].
  - cbn [nsteps]. rewrite E0. change (B2R (f0 : f64)) with 0. split; [reflexivity|]. split; [reflexivity|].
    split; [split; [lra|apply rnd_ge_fmt; [apply generic_format_0|lra]]|]. exists 0%nat. simpl INR. rewrite Rmult_0_r, !Rmult_0_l, !Rminus_0_r, Rabs_R0. lra.
  - cbv zeta in *. rewrite nsteps_S. set (t := nsteps sq_process n s) in *. destruct IH as (Ft & It & Bt & W & Ht).
    destruct (sq_real_step t h Ft) as (_ & F' & I' & B' & w & _ & D); [rewrite It; exact F|rewrite It; exact V|exact Hh|exact Bt|].
    split; [exact F'|]. split; [congruence|]. split; [exact B'|]. exists (W + w)%nat. rewrite S_INR, plus_INR.
    match goal with |- Rabs ?e <= _ => replace e with ((B2R (sq_ind (snd (sq_process t))) - (B2R (sq_ind t) + 1 - 2 * h * INR w)) + (B2R (sq_ind t) - (INR n - 2 * h * INR W))) by ring end.
    eapply Rle_trans; [apply Rabs_triang|]. lra.
Qed.

(** the half period that is stored *)
Lemma sq_half_err (f : f64) : fin f -> bpow radix2 (-20) <= B2R f <= 24000 ->
  fin (sq_half f) /\ 1 <= B2R (sq_half f) <= 1099511627776 /\
  exists d, Rabs d <= bpow radix2 (-53) /\ 2 * B2R (sq_half f) = 48000 / B2R f * (1 + d).
Proof.
  intros F H. assert (PB : bpow radix2 (-100) <= bpow radix2 (-20) /\ 24000 <= bpow radix2 1000).
  { split; [apply bpow_le; lia|]. apply Rle_trans with (bpow radix2 15); [change (bpow radix2 15) with 32768; lra|apply bpow_le; lia]. }
  destruct (sq_half_ok f F ltac:(lra)) as (A & B & _). change (bpow radix2 (-20)) with (/ 1048576) in H.
  assert (Q : 1 <= 48000 / (2 * B2R f) <= 25165824000).
  { split.
    - apply Rmult_le_reg_r with (2 * B2R f); [lra|]. unfold Rdiv. rewrite Rmult_assoc, Rinv_l by lra. lra.
    - apply Rmult_le_reg_r with (2 * B2R f); [lra|]. unfold Rdiv. rewrite Rmult_assoc, Rinv_l by lra. lra. }
  split; [exact A|]. rewrite B. split.
  - split; [apply rnd_ge_fmt; [exact fmt64_1|lra]|]. apply rnd_le_fmt; [exact (fmt64_Z 1099511627776 ltac:(lia))|lra].
  - destruct (rnd_rel64 (48000 / (2 * B2R f))) as (d & D & E). { apply b_small. rewrite Rabs_pos_eq; lra. }
    exists d. split; [exact D|]. rewrite E. field. lra.
Qed.

(** the wave, given the position of the phase within the period *)
Lemma square_wave_pos (p : R) (k : Z) : IZR k <= p < IZR k + / 2 -> square_wave p = 1.
Proof.
  intro H. assert (E : Zfloor p = k) by (apply Zfloor_imp; rewrite plus_IZR; lra). unfold square_wave. rewrite E.
  destruct (Rlt_dec _ _); lra.
Qed.
Lemma square_wave_neg (p : R) (k : Z) : IZR k + / 2 <= p < IZR k + 1 -> square_wave p = -1.
Proof.
  intro H. assert (E : Zfloor p = k) by (apply Zfloor_imp; rewrite plus_IZR; lra). unfold square_wave. rewrite E.
  destruct (Rlt_dec _ _); lra.
Qed.

Lemma Rabs_gt_cases (a b : R) : a < Rabs b -> b < - a \/ a < b.
Proof. unfold Rabs. destruct (Rcase_abs b); lra. Qed.

(** [p]: periods elapsed, [q]: the phase in periods as stored, [P]: the period in samples *)
Lemma square_accuracy (n : nat) (f : f64) : fin f -> bpow radix2 (-20) <= B2R f <= 24000 ->
  let p := B2R f * INR n / 48000 in
  (forall k : Z, INR n * bpow radix2 (-50) < Rabs (p - IZR k / 2)) ->
  B2R (nth_out sq_process n (sq_new f)) = square_wave p.
Proof.
  intros F H p HK. destruct (sq_half_err f F H) as (Fh & Bh & d & Hd & Ed). set (h := B2R (sq_half f)) in *.
  destruct (sq_real_run n (sq_new f) h Fh eq_refl Bh eq_refl) as (Fx & Ix & Bx & W & Dx). cbv zeta in *.
  change (sq_inv (sq_new f)) with (sq_half f) in Ix.
  unfold nth_out. set (s := nsteps sq_process n (sq_new f)) in *.
  destruct (sq_real_step s h Fx) as (-> & _); [rewrite Ix; exact Fh|rewrite Ix; reflexivity|exact Bh|exact Bx|].
  set (x := B2R (sq_ind s)) in *. clearbody x. clear s Fx Ix Fh.
  change (bpow radix2 (-20)) with (/ 1048576) in H. set (f' := B2R f) in *. clearbody f' h.
  assert (Hn : 1 <= INR n).
  { destruct n as [|n]; [|rewrite S_INR; pose proof (pos_INR n); lra]. exfalso. pose proof (HK 0%Z) as Q. unfold p in Q. simpl INR in Q.
    replace (f' * 0 / 48000 - 0 / 2) with 0 in Q by field. rewrite Rabs_R0 in Q. lra. }
  set (N := INR n) in *. clearbody N.
  (* multiply by the frequency *)
  assert (HQ : 2 * h * f' / 48000 = 1 + d) by (rewrite Ed; field; lra).
  change (bpow radix2 (-50)) with (/ 1125899906842624) in HK. rewrite b53 in *. apply Rabs_le_inv in Hd.
  assert (W0 : 0 <= INR W) by apply pos_INR. rewrite INR_IZR_INZ in *. set (w := IZR (Z.of_nat W)) in *.
  set (g := f' / 48000) in *. assert (G : 0 < g <= / 2) by (unfold g; lra).
  assert (HG : 2 * h * g = 1 + d) by (unfold g; lra).
  assert (PG : p = N * g) by (unfold p, g; field).
  (* at most as many wraps as samples *)
  assert (DG : Rabs (x * g - (p - (1 + d) * w)) <= N * ((1 + d + g) * / 9007199254740992)).
  { replace (x * g - (p - (1 + d) * w)) with ((x - (N - 2 * h * w)) * g) by (rewrite PG, <- HG; ring).
    rewrite Rabs_mult, (Rabs_pos_eq g) by lra.
    replace (N * ((1 + d + g) * / 9007199254740992)) with (N * ((2 * h + 1) * / 9007199254740992) * g) by (rewrite <- HG; ring).
    apply Rmult_le_compat_r; lra. }
  set (u := / 9007199254740992) in *. assert (U : 0 < u <= / 1000000) by (unfold u; lra).
  assert (NU : 0 <= N * u) by (apply Rmult_le_pos; lra).
  assert (NU1 : u <= N * u) by (rewrite <- (Rmult_1_l u) at 1; apply Rmult_le_compat_r; lra).
  assert (NS : N * u <= N * / 1000000) by (apply Rmult_le_compat_l; lra).
  assert (E1 : N * ((1 + d + g) * u) <= 2 * (N * u)).
  { replace (N * ((1 + d + g) * u)) with ((1 + d + g) * (N * u)) by ring. apply Rmult_le_compat_r; lra. }
  assert (XG : 0 <= x * g) by (apply Rmult_le_pos; lra).
  assert (PN : p <= N * / 2) by (rewrite PG; apply Rmult_le_compat_l; lra).
  apply Rabs_le_inv in DG.
  assert (DW0 : - (u * w) <= d * w <= u * w).
  { split; [rewrite <- Ropp_mult_distr_l_reverse|]; apply Rmult_le_compat_r; lra. }
  assert (UW : u * w <= / 1000000 * w) by (apply Rmult_le_compat_r; lra).
  assert (WN : w <= N) by lra.
  assert (UW2 : u * w <= N * u) by (rewrite (Rmult_comm N); apply Rmult_le_compat_l; lra).
  assert (Q : - (3 * (N * u)) <= x * g - (p - w) <= 3 * (N * u)) by lra.
  assert (E8 : N * / 1125899906842624 = 8 * (N * u)) by (unfold u; lra). rewrite E8 in HK.
  assert (K : forall j : Z, 8 * (N * u) < Rabs (p - w - IZR j / 2)).
  { intro j. pose proof (HK (2 * Z.of_nat W + j)%Z) as R. rewrite plus_IZR, mult_IZR in R. fold w in R.
    replace (p - w - IZR j / 2) with (p - (2 * w + IZR j) / 2) by field. exact R. }
  assert (K0 := K 0%Z). assert (K1 := K 1%Z). assert (K2 := K 2%Z). assert (K3 := K 3%Z). clear K HK.
  assert (XU : x * g <= 3 / 2 + 4 * u).
  { assert (R : rnd64 (2 * h + 1) <= (2 * h + 1) * (1 + u)).
    { destruct (rnd_rel64 (2 * h + 1)) as (d' & D' & E'). { apply b_small. rewrite Rabs_pos_eq; lra. }
      rewrite E'. rewrite b53 in D'. fold u in D'. apply Rabs_le_inv in D'. apply Rmult_le_compat_l; lra. }
    assert (x * g <= (2 * h + 1) * (1 + u) * g) by (apply Rmult_le_compat_r; lra).
    replace ((2 * h + 1) * (1 + u) * g) with ((1 + d + g) * (1 + u)) in H0 by (rewrite <- HG; ring).
    assert ((1 + d + g) * (1 + u) <= (3 / 2 + u) * (1 + u)) by (apply Rmult_le_compat_r; lra).
    assert (u * u <= u * / 1000000) by (apply Rmult_le_compat_l; lra). lra. }
  destruct (of_Z32 1 ltac:(lia)) as [_ V1]. destruct (of_Z32 (-1) ltac:(lia)) as [_ Vm].
  destruct (Rle_bool_spec h x) as [C1|C1]; cbn [andb].
  - assert (A1 : h * g <= x * g) by (apply Rmult_le_compat_r; lra).
    destruct (Rlt_bool_spec x (2 * h)) as [C2|C2].
    + assert (A2 : x * g < 2 * h * g) by (apply Rmult_lt_compat_r; lra).
      rewrite Vm. symmetry. apply (square_wave_neg p (Z.of_nat W)). fold w.
      apply Rabs_gt_cases in K1. apply Rabs_gt_cases in K2. lra.
    + assert (A2 : 2 * h * g <= x * g) by (apply Rmult_le_compat_r; lra).
      rewrite V1. symmetry. apply (square_wave_pos p (Z.of_nat W + 1)). rewrite plus_IZR. fold w.
      apply Rabs_gt_cases in K2. apply Rabs_gt_cases in K3. lra.
  - assert (A1 : x * g < h * g) by (apply Rmult_lt_compat_r; lra).
    rewrite V1. symmetry. apply (square_wave_pos p (Z.of_nat W)). fold w.
    apply Rabs_gt_cases in K0. apply Rabs_gt_cases in K1. lra.
Qed.
