(** * Proofs: the waveform of a normalised track *)

From Coq Require Import ZArith List Bool Reals Lra Lia Psatz.
From Flocq Require Import Core.Core IEEE754.BinarySingleNaN Relative Plus_error.
From Verif Require Import Model.Floats Model.SampleFormat Model.Utils Spec.Rack Spec.Normalise
  Proof.FloatFacts Proof.SampleFormatP Proof.FormatsP Proof.UtilsP Proof.RackP Proof.MixOrderP Proof.ResamplerP3.
Import ListNotations.
Local Open Scope R_scope.

Lemma adding_3 n : (Z.of_nat n <= 2 ^ 24)%Z -> adding n <= 3.
Proof.
  intro H. unfold adding. apply Rle_trans with (exp (INR n * bpow radix2 (-24))).
  - clear H. induction n as [|n IH]; [cbn [pow INR]; rewrite Rmult_0_l, exp_0; lra|]. cbn [pow].
    replace (INR (S n) * bpow radix2 (-24)) with (bpow radix2 (-24) + INR n * bpow radix2 (-24)) by (rewrite S_INR; ring). rewrite exp_plus. apply Rmult_le_compat; [pose proof (bpow_gt_0 radix2 (-24)); lra| | |exact IH].
    + apply pow_le. pose proof (bpow_gt_0 radix2 (-24)). lra.
    + apply Rlt_le, exp_ineq1. apply Rgt_not_eq, bpow_gt_0.
  - apply Rle_trans with (exp 1); [|exact exp_le_3].
    assert (X : INR n * bpow radix2 (-24) <= 1).
    { rewrite INR_IZR_INZ. replace 1 with (bpow radix2 24 * bpow radix2 (-24)) by (rewrite <- bpow_plus; reflexivity).
      apply Rmult_le_compat_r; [apply bpow_ge_0|]. rewrite <- IZR_pow2 by lia. apply IZR_le. exact H. }
    destruct X as [X|X]; [apply Rlt_le, exp_increasing; exact X|rewrite X; lra].
Qed.
Lemma sub_rel (x y : f32) : fin x -> fin y -> exists d, Rabs d <= bpow radix2 (-24) /\ rnd32 (B2R x - B2R y) = (B2R x - B2R y) * (1 + d).
Proof.
  intros Fx Fy.
  destruct (@FLT_plus_error_N_ex radix2 (-149) 24 eq_refl (fun z => negb (Z.even z)) (B2R x) (- B2R y) (fmt_B2R x) (generic_format_opp _ _ _ (fmt_B2R y))) as (d & Hd & E).
  exists d. split; [|exact E].
  assert (U : u_ro radix2 24 / (1 + u_ro radix2 24) <= bpow radix2 (-24)); [|lra].
  unfold u_ro. replace (/ 2 * bpow radix2 (- (24) + 1)) with (bpow radix2 (-24)) by (change (- (24) + 1)%Z with (1 + -24)%Z; rewrite bpow_plus; change (bpow radix2 1) with 2; lra).
  pose proof (bpow_gt_0 radix2 (-24)). apply Rmult_le_reg_r with (1 + bpow radix2 (-24)); [lra|]. unfold Rdiv. rewrite Rmult_assoc, Rinv_l by lra. nra.
Qed.

(** ** the mean *)
Lemma mean_near (t : list f32) : t <> [] -> (Z.of_nat (length t) <= 2 ^ 24)%Z -> (forall s, In s t -> fin s /\ Rabs (B2R s) <= bpow radix2 60) ->
  fin (norm_dc t) /\ Rabs (B2R (norm_dc t) - mean t) <= (adding (S (length t)) - 1) * mean_abs t + bpow radix2 (-150).
Proof.
  intros Hne Hl Ht. destruct (norm_dc_ok t Hne Hl Ht) as [Fd _]. split; [exact Fd|].
  set (n := length t) in *. set (A := rsum (map (fun x => Rabs (B2R x)) t)). set (T := rsum (map B2R t)).
  assert (Hp : (0 < Z.of_nat n)%Z) by (unfold n; destruct t; [congruence|cbn [length]; lia]).
  assert (Np : 0 < INR n) by (rewrite INR_IZR_INZ; apply IZR_lt; exact Hp).
  pose proof (rsum_abs_pos t) as A0. fold A in A0.
  assert (AB : A <= bpow radix2 84).
  { apply Rle_trans with (INR n * bpow radix2 60).
    - unfold n. rewrite <- (rsum_const (bpow radix2 60) t). apply rsum_le. intros s Hs. apply Ht, Hs.
    - change 84%Z with (24 + 60)%Z. rewrite bpow_plus. apply Rmult_le_compat_r; [apply bpow_ge_0|]. rewrite INR_IZR_INZ, <- IZR_pow2 by lia. apply IZR_le. exact Hl. }
  pose proof (adding_3 n Hl) as G3. pose proof (adding_ge n) as G1.
  destruct (fold_err f0 t eq_refl) as [FS ES].
  { apply Forall_forall. intros s Hs. apply Ht, Hs. }
  { fold n A. change (B2R (f0 : f32)) with 0. rewrite Rabs_R0, Rplus_0_l. apply Rle_trans with (3 * bpow radix2 84).
    - apply Rmult_le_compat; lra.
    - apply Rle_trans with (bpow radix2 2 * bpow radix2 84); [apply Rmult_le_compat_r; [apply bpow_ge_0|simpl; lra]|rewrite <- bpow_plus; apply bpow_le; lia]. }
  fold n A T in ES. change (B2R (f0 : f32)) with 0 in ES. rewrite Rabs_R0, !Rplus_0_l in ES.
  unfold norm_dc. fold n. set (S := fold_left fadd t f0) in *.
  destruct (of_Z32 (Z.of_nat n) ltac:(lia)) as [Fn Vn]. rewrite <- INR_IZR_INZ in Vn.
  assert (TA : Rabs T <= A) by (unfold T, A; apply rsum_abs; intros; lra).
  assert (SB : Rabs (B2R S) <= adding n * A) by (apply Rabs_le; apply Rabs_le_inv in ES, TA; lra).
  assert (SN : Rabs (B2R S / INR n) <= adding n * (A / INR n)).
  { unfold Rdiv. rewrite Rabs_mult, (Rabs_pos_eq (/ _)) by (apply Rlt_le, Rinv_0_lt_compat, Np). rewrite <- Rmult_assoc. apply Rmult_le_compat_r; [apply Rlt_le, Rinv_0_lt_compat, Np|exact SB]. }
  assert (AN : 0 <= A / INR n) by (apply Rmult_le_pos; [exact A0|apply Rlt_le, Rinv_0_lt_compat, Np]).
  destruct (fdiv_le S (of_Z (Z.of_nat n)) (bpow radix2 120) FS) as (_ & V & _).
  { rewrite Vn. lra. } { apply fmt32_b; lia. } { apply bpow_lt; lia. }
  { rewrite Vn. eapply Rle_trans; [exact SN|].
    assert (A / INR n <= A). { unfold Rdiv. rewrite <- (Rmult_1_r A) at 2. apply Rmult_le_compat_l; [exact A0|]. rewrite <- Rinv_1. apply Rinv_le; [lra|]. change 1 with (INR 1). apply le_INR. lia. }
    apply Rle_trans with (3 * bpow radix2 84); [apply Rmult_le_compat; lra|].
    apply Rle_trans with (bpow radix2 2 * bpow radix2 84); [apply Rmult_le_compat_r; [apply bpow_ge_0|simpl; lra]|rewrite <- bpow_plus; apply bpow_le; lia]. }
  rewrite V, Vn.
  destruct (rnd_err_gen (prec:=24) (emax:=128) (B2R S / INR n)) as (d & e & Hd & He & ->).
  change (SpecFloat.emin 24 128 - 1)%Z with (-150)%Z in He. change (- (24))%Z with (-24)%Z in Hd.
  unfold mean, mean_abs. fold n A T. rewrite adding_S.
  assert (ET : Rabs (B2R S / INR n - T / INR n) <= (adding n - 1) * (A / INR n)).
  { replace (B2R S / INR n - T / INR n) with ((B2R S - T) * / INR n) by (unfold Rdiv; ring). rewrite Rabs_mult, (Rabs_pos_eq (/ _)) by (apply Rlt_le, Rinv_0_lt_compat, Np).
    unfold Rdiv. rewrite <- Rmult_assoc. apply Rmult_le_compat_r; [apply Rlt_le, Rinv_0_lt_compat, Np|exact ES]. }
  set (x := B2R S / INR n) in *. set (w := A / INR n) in *. set (y := T / INR n) in *. set (q := adding n) in *. set (u := bpow radix2 (-24)) in *.
  assert (XD : Rabs (x * d) <= u * (q * w)). { rewrite Rabs_mult, Rmult_comm. apply Rmult_le_compat; try apply Rabs_pos; assumption. }
  replace (x * (1 + d) + e - y) with ((x - y) + x * d + e) by ring.
  apply Rabs_le_inv in ET, XD, He. apply Rabs_le. split; nra.
Qed.
(** samples on a grid that the sum does not leave *)
Lemma mean_grid (q : Z) (ms : list Z) (t : list f32) : t <> [] -> (-100 <= q <= 60)%Z -> Forall2 (fun x m => fin x /\ B2R x = IZR m * bpow radix2 q) t ms ->
  (Z.of_nat (length t) <= 2 ^ 24)%Z -> (fold_right (fun m a => Z.abs m + a) 0 ms < 2 ^ 24)%Z -> fin (norm_dc t) /\ B2R (norm_dc t) = rnd32 (mean t).
Proof.
  intros Hne Hq HF Hl HB. destruct (fold_grid q ms t f0 0 ltac:(lia) eq_refl) as [[FS VS] _]; [change (B2R (f0 : f32)) with 0; ring|exact HF|cbn [Z.abs]; lia|].
  assert (ET : rsum (map B2R t) = B2R (fold_left fadd t f0)).
  { rewrite VS, Z.add_0_l. clear - HF. induction HF as [|x m t ms [_ V] _ IH]; [cbn; ring|]. cbn [map fold_right]. rewrite rsum_cons, IH, V, plus_IZR. ring. }
  assert (SB : Rabs (B2R (fold_left fadd t f0)) <= bpow radix2 (24 + q)).
  { rewrite VS, Z.add_0_l, Rabs_mult, (Rabs_pos_eq (bpow radix2 q)), bpow_plus by apply bpow_ge_0. apply Rmult_le_compat_r; [apply bpow_ge_0|].
    rewrite <- abs_IZR, <- IZR_pow2 by lia. apply IZR_le. assert (Z.abs (fold_right Z.add 0 ms) <= fold_right (fun m a => Z.abs m + a) 0 ms)%Z; [|lia].
    clear. induction ms as [|m ms IH]; cbn [fold_right]; lia. }
  assert (Hp : (0 < Z.of_nat (length t))%Z) by (destruct t; [congruence|cbn [length]; lia]).
  destruct (of_Z32 (Z.of_nat (length t)) ltac:(lia)) as [Fn Vn]. rewrite <- INR_IZR_INZ in Vn.
  assert (N1 : 1 <= INR (length t)) by (change 1 with (INR 1); apply le_INR; lia).
  unfold norm_dc, mean. rewrite ET, <- Vn.
  destruct (fdiv_le (fold_left fadd t f0) (of_Z (Z.of_nat (length t))) (bpow radix2 (24 + q)) FS) as (A & B & _).
  { rewrite Vn. lra. } { apply fmt32_b; lia. } { apply bpow_lt; lia. }
  { rewrite Vn. unfold Rdiv. rewrite Rabs_mult, (Rabs_pos_eq (/ _)) by (apply Rlt_le, Rinv_0_lt_compat; lra).
    eapply Rle_trans; [|exact SB]. rewrite <- (Rmult_1_r (Rabs _)) at 2. apply Rmult_le_compat_l; [apply Rabs_pos|]. rewrite <- Rinv_1. apply Rinv_le; lra. }
  split; assumption.
Qed.
Lemma mean_8_bit (vs : list Z) : vs <> [] -> (Z.of_nat (length vs) <= 131071)%Z -> (forall v, In v vs -> (0 <= v <= 255)%Z) ->
  let t := map sample_from_u8 vs in fin (norm_dc t) /\ B2R (norm_dc t) = rnd32 (mean t).
Proof.
  intros Hne Hl Hv t. apply (mean_grid (-7) (map (fun v => v - 128)%Z vs)); unfold t.
  - destruct vs; [congruence|discriminate].
  - lia.
  - clear - Hv. induction vs as [|v vs IH]; [constructor|]. cbn [map]. constructor; [|apply IH; intros; apply Hv; right; assumption].
    destruct (from_u8_ok v (Hv v (or_introl eq_refl))) as [F V]. split; [exact F|]. rewrite V, minus_IZR. change (bpow radix2 (-7)) with (/ 128). field.
  - rewrite map_length. lia.
  - apply Z.le_lt_trans with (128 * Z.of_nat (length vs))%Z; [|lia]. clear - Hv. induction vs as [|v vs IH]; [cbn; lia|]. cbn [map fold_right].
    specialize (IH (fun x H => Hv x (or_intror H))). pose proof (Hv v (or_introl eq_refl)). cbn [length]. lia.
Qed.
(** ** the waveform *)
(** the steps of [normalize_peak], kept apart *)
Lemma normalise_parts (m : libm) (db : f64) (t : list f32) (a b : f32) :
  let target := to32 (db_to_linear m db) in
  (Z.of_nat (length t) <= 2 ^ 24)%Z ->
  (forall s, In s t -> fin s /\ Rabs (B2R s) <= bpow radix2 60) ->
  In a t -> In b t -> bpow radix2 (-59) <= Rabs (B2R a - B2R b) ->
  fin target -> bpow radix2 (-60) <= B2R target <= bpow radix2 60 ->
  exists (dc f : f32) (M d1 : R), dc = norm_dc t /\ normalize m db t = map (fun s => fmul (fsub s dc) f) t /\ fin dc /\ 0 < B2R f /\ 0 < M /\ Rabs d1 <= / 16777216 /\
    B2R f * M = B2R target * (1 + d1) /\
    (forall s, In s t -> Rabs (rnd32 (B2R s - B2R dc)) <= M) /\ (exists s, In s t /\ M = Rabs (rnd32 (B2R s - B2R dc))) /\
    (forall s, In s t -> fin (fmul (fsub s dc) f) /\ B2R (fmul (fsub s dc) f) = rnd32 (rnd32 (B2R s - B2R dc) * B2R f)).
Proof.
  intros target Hl Ht Ia Ib Hab Ft Hp. fold target in Ft, Hp.
  destruct (norm_dc_ok t) as [Fd Hd]; try assumption. { intros ->; inversion Ia. }
  set (dc := norm_dc t) in *.
  assert (Hs : forall s, In s t -> fin (fsub s dc) /\ B2R (fsub s dc) = rnd32 (B2R s - B2R dc) /\
      Rabs (B2R (fsub s dc)) <= bpow radix2 61).
  { intros s Is. destruct (Ht s Is) as [Fs Bs]. apply fsub_le; try assumption.
    - apply fmt32_b; lia.
    - apply bpow_lt; lia.
    - change 61%Z with (60 + 1)%Z. rewrite bpow_double. unfold Rminus.
      apply Rle_trans with (1 := Rabs_triang _ _). rewrite Rabs_Ropp. lra. }
  destruct (norm_max_gen dc t f0 eq_refl (Rle_refl 0)) as (FM & _ & UM & AM).
  { intros s Is. apply Hs, Is. }
  fold (norm_max dc t) in FM, UM, AM. set (mx := norm_max dc t) in *.
  (* the maximum is at least 2^-60 *)
  assert (LM : bpow radix2 (-60) <= B2R mx).
  { assert (Hx : exists s, In s t /\ bpow radix2 (-60) <= Rabs (B2R s - B2R dc)).
    { change (-59)%Z with (-60 + 1)%Z in Hab. rewrite bpow_double in Hab.
      destruct (Rle_lt_dec (bpow radix2 (-60)) (Rabs (B2R a - B2R dc))) as [L|L]; [exists a; auto|].
      exists b. split; [exact Ib|].
      replace (B2R a - B2R b) with ((B2R a - B2R dc) + - (B2R b - B2R dc)) in Hab by ring.
      pose proof (Rabs_triang (B2R a - B2R dc) (- (B2R b - B2R dc))) as T. rewrite Rabs_Ropp in T. lra. }
    destruct Hx as (s & Is & L). apply Rle_trans with (2 := UM s Is).
    destruct (Hs s Is) as (_ & -> & _). rewrite rnd32_abs. apply rnd_ge_fmt; [apply fmt32_b; lia|exact L]. }
  assert (EM : exists s, In s t /\ B2R mx = Rabs (B2R (fsub s dc))).
  { destruct AM as [E|E]; [|exact E]. exfalso. change (B2R (f0 : f32)) with 0 in E.
    pose proof (bpow_gt_0 radix2 (-60)). lra. }
  assert (HM : B2R mx <= bpow radix2 61).
  { destruct EM as (s & Is & ->). apply Hs, Is. }
  pose proof (bpow_gt_0 radix2 (-60)) as P60.
  assert (Pm : 0 < B2R mx) by lra. assert (PT : 0 < B2R target) by lra.
  (* the factor *)
  assert (Q1 : B2R target / B2R mx <= bpow radix2 120).
  { apply Rmult_le_reg_r with (B2R mx); [exact Pm|]. unfold Rdiv. rewrite Rmult_assoc, Rinv_l by lra.
    apply Rle_trans with (bpow radix2 120 * bpow radix2 (-60)).
    - rewrite <- bpow_plus. simpl Z.add. lra.
    - apply Rmult_le_compat_l; [apply bpow_ge_0|lra]. }
  assert (Q2 : bpow radix2 (-121) <= B2R target / B2R mx).
  { apply Rmult_le_reg_r with (B2R mx); [exact Pm|]. unfold Rdiv. rewrite Rmult_assoc, Rinv_l by lra.
    apply Rle_trans with (bpow radix2 (-121) * bpow radix2 61).
    - apply Rmult_le_compat_l; [apply bpow_ge_0|lra].
    - rewrite <- bpow_plus. simpl Z.add. lra. }
  pose proof (bpow_gt_0 radix2 (-121)) as P121.
  destruct (fdiv_le target mx (bpow radix2 120) Ft) as (FF & VF & _).
  { lra. } { apply fmt32_b; lia. } { apply bpow_lt; lia. } { rewrite Rabs_pos_eq; lra. }
  set (f := fdiv target mx) in *.
  destruct (rnd_rel (prec:=24) (emax:=128) (B2R target / B2R mx)) as (d1 & D1 & E1).
  { rewrite Rabs_pos_eq by lra. apply Rle_trans with (2 := Q2). apply bpow_le. unfold SpecFloat.emin. lia. }
  change (Rabs d1 <= / 16777216) in D1. apply Rabs_le_inv in D1.
  assert (Pf : B2R f * B2R mx = B2R target * (1 + d1)).
  { rewrite VF, E1. field. lra. }
  assert (Pf0 : 0 < B2R f).
  { rewrite VF, E1. apply Rmult_lt_0_compat; lra. }
  assert (Pb : Rabs (B2R mx * B2R f) <= bpow radix2 61).
  { rewrite Rmult_comm, Pf, Rabs_pos_eq by (apply Rmult_le_pos; lra). change 61%Z with (60 + 1)%Z. rewrite bpow_double.
    apply Rle_trans with (B2R target * 2); [apply Rmult_le_compat_l; lra|lra]. }
  assert (O : forall s, In s t -> fin (fmul (fsub s dc) f) /\
      B2R (fmul (fsub s dc) f) = rnd32 (B2R (fsub s dc) * B2R f)).
  { intros s Is. destruct (Hs s Is) as (Fs & _ & _).
    destruct (fmul_le (fsub s dc) f (bpow radix2 61) Fs FF) as (A & B & _).
    - apply fmt32_b; lia.
    - apply bpow_lt; lia.
    - apply Rle_trans with (2 := Pb). rewrite !Rabs_mult_pos by lra. apply Rmult_le_compat_r; [lra|].
      rewrite (Rabs_pos_eq (B2R mx)) by lra. apply UM, Is.
    - split; assumption. }
  exists dc, f, (B2R mx), d1. do 7 (split; [first [reflexivity|assumption|apply Rabs_le; lra]|]). split; [|split].
  - intros s Is. destruct (Hs s Is) as (_ & <- & _). apply UM, Is.
  - destruct EM as (s & Is & E). exists s. split; [exact Is|]. destruct (Hs s Is) as (_ & <- & _). exact E.
  - intros s Is. destruct (Hs s Is) as (_ & <- & _). apply O, Is.
Qed.
Lemma waveform (m : libm) (db : f64) (t : list f32) (a b : f32) :
  let target := to32 (db_to_linear m db) in
  (Z.of_nat (length t) <= 2 ^ 24)%Z ->
  (forall s, In s t -> fin s /\ Rabs (B2R s) <= bpow radix2 60) ->
  In a t -> In b t -> bpow radix2 (-59) <= Rabs (B2R a - B2R b) ->
  fin target -> bpow radix2 (-60) <= B2R target <= bpow radix2 60 ->
  exists c g : R, 0 < g /\ c = B2R (norm_dc t) /\ Forall2 (levelled g c) t (normalize m db t) /\
    (forall s, In s t -> g * Rabs (B2R s - c) <= B2R target * (1 + bpow radix2 (-22))) /\
    (exists s, In s t /\ B2R target * (1 - bpow radix2 (-22)) <= g * Rabs (B2R s - c)).
Proof.
  intros target Hl Ht Ia Ib Hab Ft Hp.
  destruct (normalise_parts m db t a b Hl Ht Ia Ib Hab Ft Hp) as (dc & f & M & d1 & Ed & -> & Fd & Pf & PM & D1 & EF & UM & (sm & Im & EM) & O).
  fold target in EF. assert (PT : 0 < B2R target) by (pose proof (bpow_gt_0 radix2 (-60)); fold target in Hp; lra).
  apply Rabs_le_inv in D1.
  assert (U : bpow radix2 (-24) = / 16777216) by reflexivity. assert (U2 : bpow radix2 (-22) = / 4194304) by reflexivity.
  assert (X : forall s, In s t -> exists d, Rabs d <= / 16777216 /\ rnd32 (B2R s - B2R dc) = (B2R s - B2R dc) * (1 + d)).
  { intros s Is. rewrite <- U. apply sub_rel; [apply Ht, Is|exact Fd]. }
  assert (XA : forall (s : f32) d, Rabs d <= / 16777216 -> Rabs ((B2R s - B2R dc) * (1 + d)) = Rabs (B2R s - B2R dc) * (1 + d)).
  { intros s d Hd. apply Rabs_le_inv in Hd. apply Rabs_mult_pos. lra. }
  exists (B2R dc), (B2R f). split; [exact Pf|]. split; [rewrite Ed; reflexivity|]. split; [|split].
  - assert (G : forall l, incl l t -> Forall2 (levelled (B2R f) (B2R dc)) l (map (fun s => fmul (fsub s dc) f) l)).
    { induction l as [|s l IH]; intro Hi; [constructor|]. cbn [map]. constructor; [|apply IH; intros x Hx; apply Hi; right; exact Hx].
      assert (Is : In s t) by (apply Hi; left; reflexivity). destruct (O s Is) as [F V]. split; [exact F|]. rewrite V.
      destruct (X s Is) as (d & Hd & ->). set (x := B2R s - B2R dc). rewrite U2.
      destruct (rnd_err_gen (prec:=24) (emax:=128) (x * (1 + d) * B2R f)) as (d' & e & Hd' & He & ->).
      change (SpecFloat.emin 24 128 - 1)%Z with (-150)%Z in He. change (Rabs d' <= / 16777216) in Hd'.
      replace (x * (1 + d) * B2R f * (1 + d') + e - B2R f * x) with ((B2R f * x) * ((1 + d) * (1 + d') - 1) + e) by ring.
      eapply Rle_trans; [apply Rabs_triang|]. apply Rplus_le_compat; [|exact He]. rewrite Rabs_mult, Rabs_mult, (Rabs_pos_eq (B2R f)) by lra.
      rewrite Rmult_comm. apply Rmult_le_compat_r; [apply Rmult_le_pos; [lra|apply Rabs_pos]|].
      apply Rabs_le_inv in Hd, Hd'. apply Rabs_le. nra. }
    apply G, incl_refl.
  - intros s Is. destruct (X s Is) as (d & Hd & E). pose proof (UM s Is) as H. rewrite E, XA in H by exact Hd. apply Rabs_le_inv in Hd. rewrite U2.
    set (y := Rabs (B2R s - B2R dc)) in *. assert (Y0 : 0 <= y) by apply Rabs_pos.
    assert (H1 : B2R f * y * (1 + d) <= B2R target * (1 + d1)) by (rewrite <- EF, Rmult_assoc; apply Rmult_le_compat_l; lra).
    set (z := B2R f * y) in *. assert (Z0 : 0 <= z) by (apply Rmult_le_pos; lra).
    apply Rmult_le_reg_r with (1 - / 16777216); [lra|].
    apply Rle_trans with (z * (1 + d)); [apply Rmult_le_compat_l; lra|]. eapply Rle_trans; [exact H1|]. rewrite Rmult_assoc. apply Rmult_le_compat_l; lra.
  - exists sm. split; [exact Im|]. destruct (X sm Im) as (d & Hd & E). rewrite E, XA in EM by exact Hd. apply Rabs_le_inv in Hd. rewrite U2.
    set (y := Rabs (B2R sm - B2R dc)) in *. assert (Y0 : 0 <= y) by apply Rabs_pos.
    assert (H1 : B2R f * y * (1 + d) = B2R target * (1 + d1)) by (rewrite <- EF, EM; ring).
    set (z := B2R f * y) in *. assert (Z0 : 0 <= z) by (apply Rmult_le_pos; lra).
    apply Rmult_le_reg_r with (1 + / 16777216); [lra|].
    apply Rle_trans with (z * (1 + d)); [rewrite H1, Rmult_assoc; apply Rmult_le_compat_l; lra|apply Rmult_le_compat_l; lra].
Qed.
Lemma keeps_order (m : libm) (db : f64) (t : list f32) (a b : f32) :
  let target := to32 (db_to_linear m db) in
  (Z.of_nat (length t) <= 2 ^ 24)%Z ->
  (forall s, In s t -> fin s /\ Rabs (B2R s) <= bpow radix2 60) ->
  In a t -> In b t -> bpow radix2 (-59) <= Rabs (B2R a - B2R b) ->
  fin target -> bpow radix2 (-60) <= B2R target <= bpow radix2 60 ->
  forall i j s s', nth_error t i = Some s -> nth_error t j = Some s' -> B2R s <= B2R s' ->
  exists o o', nth_error (normalize m db t) i = Some o /\ nth_error (normalize m db t) j = Some o' /\ fin o /\ fin o' /\ B2R o <= B2R o'.
Proof.
  intros target Hl Ht Ia Ib Hab Ft Hp i j s s' Hi Hj L.
  destruct (normalise_parts m db t a b Hl Ht Ia Ib Hab Ft Hp) as (dc & f & M & d1 & _ & -> & _ & Pf & _ & _ & _ & _ & _ & O).
  exists (fmul (fsub s dc) f), (fmul (fsub s' dc) f). destruct (O s (nth_error_In _ _ Hi)) as [F V]. destruct (O s' (nth_error_In _ _ Hj)) as [F' V'].
  split; [apply (map_nth_error (fun x => fmul (fsub x dc) f)); exact Hi|]. split; [apply (map_nth_error (fun x => fmul (fsub x dc) f)); exact Hj|]. split; [exact F|]. split; [exact F'|].
  rewrite V, V'. apply rnd_le. apply Rmult_le_compat_r; [lra|]. apply rnd_le. lra.
Qed.

(** ** a constant that is not removed *)
Lemma f1_fin : fin (f1 : f32) /\ B2R (f1 : f32) = 1.
Proof. destruct (B2R_of_SF (f1 : f32) false 8388608 (-23)) as [F ->]; [vm_compute; reflexivity|]. split; [exact F|cbn; lra]. Qed.
Lemma sticks : rnd32 (IZR (2 ^ 24) + 1) = IZR (2 ^ 24).
Proof.
  destruct f1_fin as [F1 V1]. destruct (of_Z32 (2 ^ 24) ltac:(lia)) as [F V].
  destruct (fadd_le (of_Z (2 ^ 24) : f32) f1 (bpow radix2 25) F F1) as (_ & E & _).
  { apply fmt32_b; lia. } { apply bpow_lt; lia. } { rewrite V, V1, Rabs_pos_eq, <- IZR_pow2 by (try lia; rewrite <- plus_IZR; apply IZR_le; lia). rewrite <- plus_IZR. apply IZR_le. lia. }
  rewrite V, V1 in E. rewrite <- E, <- V. f_equal. apply B2SF_inj. vm_compute. reflexivity.
Qed.
Lemma ones_sum n : forall (x : f32) k, fin x -> B2R x = IZR k -> (0 <= k <= 2 ^ 24)%Z ->
  fin (fold_left fadd (repeat f1 n) x) /\ B2R (fold_left fadd (repeat f1 n) x) = IZR (Z.min (k + Z.of_nat n) (2 ^ 24)).
Proof.
  destruct f1_fin as [F1 V1]. induction n as [|n IH]; intros x k Fx Vx Hk.
  - cbn [repeat fold_left]. rewrite Z.min_l by lia. change (Z.of_nat 0) with 0%Z. rewrite Z.add_0_r. split; assumption.
  - cbn [repeat fold_left].
    destruct (fadd_le x f1 (bpow radix2 25) Fx F1) as (A & E & _).
    { apply fmt32_b; lia. } { apply bpow_lt; lia. } { rewrite Vx, V1, <- plus_IZR, Rabs_pos_eq, <- IZR_pow2 by (try lia; apply IZR_le; lia). apply IZR_le. lia. }
    rewrite Vx, V1 in E. destruct (Z.eq_dec k (2 ^ 24)) as [->|Nk].
    + rewrite sticks in E. destruct (IH (fadd x f1) (2 ^ 24)%Z A E ltac:(lia)) as [G H]. split; [exact G|]. rewrite H. apply f_equal. lia.
    + rewrite <- plus_IZR, rnd_fmt in E by (apply fmt32_Z; lia). destruct (IH (fadd x f1) (k + 1)%Z A E ltac:(lia)) as [G H]. split; [exact G|]. rewrite H. apply f_equal. lia.
Qed.
Lemma constant_stays (m : libm) (db : f64) (n : nat) : let target := to32 (db_to_linear m db) in
  (2 ^ 25 <= Z.of_nat n <= u64_max)%Z -> fin target -> bpow radix2 (-60) <= B2R target <= bpow radix2 60 ->
  forall o, In o (normalize m db (repeat f1 n)) -> fin o /\ Rabs (B2R o - B2R target) <= bpow radix2 (-22) * B2R target.
Proof.
  intros target Hn Ft Hp o Io. unfold normalize in Io. apply in_map_iff in Io. destruct Io as (s & <- & Is). apply repeat_spec in Is. subst s.
  unfold norm_factor. fold target. set (t := repeat f1 n) in *. set (dc := norm_dc t).
  destruct f1_fin as [F1 V1]. destruct (ones_sum n f0 0 eq_refl eq_refl ltac:(lia)) as [FS VS]. fold t in FS, VS.
  rewrite Z.min_r in VS by lia. destruct (of_Z_big (Z.of_nat n) ltac:(lia)) as [Fn Vn].
  assert (N1 : bpow radix2 25 <= B2R (of_Z (Z.of_nat n) : f32)).
  { rewrite Vn. apply rnd_ge_fmt; [apply fmt32_b; lia|]. rewrite <- IZR_pow2 by lia. apply IZR_le. lia. }
  assert (B25 : 0 < bpow radix2 25) by apply bpow_gt_0. set (N := B2R (of_Z (Z.of_nat n) : f32)) in *.
  rewrite IZR_pow2 in VS by lia.
  assert (H25 : bpow radix2 25 = 2 * bpow radix2 24) by (change 25%Z with (24 + 1)%Z; apply bpow_double).
  pose proof (bpow_gt_0 radix2 24) as P24.
  assert (Q : 0 <= bpow radix2 24 / N <= / 2).
  { split; [apply Rmult_le_pos; [lra|apply Rlt_le, Rinv_0_lt_compat; lra]|]. apply Rmult_le_reg_r with N; [lra|]. unfold Rdiv. rewrite Rmult_assoc, Rinv_l by lra. lra. }
  assert (F2 : fmt32 (/ 2)) by (apply (fmt32_b (-1)); lia).
  assert (L2 : / 2 < bpow radix2 128) by (change (/ 2) with (bpow radix2 (-1)); apply bpow_lt; lia).
  destruct (fdiv_le (fold_left fadd t f0) (of_Z (Z.of_nat n)) (/ 2) FS) as (FD & VD & _); [fold N; lra|exact F2|exact L2|fold N; rewrite VS, Rabs_pos_eq; lra|].
  assert (ED : dc = fdiv (fold_left fadd t f0) (of_Z (Z.of_nat n))) by (unfold dc, norm_dc, t; rewrite repeat_length; reflexivity).
  rewrite <- ED in FD, VD. fold N in VD. rewrite VS in VD.
  assert (DB : 0 <= B2R dc <= / 2) by (rewrite VD; split; [apply rnd_nonneg; lra|apply rnd_le_fmt; [exact F2|lra]]).
  assert (B1 : bpow radix2 0 = 1) by reflexivity.
  destruct (fsub_le f1 dc (bpow radix2 0) F1 FD) as (FX & VX & _); [apply fmt32_b; lia|apply bpow_lt; lia|rewrite V1, B1, Rabs_pos_eq; lra|]. rewrite V1 in VX.
  set (x := fsub f1 dc) in *.
  assert (XB : / 2 <= B2R x <= 1) by (rewrite VX; split; [apply rnd_ge_fmt; [exact F2|lra]|apply rnd_le_fmt; [apply (fmt32_b 0); lia|lra]]).
  destruct (norm_max_gen dc t f0 eq_refl (Rle_refl 0)) as (FM & _ & UM & AM). { intros y Hy. apply repeat_spec in Hy. subst y. exact FX. }
  fold (norm_max dc t) in FM, UM, AM. set (mx := norm_max dc t) in *.
  assert (EM : B2R mx = B2R x).
  { assert (I1 : In (f1 : f32) t). { unfold t. destruct n; [exfalso; clear - Hn; lia|left; reflexivity]. }
    specialize (UM f1 I1). fold x in UM. rewrite Rabs_pos_eq in UM by lra. destruct AM as [E|(y & Iy & E)].
    - change (B2R (f0 : f32)) with 0 in E. lra.
    - apply repeat_spec in Iy. subst y. fold x in E. rewrite Rabs_pos_eq in E by lra. exact E. }
  pose proof (bpow_gt_0 radix2 (-60)) as P60. assert (D60 : bpow radix2 61 = 2 * bpow radix2 60) by (change 61%Z with (60 + 1)%Z; apply bpow_double).
  assert (TQ : B2R target <= B2R target / B2R x <= bpow radix2 61).
  { split; apply Rmult_le_reg_r with (B2R x); try lra; unfold Rdiv; rewrite Rmult_assoc, Rinv_l by lra; [|rewrite D60]; nra. }
  destruct (fdiv_le target mx (bpow radix2 61) Ft) as (FF & VF & _); [lra|apply fmt32_b; lia|apply bpow_lt; lia|rewrite EM, Rabs_pos_eq; lra|].
  rewrite EM in VF. set (f := fdiv target mx) in *.
  destruct (rnd_rel (prec:=24) (emax:=128) (B2R target / B2R x)) as (d1 & D1 & E1).
  { rewrite Rabs_pos_eq by lra. apply Rle_trans with (bpow radix2 (-60)); [apply bpow_le; unfold SpecFloat.emin; lia|lra]. }
  change (Rabs d1 <= / 16777216) in D1. apply Rabs_le_inv in D1.
  assert (PF : B2R x * B2R f = B2R target * (1 + d1)) by (rewrite VF, E1; field; lra).
  destruct (fmul_le x f (bpow radix2 61) FX FF) as (A & B & _); [apply fmt32_b; lia|apply bpow_lt; lia|rewrite PF, D60, Rabs_pos_eq by (apply Rmult_le_pos; lra); nra|].
  split; [exact A|]. rewrite B, PF.
  destruct (rnd_rel (prec:=24) (emax:=128) (B2R target * (1 + d1))) as (d2 & D2 & E2).
  { rewrite Rabs_pos_eq by (apply Rmult_le_pos; lra). apply Rle_trans with (bpow radix2 (-61)); [apply bpow_le; unfold SpecFloat.emin; lia|].
    assert (bpow radix2 (-60) = 2 * bpow radix2 (-61)) by (rewrite <- bpow_double; reflexivity). nra. }
  change (Rabs d2 <= / 16777216) in D2. apply Rabs_le_inv in D2. rewrite E2.
  replace (B2R target * (1 + d1) * (1 + d2) - B2R target) with (B2R target * ((1 + d1) * (1 + d2) - 1)) by ring.
  rewrite Rabs_mult, (Rabs_pos_eq (B2R target)) by lra. change (bpow radix2 (-22)) with (/ 4194304). rewrite Rmult_comm. apply Rmult_le_compat_r; [lra|]. apply Rabs_le. nra.
Qed.
Lemma constant_short (m : libm) (db : f64) (n : nat) o : (Z.of_nat n <= 2 ^ 24)%Z -> In o (normalize m db (repeat f1 n)) -> is_nan o = true.
Proof.
  intros Hn. apply normalize_flat. intros s Is. destruct f1_fin as [F1 V1]. destruct n as [|k]; [inversion Is|].
  apply repeat_spec in Is. subst s. split; [exact F1|].
  destruct (ones_sum (S k) f0 0 eq_refl eq_refl ltac:(lia)) as [FS VS]. rewrite Z.min_l, Z.add_0_l in VS by lia.
  destruct (of_Z32 (Z.of_nat (S k)) ltac:(lia)) as [Fn Vn].
  assert (Np : 0 < IZR (Z.of_nat (S k))) by (apply IZR_lt; lia).
  destruct (fdiv_le (fold_left fadd (repeat f1 (S k)) f0) (of_Z (Z.of_nat (S k))) (bpow radix2 0) FS) as (FD & VD & _).
  { rewrite Vn. lra. } { apply fmt32_b; lia. } { apply bpow_lt; lia. }
  { rewrite VS, Vn. unfold Rdiv. rewrite Rinv_r, Rabs_R1 by lra. change (bpow radix2 0) with 1. lra. }
  unfold norm_dc. rewrite repeat_length. unfold feq. rewrite (Beqb_correct _ _ _ _ F1 FD), V1, VD, VS, Vn. unfold Rdiv. rewrite Rinv_r by lra.
  rewrite rnd_fmt by (apply (fmt32_b 0); lia). apply Req_bool_true. reflexivity.
Qed.
Lemma waveform_mean (m : libm) (db : f64) (t : list f32) (a b : f32) :
  let target := to32 (db_to_linear m db) in
  (Z.of_nat (length t) <= 2 ^ 24)%Z ->
  (forall s, In s t -> fin s /\ Rabs (B2R s) <= bpow radix2 60) ->
  In a t -> In b t -> bpow radix2 (-59) <= Rabs (B2R a - B2R b) ->
  fin target -> bpow radix2 (-60) <= B2R target <= bpow radix2 60 ->
  exists c g : R, 0 < g /\ Rabs (c - mean t) <= (adding (S (length t)) - 1) * mean_abs t + bpow radix2 (-150) /\
    Forall2 (levelled g c) t (normalize m db t) /\
    (forall s, In s t -> g * Rabs (B2R s - c) <= B2R target * (1 + bpow radix2 (-22))) /\
    (exists s, In s t /\ B2R target * (1 - bpow radix2 (-22)) <= g * Rabs (B2R s - c)).
Proof.
  intros target Hl Ht Ia Ib Hab Ft Hp. destruct (waveform m db t a b Hl Ht Ia Ib Hab Ft Hp) as (c & g & Pg & -> & R).
  exists (B2R (norm_dc t)), g. split; [exact Pg|]. split; [|exact R]. apply mean_near; [|exact Hl|exact Ht]. intros ->. inversion Ia.
Qed.
Lemma waveform_8_bit (m : libm) (db : f64) (vs : list Z) :
  let target := to32 (db_to_linear m db) in let t := map sample_from_u8 vs in
  (Z.of_nat (length vs) <= 131071)%Z -> (forall v, In v vs -> (0 <= v <= 255)%Z) -> (exists v w, In v vs /\ In w vs /\ v <> w) ->
  fin target -> bpow radix2 (-60) <= B2R target <= bpow radix2 60 ->
  exists c g : R, 0 < g /\ Rabs (c - mean t) <= bpow radix2 (-25) /\
    Forall2 (levelled g c) t (normalize m db t) /\
    (forall s, In s t -> g * Rabs (B2R s - c) <= B2R target * (1 + bpow radix2 (-22))) /\
    (exists s, In s t /\ B2R target * (1 - bpow radix2 (-22)) <= g * Rabs (B2R s - c)).
Proof.
  intros target t Hl Hv (v & w & Iv & Iw & N) Ft Hp.
  assert (One : forall v, In v vs -> fin (sample_from_u8 v) /\ Rabs (B2R (sample_from_u8 v)) <= 1).
  { intros x Ix. pose proof (Hv x Ix) as H. destruct (from_u8_ok x H) as [F V]. split; [exact F|]. rewrite V.
    assert (0 <= IZR x <= 255) by (split; apply IZR_le; lia). apply Rabs_le. lra. }
  assert (B60 : 1 <= bpow radix2 60) by (change 1 with (bpow radix2 0); apply bpow_le; lia).
  assert (Ht : forall s, In s t -> fin s /\ Rabs (B2R s) <= bpow radix2 60).
  { intros s Is. apply in_map_iff in Is. destruct Is as (x & <- & Ix). destruct (One x Ix). split; [assumption|lra]. }
  destruct (waveform m db t (sample_from_u8 v) (sample_from_u8 w)) as (c & g & Pg & -> & R); try assumption.
  { unfold t. rewrite map_length. lia. } { apply in_map, Iv. } { apply in_map, Iw. }
  { destruct (from_u8_ok v (Hv v Iv)) as [_ ->]. destruct (from_u8_ok w (Hv w Iw)) as [_ ->].
    apply Rle_trans with (bpow radix2 (-7)); [apply bpow_le; lia|]. change (bpow radix2 (-7)) with (/ 128).
    assert (H : 1 <= Rabs (IZR v - IZR w)) by (rewrite <- minus_IZR, <- abs_IZR; apply IZR_le; lia).
    match goal with |- _ <= Rabs ?e => replace e with ((IZR v - IZR w) * / 128) by field end.
    rewrite Rabs_mult_pos by lra. lra. }
  exists (B2R (norm_dc t)), g. split; [exact Pg|]. split; [|exact R].
  destruct (mean_8_bit vs) as [_ V]; [intros ->; inversion Iv|exact Hl|exact Hv|]. fold t in V. rewrite V.
  assert (Np : 0 < INR (length t)). { unfold t. rewrite map_length. destruct vs; [inversion Iv|]. apply (lt_INR 0). cbn [length]. lia. }
  assert (M1 : Rabs (mean t) <= 1).
  { unfold mean, Rdiv. rewrite Rabs_mult, (Rabs_pos_eq (/ _)) by (apply Rlt_le, Rinv_0_lt_compat, Np).
    apply Rmult_le_reg_r with (INR (length t)); [exact Np|]. rewrite Rmult_assoc, Rinv_l, Rmult_1_r, Rmult_1_l by lra.
    rewrite <- (Rmult_1_r (INR _)), <- (rsum_const 1 t). apply rsum_abs. intros s Is. apply in_map_iff in Is. destruct Is as (x & <- & Ix). apply One, Ix. }
  change (-25)%Z with (0 - 24 - 1)%Z. apply (rnd_err (prec:=24) (emax:=128)); [unfold SpecFloat.emin; lia|]. change (bpow radix2 0) with 1. exact M1.
Qed.

(** ** twice *)
Lemma rsum_sub {A} (f : A -> R) (x : R) l : rsum (map f l) - INR (length l) * x = rsum (map (fun a => f a - x) l).
Proof. induction l as [|a l IH]; [cbn; ring|]. cbn [map length]. rewrite !rsum_cons, <- IH, S_INR. ring. Qed.
Lemma mean_dist (t : list f32) (x r : R) : t <> [] -> (forall s, In s t -> Rabs (B2R s - x) <= r) -> Rabs (mean t - x) <= r.
Proof.
  intros Hne H. assert (Np : 0 < INR (length t)) by (destruct t; [congruence|apply (lt_INR 0); cbn [length]; lia]).
  unfold mean. replace (rsum (map B2R t) / INR (length t) - x) with ((rsum (map B2R t) - INR (length t) * x) * / INR (length t)) by (field; lra).
  rewrite rsum_sub, Rabs_mult, (Rabs_pos_eq (/ _)) by (apply Rlt_le, Rinv_0_lt_compat, Np).
  apply Rmult_le_reg_r with (INR (length t)); [exact Np|]. rewrite Rmult_assoc, Rinv_l, Rmult_1_r, (Rmult_comm r) by lra.
  rewrite <- (rsum_const r t). apply rsum_abs. exact H.
Qed.
Lemma mean_abs_le (t : list f32) (r : R) : t <> [] -> (forall s, In s t -> Rabs (B2R s) <= r) -> 0 <= mean_abs t <= r.
Proof.
  intros Hne H. assert (Np : 0 < INR (length t)) by (destruct t; [congruence|apply (lt_INR 0); cbn [length]; lia]).
  unfold mean_abs. split; [apply Rmult_le_pos; [apply rsum_abs_pos|apply Rlt_le, Rinv_0_lt_compat, Np]|].
  apply Rmult_le_reg_r with (INR (length t)); [exact Np|]. unfold Rdiv. rewrite Rmult_assoc, Rinv_l, Rmult_1_r, (Rmult_comm r) by lra.
  rewrite <- (rsum_const r t). apply rsum_le. exact H.
Qed.
Lemma already (m : libm) (db : f64) (t : list f32) (mu : R) :
  let T := B2R (to32 (db_to_linear m db)) in let E := adding (S (length t)) - 1 in
  (Z.of_nat (length t) <= 2 ^ 24)%Z -> (forall s, In s t -> fin s /\ Rabs (B2R s) <= T * (1 + bpow radix2 (-22))) ->
  (exists x, In x t /\ T * (1 - bpow radix2 (-22)) <= Rabs (B2R x)) -> Rabs (mean t) <= mu * T -> mu + E <= / 8 ->
  fin (to32 (db_to_linear m db)) -> bpow radix2 (-50) <= T <= bpow radix2 50 ->
  Forall2 (fun s o => fin o /\ Rabs (B2R o - B2R s) <= (3 * (mu + E) + bpow radix2 (-18)) * T) t (normalize m db t).
Proof.
  intros T E Hl Ht (x & Ix & Hx) Hm Hd Ft HT.
  assert (Hne : t <> []) by (intros ->; inversion Ix).
  assert (B22 : bpow radix2 (-22) = / 4194304) by reflexivity. assert (B18 : bpow radix2 (-18) = / 262144) by reflexivity. rewrite B22 in *.
  pose proof (bpow_gt_0 radix2 (-50)) as P50. assert (PT : 0 < T) by lra.
  assert (E0 : 0 <= E) by (unfold E; pose proof (adding_ge (S (length t))); lra).
  assert (M0 : 0 <= mu). { pose proof (Rabs_pos (mean t)). apply Rmult_le_reg_r with T; lra. }
  assert (S150 : bpow radix2 (-150) <= / 4194304 * T).
  { apply Rle_trans with (bpow radix2 (-22) * bpow radix2 (-50)); [rewrite <- bpow_plus; apply bpow_le; lia|rewrite B22; lra]. }
  assert (S59 : bpow radix2 (-59) <= / 256 * T).
  { apply Rle_trans with (bpow radix2 (-8) * bpow radix2 (-50)); [rewrite <- bpow_plus; apply bpow_le; lia|change (bpow radix2 (-8)) with (/ 256); lra]. }
  assert (B60 : T * (1 + / 4194304) <= bpow radix2 60).
  { apply Rle_trans with (bpow radix2 1 * bpow radix2 50); [change (bpow radix2 1) with 2; lra|rewrite <- bpow_plus; apply bpow_le; lia]. }
  assert (Hy : exists y, In y t /\ bpow radix2 (-59) <= Rabs (B2R x - B2R y)).
  { destruct (Exists_dec (fun y : f32 => bpow radix2 (-59) <= Rabs (B2R x - B2R y)) t) as [G|G]; [intro y; destruct (Rle_lt_dec (bpow radix2 (-59)) (Rabs (B2R x - B2R y))); [left|right]; lra| |].
    - apply Exists_exists in G. exact G.
    - exfalso. rewrite <- Forall_Exists_neg, Forall_forall in G.
      assert (N : Rabs (mean t - B2R x) <= bpow radix2 (-59)).
      { apply mean_dist; [exact Hne|]. intros s Is. rewrite Rabs_minus_sym. apply Rlt_le, Rnot_le_lt, G, Is. }
      assert (mu * T <= / 8 * T) by (apply Rmult_le_compat_r; lra).
      apply Rabs_le_inv in N, Hm. assert (Rabs (B2R x) <= / 8 * T + / 256 * T) by (apply Rabs_le; lra). lra. }
  destruct Hy as (y & Iy & Hxy).
  destruct (waveform_mean m db t x y) as (c & g & Pg & Hc & HF & HU & (z & Iz & HL)); try assumption.
  { intros s Is. destruct (Ht s Is). split; [assumption|lra]. }
  { split; [apply Rle_trans with (bpow radix2 (-50)); [apply bpow_le; lia|apply HT]|apply Rle_trans with (bpow radix2 50); [apply HT|apply bpow_le; lia]]. }
  fold T in HU, HL. fold E in Hc. rewrite B22 in HU, HL.
  destruct (mean_abs_le t _ Hne (fun s Is => proj2 (Ht s Is))) as [A0 A1].
  set (d := mu + E + 2 * / 4194304).
  assert (Dc : Rabs c <= d * T).
  { assert (E * mean_abs t <= E * (T * (1 + / 4194304))) by (apply Rmult_le_compat_l; assumption).
    assert (E * T <= / 8 * T) by (apply Rmult_le_compat_r; lra).
    apply Rabs_le_inv in Hc, Hm. unfold d. apply Rabs_le. split; lra. }
  assert (Dd : 0 <= d <= 0.1251) by (unfold d; lra).
  assert (G1 : g * (1 - / 4194304 - d) <= 1 + / 4194304).
  { apply Rmult_le_reg_r with T; [exact PT|]. replace ((1 + / 4194304) * T) with (T * (1 + / 4194304)) by ring.
    apply Rle_trans with (2 := HU x Ix). rewrite Rmult_assoc. apply Rmult_le_compat_l; [lra|].
    pose proof (Rabs_triang (B2R x - c) c) as Tr. replace (B2R x - c + c) with (B2R x) in Tr by ring. lra. }
  assert (G2 : 1 - / 4194304 <= g * (1 + / 4194304 + d)).
  { apply Rmult_le_reg_r with T; [exact PT|]. replace ((1 - / 4194304) * T) with (T * (1 - / 4194304)) by ring.
    eapply Rle_trans; [exact HL|]. rewrite Rmult_assoc. apply Rmult_le_compat_l; [lra|].
    pose proof (Rabs_triang (B2R z) (- c)) as Tr. rewrite Rabs_Ropp in Tr. pose proof (proj2 (Ht z Iz)). unfold Rminus at 1. lra. }
  assert (GU : g <= 1.15) by nra.
  assert (G : Rabs (g - 1) <= 1.15 * (d + 2 * / 4194304)) by (apply Rabs_le; split; nra).
  assert (Q : forall s o, In s t -> levelled g c s o -> fin o /\ Rabs (B2R o - B2R s) <= (3 * (mu + E) + bpow radix2 (-18)) * T).
  { intros s o Is [Fo Ho]. split; [exact Fo|]. rewrite B22 in Ho. rewrite B18. pose proof (HU s Is) as Us.
    replace (B2R o - B2R s) with ((B2R o - g * (B2R s - c)) + ((g - 1) * B2R s + - (g * c))) by ring.
    eapply Rle_trans; [apply Rabs_triang|]. pose proof (Rabs_triang ((g - 1) * B2R s) (- (g * c))) as T2. rewrite Rabs_Ropp in T2.
    assert (X1 : Rabs ((g - 1) * B2R s) <= 1.15 * (d + 2 * / 4194304) * (T * (1 + / 4194304))) by (rewrite Rabs_mult; apply Rmult_le_compat; try apply Rabs_pos; [exact G|apply Ht, Is]).
    assert (X2 : Rabs (g * c) <= 1.15 * (d * T)) by (rewrite Rabs_mult, (Rabs_pos_eq g) by lra; apply Rmult_le_compat; try apply Rabs_pos; lra).
    assert (dT : d * T <= 0.1251 * T) by (apply Rmult_le_compat_r; lra).
    assert (X3 : (3 * (mu + E) + / 262144) * T = 3 * (d * T) + (/ 262144 - 6 * / 4194304) * T) by (unfold d; field).
    rewrite X3. assert (d0 : 0 <= d * T) by (apply Rmult_le_pos; lra). lra. }
  clear - HF Q. assert (K : forall l o, incl l t -> Forall2 (levelled g c) l o -> Forall2 (fun s o => fin o /\ Rabs (B2R o - B2R s) <= (3 * (mu + E) + bpow radix2 (-18)) * T) l o).
  { intros l o Hi H. induction H as [|s o' l os H _ IH]; [constructor|]. constructor; [apply Q; [apply Hi; left; reflexivity|exact H]|apply IH; intros a Ha; apply Hi; right; exact Ha]. }
  apply K; [apply incl_refl|exact HF].
Qed.
Lemma adding_small n : (Z.of_nat n <= 131072)%Z -> adding n - 1 <= 2 * (INR n * bpow radix2 (-24)).
Proof.
  intro H. set (k := INR n * bpow radix2 (-24)).
  assert (K : 0 <= k <= / 128).
  { unfold k. rewrite INR_IZR_INZ. change (bpow radix2 (-24)) with (/ 16777216). assert (0 <= IZR (Z.of_nat n) <= 131072) by (split; apply IZR_le; lia). lra. }
  assert (X : adding n <= exp k).
  { unfold k, adding. clear. induction n as [|n IH]; [cbn [pow INR]; rewrite Rmult_0_l, exp_0; lra|]. cbn [pow].
    replace (INR (S n) * bpow radix2 (-24)) with (bpow radix2 (-24) + INR n * bpow radix2 (-24)) by (rewrite S_INR; ring). rewrite exp_plus.
    apply Rmult_le_compat; [pose proof (bpow_gt_0 radix2 (-24)); lra|apply pow_le; pose proof (bpow_gt_0 radix2 (-24)); lra|apply Rlt_le, exp_ineq1, Rgt_not_eq, bpow_gt_0|exact IH]. }
  assert (Y : 1 - k <= exp (- k)) by (apply (exp_ineq1_le (- k))).
  assert (Z : exp k * exp (- k) = 1) by (rewrite <- exp_plus, Rplus_opp_r; apply exp_0).
  assert (W : exp k * (1 - k) <= 1) by (apply Rle_trans with (exp k * exp (- k)); [apply Rmult_le_compat_l; [apply Rlt_le, exp_pos|exact Y]|lra]).
  assert (exp k <= 1 + 2 * k); [|lra]. apply Rmult_le_reg_r with (1 - k); [lra|]. eapply Rle_trans; [exact W|]. nra.
Qed.
Lemma mean_moved (g c r : R) (t os : list f32) : t <> [] -> Forall2 (fun s o => Rabs (B2R o - g * (B2R s - c)) <= r) t os -> Rabs (mean os - g * (mean t - c)) <= r.
Proof.
  intros Hne H. assert (Np : 0 < INR (length t)) by (destruct t; [congruence|apply (lt_INR 0); cbn [length]; lia]).
  unfold mean. assert (L : length os = length t) by (clear - H; induction H; cbn [length]; lia). rewrite L. clear L.
  replace (rsum (map B2R os) / INR (length t) - g * (rsum (map B2R t) / INR (length t) - c)) with ((rsum (map B2R os) - g * (rsum (map B2R t) - INR (length t) * c)) * / INR (length t)) by (field; lra).
  rewrite Rabs_mult, (Rabs_pos_eq (/ _)) by (apply Rlt_le, Rinv_0_lt_compat, Np).
  apply Rmult_le_reg_r with (INR (length t)); [exact Np|]. rewrite Rmult_assoc, Rinv_l, Rmult_1_r by lra. clear Hne Np.
  induction H as [|s o t os H _ IH]; [cbn [map length INR]; rewrite !rsum_nil; replace (0 - g * (0 - 0 * c)) with 0 by ring; rewrite Rabs_R0; lra|].
  cbn [map length]. rewrite !rsum_cons, S_INR.
  match goal with |- Rabs ?e <= _ => replace e with ((B2R o - g * (B2R s - c)) + (rsum (map B2R os) - g * (rsum (map B2R t) - INR (length t) * c))) by ring end.
  eapply Rle_trans; [apply Rabs_triang|]. lra.
Qed.
Lemma twice_8_bit (m : libm) (db : f64) (vs : list Z) : let T := B2R (to32 (db_to_linear m db)) in let o := normalize m db (map sample_from_u8 vs) in
  (Z.of_nat (length vs) <= 131071)%Z -> (forall v, In v vs -> (0 <= v <= 255)%Z) -> (exists v w, In v vs /\ In w vs /\ v <> w) ->
  fin (to32 (db_to_linear m db)) -> bpow radix2 (-50) <= T <= bpow radix2 50 ->
  Forall2 (fun o o2 => fin o2 /\ Rabs (B2R o2 - B2R o) <= (INR (length vs) + 128) * bpow radix2 (-21) * T) o (normalize m db o).
Proof.
  intros T o Hl Hv Hd Ft HT. pose proof Hd as (v & w & Iv & Iw & N). set (t := map sample_from_u8 vs) in *.
  assert (HT60 : bpow radix2 (-60) <= T <= bpow radix2 60).
  { split; [apply Rle_trans with (bpow radix2 (-50)); [apply bpow_le; lia|apply HT]|apply Rle_trans with (bpow radix2 50); [apply HT|apply bpow_le; lia]]. }
  pose proof (bpow_gt_0 radix2 (-50)) as P50. assert (PT : 0 < T) by lra.
  assert (B22 : bpow radix2 (-22) = / 4194304) by reflexivity.
  assert (S150 : bpow radix2 (-150) <= / 4194304 * T).
  { apply Rle_trans with (bpow radix2 (-22) * bpow radix2 (-50)); [rewrite <- bpow_plus; apply bpow_le; lia|rewrite B22; lra]. }
  assert (Lt : length t = length vs) by apply map_length. assert (Lo : length o = length vs) by (unfold o, normalize; rewrite map_length; exact Lt).
  assert (Hne : t <> []) by (unfold t; destruct vs; [inversion Iv|discriminate]).
  assert (D7 : / 128 <= Rabs (B2R (sample_from_u8 v) - B2R (sample_from_u8 w))).
  { destruct (from_u8_ok v (Hv v Iv)) as [_ ->]. destruct (from_u8_ok w (Hv w Iw)) as [_ ->].
    assert (H : 1 <= Rabs (IZR v - IZR w)) by (rewrite <- minus_IZR, <- abs_IZR; apply IZR_le; lia).
    match goal with |- _ <= Rabs ?e => replace e with ((IZR v - IZR w) * / 128) by field end. rewrite Rabs_mult_pos by lra. lra. }
  assert (Ht : forall s, In s t -> fin s /\ Rabs (B2R s) <= bpow radix2 60).
  { intros s Is. apply in_map_iff in Is. destruct Is as (x & <- & Ix). destruct (from_u8_ok x (Hv x Ix)) as [F V]. split; [exact F|]. rewrite V.
    apply Rle_trans with (bpow radix2 0); [|apply bpow_le; lia]. change (bpow radix2 0) with 1.
    assert (0 <= IZR x <= 255) by (pose proof (Hv x Ix); split; apply IZR_le; lia). apply Rabs_le. lra. }
  destruct (normalize_peak m db t (sample_from_u8 v) (sample_from_u8 w)) as (p & Pp & Ep & Up & (x & Ix & Hx)); try assumption.
  { lia. } { apply in_map, Iv. } { apply in_map, Iw. } { apply Rle_trans with (2 := D7). change (/ 128) with (bpow radix2 (-7)). apply bpow_le. lia. }
  fold T in Ep. fold o in Up, Ix. apply Rabs_le_inv in Ep.
  destruct (waveform_8_bit m db vs Hl Hv Hd Ft HT60) as (c & g & Pg & Hc & HF & HU & _). fold T t in Hc, HF, HU. fold o in HF.
  rewrite B22 in HU, Ep.
  assert (G : g <= 256 * (T * (1 + / 4194304))).
  { pose proof (HU _ (in_map sample_from_u8 _ _ Iv)) as Uv. pose proof (HU _ (in_map sample_from_u8 _ _ Iw)) as Uw.
    set (a := B2R (sample_from_u8 v)) in *. set (b := B2R (sample_from_u8 w)) in *.
    pose proof (Rabs_triang (a - c) (- (b - c))) as Tr. rewrite Rabs_Ropp in Tr. replace (a - c + - (b - c)) with (a - b) in Tr by ring.
    assert (g * / 128 <= g * (Rabs (a - c) + Rabs (b - c))) by (apply Rmult_le_compat_l; lra). lra. }
  assert (M : Rabs (mean o) <= bpow radix2 (-16) * T).
  { assert (K : Rabs (mean o - g * (mean t - c)) <= 3 * / 4194304 * T).
    { apply mean_moved; [exact Hne|]. clear - HF HU S150 B22 PT.
      assert (J : forall l os, incl l t -> Forall2 (levelled g c) l os -> Forall2 (fun s o => Rabs (B2R o - g * (B2R s - c)) <= 3 * / 4194304 * T) l os).
      { intros l os Hi H. induction H as [|s o' l os [_ H] _ IH]; constructor; [|apply IH; intros a Ha; apply Hi; right; exact Ha].
        specialize (HU s (Hi s (or_introl eq_refl))). rewrite B22 in H. lra. }
      apply J; [apply incl_refl|exact HF]. }
    assert (L : Rabs (g * (mean t - c)) <= 256 * (T * (1 + / 4194304)) * / 33554432).
    { rewrite Rabs_mult, (Rabs_pos_eq g), (Rabs_minus_sym (mean t)) by lra. apply Rmult_le_compat; [lra|apply Rabs_pos|exact G|exact Hc]. }
    change (bpow radix2 (-16)) with (/ 65536). apply Rabs_le_inv in K, L. apply Rabs_le. split; lra. }
  assert (E : adding (S (length o)) - 1 <= 2 * ((INR (length vs) + 1) * / 16777216)).
  { rewrite Lo, <- S_INR. apply adding_small. lia. }
  assert (Nb : 0 <= INR (length vs) <= 131071) by (rewrite INR_IZR_INZ; split; apply IZR_le; lia).
  change (bpow radix2 (-16)) with (/ 65536) in M.
  pose proof (already m db o (/ 65536)) as Q. cbv zeta in Q. fold T in Q. rewrite B22 in Q.
  assert (Q' : Forall2 (fun s o2 => fin o2 /\ Rabs (B2R o2 - B2R s) <= (3 * (/ 65536 + (adding (S (length o)) - 1)) + bpow radix2 (-18)) * T) o (normalize m db o)).
  { apply Q; try assumption.
    - lia.
    - intros s Is. destruct (Up s Is). split; [assumption|lra].
    - exists x. split; [exact Ix|lra].
    - lra. }
  set (e := adding (S (length o)) - 1) in *. set (n := INR (length vs)) in *. clearbody e n. clear - Q' E PT Nb. induction Q' as [|s o2 l os [F H] _ IH]; constructor; [|exact IH]. split; [exact F|]. eapply Rle_trans; [exact H|].
  apply Rmult_le_compat_r; [lra|]. change (bpow radix2 (-18)) with (/ 262144). change (bpow radix2 (-21)) with (/ 2097152).
  lra.
Qed.
