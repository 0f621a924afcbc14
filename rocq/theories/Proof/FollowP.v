(** * Envelope follower: how it settles *)
From Coq Require Import ZArith List Bool Reals Lra Lia Psatz.
From Flocq Require Import Core.Core IEEE754.BinarySingleNaN.
From Verif Require Import Model.Floats Model.Modifiers Model.Filters Spec.Libm Spec.Follower
  Proof.FloatFacts Proof.SampleFormatP Proof.FormatsP Proof.LibmP Proof.WavP Proof.ResamplerP3 Proof.GeneratorsP Proof.GeneratorsP4 Proof.GenericP
  Proof.EnvelopeP Proof.PlayP Proof.BandPassF32P Proof.TrackP.
Import ListNotations.
Local Open Scope R_scope.

(** ** one step in the reals, with an error of at most eta *)
Definition gain_of (th : R) : R := th / (1 + th).
Lemma kept_range th : 0 < th <= 1 -> 0 <= kept th < 1 /\ 2 * gain_of th + kept th = 1 /\ 0 < gain_of th <= / 2.
Proof.
  intro H. unfold kept, gain_of. assert (I : 0 < / (1 + th)) by (apply Rinv_0_lt_compat; lra).
  assert (E : (1 + th) * / (1 + th) = 1) by (field; lra). unfold Rdiv. repeat split; nra.
Qed.
Definition one_step (thu thd eta x x1 y1 y : R) : Prop :=
  Rabs (y - (if Rlt_bool y1 (Rabs x) then gain_of thu * (Rabs x + Rabs x1) + kept thu * y1
             else gain_of thd * (Rabs x + Rabs x1) + kept thd * y1)) <= eta.

Lemma step_short thu thd eta m x x1 y1 y : 0 < thu <= 1 -> 0 < thd <= 1 -> 0 <= eta ->
  m <= Rabs x -> m <= Rabs x1 -> one_step thu thd eta x x1 y1 y -> short m y <= kept thu * short m y1 + eta.
Proof.
  intros Hu Hd He H H1 S. unfold one_step in S. apply Rabs_le_inv in S.
  destruct (kept_range thu Hu) as (K & G & P). destruct (kept_range thd Hd) as (K' & G' & P').
  unfold short. destruct (Rlt_bool_spec y1 (Rabs x)) as [Q|Q].
  - assert (L : m - y1 <= Rmax 0 (m - y1)) by apply Rmax_r. assert (L0 : 0 <= Rmax 0 (m - y1)) by apply Rmax_l.
    apply Rmax_lub; [nra|].
    assert (gain_of thu * (2 * m) <= gain_of thu * (Rabs x + Rabs x1)) by (apply Rmult_le_compat_l; lra).
    assert (kept thu * (m - y1) <= kept thu * Rmax 0 (m - y1)) by (apply Rmult_le_compat_l; lra). nra.
  - assert (L0 : 0 <= Rmax 0 (m - y1)) by apply Rmax_l.
    assert (0 <= kept thu * Rmax 0 (m - y1)) by (apply Rmult_le_pos; lra).
    apply Rmax_lub; [lra|].
    assert (gain_of thd * (2 * m) <= gain_of thd * (Rabs x + Rabs x1)) by (apply Rmult_le_compat_l; lra).
    assert (kept thd * m <= kept thd * y1) by (apply Rmult_le_compat_l; lra). nra.
Qed.
Lemma step_excess thu thd eta m x x1 y1 y : 0 < thu <= 1 -> 0 < thd <= 1 -> 0 <= eta ->
  Rabs x <= m -> Rabs x1 <= m -> one_step thu thd eta x x1 y1 y -> excess m y <= kept thd * excess m y1 + eta.
Proof.
  intros Hu Hd He H H1 S. unfold one_step in S. apply Rabs_le_inv in S.
  destruct (kept_range thu Hu) as (K & G & P). destruct (kept_range thd Hd) as (K' & G' & P').
  unfold excess. assert (L0 : 0 <= Rmax 0 (y1 - m)) by apply Rmax_l.
  assert (L1 : 0 <= kept thd * Rmax 0 (y1 - m)) by (apply Rmult_le_pos; lra).
  destruct (Rlt_bool_spec y1 (Rabs x)) as [Q|Q]; (apply Rmax_lub; [lra|]).
  - assert (gain_of thu * (Rabs x + Rabs x1) <= gain_of thu * (2 * m)) by (apply Rmult_le_compat_l; lra).
    assert (kept thu * y1 <= kept thu * m) by (apply Rmult_le_compat_l; lra). nra.
  - assert (L : y1 - m <= Rmax 0 (y1 - m)) by apply Rmax_r.
    assert (gain_of thd * (Rabs x + Rabs x1) <= gain_of thd * (2 * m)) by (apply Rmult_le_compat_l; lra).
    assert (kept thd * (y1 - m) <= kept thd * Rmax 0 (y1 - m)) by (apply Rmult_le_compat_l; lra). nra.
Qed.

(** ** exact arithmetic *)
Lemma envR_step thu thd x1 y1 x :
  exists y, env_process numR (env_at numR 1 thu thd x1 y1) x = (y, env_at numR 1 thu thd x y) /\ one_step thu thd 0 x x1 y1 y.
Proof.
  eexists. split; [reflexivity|]. unfold one_step. cbn [env_at env_of_theta en_au en_bu en_ad en_bd en_x1 en_y1 numR nadd nmul nabs nlt ndiv nsub].
  fold (gain_of thu) (gain_of thd) (kept thu) (kept thd).
  right. rewrite Rminus_diag_eq, Rabs_R0 by reflexivity. reflexivity.
Qed.
Lemma follows_exact thu thd m M : 0 < thu <= 1 -> 0 < thd <= 1 ->
  forall (xs : list R) x1 y1 i, m <= Rabs x1 <= M -> (forall x, In x xs -> m <= Rabs x <= M) -> (i < length xs)%nat ->
  let y := nth i (fst (run (env_process numR) (env_at numR 1 thu thd x1 y1) xs)) 0 in
  short m y <= kept thu ^ (S i) * short m y1 /\ excess M y <= kept thd ^ (S i) * excess M y1.
Proof.
  intros Hu Hd. destruct (kept_range thu Hu) as (K & _). destruct (kept_range thd Hd) as (K' & _).
  induction xs as [|x xs IH]; intros x1 y1 i H1 Hx Hi; [simpl in Hi; lia|].
  cbn [run]. destruct (envR_step thu thd x1 y1 x) as (y & E & St). rewrite E.
  assert (Bx : m <= Rabs x <= M) by (apply Hx; left; reflexivity).
  pose proof (step_short thu thd 0 m x x1 y1 y Hu Hd ltac:(lra) ltac:(lra) ltac:(lra) St) as A.
  pose proof (step_excess thu thd 0 M x x1 y1 y Hu Hd ltac:(lra) ltac:(lra) ltac:(lra) St) as B.
  destruct i as [|i].
  - destruct (run (env_process numR) _ xs). cbn [fst nth]. simpl. rewrite !Rmult_1_r. lra.
  - specialize (IH x y i Bx (fun z Hz => Hx z (or_intror Hz)) ltac:(simpl in Hi; lia)).
    destruct (run (env_process numR) _ xs) as [ys ef]. cbn [fst nth] in *. cbv zeta in *. destruct IH as [I1 I2].
    change (kept thu ^ S (S i)) with (kept thu * kept thu ^ S i). change (kept thd ^ S (S i)) with (kept thd * kept thd ^ S i).
    assert (0 <= kept thu ^ S i) by (apply pow_le; lra). assert (0 <= kept thd ^ S i) by (apply pow_le; lra). split.
    + eapply Rle_trans; [exact I1|]. apply Rle_trans with (kept thu ^ S i * (kept thu * short m y1)); [apply Rmult_le_compat_l; lra|right; ring].
    + eapply Rle_trans; [exact I2|]. apply Rle_trans with (kept thd ^ S i * (kept thd * excess M y1)); [apply Rmult_le_compat_l; lra|right; ring].
Qed.

(** constant input: the closed form *)
Lemma constant_exact thu thd x y1 : 0 < thu <= 1 -> 0 < thd <= 1 -> forall n i, (i < n)%nat ->
  nth i (fst (run (env_process numR) (env_at numR 1 thu thd x y1) (repeat x n))) 0
  = Rabs x + (if Rlt_bool y1 (Rabs x) then kept thu else kept thd) ^ (S i) * (y1 - Rabs x).
Proof.
  intros Hu Hd. destruct (kept_range thu Hu) as (K & G & _). destruct (kept_range thd Hd) as (K' & G' & _).
  intros n. revert y1. induction n as [|n IH]; intros y1 i Hi; [lia|]. cbn [repeat run].
  destruct (envR_step thu thd x y1 x) as (y & E & St). rewrite E.
  set (b := if Rlt_bool y1 (Rabs x) then kept thu else kept thd).
  assert (Y : y = Rabs x + b * (y1 - Rabs x)).
  { unfold one_step in St. unfold b. apply Rabs_le_inv in St. destruct (Rlt_bool y1 (Rabs x)).
    - replace (gain_of thu) with ((1 - kept thu) / 2) in St by lra. lra.
    - replace (gain_of thd) with ((1 - kept thd) / 2) in St by lra. lra. }
  destruct i as [|i].
  - destruct (run (env_process numR) _ (repeat x n)). cbn [fst nth]. rewrite Y. simpl. ring.
  - specialize (IH y i ltac:(lia)). destruct (run (env_process numR) _ (repeat x n)) as [ys ef]. cbn [fst nth] in *. rewrite IH.
    assert (Bb : (if Rlt_bool y (Rabs x) then kept thu else kept thd) ^ S i * (y - Rabs x) = b ^ S i * (y - Rabs x)).
    { unfold b in *. destruct (Rlt_bool_spec y1 (Rabs x)) as [Q|Q]; destruct (Rlt_bool_spec y (Rabs x)) as [Q'|Q']; try reflexivity.
      - assert (Z : y - Rabs x = 0) by nra. rewrite Z. ring.
      - assert (Z : y - Rabs x = 0) by nra. rewrite Z. ring. }
    rewrite Bb, Y. simpl. ring.
Qed.

(** the envelope can fall although the input is above it *)
Lemma falls_while_rising thu thd x y1 : 0 < thu <= 1 -> 0 < y1 < Rabs x -> Rabs x < 2 * y1 ->
  fst (env_process numR (env_at numR 1 thu thd 0 y1) x) < y1.
Proof.
  intros Hu H1 H2. destruct (kept_range thu Hu) as (K & G & P).
  destruct (envR_step thu thd 0 y1 x) as (y & E & St). rewrite E. cbn [fst]. unfold one_step in St. apply Rabs_le_inv in St.
  rewrite Rlt_bool_true in St by lra. rewrite Rabs_R0 in St. nra.
Qed.

(** ** f32 *)
Notation u24 := (/ 16777216).
Lemma coef_near (th : f32) : fin th -> 0 < B2R th <= 1 ->
  let a := fdiv th (fadd (of_Z 1) th) in let b := fdiv (fsub (of_Z 1) th) (fadd (of_Z 1) th) in
  fin a /\ fin b /\ 0 <= B2R a /\ 0 <= B2R b /\
  Rabs (B2R a - gain_of (B2R th)) <= 3 / 2 * u24 /\ Rabs (B2R b - kept (B2R th)) <= 2 * u24.
Proof.
  intros F H a b. destruct (env_coef th F ltac:(lra)) as (Fa & Fb & Ha & Hb). fold a b in Fa, Fb, Ha, Hb.
  split; [exact Fa|]. split; [exact Fb|]. split; [lra|]. split; [lra|].
  destruct one32 as [F1 R1].
  assert (E25 : bpow radix2 (0 - 24 - 1) = u24 / 2) by (change (bpow radix2 (0 - 24 - 1)) with (/ 33554432); lra).
  assert (E24 : bpow radix2 (1 - 24 - 1) = u24) by reflexivity.
  assert (R0 : forall x, 0 <= x <= 1 -> Rabs (rnd32 x - x) <= u24 / 2).
  { intros x Hx. rewrite <- E25. apply (rnd_err (prec:=24) (emax:=128) 0); [unfold SpecFloat.emin; lia|].
    rewrite Rabs_pos_eq by lra. change (bpow radix2 0) with 1. lra. }
  destruct (fadd_le (of_Z 1) th 2 F1 F) as (FS & RS & _); [exact (fmt32_Z 2 ltac:(lia))|exact two_lt_emax|rewrite R1, Rabs_pos_eq; lra|].
  rewrite R1 in RS. assert (S1 : 1 <= B2R (fadd (of_Z 1) th)).
  { rewrite RS. apply rnd_ge_fmt; [exact (fmt32_Z 1 ltac:(lia))|lra]. }
  assert (SE : Rabs (B2R (fadd (of_Z 1) th) - (1 + B2R th)) <= u24).
  { rewrite RS, <- E24. apply (rnd_err (prec:=24) (emax:=128) 1); [unfold SpecFloat.emin; lia|].
    rewrite Rabs_pos_eq by lra. change (bpow radix2 1) with 2. lra. }
  assert (SN : B2R (fadd (of_Z 1) th) <> 0) by lra.
  destruct (fsub_le (of_Z 1) th 1 F1 F) as (FD & RD & _); [exact (fmt32_Z 1 ltac:(lia))|exact one_lt_emax|rewrite R1, Rabs_pos_eq; lra|].
  rewrite R1 in RD.
  pose proof (R0 (1 - B2R th) ltac:(lra)) as DE. rewrite <- RD in DE.
  assert (D0 : 0 <= B2R (fsub (of_Z 1) th)) by (rewrite RD; apply rnd_nonneg; lra).
  assert (D1 : B2R (fsub (of_Z 1) th) <= 1) by (rewrite RD; apply rnd_le_fmt; [exact (fmt32_Z 1 ltac:(lia))|lra]).
  pose proof (div_le_num (B2R th) _ (Rlt_le _ _ (proj1 H)) S1) as QA. pose proof (div_le_num _ _ D0 S1) as QB.
  destruct (fdiv_le th (fadd (of_Z 1) th) (B2R th) F SN) as (_ & RA & _); [apply fmt_B2R|pose proof one_lt_emax; lra|rewrite Rabs_pos_eq; lra|].
  destruct (fdiv_le (fsub (of_Z 1) th) (fadd (of_Z 1) th) (B2R (fsub (of_Z 1) th)) FD SN) as (_ & RB & _); [apply fmt_B2R|pose proof one_lt_emax; lra|rewrite Rabs_pos_eq; lra|].
  fold a in RA. fold b in RB.
  pose proof (R0 _ (conj (proj1 QA) (Rle_trans _ _ _ (proj2 QA) (proj2 H)))) as EA. rewrite <- RA in EA.
  pose proof (R0 _ (conj (proj1 QB) (Rle_trans _ _ _ (proj2 QB) D1))) as EB. rewrite <- RB in EB.
  set (d := B2R (fadd (of_Z 1) th)) in *. set (c := B2R (fsub (of_Z 1) th)) in *. clearbody d c. clear RS RD RA RB.
  set (t := B2R th) in *. clearbody t.
  assert (Id : 0 < / d <= 1).
  { split; [apply Rinv_0_lt_compat; lra|]. rewrite <- Rinv_1. apply Rinv_le; lra. }
  assert (It : 0 < / (1 + t) <= 1).
  { split; [apply Rinv_0_lt_compat; lra|]. rewrite <- Rinv_1. apply Rinv_le; lra. }
  assert (DI : Rabs (/ d - / (1 + t)) <= u24 * / (1 + t)).
  { replace (/ d - / (1 + t)) with (- ((d - (1 + t)) * / d) * / (1 + t)) by (field; lra).
    rewrite Rabs_mult, (Rabs_pos_eq (/ (1 + t))) by lra. apply Rmult_le_compat_r; [lra|].
    rewrite Rabs_Ropp, Rabs_mult, (Rabs_pos_eq (/ d)) by lra. pose proof (Rabs_pos (d - (1 + t))). nra. }
  apply Rabs_le_inv in DI, EA, EB, DE, SE. unfold gain_of, kept.
  assert (T1 : t * / (1 + t) <= 1) by nra. assert (T2 : (1 - t) * / (1 + t) <= 1) by nra.
  split; apply Rabs_le; unfold Rdiv in *.
  - assert (- u24 <= t * (/ d - / (1 + t)) <= u24) by nra. nra.
  - assert (- u24 <= (1 - t) * (/ d - / (1 + t)) <= u24) by nra.
    assert (- (u24 / 2) <= (c - (1 - t)) * / d <= u24 / 2) by nra. nra.
Qed.

Lemma mix32_near (th s1 s2 y1 : f32) Y : fin th -> 0 < B2R th <= 1 -> bpow radix2 (-100) <= Y <= bpow radix2 100 ->
  fin s1 -> 0 <= B2R s1 <= Y -> fin s2 -> 0 <= B2R s2 <= Y -> fin y1 -> 0 <= B2R y1 <= 2 * Y ->
  let a := fdiv th (fadd (of_Z 1) th) in let b := fdiv (fsub (of_Z 1) th) (fadd (of_Z 1) th) in
  let y := fadd (fmul a (fadd s1 s2)) (fmul b y1) in
  fin y /\ 0 <= B2R y /\ Rabs (B2R y - (gain_of (B2R th) * (B2R s1 + B2R s2) + kept (B2R th) * B2R y1)) <= Y * / 1048576.
Proof.
  intros F H HY Fs1 H1 Fs2 H2 Fy Hy a b. destruct (coef_near th F H) as (Fa & Fb & Pa & Pb & Ea & Eb). fold a b in Fa, Fb, Pa, Pb, Ea, Eb.
  destruct (kept_range _ H) as (K & G & P). set (p := gain_of (B2R th)) in *. set (q := kept (B2R th)) in *. clearbody p q. clearbody a b.
  intro y.
  assert (Y0 : 0 < Y) by (pose proof (bpow_gt_0 radix2 (-100)); lra).
  assert (TINY : bpow radix2 (-150) <= Y * / 1125899906842624).
  { apply Rle_trans with (bpow radix2 (-100) * / 1125899906842624); [|apply Rmult_le_compat_r; lra].
    right. change (/ 1125899906842624) with (bpow radix2 (-50)). rewrite <- bpow_plus. reflexivity. }
  assert (RE : forall x B, 0 <= x <= B * Y -> Rabs (rnd32 x - x) <= (B * u24 + / 1125899906842624) * Y).
  { intros x B Hx. destruct (rnd_err_gen (prec:=24) (emax:=128) x) as (d & e & D & E & ->).
    replace (x * (1 + d) + e - x) with (x * d + e) by ring. eapply Rle_trans; [apply Rabs_triang|].
    rewrite Rabs_mult, (Rabs_pos_eq x) by lra.
    change (bpow radix2 (- (24))) with u24 in D. change (bpow radix2 (SpecFloat.emin 24 128 - 1)) with (bpow radix2 (-150)) in E.
    assert (x * Rabs d <= (B * Y) * u24) by (apply Rmult_le_compat; try apply Rabs_pos; lra). lra. }
  assert (BIG : forall B, 0 <= B <= 16 -> B * Y <= bpow radix2 104).
  { intros B HB. apply Rle_trans with (16 * bpow radix2 100); [apply Rmult_le_compat; lra|].
    right. change 16 with (bpow radix2 4). rewrite <- bpow_plus. reflexivity. }
  assert (M104 : fmt32 (bpow radix2 104)) by (apply fmt32_b; lia).
  assert (L104 : bpow radix2 104 < bpow radix2 128) by (apply bpow_lt; lia).
  (* the sum of the magnitudes *)
  destruct (fadd_le s1 s2 (bpow radix2 104) Fs1 Fs2 M104 L104) as (FS & RS & _).
  { rewrite Rabs_pos_eq by lra. pose proof (BIG 2 ltac:(lra)). lra. }
  pose proof (RE (B2R s1 + B2R s2) 2 ltac:(lra)) as ES. rewrite <- RS in ES.
  assert (S0 : 0 <= B2R (fadd s1 s2)) by (rewrite RS; apply rnd_nonneg; lra).
  set (s := fadd s1 s2) in *. set (sg := B2R s1 + B2R s2) in *. assert (SG : 0 <= sg <= 2 * Y) by (unfold sg; lra).
  clearbody s sg. clear RS.
  apply Rabs_le_inv in Ea, Eb, ES.
  assert (A1 : 0 <= B2R a <= / 2 + 3 / 2 * u24) by lra.
  assert (S2 : B2R s <= (2 + 3 * u24) * Y) by lra.
  assert (AS : 0 <= B2R a * B2R s <= (1 + 6 * u24) * Y).
  { split; [apply Rmult_le_pos; lra|]. apply Rle_trans with ((/ 2 + 3 / 2 * u24) * ((2 + 3 * u24) * Y)); [apply Rmult_le_compat; lra|].
    rewrite <- Rmult_assoc. apply Rmult_le_compat_r; lra. }
  destruct (fmul_le a s (bpow radix2 104) Fa FS M104 L104) as (FM & RM & _).
  { rewrite Rabs_pos_eq by lra. pose proof (BIG (1 + 6 * u24) ltac:(lra)). lra. }
  pose proof (RE _ (1 + 6 * u24) AS) as EM. rewrite <- RM in EM.
  assert (M0 : 0 <= B2R (fmul a s)) by (rewrite RM; apply rnd_nonneg; lra).
  assert (DM : - (4 * u24 + / 1000000000000) * Y <= B2R a * B2R s - p * sg <= (4 * u24 + / 1000000000000) * Y).
  { assert (X1 : - (3 / 2 * u24 * ((2 + 3 * u24) * Y)) <= (B2R a - p) * B2R s <= 3 / 2 * u24 * ((2 + 3 * u24) * Y)) by (split; nra).
    assert (X2 : - (/ 2 * ((2 * u24 + / 1125899906842624) * Y)) <= p * (B2R s - sg) <= / 2 * ((2 * u24 + / 1125899906842624) * Y)) by (split; nra).
    split; nra. }
  (* the old envelope *)
  assert (BY : 0 <= B2R b * B2R y1 <= (2 + 4 * u24) * Y).
  { split; [apply Rmult_le_pos; lra|]. apply Rle_trans with ((1 + 2 * u24) * (2 * Y)); [apply Rmult_le_compat; lra|lra]. }
  destruct (fmul_le b y1 (bpow radix2 104) Fb Fy M104 L104) as (FN & RN & _).
  { rewrite Rabs_pos_eq by lra. pose proof (BIG (2 + 4 * u24) ltac:(lra)). lra. }
  pose proof (RE _ (2 + 4 * u24) BY) as EN. rewrite <- RN in EN.
  assert (N0 : 0 <= B2R (fmul b y1)) by (rewrite RN; apply rnd_nonneg; lra).
  assert (DN : - (2 * u24 * (2 * Y)) <= B2R b * B2R y1 - q * B2R y1 <= 2 * u24 * (2 * Y)) by (split; nra).
  (* together *)
  apply Rabs_le_inv in EM, EN.
  assert (SU : 0 <= B2R (fmul a s) + B2R (fmul b y1) <= (3 + 100 * u24) * Y) by lra.
  destruct (fadd_le (fmul a s) (fmul b y1) (bpow radix2 104) FM FN M104 L104) as (FY & RY & _).
  { rewrite Rabs_pos_eq by lra. pose proof (BIG (3 + 100 * u24) ltac:(lra)). lra. }
  pose proof (RE _ (3 + 100 * u24) SU) as EY. rewrite <- RY in EY. apply Rabs_le_inv in EY.
  split; [exact FY|]. split; [unfold y; rewrite RY; apply rnd_nonneg; lra|]. apply Rabs_le. unfold y. lra.
Qed.

Lemma env32_step (thu thd x1 y1 x : f32) Y : fin thu -> 0 < B2R thu <= 1 -> fin thd -> 0 < B2R thd <= 1 ->
  bpow radix2 (-100) <= Y <= bpow radix2 100 -> fin x1 -> Rabs (B2R x1) <= Y -> fin x -> Rabs (B2R x) <= Y ->
  fin y1 -> 0 <= B2R y1 <= 2 * Y ->
  exists y : f32, env_process num32 (env_at num32 (of_Z 1) thu thd x1 y1) x = (y, env_at num32 (of_Z 1) thu thd x y) /\
    fin y /\ 0 <= B2R y /\ one_step (B2R thu) (B2R thd) (Y * / 1048576) (B2R x) (B2R x1) (B2R y1) (B2R y).
Proof.
  intros Fu Hu Fd Hd HY Fx1 Hx1 Fx Hx Fy Hy.
  eexists. split; [reflexivity|]. cbn [env_at env_of_theta en_au en_bu en_ad en_bd en_x1 en_y1 num32 nadd nmul nabs nlt ndiv nsub].
  unfold one_step. rewrite <- !fabs_R.
  assert (Fa : fin (fabs x)) by (rewrite fabs_fin; exact Fx). assert (Fa1 : fin (fabs x1)) by (rewrite fabs_fin; exact Fx1).
  assert (Pa : 0 <= B2R (fabs x) <= Y) by (rewrite fabs_R; split; [apply Rabs_pos|exact Hx]).
  assert (Pa1 : 0 <= B2R (fabs x1) <= Y) by (rewrite fabs_R; split; [apply Rabs_pos|exact Hx1]).
  rewrite (flt_R y1 (fabs x) Fy Fa).
  destruct (Rlt_bool (B2R y1) (B2R (fabs x))).
  - exact (mix32_near thu (fabs x) (fabs x1) y1 Y Fu Hu HY Fa Pa Fa1 Pa1 Fy Hy).
  - exact (mix32_near thd (fabs x) (fabs x1) y1 Y Fd Hd HY Fa Pa Fa1 Pa1 Fy Hy).
Qed.

Lemma settle_closed th eta : 0 < th <= 1 -> 0 <= eta -> kept th * (eta / th) + eta <= eta / th.
Proof.
  intros H He. destruct (kept_range th H) as (K & G & P).
  assert (D : th <= 1 - kept th).
  { replace (1 - kept th) with (2 * gain_of th) by lra. unfold gain_of.
    apply Rmult_le_reg_r with (1 + th); [lra|]. replace (2 * (th / (1 + th)) * (1 + th)) with (2 * th) by (field; lra). nra. }
  assert (Q : 0 <= eta / th) by (unfold Rdiv; apply Rmult_le_pos; [exact He|left; apply Rinv_0_lt_compat; lra]).
  assert (E : eta = eta / th * th) by (field; lra). rewrite E at 2. nra.
Qed.

Lemma follows32_gen (thu thd : f32) m M Y : fin thu -> / 262144 <= B2R thu <= 1 -> fin thd -> / 262144 <= B2R thd <= 1 ->
  bpow radix2 (-100) <= Y <= bpow radix2 100 -> 0 <= M <= Y ->
  let gu := Y * / 1048576 / B2R thu in let gd := Y * / 1048576 / B2R thd in
  forall (xs : list f32) (x1 y1 : f32) i A B, fin x1 -> m <= Rabs (B2R x1) <= M ->
  (forall x, In x xs -> fin x /\ m <= Rabs (B2R x) <= M) -> (i < length xs)%nat ->
  fin y1 -> 0 <= B2R y1 -> 0 <= A -> 0 <= B -> M + B <= Y ->
  short m (B2R y1) <= A + gu -> excess M (B2R y1) <= B + gd ->
  let y : f32 := nth i (fst (run (env_process num32) (env_at num32 (of_Z 1) thu thd x1 y1) xs)) f0 in
  fin y /\ short m (B2R y) <= kept (B2R thu) ^ (S i) * A + gu /\ excess M (B2R y) <= kept (B2R thd) ^ (S i) * B + gd.
Proof.
  intros Fu Hu Fd Hd HY HM gu gd.
  destruct (kept_range (B2R thu) ltac:(lra)) as (K & _). destruct (kept_range (B2R thd) ltac:(lra)) as (K' & _).
  assert (Y0 : 0 < Y) by (pose proof (bpow_gt_0 radix2 (-100)); lra).
  pose proof (settle_closed (B2R thu) (Y * / 1048576) ltac:(lra) ltac:(lra)) as CU. fold gu in CU.
  pose proof (settle_closed (B2R thd) (Y * / 1048576) ltac:(lra) ltac:(lra)) as CD. fold gd in CD.
  assert (GD : gd <= Y / 4).
  { unfold gd. apply Rmult_le_reg_r with (B2R thd); [lra|]. replace (Y * / 1048576 / B2R thd * B2R thd) with (Y * / 1048576) by (field; lra). nra. }
  induction xs as [|x xs IH]; intros x1 y1 i A B Fx1 H1 Hx Hi Fy Py A0 B0 HB SA EB; [simpl in Hi; lia|].
  cbn [run]. destruct (Hx x (or_introl eq_refl)) as [Fx Bx].
  assert (Uy : B2R y1 <= 2 * Y).
  { unfold excess in EB. pose proof (Rmax_r 0 (B2R y1 - M)). lra. }
  destruct (env32_step thu thd x1 y1 x Y Fu ltac:(lra) Fd ltac:(lra) HY Fx1 ltac:(lra) Fx ltac:(lra) Fy ltac:(lra)) as (y & E & Fy' & Py' & St).
  rewrite E.
  pose proof (step_short (B2R thu) (B2R thd) (Y * / 1048576) m (B2R x) (B2R x1) (B2R y1) (B2R y) ltac:(lra) ltac:(lra) ltac:(lra) ltac:(lra) ltac:(lra) St) as SS.
  pose proof (step_excess (B2R thu) (B2R thd) (Y * / 1048576) M (B2R x) (B2R x1) (B2R y1) (B2R y) ltac:(lra) ltac:(lra) ltac:(lra) ltac:(lra) ltac:(lra) St) as SE.
  assert (SA' : short m (B2R y) <= kept (B2R thu) * A + gu).
  { assert (kept (B2R thu) * short m (B2R y1) <= kept (B2R thu) * (A + gu)) by (apply Rmult_le_compat_l; lra). lra. }
  assert (EB' : excess M (B2R y) <= kept (B2R thd) * B + gd).
  { assert (kept (B2R thd) * excess M (B2R y1) <= kept (B2R thd) * (B + gd)) by (apply Rmult_le_compat_l; lra). lra. }
  destruct i as [|i].
  - destruct (run (env_process num32) _ xs). cbn [fst nth]. simpl pow. rewrite !Rmult_1_r. auto.
  - specialize (IH x y i (kept (B2R thu) * A) (kept (B2R thd) * B) Fx Bx (fun z Hz => Hx z (or_intror Hz)) ltac:(simpl in Hi; lia) Fy' Py'
      ltac:(apply Rmult_le_pos; lra) ltac:(apply Rmult_le_pos; lra) ltac:(nra) SA' EB').
    destruct (run (env_process num32) _ xs) as [ys ef]. cbn [fst nth] in *. cbv zeta in *. destruct IH as (I0 & I1 & I2).
    split; [exact I0|]. split; simpl pow in *; lra.
Qed.

Lemma follows32 (thu thd : f32) m M Y : fin thu -> / 262144 <= B2R thu <= 1 -> fin thd -> / 262144 <= B2R thd <= 1 ->
  bpow radix2 (-100) <= Y <= bpow radix2 100 -> 0 <= M <= Y ->
  forall (xs : list f32) (x1 y1 : f32) i, fin x1 -> m <= Rabs (B2R x1) <= M ->
  (forall x, In x xs -> fin x /\ m <= Rabs (B2R x) <= M) -> (i < length xs)%nat ->
  fin y1 -> 0 <= B2R y1 <= Y ->
  let y : f32 := nth i (fst (run (env_process num32) (env_at num32 (of_Z 1) thu thd x1 y1) xs)) f0 in
  fin y /\ short m (B2R y) <= kept (B2R thu) ^ (S i) * short m (B2R y1) + Y * bpow radix2 (-20) / B2R thu
    /\ excess M (B2R y) <= kept (B2R thd) ^ (S i) * excess M (B2R y1) + Y * bpow radix2 (-20) / B2R thd.
Proof.
  intros Fu Hu Fd Hd HY HM xs x1 y1 i Fx1 H1 Hx Hi Fy Hy.
  assert (Y0 : 0 < Y) by (pose proof (bpow_gt_0 radix2 (-100)); lra).
  assert (Q : forall th, / 262144 <= th -> 0 <= Y * / 1048576 / th).
  { intros th Ht. unfold Rdiv. apply Rmult_le_pos; [lra|]. left. apply Rinv_0_lt_compat. lra. }
  pose proof (Q _ (proj1 Hu)). pose proof (Q _ (proj1 Hd)).
  change (bpow radix2 (-20)) with (/ 1048576).
  apply (follows32_gen thu thd m M Y Fu Hu Fd Hd HY HM xs x1 y1 i); try assumption; try apply Rmax_l; try lra.
  unfold excess. assert (Rmax 0 (B2R y1 - M) <= Y - M) by (apply Rmax_lub; lra). lra.
Qed.

(** ** from the frequencies *)
Lemma theta_near m (f : f32) : tan32_accurate m -> fin f -> 1 <= B2R f <= 10000 ->
  fin (env_theta m f) /\ / 32768 <= B2R (env_theta m f) <= 1 /\
  Rabs (B2R (env_theta m f) - tan (PI * B2R f / 48000)) <= bpow radix2 (-19).
Proof.
  intros A F H. destruct (env_theta_range m f A F ltac:(lra)) as (FT & T0 & T1). split; [exact FT|].
  assert (N : Rabs (B2R (env_theta m f) - tan (PI * B2R f / 48000)) <= bpow radix2 (-19)).
  { clear FT T0 T1. unfold env_theta. destruct PI32_ok as [FP RP]. destruct INV32_ok as [FI RI].
    destruct (fmul_le PI32 f 32768 FP F) as (F1 & R1 & _).
    { exact (fmt32_Z 32768 ltac:(lia)). } { change 32768 with (bpow radix2 15). apply bpow_lt. lia. } { rewrite RP, Rabs_pos_eq; nra. }
    destruct (rnd_rel (prec:=24) (emax:=128) (B2R PI32 * B2R f)) as (d1 & D1 & E1).
    { rewrite RP, Rabs_pos_eq by nra. apply Rle_trans with (bpow radix2 0); [apply bpow_le; unfold SpecFloat.emin; lia|]. change (bpow radix2 0) with 1. nra. }
    rewrite E1 in R1. change (bpow radix2 (- (24))) with u24 in D1. 
    assert (B1 : 3 <= B2R (fmul PI32 f) <= 31417).
    { rewrite R1, RP. apply Rabs_le_inv in D1. split; nra. }
    destruct (fmul_le (fmul PI32 f) (to32 INV_SAMPLE_RATE) 1 F1 FI) as (F2 & R2 & _).
    { exact (fmt32_Z 1 ltac:(lia)). } { exact one_lt_emax. } { rewrite RI, Rabs_pos_eq; nra. }
    destruct (rnd_rel (prec:=24) (emax:=128) (B2R (fmul PI32 f) * B2R (to32 INV_SAMPLE_RATE))) as (d2 & D2 & E2).
    { rewrite RI, Rabs_pos_eq by nra. apply Rle_trans with (bpow radix2 (-20)); [apply bpow_le; unfold SpecFloat.emin; lia|]. change (bpow radix2 (-20)) with (/ 1048576). nra. }
    rewrite E2 in R2. change (bpow radix2 (- (24))) with u24 in D2.
    set (x := B2R (fmul (fmul PI32 f) (to32 INV_SAMPLE_RATE))) in *.
    set (x0 := PI * B2R f / 48000).
    pose proof PI_bounds as PB.
    assert (X0 : 0 < x0 <= 2 / 3) by (unfold x0; nra).
    set (g := 13176795 / 4194304 / PI * (11453246 / 549755813888 * 48000)).
    assert (Ipi : 10000000000 / 31415926536 <= / PI <= 10000000000 / 31415926535).
    { replace (10000000000 / 31415926536) with (/ (31415926536 / 10000000000)) by field.
      replace (10000000000 / 31415926535) with (/ (31415926535 / 10000000000)) by field. split; apply Rinv_le; lra. }
    assert (G : Rabs (g - 1) <= 5 / 100000000).
    { unfold g, Rdiv. apply Rabs_le. split; nra. }
    assert (EX : x = x0 * (g * (1 + d1) * (1 + d2))).
    { rewrite R2, R1, RP, RI. unfold x0, g. field. lra. }
    pose proof (prod_rel _ _ _ _ G D1) as P1. pose proof (prod_rel _ _ _ _ P1 D2) as P2.
    assert (RX : Rabs (x - x0) <= 17 / 100000000 * x0).
    { rewrite EX. replace (x0 * (g * (1 + d1) * (1 + d2)) - x0) with (x0 * (g * (1 + d1) * (1 + d2) - 1)) by ring.
      rewrite Rabs_mult, (Rabs_pos_eq x0) by lra. rewrite Rmult_comm. apply Rmult_le_compat_r; lra. }
    assert (BX : 0 < x <= 2 / 3).
    { apply Rabs_le_inv in RX. assert (x0 <= 6545 / 10000) by (unfold x0; nra). split; nra. }
    destruct (A (fmul (fmul PI32 f) (to32 INV_SAMPLE_RATE)) F2) as (_ & _ & T1); [fold x; lra|]. fold x in T1.
    pose proof (tan_close x0 x (17 / 100000000) ltac:(lra) ltac:(lra) ltac:(lra) RX) as TC.
    pose proof (tan_range x0 ltac:(lra)) as TR.
    change (bpow radix2 (-20)) with (/ 1048576) in T1. change (bpow radix2 (-19)) with (/ 524288).
    apply Rabs_le_inv in T1, TC. apply Rabs_le. nra. }
  split; [|exact N]. split; [|exact T1].
  pose proof PI_bounds as PB. assert (X0 : 0 <= PI * B2R f / 48000 < PI / 2) by (split; nra).
  pose proof (tan_ge _ X0) as TG. apply Rabs_le_inv in N. change (bpow radix2 (-19)) with (/ 524288) in N. nra.
Qed.

(** the state after any bounded history *)
Lemma after32 (thu thd : f32) M Y : fin thu -> / 262144 <= B2R thu <= 1 -> fin thd -> / 262144 <= B2R thd <= 1 ->
  bpow radix2 (-100) <= Y <= bpow radix2 100 -> 0 <= M <= Y ->
  let gd := Y * / 1048576 / B2R thd in
  forall (xs : list f32) (x1 y1 : f32), fin x1 -> Rabs (B2R x1) <= M ->
  (forall x, In x xs -> fin x /\ Rabs (B2R x) <= M) -> fin y1 -> 0 <= B2R y1 -> excess M (B2R y1) <= gd ->
  exists ys y', run (env_process num32) (env_at num32 (of_Z 1) thu thd x1 y1) xs = (ys, env_at num32 (of_Z 1) thu thd (last xs x1) y') /\
    length ys = length xs /\ fin (y' : f32) /\ 0 <= B2R (y' : f32) /\ excess M (B2R (y' : f32)) <= gd.
Proof.
  intros Fu Hu Fd Hd HY HM gd.
  assert (Y0 : 0 < Y) by (pose proof (bpow_gt_0 radix2 (-100)); lra).
  destruct (kept_range (B2R thd) ltac:(lra)) as (K' & _).
  pose proof (settle_closed (B2R thd) (Y * / 1048576) ltac:(lra) ltac:(lra)) as CD. fold gd in CD.
  assert (GD : gd <= Y / 4).
  { unfold gd. apply Rmult_le_reg_r with (B2R thd); [lra|]. replace (Y * / 1048576 / B2R thd * B2R thd) with (Y * / 1048576) by (field; lra). nra. }
  induction xs as [|x xs IH]; intros x1 y1 Fx1 H1 Hx Fy Py EB; [exists [], y1; auto|].
  cbn [run]. destruct (Hx x (or_introl eq_refl)) as [Fx Bx].
  assert (Uy : B2R y1 <= 2 * Y).
  { unfold excess in EB. pose proof (Rmax_r 0 (B2R y1 - M)). lra. }
  destruct (env32_step thu thd x1 y1 x Y Fu ltac:(lra) Fd ltac:(lra) HY Fx1 ltac:(lra) Fx ltac:(lra) Fy ltac:(lra)) as (y & E & Fy' & Py' & St).
  rewrite E.
  pose proof (step_excess (B2R thu) (B2R thd) (Y * / 1048576) M (B2R x) (B2R x1) (B2R y1) (B2R y) ltac:(lra) ltac:(lra) ltac:(lra) ltac:(lra) ltac:(lra) St) as SE.
  assert (EB' : excess M (B2R y) <= gd).
  { assert (kept (B2R thd) * excess M (B2R y1) <= kept (B2R thd) * gd) by (apply Rmult_le_compat_l; lra). lra. }
  destruct (IH x y Fx Bx (fun z Hz => Hx z (or_intror Hz)) Fy' Py' EB') as (ys & y' & E' & L & R).
  rewrite E'. exists (y :: ys), y'. split; [|split; [cbn [length]; f_equal; exact L|exact R]].
  do 2 f_equal. destruct xs as [|z xs]; [reflexivity|]. cbn [last]. clear. revert z. induction xs as [|w xs IH]; intro z; [reflexivity|apply IH].
Qed.

Lemma run_app_fst {St X V} (step : St -> X -> V * St) xs : forall s ys s1 zs, run step s xs = (ys, s1) ->
  fst (run step s (xs ++ zs)) = ys ++ fst (run step s1 zs).
Proof.
  induction xs as [|x xs IH]; intros s ys s1 zs E; [injection E as <- <-; reflexivity|].
  cbn [run app] in *. destruct (step s x) as [y s2]. destruct (run step s2 xs) as [ys' s3] eqn:E2. injection E as <- <-.
  specialize (IH s2 ys' s3 zs E2). destruct (run step s2 (xs ++ zs)). cbn [fst] in *. rewrite IH. reflexivity.
Qed.

Lemma last_in {X} (l : list X) d : l <> [] -> In (last l d) l.
Proof.
  induction l as [|x l IH]; [congruence|]. intros _. destruct l as [|z l]; [left; reflexivity|]. right. apply IH. discriminate.
Qed.

Lemma follower m (lower upper : f32) : tan32_accurate m -> fin lower -> 1 <= B2R lower <= 10000 -> fin upper -> 1 <= B2R upper <= 10000 ->
  exists thu thd : R, / 32768 <= thu <= 1 /\ / 32768 <= thd <= 1 /\
    Rabs (thu - tan (PI * B2R upper / 48000)) <= bpow radix2 (-19) /\
    Rabs (thd - tan (PI * B2R lower / 48000)) <= bpow radix2 (-19) /\
    forall (Y lo hi : R) (before xs : list f32) i, bpow radix2 (-100) <= Y <= bpow radix2 99 -> 0 <= lo -> hi <= Y ->
      (forall x, In x before -> fin x /\ Rabs (B2R x) <= Y) -> lo <= Rabs (B2R (last before f0)) <= hi ->
      (forall x, In x xs -> fin x /\ lo <= Rabs (B2R x) <= hi) -> (i < length xs)%nat ->
      let y : f32 := nth (length before + i) (fst (run (env_process num32) (env_new m lower upper) (before ++ xs))) f0 in
      fin y /\ lo - kept thu ^ (S i) * lo - Y * bpow radix2 (-19) / thu <= B2R y
        <= hi + kept thd ^ (S i) * (2 * Y) + Y * bpow radix2 (-19) / thd.
Proof.
  intros A Fl Hl Fu Hu.
  destruct (theta_near m upper A Fu Hu) as (FU & RU & NU). destruct (theta_near m lower A Fl Hl) as (FD & RD & ND).
  set (tu := env_theta m upper) in *. set (td := env_theta m lower) in *.
  assert (EN : env_new m lower upper = env_at num32 (of_Z 1) tu td f0 f0) by reflexivity. clearbody tu td.
  exists (B2R tu), (B2R td). split; [exact RU|]. split; [exact RD|]. split; [exact NU|]. split; [exact ND|].
  intros Y lo hi before xs i HY HL HH Hb Hlast Hx Hi. rewrite EN.
  assert (Y0 : 0 < Y) by (pose proof (bpow_gt_0 radix2 (-100)); lra).
  assert (Y2 : bpow radix2 (-100) <= 2 * Y <= bpow radix2 100) by (change 100%Z with (99 + 1)%Z; rewrite bpow_double; lra).
  assert (Y1 : bpow radix2 (-100) <= Y <= bpow radix2 100) by lra.
  assert (H0 : 0 <= hi) by (pose proof (Rabs_pos (B2R (last before (f0 : f32)))); lra).
  assert (G4 : forall th, / 32768 <= th <= 1 -> 0 <= Y * / 1048576 / th <= Y / 4).
  { intros th Ht. split; [unfold Rdiv; apply Rmult_le_pos; [lra|left; apply Rinv_0_lt_compat; lra]|].
    apply Rmult_le_reg_r with th; [lra|]. replace (Y * / 1048576 / th * th) with (Y * / 1048576) by (field; lra). nra. }
  destruct (after32 tu td Y Y FU ltac:(lra) FD ltac:(lra) Y1 ltac:(lra) before f0 f0) as (ys & y' & E & L & F & P & X).
  { reflexivity. } { change (B2R (f0 : f32)) with 0. rewrite Rabs_R0. lra. } { exact Hb. } { reflexivity. } { simpl. lra. }
  { unfold excess. change (B2R (f0 : f32)) with 0. rewrite Rmax_left by lra. apply G4. exact RD. }
  assert (RA : fst (run (env_process num32) (env_at num32 (of_Z 1) tu td f0 f0) (before ++ xs))
    = ys ++ fst (run (env_process num32) (env_at num32 (of_Z 1) tu td (last before f0) y') xs)) by exact (run_app_fst _ _ _ _ _ xs E).
  rewrite RA. rewrite app_nth2 by lia. rewrite L. replace (length before + i - length before)%nat with i by lia.
  assert (Py : 0 <= B2R y' <= 2 * Y).
  { unfold excess in X. pose proof (Rmax_r 0 (B2R y' - Y)). pose proof (G4 _ RD). lra. }
  assert (Fx1 : fin (last before (f0 : f32))).
  { destruct before as [|z before]; [reflexivity|]. apply Hb. apply last_in. discriminate. }
  destruct (follows32 tu td lo hi (2 * Y) FU ltac:(lra) FD ltac:(lra) Y2 ltac:(lra) xs (last before f0) y' i Fx1 Hlast Hx Hi F Py) as (R0 & R1 & R2).
  split; [exact R0|]. cbv zeta in R1, R2. set (y := nth i _ _) in *. clearbody y.
  assert (E19 : forall th, 2 * Y * bpow radix2 (-20) / th = Y * bpow radix2 (-19) / th).
  { intro th. change (bpow radix2 (-20)) with (/ 1048576). change (bpow radix2 (-19)) with (/ 524288). unfold Rdiv. lra. }
  rewrite E19 in R1, R2.
  destruct (kept_range (B2R tu) ltac:(lra)) as (K & _). destruct (kept_range (B2R td) ltac:(lra)) as (K' & _).
  assert (S0 : short lo (B2R y') <= lo) by (unfold short; apply Rmax_lub; lra).
  assert (X0 : excess hi (B2R y') <= 2 * Y) by (unfold excess; apply Rmax_lub; lra).
  pose proof (pow_le (kept (B2R tu)) (S i) ltac:(lra)) as PK. pose proof (pow_le (kept (B2R td)) (S i) ltac:(lra)) as PK'.
  assert (kept (B2R tu) ^ S i * short lo (B2R y') <= kept (B2R tu) ^ S i * lo) by (apply Rmult_le_compat_l; lra).
  assert (kept (B2R td) ^ S i * excess hi (B2R y') <= kept (B2R td) ^ S i * (2 * Y)) by (apply Rmult_le_compat_l; lra).
  assert (lo - B2R y <= short lo (B2R y)) by apply Rmax_r. assert (B2R y - hi <= excess hi (B2R y)) by apply Rmax_r. lra.
Qed.
