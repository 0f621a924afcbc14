(** * Envelope follower: range of the outputs, in f32 and in exact arithmetic *)
From Coq Require Import ZArith List Bool Reals Lra Lia Psatz.
From Flocq Require Import Core.Core IEEE754.BinarySingleNaN.
From Verif Require Import Model.Floats Model.Modifiers Model.Filters Spec.Libm Proof.FloatFacts Proof.SampleFormatP Proof.FormatsP
  Proof.LibmP Proof.WavP Proof.ResamplerP3 Proof.GeneratorsP Proof.GeneratorsP4 Proof.GenericP.
Import ListNotations.
Local Open Scope R_scope.

(** ** f32 *)
Definition coef_ok (th : R) (a b : f32) : Prop :=
  fin a /\ fin b /\ 0 <= B2R a <= th /\ 0 <= B2R b <= 1 - th + bpow radix2 (-25).
Lemma one_lt_emax : 1 < bpow radix2 128.
Proof. change 1 with (bpow radix2 0). apply bpow_lt. lia. Qed.
Lemma two_lt_emax : 2 < bpow radix2 128.
Proof. change 2 with (bpow radix2 1). apply bpow_lt. lia. Qed.
Lemma div_le_num x y : 0 <= x -> 1 <= y -> 0 <= x / y <= x.
Proof.
  intros Hx Hy. split.
  - unfold Rdiv. apply Rmult_le_pos; [exact Hx|]. left. apply Rinv_0_lt_compat. lra.
  - apply Rmult_le_reg_r with y; [lra|]. unfold Rdiv. rewrite Rmult_assoc, Rinv_l by lra. nra.
Qed.
Lemma env_coef (th : f32) : fin th -> 0 <= B2R th <= 1 ->
  coef_ok (B2R th) (fdiv th (fadd (of_Z 1) th)) (fdiv (fsub (of_Z 1) th) (fadd (of_Z 1) th)).
Proof.
  intros F H. destruct one32 as [F1 R1].
  destruct (fadd_le (of_Z 1) th 2 F1 F) as (FS & RS & _); [exact (fmt32_Z 2 ltac:(lia))|exact two_lt_emax|rewrite R1, Rabs_pos_eq; lra|].
  rewrite R1 in RS. assert (S1 : 1 <= B2R (fadd (of_Z 1) th)).
  { rewrite RS. apply rnd_ge_fmt; [exact (fmt32_Z 1 ltac:(lia))|lra]. }
  assert (SN : B2R (fadd (of_Z 1) th) <> 0) by lra.
  destruct (fsub_le (of_Z 1) th 1 F1 F) as (FD & RD & _); [exact (fmt32_Z 1 ltac:(lia))|exact one_lt_emax|rewrite R1, Rabs_pos_eq; lra|].
  rewrite R1 in RD.
  assert (D0 : 0 <= B2R (fsub (of_Z 1) th)) by (rewrite RD; apply rnd_nonneg; lra).
  assert (D1 : B2R (fsub (of_Z 1) th) <= 1) by (rewrite RD; apply rnd_le_fmt; [exact (fmt32_Z 1 ltac:(lia))|lra]).
  assert (DE : B2R (fsub (of_Z 1) th) <= 1 - B2R th + bpow radix2 (-25)).
  { rewrite RD. pose proof (rnd_err (prec:=24) (emax:=128) 0 (1 - B2R th) ltac:(unfold SpecFloat.emin; lia) ltac:(rewrite Rabs_pos_eq; [change (bpow radix2 0) with 1; lra|lra])) as E.
    change (0 - 24 - 1)%Z with (-25)%Z in E. apply Rabs_le_inv in E. lra. }
  pose proof (div_le_num (B2R th) _ (proj1 H) S1) as QA. pose proof (div_le_num _ _ D0 S1) as QB.
  destruct (fdiv_le th (fadd (of_Z 1) th) (B2R th) F SN) as (FA & RA & _); [apply fmt_B2R|pose proof one_lt_emax; lra|rewrite Rabs_pos_eq; lra|].
  destruct (fdiv_le (fsub (of_Z 1) th) (fadd (of_Z 1) th) (B2R (fsub (of_Z 1) th)) FD SN) as (FB & RB & _); [apply fmt_B2R|pose proof one_lt_emax; lra|rewrite Rabs_pos_eq; lra|].
  split; [exact FA|]. split; [exact FB|]. rewrite RA, RB. split; split.
  - apply rnd_nonneg; lra.
  - apply rnd_le_fmt; [apply fmt_B2R|lra].
  - apply rnd_nonneg; lra.
  - eapply Rle_trans; [|exact DE]. apply rnd_le_fmt; [apply fmt_B2R|lra].
Qed.

Lemma fmt32_scale x k : (0 <= k)%Z -> fmt32 x -> fmt32 (x * bpow radix2 k).
Proof.
  intros Hk Hx. destruct (Req_dec x 0) as [->|N]; [rewrite Rmult_0_l; apply fmt_0|].
  apply generic_format_FLT. destruct (FLT_format_generic radix2 _ _ _ Hx) as [f E1 E2 E3].
  exists (Float radix2 (Fnum f) (Fexp f + k)); [|exact E2|cbn [Fexp]; lia].
  rewrite E1. unfold F2R. cbn [Fnum Fexp]. rewrite bpow_plus. ring.
Qed.

(** one step: [y = a*s + b*y1] stays in [0, 2B] *)
Lemma env_mix (th : f32) (a b s y1 : f32) k : (0 <= k <= 100)%Z -> fin th -> 0 <= B2R th <= 1 -> coef_ok (B2R th) a b ->
  fin s -> 0 <= B2R s <= 2 * bpow radix2 k -> fin y1 -> 0 <= B2R y1 <= 2 * bpow radix2 k ->
  fin (fadd (fmul a s) (fmul b y1)) /\ 0 <= B2R (fadd (fmul a s) (fmul b y1)) <= 2 * bpow radix2 k.
Proof.
  intros Hk Ft Ht (Fa & Fb & Ha & Hb) Fs Hs Fy Hy.
  assert (E2 : 2 * bpow radix2 k = bpow radix2 (k + 1)).
  { rewrite bpow_plus. change (bpow radix2 1) with 2. ring. }
  rewrite E2 in *. set (B := bpow radix2 (k + 1)) in *.
  assert (PB : 1 <= B) by (change 1 with (bpow radix2 0); apply bpow_le; lia).
  assert (FB : fmt32 B) by (apply fmt32_b; lia).
  assert (F2B : fmt32 (bpow radix2 (k + 2))) by (apply fmt32_b; lia).
  assert (D2 : bpow radix2 (k + 2) = 2 * B).
  { unfold B. replace (k + 2)%Z with (1 + (k + 1))%Z by lia. rewrite (bpow_plus radix2 1). reflexivity. }
  assert (L2 : bpow radix2 (k + 2) < bpow radix2 128) by (apply bpow_lt; lia).
  assert (P25 : 0 < bpow radix2 (-25) <= / 2).
  { split; [apply bpow_gt_0|]. change (bpow radix2 (-25)) with (/ 33554432). lra. }
  assert (FT : fmt32 (B2R th * B)) by (apply fmt32_scale; [lia|apply fmt_B2R]).
  assert (MA : 0 <= B2R a * B2R s <= B2R th * B) by (split; [apply Rmult_le_pos; lra|apply Rmult_le_compat; lra]).
  assert (TB : B2R th * B <= B) by nra.
  destruct (fmul_le a s (B2R th * B) Fa Fs FT) as (FM & RM & _); [rewrite D2 in L2; lra|rewrite Rabs_pos_eq; lra|].
  assert (HM : 0 <= B2R (fmul a s) <= B2R th * B).
  { rewrite RM. split; [apply rnd_nonneg; lra|apply rnd_le_fmt; [exact FT|lra]]. }
  assert (MB : 0 <= B2R b * B2R y1 <= (1 - B2R th + bpow radix2 (-25)) * B) by (split; [apply Rmult_le_pos; lra|apply Rmult_le_compat; lra]).
  assert (MB2 : B2R b * B2R y1 <= 2 * B) by nra.
  destruct (fmul_le b y1 (bpow radix2 (k + 2)) Fb Fy F2B L2) as (FN & RN & _); [rewrite D2, Rabs_pos_eq; lra|].
  assert (HN : 0 <= B2R (fmul b y1)) by (rewrite RN; apply rnd_nonneg; lra).
  assert (HE : B2R (fmul a s) + B2R (fmul b y1) <= B + bpow radix2 (k + 1 - 24)).
  { assert (X24 : bpow radix2 (k + 1 - 24) = 2 * (bpow radix2 (-25) * B)).
    { unfold B. change 2 with (bpow radix2 1). rewrite <- !bpow_plus. f_equal. lia. }
    rewrite X24. rewrite RN. set (z := B2R b * B2R y1) in *.
    destruct (Rle_dec z B) as [HZ|HZ].
    - pose proof (rnd_err (prec:=24) (emax:=128) (k + 1) z ltac:(unfold SpecFloat.emin; lia) ltac:(rewrite Rabs_pos_eq; [exact HZ|lra])) as E.
      replace (bpow radix2 (k + 1 - 24 - 1)) with (bpow radix2 (-25) * B) in E by (unfold B; rewrite <- bpow_plus; f_equal; lia).
      apply Rabs_le_inv in E. unfold z in *. nra.
    - assert (ZU : z <= B + bpow radix2 (-25) * B) by nra.
      assert (RZ : rnd32 z <= B).
      { apply Rle_trans with (rnd32 (bpow radix2 (k + 1) + bpow radix2 (k + 1 - 24))); [|right; apply rnd_absorb; lia].
        apply rnd_le. rewrite X24. fold B. nra. }
      fold rnd32. assert (B2R th * B <= bpow radix2 (-25) * B) by nra. nra. }
  assert (X24' : bpow radix2 (k + 1 - 24) <= B) by (apply bpow_le; lia).
  destruct (fadd_le (fmul a s) (fmul b y1) (bpow radix2 (k + 2)) FM FN F2B L2) as (FY & RY & _); [rewrite D2, Rabs_pos_eq; lra|].
  split; [exact FY|]. rewrite RY. split; [apply rnd_nonneg; lra|].
  apply Rle_trans with (rnd32 (bpow radix2 (k + 1) + bpow radix2 (k + 1 - 24))); [|right; apply rnd_absorb; lia].
  apply rnd_le. exact HE.
Qed.

Definition envI (k : Z) (e : envelope_g num32) (thu thd : f32) : Prop :=
  coef_ok (B2R thu) (en_au e) (en_bu e) /\ coef_ok (B2R thd) (en_ad e) (en_bd e) /\
  fin (en_x1 e : f32) /\ Rabs (B2R (en_x1 e : f32)) <= bpow radix2 k /\
  fin (en_y1 e : f32) /\ 0 <= B2R (en_y1 e : f32) <= 2 * bpow radix2 k.
Lemma env_step k thu thd e (x : f32) : (0 <= k <= 100)%Z -> fin thu -> 0 <= B2R thu <= 1 -> fin thd -> 0 <= B2R thd <= 1 ->
  envI k e thu thd -> fin x -> Rabs (B2R x) <= bpow radix2 k ->
  let '(y, e') := env_process num32 e x in envI k e' thu thd /\ fin (y : f32) /\ 0 <= B2R (y : f32) <= 2 * bpow radix2 k.
Proof.
  intros Hk Fu Hu Fd Hd (CU & CD & Fx1 & Hx1 & Fy1 & Hy1) Fx Hx. unfold env_process. cbn [nadd nmul nabs nlt num32 carrier].
  assert (FB : fmt32 (2 * bpow radix2 k)).
  { replace (2 * bpow radix2 k) with (bpow radix2 (k + 1)) by (rewrite bpow_plus; change (bpow radix2 1) with 2; ring). apply fmt32_b. lia. }
  assert (LB : 2 * bpow radix2 k < bpow radix2 128).
  { replace (2 * bpow radix2 k) with (bpow radix2 (k + 1)) by (rewrite bpow_plus; change (bpow radix2 1) with 2; ring). apply bpow_lt. lia. }
  destruct (fadd_le (fabs x) (fabs (en_x1 e : f32)) (2 * bpow radix2 k)) as (FS & RS & BS);
    [rewrite fabs_fin; exact Fx|rewrite fabs_fin; exact Fx1|exact FB|exact LB| |].
  { rewrite !fabs_R. rewrite Rabs_pos_eq; [lra|]. pose proof (Rabs_pos (B2R x)). pose proof (Rabs_pos (B2R (en_x1 e : f32))). lra. }
  assert (HS : 0 <= B2R (fadd (fabs x) (fabs (en_x1 e : f32))) <= 2 * bpow radix2 k).
  { split; [|apply Rabs_le_inv in BS; lra]. rewrite RS. apply rnd_nonneg. rewrite !fabs_R.
    pose proof (Rabs_pos (B2R x)). pose proof (Rabs_pos (B2R (en_x1 e : f32))). lra. }
  match goal with |- envI _ (mkEnv _ _ _ _ _ ?e0) _ _ /\ _ => assert (Y : fin (e0 : f32) /\ 0 <= B2R (e0 : f32) <= 2 * bpow radix2 k) end.
  { destruct (flt (en_y1 e) (fabs x)).
    - exact (env_mix thu _ _ _ _ k Hk Fu Hu CU FS HS Fy1 Hy1).
    - exact (env_mix thd _ _ _ _ k Hk Fd Hd CD FS HS Fy1 Hy1). }
  split; [|exact Y]. unfold envI. cbn [en_au en_bu en_ad en_bd en_x1 en_y1]. destruct Y. repeat split; try assumption; try apply CU; try apply CD; lra.
Qed.
Lemma env_run k thu thd : (0 <= k <= 100)%Z -> fin thu -> 0 <= B2R thu <= 1 -> fin thd -> 0 <= B2R thd <= 1 ->
  forall xs e, envI k e thu thd -> (forall x : f32, In x xs -> fin x /\ Rabs (B2R x) <= bpow radix2 k) ->
  forall y : f32, In y (fst (run (env_process num32) e xs)) -> fin y /\ 0 <= B2R y <= 2 * bpow radix2 k.
Proof.
  intros Hk Fu Hu Fd Hd. induction xs as [|x xs IH]; intros e I Hx y Hy; [destruct Hy|].
  cbn [run] in Hy. destruct (Hx x (or_introl eq_refl)) as [Fx Bx].
  pose proof (env_step k thu thd e x Hk Fu Hu Fd Hd I Fx Bx) as ST.
  destruct (env_process num32 e x) as [y0 e']. destruct ST as (I' & F & B).
  specialize (IH e' I' (fun z Hz => Hx z (or_intror Hz))).
  destruct (run (env_process num32) e' xs) as [ys ef]. cbn [fst] in *.
  destruct Hy as [<-|Hy]; [split; [exact F|exact B]|apply IH, Hy].
Qed.

(** ** frequencies up to 10 kHz give coefficients in [0,1] *)
Lemma tan_range x : 0 <= x <= 2 / 3 -> 0 <= tan x <= 6 / 7.
Proof.
  intro H. assert (S0 : 0 <= sin x).
  { apply sin_ge_0; [lra|]. pose proof PI_bounds. lra. }
  assert (S1 : sin x <= x).
  { destruct (Req_dec x 0) as [->|N]; [rewrite sin_0; lra|]. left. apply sin_lt_x. lra. }
  assert (S2 : Rabs (sin (x / 2)) <= x / 2).
  { apply Rabs_le. split.
    - assert (0 <= sin (x / 2)) by (apply sin_ge_0; [lra|pose proof PI_bounds; lra]). lra.
    - destruct (Req_dec x 0) as [->|N]; [replace (0 / 2) with 0 by field; rewrite sin_0; lra|]. left. apply sin_lt_x. lra. }
  assert (C : 7 / 9 <= cos x).
  { replace x with (2 * (x / 2)) by field. rewrite cos_2a_sin.
    assert (sin (x / 2) * sin (x / 2) <= (x / 2) * (x / 2)).
    { rewrite <- (Rabs_pos_eq (sin (x / 2) * sin (x / 2))) by (apply Rle_0_sqr).
      rewrite Rabs_mult. apply Rmult_le_compat; auto using Rabs_pos. }
    nra. }
  unfold tan. split.
  - unfold Rdiv. apply Rmult_le_pos; [exact S0|]. left. apply Rinv_0_lt_compat. lra.
  - apply Rmult_le_reg_r with (cos x); [lra|]. unfold Rdiv. rewrite Rmult_assoc, Rinv_l by lra. lra.
Qed.
Lemma PI32_ok : fin PI32 /\ B2R PI32 = 13176795 / 4194304.
Proof.
  destruct (lit_ok (prec:=24) (emax:=128) 13176795 (-22)) as [A B].
  - apply fmt_FLT; [reflexivity|unfold SpecFloat.emin; lia].
  - change (bpow radix2 (-22)) with (/ 4194304). rewrite Rabs_pos_eq by lra. pose proof bpow_128_big. change (2 ^ 100)%Z with 1267650600228229401496703205376%Z in *. lra.
  - split; [exact A|]. etransitivity; [exact B|]. change (bpow radix2 (-22)) with (/ 4194304). lra.
Qed.
Lemma INV32_ok : fin (to32 INV_SAMPLE_RATE) /\ B2R (to32 INV_SAMPLE_RATE) = 11453246 / 549755813888.
Proof.
  assert (E : to32 INV_SAMPLE_RATE = lit 11453246 (-39)) by (apply B2SF_inj; vm_compute; reflexivity). rewrite E.
  destruct (lit_ok (prec:=24) (emax:=128) 11453246 (-39)) as [A B].
  - apply fmt_FLT; [reflexivity|unfold SpecFloat.emin; lia].
  - change (bpow radix2 (-39)) with (/ 549755813888). rewrite Rabs_pos_eq by lra. pose proof one_lt_emax. lra.
  - split; [exact A|]. etransitivity; [exact B|]. change (bpow radix2 (-39)) with (/ 549755813888). lra.
Qed.
Lemma env_theta_range m (f : f32) : tan32_accurate m -> fin f -> 0 <= B2R f <= 10000 ->
  fin (env_theta m f) /\ 0 <= B2R (env_theta m f) <= 1.
Proof.
  intros A F H. unfold env_theta. destruct PI32_ok as [FP RP]. destruct INV32_ok as [FI RI].
  destruct (fmul_le PI32 f 32768 FP F) as (F1 & R1 & _).
  - exact (fmt32_Z 32768 ltac:(lia)).
  - change 32768 with (bpow radix2 15). apply bpow_lt. lia.
  - rewrite RP, Rabs_pos_eq; nra.
  - rewrite RP in R1.
    assert (B1 : 0 <= B2R (fmul PI32 f) <= 31417).
    { rewrite R1. split; [apply rnd_nonneg; nra|apply rnd_le_fmt; [exact (fmt32_Z 31417 ltac:(lia))|nra]]. }
    destruct (fmul_le (fmul PI32 f) (to32 INV_SAMPLE_RATE) 1 F1 FI) as (F2 & R2 & _).
    + exact (fmt32_Z 1 ltac:(lia)).
    + exact one_lt_emax.
    + rewrite RI, Rabs_pos_eq; nra.
    + rewrite RI in R2.
      assert (F23 : fmt32 (21 / 32)).
      { replace (21 / 32) with (IZR 21 * bpow radix2 (-5)) by (change (bpow radix2 (-5)) with (/ 32); lra). apply fmt_FLT; [reflexivity|unfold SpecFloat.emin; lia]. }
      assert (B2 : 0 <= B2R (fmul (fmul PI32 f) (to32 INV_SAMPLE_RATE)) <= 21 / 32).
      { rewrite R2. split; [apply rnd_nonneg; nra|apply rnd_le_fmt; [exact F23|nra]]. }
      destruct (A _ F2) as (FT & T0 & T1); [lra|]. split; [exact FT|].
      destruct (tan_range (B2R (fmul (fmul PI32 f) (to32 INV_SAMPLE_RATE)))) as [_ TR]; [lra|].
      apply Rabs_le_inv in T1. change (bpow radix2 (-20)) with (/ 1048576) in T1. lra.
Qed.
Lemma ideal_tan32 : tan32_accurate ideal_libm.
Proof.
  intros x Fx Hx. cbn [tan32 ideal_libm]. pose proof (tan_range _ Hx) as T.
  assert (AB : Rabs (tan (B2R x)) <= 1) by (rewrite Rabs_pos_eq; lra).
  destruct (BofR_ok (p:=24) (e:=128) (tan (B2R x))) as [A B].
  { eapply Rle_lt_trans; [apply rnd_abs_le; [|exact AB]; exact (fmt32_Z 1 ltac:(lia))|]. exact one_lt_emax. }
  split; [exact A|]. rewrite B. split; [apply rnd_nonneg; lra|].
  eapply Rle_trans; [apply (rnd_err 0); [unfold SpecFloat.emin; lia|exact AB]|]. apply bpow_le. lia.
Qed.

Lemma envelope_range m (lower upper : f32) k xs : tan32_accurate m -> fin lower -> 0 <= B2R lower <= 10000 ->
  fin upper -> 0 <= B2R upper <= 10000 -> (0 <= k <= 100)%Z ->
  (forall x : f32, In x xs -> fin x /\ Rabs (B2R x) <= bpow radix2 k) ->
  forall y : f32, In y (fst (run (env_process num32) (env_new m lower upper) xs)) -> fin y /\ 0 <= B2R y <= 2 * bpow radix2 k.
Proof.
  intros A Fl Hl Fu Hu Hk Hx y Hy.
  destruct (env_theta_range m lower A Fl Hl) as [FL RL]. destruct (env_theta_range m upper A Fu Hu) as [FU RU].
  refine (env_run k _ _ Hk FU RU FL RL xs _ _ Hx y Hy).
  unfold envI, env_new, env_of_theta. cbn [en_au en_bu en_ad en_bd en_x1 en_y1 ndiv nadd nsub num32 nzero].
  pose proof (bpow_gt_0 radix2 k). split; [apply env_coef; assumption|]. split; [apply env_coef; assumption|].
  change (B2R (f0 : f32)) with 0. rewrite Rabs_R0. repeat split; try reflexivity; lra.
Qed.

(** ** exact arithmetic: never above the largest magnitude so far *)
Lemma env_exact_coef th : 0 <= th <= 1 -> 0 <= th / (1 + th) /\ 0 <= (1 - th) / (1 + th) /\ 2 * (th / (1 + th)) + (1 - th) / (1 + th) = 1.
Proof.
  intro H. split; [|split]; [| |field; lra]; (unfold Rdiv; apply Rmult_le_pos; [lra|left; apply Rinv_0_lt_compat; lra]).
Qed.
Lemma env_exact M xs : forall e : envelope_g numR,
  0 <= (en_au e : R) -> 0 <= (en_bu e : R) -> 2 * (en_au e : R) + en_bu e = 1 ->
  0 <= (en_ad e : R) -> 0 <= (en_bd e : R) -> 2 * (en_ad e : R) + en_bd e = 1 ->
  Rabs (en_x1 e : R) <= M -> 0 <= (en_y1 e : R) <= M -> (forall x : R, In x xs -> Rabs x <= M) ->
  forall y : R, In y (fst (run (env_process numR) e xs)) -> 0 <= y <= M.
Proof.
  induction xs as [|x xs IH]; intros e AU BU SU AD BD SD HX1 HY1 Hx y Hy; [destruct Hy|].
  cbn [run] in Hy.
  set (y0 := (if Rlt_bool (en_y1 e) (Rabs x) then (en_au e : R) * (Rabs x + Rabs (en_x1 e)) + (en_bu e : R) * en_y1 e
              else (en_ad e : R) * (Rabs x + Rabs (en_x1 e)) + (en_bd e : R) * en_y1 e) : R).
  assert (E0 : env_process numR e x = (y0, mkEnv (N:=numR) (en_au e) (en_bu e) (en_ad e) (en_bd e) x y0)) by reflexivity.
  rewrite E0 in Hy. clear E0.
  pose proof (Hx x (or_introl eq_refl)) as Bx. pose proof (Rabs_pos x) as Px. pose proof (Rabs_pos (en_x1 e : R)) as Px1.
  assert (M1 : forall a b y1 : R, 0 <= a -> 0 <= b -> 2 * a + b = 1 -> 0 <= y1 <= M -> 0 <= a * (Rabs x + Rabs (en_x1 e : R)) + b * y1 <= M).
  { intros a b y1 Ha Hb Hab Hy1. split.
    - apply Rplus_le_le_0_compat; apply Rmult_le_pos; lra.
    - assert (a * (Rabs x + Rabs (en_x1 e : R)) <= a * (2 * M)) by (apply Rmult_le_compat_l; lra).
      assert (b * y1 <= b * M) by (apply Rmult_le_compat_l; lra). nra. }
  assert (Y : 0 <= y0 <= M).
  { unfold y0. destruct (Rlt_bool _ _); apply M1; assumption. }
  specialize (IH (mkEnv (N:=numR) (en_au e) (en_bu e) (en_ad e) (en_bd e) x y0)).
  cbn [en_au en_bu en_ad en_bd en_x1 en_y1] in IH.
  specialize (IH AU BU SU AD BD SD Bx Y (fun z Hz => Hx z (or_intror Hz))).
  destruct (run (env_process numR) _ xs) as [ys ef]. cbn [fst] in *.
  destruct Hy as [<-|Hy]; [exact Y|apply IH, Hy].
Qed.
Lemma envelope_exact thu thd M xs : 0 <= thu <= 1 -> 0 <= thd <= 1 -> 0 <= M -> (forall x : R, In x xs -> Rabs x <= M) ->
  forall y : R, In y (fst (run (env_process numR) (env_of_theta numR 1 thu thd) xs)) -> 0 <= y <= M.
Proof.
  intros Hu Hd HM Hx. destruct (env_exact_coef thu Hu) as (A & B & C). destruct (env_exact_coef thd Hd) as (A' & B' & C').
  apply (env_exact M xs); try assumption; cbn; try rewrite Rabs_R0; lra.
Qed.
