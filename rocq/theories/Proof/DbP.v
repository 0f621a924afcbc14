(** * Decibel conversions and the pan law in the program's arithmetic *)
From Coq Require Import ZArith List Reals Lra Lia Psatz.
From Flocq Require Import Core.Core IEEE754.BinarySingleNaN.
From Verif Require Import Model.Floats Model.SampleFormat Model.Utils Model.Mono Model.Stereo Spec.Libm Spec.Decibel
  Proof.FloatFacts Proof.SampleFormatP Proof.FormatsP Proof.UtilsP Proof.LibmP Proof.PanP.
Local Open Scope R_scope.

(** ** Real analysis *)
Lemma ln_le' x y : 0 < x -> x <= y -> ln x <= ln y.
Proof. intros P [H| ->]; [left; apply ln_increasing; assumption|right; reflexivity]. Qed.
Lemma ln10_bounds : 2 <= ln 10 <= 3.
Proof.
  split.
  - rewrite <- (ln_exp 2). apply ln_le'; [apply exp_pos|]. replace 2 with (1 + 1) by ring. rewrite exp_plus. pose proof exp_le_3. pose proof (exp_pos 1). nra.
  - rewrite <- (ln_exp 3). apply ln_le'; [lra|].
    assert (H : 15 / 10 <= exp (/ 2)) by (pose proof (exp_ineq1 (/ 2) ltac:(lra)); lra).
    replace 3 with (/ 2 + / 2 + (/ 2 + / 2) + (/ 2 + / 2)) by field. rewrite !exp_plus. set (e := exp (/ 2)) in *. clearbody e.
    assert (A : 225 / 100 <= e * e) by nra. set (a := e * e) in *. clearbody a. assert (506 / 100 <= a * a) by nra. nra.
Qed.
Lemma ln2_le : 0 < ln 2 <= 1.
Proof.
  split; [rewrite <- ln_1; apply ln_increasing; lra|]. rewrite <- (ln_exp 1). apply ln_le'; [lra|]. pose proof (exp_ineq1 1 ltac:(lra)). lra.
Qed.
(** small exponents *)
Lemma pow10_small d : Rabs d <= / 100 -> Rabs (Rpower 10 d - 1) <= 4 * Rabs d.
Proof.
  intro H. pose proof ln10_bounds as L. unfold Rpower. set (u := d * ln 10).
  assert (U : Rabs u <= 3 * Rabs d). { unfold u. rewrite Rabs_mult, (Rabs_pos_eq (ln 10)) by lra. pose proof (Rabs_pos d). nra. }
  assert (E1 : 1 + u <= exp u). { destruct (Req_dec u 0) as [->|N]; [rewrite exp_0; lra|]. left. apply exp_ineq1. exact N. }
  assert (E2 : 1 - u <= exp (- u)). { destruct (Req_dec u 0) as [->|N]; [rewrite Ropp_0, exp_0; lra|]. left. pose proof (exp_ineq1 (- u) ltac:(lra)). lra. }
  assert (P : exp u * exp (- u) = 1) by (rewrite <- exp_plus, Rplus_opp_r; apply exp_0).
  pose proof (exp_pos u) as P1. set (a := exp u) in *. set (b := exp (- u)) in *. clearbody a b. clearbody u.
  assert (UB := Rabs_le_inv _ _ (Rle_refl (Rabs u))). pose proof (Rabs_pos u).
  apply Rabs_le. split; [lra|].
  assert (a * (1 - u) <= 1) by (rewrite <- P; apply Rmult_le_compat_l; lra).
  assert (a <= 1 + 4 / 3 * Rabs u); [|lra]. set (r := Rabs u) in *. clearbody r.
  apply Rnot_lt_le. intro C. assert (r <= 3 / 100) by lra. assert (a * (1 - r) <= 1) by (apply Rle_trans with (a * (1 - u)); [apply Rmult_le_compat_l; lra|lra]).
  assert ((1 + 4 / 3 * r) * (1 - r) < a * (1 - r)) by (apply Rmult_lt_compat_r; lra). nra.
Qed.
Lemma log10_small e : Rabs e <= / 100 -> Rabs (log10R (1 + e)) <= Rabs e.
Proof.
  intro H. pose proof ln10_bounds as L. assert (B := Rabs_le_inv _ _ H). unfold log10R.
  assert (E1 : ln (1 + e) <= e).
  { rewrite <- (ln_exp e) at 2. apply ln_le'; [lra|]. destruct (Req_dec e 0) as [->|N]; [rewrite exp_0; lra|]. left. apply exp_ineq1. exact N. }
  assert (E2 : - ln (1 + e) <= - e / (1 + e)).
  { rewrite <- ln_Rinv by lra. replace (- e / (1 + e)) with (/ (1 + e) - 1) by (field; lra).
    rewrite <- (ln_exp (/ (1 + e) - 1)). assert (Q : 0 < / (1 + e)) by (apply Rinv_0_lt_compat; lra). apply ln_le'; [exact Q|].
    destruct (Req_dec (/ (1 + e) - 1) 0) as [Z|N]; [rewrite Z, exp_0; lra|]. left. pose proof (exp_ineq1 _ N). lra. }
  assert (E3 : - e / (1 + e) <= 2 * Rabs e).
  { pose proof (Rabs_le_inv _ _ (Rle_refl (Rabs e))). pose proof (Rabs_pos e). apply Rmult_le_reg_r with (1 + e); [lra|].
    unfold Rdiv. rewrite Rmult_assoc, Rinv_l by lra. nra. }
  assert (A : Rabs (ln (1 + e)) <= 2 * Rabs e). { apply Rabs_le. pose proof (Rabs_le_inv _ _ (Rle_refl (Rabs e))). pose proof (Rabs_pos e). lra. }
  unfold Rdiv. rewrite Rabs_mult, (Rabs_pos_eq (/ ln 10)) by (left; apply Rinv_0_lt_compat; lra).
  apply Rmult_le_reg_r with (ln 10); [lra|]. rewrite Rmult_assoc, Rinv_l by lra. pose proof (Rabs_pos e). nra.
Qed.
Lemma log10_mul x y : 0 < x -> 0 < y -> log10R (x * y) = log10R x + log10R y.
Proof. intros X Y. unfold log10R. rewrite ln_mult by assumption. pose proof ln10_bounds. field. lra. Qed.
Lemma log10_pow v : log10R (Rpower 10 v) = v.
Proof. unfold log10R, Rpower. rewrite ln_exp. pose proof ln10_bounds. field. lra. Qed.
Lemma pow10_log x : 0 < x -> Rpower 10 (log10R x) = x.
Proof. intro H. unfold log10R, Rpower. pose proof ln10_bounds. replace (ln x / ln 10 * ln 10) with (ln x) by (field; lra). apply exp_ln, H. Qed.
Lemma ln_bpow k : ln (bpow radix2 k) = IZR k * ln 2.
Proof.
  rewrite bpow_powerRZ. change (IZR radix2) with 2. rewrite powerRZ_Rpower by lra. unfold Rpower. apply ln_exp.
Qed.
Lemma log10_bound x k : (0 <= k)%Z -> bpow radix2 (- k) <= x <= bpow radix2 k -> Rabs (log10R x) <= IZR k / 2.
Proof.
  intros K H. pose proof ln10_bounds as L. pose proof ln2_le as L2. pose proof (bpow_gt_0 radix2 (- k)) as P. apply IZR_le in K.
  assert (A : ln (bpow radix2 (- k)) <= ln x) by (apply ln_le'; lra). assert (B : ln x <= ln (bpow radix2 k)) by (apply ln_le'; lra).
  rewrite ln_bpow in A, B. rewrite opp_IZR in A. assert (M : Rabs (ln x) <= IZR k) by (apply Rabs_le; nra).
  unfold log10R, Rdiv. rewrite Rabs_mult, (Rabs_pos_eq (/ ln 10)) by (left; apply Rinv_0_lt_compat; lra).
  apply Rmult_le_reg_r with (ln 10); [lra|]. rewrite Rmult_assoc, Rinv_l by lra. nra.
Qed.
Lemma float_pos_bounds (x : f64) : fin x -> 0 < B2R x -> bpow radix2 (- (1074)) <= B2R x <= bpow radix2 1074.
Proof.
  intros F P. split.
  - rewrite <- (Rabs_pos_eq (B2R x)) by lra. apply (abs_B2R_ge_emin 53 1024 x). destruct x; try discriminate; [cbn in P; lra|reflexivity].
  - pose proof (abs_B2R_lt x) as A. rewrite Rabs_pos_eq in A by lra. apply Rle_trans with (bpow radix2 1024); [lra|apply bpow_le; lia].
Qed.
Lemma ideal_log10 : log10_accurate ideal_libm.
Proof.
  intros x F P. cbn [log10_64 ideal_libm]. pose proof (log10_bound _ 1074 ltac:(lia) (float_pos_bounds x F P)) as B. set (l := log10R (B2R x)) in *.
  destruct (BofR_ok (p:=53) (e:=1024) l) as [A V].
  { eapply Rle_lt_trans; [apply (rnd_abs_le _ (bpow radix2 10))|].
    - apply fmt64_b; lia.
    - change (bpow radix2 10) with 1024. lra.
    - apply bpow_lt. lia. }
  split; [exact A|]. rewrite V. destruct (rnd_err_gen (prec:=53) (emax:=1024) l) as (d & e & D & E & ->).
  replace (l * (1 + d) + e - l) with (l * d + e) by ring. apply Rle_trans with (1 := Rabs_triang _ _). rewrite Rabs_mult.
  apply Rplus_le_compat; [apply Rmult_le_compat_l; [apply Rabs_pos|]; apply Rle_trans with (1 := D); apply bpow_le; lia|].
  apply Rle_trans with (1 := E). apply bpow_le. unfold SpecFloat.emin. lia.
Qed.

(** ** The two conversions *)
Lemma bp38 : bpow radix2 (-38) = / 274877906944. Proof. reflexivity. Qed.
Lemma bp39 : bpow radix2 (-39) = / 549755813888. Proof. reflexivity. Qed.
Lemma bp40 : bpow radix2 (-40) = / 1099511627776. Proof. reflexivity. Qed.
Lemma bp44 : bpow radix2 (-44) = / 17592186044416. Proof. reflexivity. Qed.
Lemma bp47 : bpow radix2 (-47) = / 140737488355328. Proof. reflexivity. Qed.
Lemma bp50 : bpow radix2 (-50) = / 1125899906842624. Proof. reflexivity. Qed.
Lemma bp53 : bpow radix2 (-53) = / 9007199254740992. Proof. reflexivity. Qed.
Lemma dB_pos v : 0 < dB v.
Proof. apply Rpower10_pos. Qed.
Lemma dB_add v w : dB (v + w) = dB v * dB w.
Proof. unfold dB. rewrite <- Rpower_plus. f_equal. field. Qed.
Lemma dB_close v w : Rabs (w - v) <= / 5 -> Rabs (dB w - dB v) <= dB v * (Rabs (w - v) / 5).
Proof.
  intro H. replace w with (v + (w - v)) at 1 by ring. rewrite dB_add. replace (dB v * dB (w - v) - dB v) with (dB v * (dB (w - v) - 1)) by ring.
  rewrite Rabs_mult, (Rabs_pos_eq (dB v)) by (left; apply dB_pos). apply Rmult_le_compat_l; [left; apply dB_pos|].
  unfold dB. eapply Rle_trans; [apply pow10_small|]; unfold Rdiv; rewrite Rabs_mult, (Rabs_pos_eq (/ 20)) by lra; lra.
Qed.
Theorem db_to_linear_ok m x : pow10_accurate m -> fin x -> Rabs (B2R x) <= 2000 ->
  fin (db_to_linear m x) /\ Rabs (B2R (db_to_linear m x) - dB (B2R x)) <= dB (B2R x) * bpow radix2 (-39).
Proof.
  intros HM F H. unfold db_to_linear, db_to_linear_g. destruct (of_Z64 20 ltac:(lia)) as [F20 V20].
  assert (A : Rabs (B2R x / 20) <= 100) by (unfold Rdiv; rewrite Rabs_mult, (Rabs_pos_eq (/ 20)) by lra; lra).
  destruct (fdiv_le x (of_Z 20 : f64) 100 F) as (FY & VY & BY); [rewrite V20; lra|exact (fmt64_Z 100 ltac:(lia))|pose proof bpow_1024_big; lra|rewrite V20; exact A|].
  rewrite V20 in VY. destruct (HM _ FY BY) as [FP EP]. split; [exact FP|].
  assert (EY : Rabs (B2R (fdiv x (of_Z 20)) - B2R x / 20) <= bpow radix2 (-47)).
  { rewrite VY. apply (rnd_err (prec:=53) (emax:=1024) 7); [unfold SpecFloat.emin; lia|]. change (bpow radix2 7) with 128. lra. }
  set (y := B2R (fdiv x (of_Z 20))) in *. rewrite bp47 in EY. rewrite bp40 in EP. rewrite bp39.
  pose proof (dB_close (B2R x) (20 * y)) as K. replace (dB (20 * y)) with (Rpower 10 y) in K by (unfold dB; f_equal; field).
  assert (EZ : Rabs (20 * y - B2R x) <= 20 * / 140737488355328).
  { replace (20 * y - B2R x) with (20 * (y - B2R x / 20)) by field. rewrite Rabs_mult, (Rabs_pos_eq 20) by lra. lra. }
  specialize (K ltac:(lra)). pose proof (dB_pos (B2R x)) as P. set (D := dB (B2R x)) in *. set (E := Rpower 10 y) in *.
  assert (K' : Rabs (E - D) <= D * (4 * / 140737488355328)) by (apply Rle_trans with (1 := K); apply Rmult_le_compat_l; lra).
  apply Rabs_le_inv in K'. apply Rabs_le_inv in EP. apply Rabs_le. clearbody D E. lra.
Qed.
Theorem linear_to_db_ok m g : log10_accurate m -> fin g -> 0 < B2R g ->
  fin (linear_to_db m g) /\ Rabs (B2R (linear_to_db m g) - decibels (B2R g)) <= Rabs (decibels (B2R g)) * bpow radix2 (-39) + bpow radix2 (-44).
Proof.
  intros HM F P. unfold linear_to_db, linear_to_db_g, decibels. destruct (of_Z64 20 ltac:(lia)) as [F20 V20].
  destruct (HM g F P) as [FL EL]. pose proof (log10_bound _ 1074 ltac:(lia) (float_pos_bounds g F P)) as B. set (L := log10R (B2R g)) in *. set (l := log10_64 m g) in *.
  rewrite bp40, bp50 in EL. rewrite bp39, bp44. pose proof (Rabs_pos L) as PL.
  assert (Bl : Rabs (B2R l) <= 538). { pose proof (Rabs_triang_inv (B2R l) L). lra. }
  destruct (fmul_le (of_Z 20 : f64) l 16384 F20 FL) as (FM & VM & _); [exact (fmt64_Z 16384 ltac:(lia))|pose proof bpow_1024_big; lra|rewrite V20, Rabs_mult, (Rabs_pos_eq 20) by lra; lra|].
  split; [exact FM|]. rewrite VM, V20. destruct (rnd_err_gen (prec:=53) (emax:=1024) (20 * B2R l)) as (d & e & D & E & ->).
  change (-(53))%Z with (-53)%Z in D. rewrite bp53 in D. assert (E' : Rabs e <= / 1125899906842624) by (apply Rle_trans with (1 := E); rewrite <- bp50; apply bpow_le; unfold SpecFloat.emin; lia).
  replace (20 * B2R l * (1 + d) + e - 20 * L) with (20 * (B2R l - L) + (20 * B2R l * d + e)) by ring.
  apply Rle_trans with (1 := Rabs_triang _ _). rewrite !Rabs_mult, (Rabs_pos_eq 20) by lra.
  assert (T : Rabs (20 * B2R l * d + e) <= (20 * Rabs (B2R l)) * / 9007199254740992 + / 1125899906842624).
  { apply Rle_trans with (1 := Rabs_triang _ _). rewrite !Rabs_mult, (Rabs_pos_eq 20) by lra. apply Rplus_le_compat; [|exact E'].
    apply Rmult_le_compat_l; [pose proof (Rabs_pos (B2R l)); lra|exact D]. }
  assert (Bl2 : Rabs (B2R l) <= 2 * Rabs L + / 1125899906842624) by (pose proof (Rabs_triang_inv (B2R l) L); lra).
  lra.
Qed.
Theorem db_round_trip m x : pow10_accurate m -> log10_accurate m -> fin x -> Rabs (B2R x) <= 2000 ->
  fin (linear_to_db m (db_to_linear m x)) /\ Rabs (B2R (linear_to_db m (db_to_linear m x)) - B2R x) <= Rabs (B2R x) * bpow radix2 (-39) + bpow radix2 (-33).
Proof.
  intros HP HL F H. destruct (db_to_linear_ok m x HP F H) as [FG EG]. set (g := db_to_linear m x) in *. pose proof (dB_pos (B2R x)) as P. rewrite bp39 in EG.
  set (e := B2R g / dB (B2R x) - 1). assert (EE : B2R g = dB (B2R x) * (1 + e)) by (unfold e; field; lra).
  assert (He : Rabs e <= / 549755813888).
  { apply Rmult_le_reg_l with (dB (B2R x)); [exact P|]. rewrite <- (Rabs_pos_eq (dB (B2R x))) at 1 by lra. rewrite <- Rabs_mult.
    replace (dB (B2R x) * e) with (B2R g - dB (B2R x)) by (rewrite EE; ring). exact EG. }
  clearbody e. assert (B := Rabs_le_inv _ _ He). assert (G0 : 0 < B2R g) by (rewrite EE; apply Rmult_lt_0_compat; lra).
  destruct (linear_to_db_ok m g HL FG G0) as [FD ED]. split; [exact FD|]. rewrite bp39, bp44 in ED. rewrite bp39. change (bpow radix2 (-33)) with (/ 8589934592).
  assert (DG : Rabs (decibels (B2R g) - B2R x) <= 20 * / 549755813888).
  { unfold decibels. rewrite EE, log10_mul by lra. unfold dB. rewrite log10_pow. replace (20 * (B2R x / 20 + log10R (1 + e)) - B2R x) with (20 * log10R (1 + e)) by field.
    rewrite Rabs_mult, (Rabs_pos_eq 20) by lra. pose proof (log10_small e ltac:(lra)). lra. }
  set (D := decibels (B2R g)) in *. assert (DA : Rabs D <= Rabs (B2R x) + 20 * / 549755813888) by (pose proof (Rabs_triang_inv D (B2R x)); lra).
  replace (B2R (linear_to_db m g) - B2R x) with ((B2R (linear_to_db m g) - D) + (D - B2R x)) by ring. apply Rle_trans with (1 := Rabs_triang _ _). lra.
Qed.
Theorem gain_round_trip m g : pow10_accurate m -> log10_accurate m -> fin g -> bpow radix2 (-190) <= B2R g <= bpow radix2 190 ->
  fin (db_to_linear m (linear_to_db m g)) /\ Rabs (B2R (db_to_linear m (linear_to_db m g)) - B2R g) <= B2R g * bpow radix2 (-30).
Proof.
  intros HP HL F H. pose proof (bpow_gt_0 radix2 (-190)) as b. assert (P : 0 < B2R g) by lra.
  destruct (linear_to_db_ok m g HL F P) as [FD ED]. pose proof (log10_bound (B2R g) 190 ltac:(lia) H) as B. rewrite bp39, bp44 in ED.
  assert (BD : Rabs (decibels (B2R g)) <= 1900) by (unfold decibels; rewrite Rabs_mult, (Rabs_pos_eq 20) by lra; lra).
  set (d := linear_to_db m g) in *. set (D := decibels (B2R g)) in *.
  assert (Bd : Rabs (B2R d) <= 2000) by (pose proof (Rabs_triang_inv (B2R d) D); lra).
  destruct (db_to_linear_ok m d HP FD Bd) as [FG EG]. split; [exact FG|].
  assert (V : dB D = B2R g). { unfold dB, D, decibels. replace (20 * log10R (B2R g) / 20) with (log10R (B2R g)) by field. apply pow10_log, P. }
  pose proof (dB_close D (B2R d) ltac:(lra)) as C. rewrite V in C. rewrite bp39 in EG. change (bpow radix2 (-30)) with (/ 1073741824).
  assert (C' : Rabs (dB (B2R d) - B2R g) <= B2R g * (/ 1400000000)) by (apply Rle_trans with (1 := C); apply Rmult_le_compat_l; lra).
  apply Rabs_le_inv in C'. apply Rabs_le_inv in EG. apply Rabs_le. lra.
Qed.

(** ** The pan law *)
Lemma ulp_128 x : Rabs x <= 128 -> Rabs (round radix2 (SpecFloat.fexp 53 1024) ZnearestE x - x) <= bpow radix2 (-47).
Proof. intro H. apply (rnd_err (prec:=53) (emax:=1024) 7); [unfold SpecFloat.emin; lia|exact H]. Qed.
Lemma in_m1_1 (g : f64) (a b : Z) : (-1 <= a)%Z -> (b <= 1)%Z -> (a < b)%Z -> fin g -> IZR a <= B2R g <= IZR b -> clamp num64 g (of_Z a) (of_Z b) = g.
Proof.
  intros A B AB F [H1 H2]. destruct (of_Z64 a ltac:(lia)) as [Fa Va]. destruct (of_Z64 b ltac:(lia)) as [Fb Vb]. rewrite clamp64_unfold. cbv zeta.
  rewrite (proj2 (flt_false _ _ Fb Fa)) by (rewrite Va, Vb; apply IZR_le; lia).
  rewrite (proj2 (flt_false _ _ Fb F)) by (rewrite Vb; exact H2). rewrite (proj2 (flt_false _ _ F Fa)) by (rewrite Va; exact H1). reflexivity.
Qed.
Lemma lerp_ok (g : f64) (a b y z : Z) : (-1 <= a)%Z -> (b = a + 1)%Z -> (b <= 1)%Z -> (-120 <= y <= 0)%Z -> (-120 <= z <= 0)%Z -> fin g -> IZR a <= B2R g <= IZR b ->
  let v := clerp num64 g (of_Z a) (of_Z b) (of_Z y) (of_Z z) in fin v /\ Rabs (B2R v - (IZR (z - y) * (B2R g - IZR a) + IZR y)) <= bpow radix2 (-37).
Proof.
  intros A AB B Y Z F H v. unfold v, clerp. rewrite in_m1_1 by (try assumption; lia). unfold lerp. cbn [nadd nmul nsub ndiv num64].
  destruct (of_Z64 a ltac:(lia)) as [Fa Va]. destruct (of_Z64 b ltac:(lia)) as [Fb Vb]. destruct (of_Z64 y ltac:(lia)) as [Fy Vy]. destruct (of_Z64 z ltac:(lia)) as [Fz Vz].
  pose proof bpow_1024_big as BB. change (bpow radix2 (-37)) with (/ 137438953472).
  assert (YR : -120 <= IZR y <= 0) by (split; apply IZR_le; lia). assert (ZR : -120 <= IZR z <= 0) by (split; apply IZR_le; lia).
  assert (AR : -1 <= IZR a <= 0) by (split; apply IZR_le; lia). assert (BR : IZR b = IZR a + 1) by (rewrite AB, plus_IZR; reflexivity).
  (* difference of the values *)
  destruct (fsub_le (of_Z z : f64) (of_Z y) 120 Fz Fy) as (F1 & V1 & _); [exact (fmt64_Z 120 ltac:(lia))|lra|rewrite Vz, Vy; apply Rabs_le; lra|].
  rewrite Vz, Vy, <- minus_IZR in V1. rewrite rnd_fmt in V1 by (apply fmt64_Z; lia).
  destruct (fsub_le (of_Z b : f64) (of_Z a) 1 Fb Fa) as (F2 & V2 & _); [exact (fmt64_Z 1 ltac:(lia))|lra|rewrite Vb, Va; apply Rabs_le; lra|].
  rewrite Vb, Va in V2. replace (IZR b - IZR a) with 1 in V2 by lra. rewrite rnd_fmt in V2 by exact (fmt64_Z 1 ltac:(lia)).
  set (dy := fsub (of_Z z : f64) (of_Z y)) in *. set (dx := fsub (of_Z b : f64) (of_Z a)) in *.
  assert (DY : -120 <= IZR (z - y) <= 120) by (split; apply IZR_le; lia).
  destruct (fdiv_le dy dx 120 F1) as (F3 & V3 & _); [rewrite V2; lra|exact (fmt64_Z 120 ltac:(lia))|lra|rewrite V1, V2, Rdiv_1; apply Rabs_le; lra|].
  rewrite V1, V2, Rdiv_1, rnd_fmt in V3 by (apply fmt64_Z; lia). set (k := fdiv dy dx) in *.
  destruct (fsub_le g (of_Z a : f64) 1 F Fa) as (F4 & V4 & B4); [exact (fmt64_Z 1 ltac:(lia))|lra|rewrite Va; apply Rabs_le; lra|].
  rewrite Va in V4. assert (E4 := ulp_128 (B2R g - IZR a) ltac:(apply Rabs_le; lra)). rewrite <- V4 in E4. set (h := fsub g (of_Z a : f64)) in *.
  destruct (fmul_le k h 120 F3 F4) as (F5 & V5 & B5); [exact (fmt64_Z 120 ltac:(lia))|lra| |].
  { rewrite V3, Rabs_mult. replace 120 with (120 * 1) by ring. apply Rmult_le_compat; [apply Rabs_pos|apply Rabs_pos|apply Rabs_le; lra|exact B4]. }
  assert (B5' : Rabs (B2R k * B2R h) <= 128).
  { rewrite V3, Rabs_mult. apply Rle_trans with (120 * 1); [|lra]. apply Rmult_le_compat; [apply Rabs_pos|apply Rabs_pos|apply Rabs_le; lra|exact B4]. }
  assert (E5 := ulp_128 _ B5'). rewrite <- V5, V3 in E5. set (p := fmul k h) in *.
  destruct (fadd_le p (of_Z y : f64) 240 F5 Fy) as (F6 & V6 & _); [exact (fmt64_Z 240 ltac:(lia))|lra|rewrite Vy; apply Rle_trans with (1 := Rabs_triang _ _); apply Rle_trans with (120 + 120); [apply Rplus_le_compat; [exact B5|apply Rabs_le; lra]|lra]|].
  split; [exact F6|]. rewrite V6, Vy.
  assert (E6 : Rabs (round radix2 (SpecFloat.fexp 53 1024) ZnearestE (B2R p + IZR y) - (B2R p + IZR y)) <= bpow radix2 (-46)).
  { apply (rnd_err (prec:=53) (emax:=1024) 8); [unfold SpecFloat.emin; lia|]. change (bpow radix2 8) with 256. apply Rle_trans with (1 := Rabs_triang _ _). apply Rle_trans with (120 + 120); [|lra].
    apply Rplus_le_compat; [exact B5|apply Rabs_le; lra]. }
  change (bpow radix2 (-47)) with (/ 140737488355328) in *. change (bpow radix2 (-46)) with (/ 70368744177664) in *.
  apply Rabs_le_inv in E4. apply Rabs_le_inv in E5. apply Rabs_le_inv in E6.
  assert (E7 : Rabs (IZR (z - y) * B2R h - IZR (z - y) * (B2R g - IZR a)) <= 120 * / 140737488355328).
  { rewrite <- Rmult_minus_distr_l, Rabs_mult. apply Rmult_le_compat; [apply Rabs_pos|apply Rabs_pos|apply Rabs_le; lra|apply Rabs_le; lra]. }
  apply Rabs_le_inv in E7. apply Rabs_le. set (q := IZR (z - y) * (B2R g - IZR a)) in *. set (q' := IZR (z - y) * B2R h) in *. clearbody q q'. lra.
Qed.
Lemma f0_of_Z : (f0 : f64) = of_Z 0.
Proof. apply B2SF_inj. vm_compute. reflexivity. Qed.
Lemma pan_l_ok (g : f64) : fin g -> -1 <= B2R g <= 1 -> let v := pan_l_db (fle g f0) g in fin v /\ Rabs (B2R v - pan_left (B2R g)) <= bpow radix2 (-37).
Proof.
  intros F H v. unfold v, pan_l_db, pan_left. assert (F0 : fin (f0 : f64)) by reflexivity. destruct (fle g f0) eqn:E.
  - apply fle_true in E; [|exact F|exact F0]. change (B2R (f0 : f64)) with 0 in E. destruct (Rle_dec (B2R g) 0) as [_|N]; [|lra]. rewrite f0_of_Z.
    destruct (lerp_ok g (-1) 0 (-3) (-120)) as [A B]; try lia; [exact F|lra|]. split; [exact A|]. replace (-3 - 117 * (B2R g + 1)) with (IZR (-120 - -3) * (B2R g - -1) + -3) by (simpl; ring). exact B.
  - apply fle_false in E; [|exact F|exact F0]. change (B2R (f0 : f64)) with 0 in E. destruct (Rle_dec (B2R g) 0) as [N|_]; [lra|]. rewrite f0_of_Z.
    destruct (lerp_ok g 0 1 0 (-3)) as [A B]; try lia; [exact F|lra|]. split; [exact A|]. replace (-3 * B2R g) with (IZR (-3 - 0) * (B2R g - 0) + 0) by (simpl; ring). exact B.
Qed.
Lemma pan_r_ok (g : f64) : fin g -> -1 <= B2R g <= 1 -> let v := pan_r_db (fge g f0) g in fin v /\ Rabs (B2R v - pan_right (B2R g)) <= bpow radix2 (-37).
Proof.
  intros F H v. unfold v, pan_r_db, pan_right. assert (F0 : fin (f0 : f64)) by reflexivity. destruct (fge g f0) eqn:E.
  - apply fge_true in E; [|exact F|exact F0]. change (B2R (f0 : f64)) with 0 in E. destruct (Rle_dec 0 (B2R g)) as [_|N]; [|lra]. rewrite f0_of_Z.
    destruct (lerp_ok g 0 1 (-3) (-120)) as [A B]; try lia; [exact F|lra|]. split; [exact A|]. replace (-3 - 117 * B2R g) with (IZR (-120 - -3) * (B2R g - 0) + -3) by (simpl; ring). exact B.
  - apply fge_false in E; [|exact F|exact F0]. change (B2R (f0 : f64)) with 0 in E. destruct (Rle_dec 0 (B2R g)) as [N|_]; [lra|]. rewrite f0_of_Z.
    destruct (lerp_ok g (-1) 0 0 (-3)) as [A B]; try lia; [exact F|lra|]. split; [exact A|]. replace (-3 * (B2R g + 1)) with (IZR (-3 - 0) * (B2R g - -1) + 0) by (simpl; ring). exact B.
Qed.
Lemma dB_le_1 v : v <= 0 -> dB v <= 1.
Proof. intro H. unfold dB. rewrite <- (Rpower_O 10) by lra. apply Rpower10_mono. lra. Qed.
Lemma apply_db m (v : f64) (s : f32) (V : R) : pow10_accurate m -> fin v -> -120 <= V <= 0 -> Rabs (B2R v - V) <= bpow radix2 (-37) -> fin s -> Rabs (B2R s) <= bpow radix2 100 ->
  let o := to32 (fmul (db_to_linear m v) (to64 s)) in fin o /\ Rabs (B2R o - dB V * B2R s) <= bpow radix2 (-22) * Rabs (dB V * B2R s) + bpow radix2 (-149).
Proof.
  intros HM Fv HV EV Fs Hs o. change (bpow radix2 (-37)) with (/ 137438953472) in EV.
  destruct (db_to_linear_ok m v HM Fv) as [FG EG]. { assert (Q := Rabs_le_inv _ _ EV). apply Rabs_le. lra. }
  pose proof (dB_close V (B2R v) ltac:(lra)) as C. pose proof (dB_pos V) as P. pose proof (dB_le_1 V (proj2 HV)) as P1. rewrite bp39 in EG.
  set (D := dB V) in *. set (W := dB (B2R v)) in *. set (G := B2R (db_to_linear m v)) in *.
  assert (C' : Rabs (W - D) <= D * / 600000000000) by (apply Rle_trans with (1 := C); apply Rmult_le_compat_l; lra).
  assert (EGD : Rabs (G - D) <= D * / 100000000000).
  { apply Rabs_le_inv in C'. apply Rabs_le_inv in EG. apply Rabs_le. lra. }
  destruct (to64_ok s Fs) as [F64 V64]. set (x := B2R s) in *.
  assert (GA : Rabs G <= 2) by (apply Rabs_le_inv in EGD; apply Rabs_le; lra).
  assert (B2P : 2 * bpow radix2 100 = bpow radix2 101) by (change 101%Z with (1 + 100)%Z; rewrite bpow_plus; reflexivity).
  assert (GX : Rabs (G * x) <= bpow radix2 101) by (rewrite Rabs_mult, <- B2P; apply Rmult_le_compat; [apply Rabs_pos|apply Rabs_pos|exact GA|exact Hs]).
  destruct (fmul_le (db_to_linear m v) (to64 s) (bpow radix2 101) FG F64) as (FM & VM & BM); [apply fmt64_b; lia|apply bpow_lt; lia|rewrite V64; exact GX|].
  rewrite V64 in VM. fold G x in VM. set (q := fmul (db_to_linear m v) (to64 s)) in *.
  destruct (fcast_le (p2:=24) (e2:=128) q (bpow radix2 101) FM) as (FO & VO & _); [apply fmt32_b; lia|apply bpow_lt; lia|exact BM|].
  change (fcast 24 128 q) with o in FO, VO. split; [exact FO|].
  destruct (rnd_err_gen (prec:=53) (emax:=1024) (G * x)) as (d & e & Hd & He & EQ). rewrite <- VM in EQ.
  destruct (rnd_err_gen (prec:=24) (emax:=128) (B2R q)) as (d2 & e2 & Hd2 & He2 & EO). rewrite <- VO in EO.
  change (bpow radix2 (- (24))) with (/ 16777216) in Hd2. change (-(53))%Z with (-53)%Z in Hd. rewrite bp53 in Hd. change (bpow radix2 (-22)) with (/ 4194304).
  assert (Q49 : bpow radix2 (-149) = 2 * bpow radix2 (-150)) by (change (-149)%Z with (1 + -150)%Z; rewrite bpow_plus; reflexivity).
  assert (He' : Rabs e <= / 4 * bpow radix2 (-150)).
  { apply Rle_trans with (1 := He). change (/ 4) with (bpow radix2 (-2)). rewrite <- bpow_plus. apply bpow_le. unfold SpecFloat.emin. lia. }
  change (bpow radix2 (SpecFloat.emin 24 128 - 1)) with (bpow radix2 (-150)) in He2. pose proof (bpow_gt_0 radix2 (-150)) as u0. set (u := bpow radix2 (-150)) in *. rewrite Q49.
  rewrite EO, EQ. replace ((G * x * (1 + d) + e) * (1 + d2) + e2 - D * x) with ((G - D) * x + G * x * (d + d2 + d * d2) + (e * (1 + d2) + e2)) by ring.
  assert (HD : Rabs (D * x) = D * Rabs x) by (rewrite Rabs_mult, (Rabs_pos_eq D) by lra; reflexivity). rewrite HD. pose proof (Rabs_pos x) as X0.
  assert (T1 : Rabs ((G - D) * x) <= D * / 100000000000 * Rabs x) by (rewrite Rabs_mult; apply Rmult_le_compat_r; assumption).
  assert (Hdd : Rabs (d + d2 + d * d2) <= / 8000000).
  { apply Rle_trans with (1 := Rabs_triang _ _). pose proof (Rabs_triang d d2). rewrite Rabs_mult.
    assert (Rabs d * Rabs d2 <= / 9007199254740992 * 1) by (apply Rmult_le_compat; [apply Rabs_pos|apply Rabs_pos|exact Hd|lra]). lra. }
  assert (T2 : Rabs (G * x * (d + d2 + d * d2)) <= (D * (11 / 10)) * Rabs x * / 8000000).
  { rewrite !Rabs_mult. apply Rmult_le_compat; [apply Rmult_le_pos; apply Rabs_pos|apply Rabs_pos| |exact Hdd]. apply Rmult_le_compat_r; [exact X0|].
    apply Rabs_le_inv in EGD. apply Rabs_le. lra. }
  assert (T3 : Rabs (e * (1 + d2) + e2) <= 2 * u).
  { apply Rle_trans with (1 := Rabs_triang _ _). rewrite Rabs_mult. assert (Rabs (1 + d2) <= 2) by (apply Rabs_le_inv in Hd2; apply Rabs_le; lra).
    assert (Rabs e * Rabs (1 + d2) <= / 4 * u * 2) by (apply Rmult_le_compat; [apply Rabs_pos|apply Rabs_pos|exact He'|assumption]). lra. }
  assert (N : 0 <= D * Rabs x) by (apply Rmult_le_pos; lra).
  apply Rle_trans with (1 := Rabs_triang _ _). apply Rle_trans with (Rabs ((G - D) * x) + Rabs (G * x * (d + d2 + d * d2)) + Rabs (e * (1 + d2) + e2)); [apply Rplus_le_compat_r, Rabs_triang|].
  set (z := D * Rabs x) in *. replace (D * / 100000000000 * Rabs x) with (z * / 100000000000) in T1 by (unfold z; ring).
  replace (D * (11 / 10) * Rabs x * / 8000000) with (z * (11 / 10 * / 8000000)) in T2 by (unfold z; ring). clearbody z. lra.
Qed.
Lemma pan_left_rng p : -1 <= p <= 1 -> -120 <= pan_left p <= 0.
Proof. intro H. unfold pan_left. destruct (Rle_dec p 0); lra. Qed.
Lemma pan_right_rng p : -1 <= p <= 1 -> -120 <= pan_right p <= 0.
Proof. intro H. unfold pan_right. destruct (Rle_dec 0 p); lra. Qed.
Theorem pan_law m (s : f32) (g : f64) : pow10_accurate m -> fin s -> Rabs (B2R s) <= bpow radix2 100 -> fin g -> -1 <= B2R g <= 1 ->
  let o := pan64 m s g in fin (left o) /\ fin (right o) /\
  Rabs (B2R (left o) - dB (pan_left (B2R g)) * B2R s) <= bpow radix2 (-22) * Rabs (dB (pan_left (B2R g)) * B2R s) + bpow radix2 (-149) /\
  Rabs (B2R (right o) - dB (pan_right (B2R g)) * B2R s) <= bpow radix2 (-22) * Rabs (dB (pan_right (B2R g)) * B2R s) + bpow radix2 (-149).
Proof.
  intros HM Fs Hs Fg Hg o. destruct (pan_l_ok g Fg Hg) as [FL EL]. destruct (pan_r_ok g Fg Hg) as [FR ER].
  destruct (apply_db m _ s _ HM FL (pan_left_rng _ Hg) EL Fs Hs) as [A B]. destruct (apply_db m _ s _ HM FR (pan_right_rng _ Hg) ER Fs Hs) as [A' B'].
  exact (conj A (conj A' (conj B B'))).
Qed.
(** within a half, moving right makes both channels quieter *)
Lemma dB_drop v d : 0 <= d <= 2 -> dB (v - d) <= dB v * (1 - d / 20).
Proof.
  intro H. unfold Rminus at 1. rewrite dB_add. apply Rmult_le_compat_l; [left; apply dB_pos|].
  unfold dB. pose proof ln10_bounds as L. unfold Rpower. set (u := d / 20 * ln 10). replace (- d / 20 * ln 10) with (- u) by (unfold u; field).
  assert (U : d / 10 <= u) by (unfold u, Rdiv; nra).
  assert (E : 1 + u <= exp u). { destruct (Req_dec u 0) as [->|N]; [rewrite exp_0; lra|]. left. apply exp_ineq1. exact N. }
  rewrite exp_Ropp. apply Rle_trans with (/ (1 + u)); [apply Rinv_le; lra|]. apply Rle_trans with (/ (1 + d / 10)); [apply Rinv_le; lra|].
  apply Rmult_le_reg_r with (1 + d / 10); [lra|]. rewrite Rinv_l by lra. nra.
Qed.
Lemma quieter (D D' x y y' : R) : 0 < x -> bpow radix2 (-24) <= D -> 0 < D' -> D' <= D * (1 - / 8192) -> bpow radix2 (-100) <= x ->
  Rabs (y - D * x) <= bpow radix2 (-22) * Rabs (D * x) + bpow radix2 (-149) -> Rabs (y' - D' * x) <= bpow radix2 (-22) * Rabs (D' * x) + bpow radix2 (-149) -> y' < y.
Proof.
  intros X HD PD' H HX E E'. change (bpow radix2 (-24)) with (/ 16777216) in HD. change (bpow radix2 (-22)) with (/ 4194304) in *.
  assert (K : bpow radix2 (-149) = / 33554432 * (/ 16777216 * bpow radix2 (-100))) by (change (-149)%Z with (-25 + (-24 + -100))%Z; rewrite !bpow_plus; reflexivity).
  assert (P : / 16777216 * bpow radix2 (-100) <= D * x) by (apply Rmult_le_compat; [lra|apply bpow_ge_0|exact HD|exact HX]).
  assert (Q : D' * x <= D * x * (1 - / 8192)) by (replace (D * x * (1 - / 8192)) with (D * (1 - / 8192) * x) by ring; apply Rmult_le_compat_r; lra).
  assert (P' : 0 < D' * x) by (apply Rmult_lt_0_compat; assumption). assert (PD : 0 < D * x) by (apply Rmult_lt_0_compat; lra).
  rewrite K in E, E'. rewrite (Rabs_pos_eq (D * x)) in E by lra. rewrite (Rabs_pos_eq (D' * x)) in E' by lra. apply Rabs_le_inv in E. apply Rabs_le_inv in E'.
  set (a := D * x) in *. set (a' := D' * x) in *. set (b := / 16777216 * bpow radix2 (-100)) in *. lra.
Qed.
Lemma dB_m120 : bpow radix2 (-24) <= dB (-120).
Proof.
  unfold dB. replace (-120 / 20) with (- (6)) by field. rewrite Rpower_Ropp. replace 6 with (INR 6) by (simpl; ring). rewrite Rpower_pow by lra. change (bpow radix2 (-24)) with (/ 16777216).
  apply Rinv_le; simpl; lra.
Qed.
Theorem pan_right_is_quieter m (s : f32) (g g' : f64) : pow10_accurate m -> fin s -> bpow radix2 (-100) <= B2R s <= bpow radix2 100 -> fin g -> fin g' ->
  -1 <= B2R g -> B2R g + / 1024 <= B2R g' -> B2R g' <= 1 -> B2R g' < 0 \/ 0 < B2R g ->
  B2R (left (pan64 m s g')) < B2R (left (pan64 m s g)) /\ B2R (right (pan64 m s g')) < B2R (right (pan64 m s g)).
Proof.
  intros HM Fs Hs Fg Fg' H1 H2 H3 HH. pose proof (bpow_gt_0 radix2 (-100)) as b.
  assert (Hs' : Rabs (B2R s) <= bpow radix2 100) by (rewrite Rabs_pos_eq; lra).
  destruct (pan_law m s g HM Fs Hs' Fg ltac:(lra)) as (_ & _ & EL & ER). destruct (pan_law m s g' HM Fs Hs' Fg' ltac:(lra)) as (_ & _ & EL' & ER').
  assert (KL : exists d, 3 / 1024 <= d /\ pan_left (B2R g') = pan_left (B2R g) - d).
  { unfold pan_left. destruct (Rle_dec (B2R g) 0), (Rle_dec (B2R g') 0); destruct HH; try lra; [exists (117 * (B2R g' - B2R g))|exists (3 * (B2R g' - B2R g))]; lra. }
  assert (KR : exists d, 3 / 1024 <= d /\ pan_right (B2R g') = pan_right (B2R g) - d).
  { unfold pan_right. destruct (Rle_dec 0 (B2R g)), (Rle_dec 0 (B2R g')); destruct HH; try lra; [exists (117 * (B2R g' - B2R g))|exists (3 * (B2R g' - B2R g))]; lra. }
  assert (STEP : forall v v' d, 3 / 1024 <= d -> v' = v - d -> dB v' <= dB v * (1 - / 8192)).
  { intros v v' d Hd ->. apply Rle_trans with (dB (v - 3 / 1024)).
    - unfold dB. apply Rpower10_mono. lra.
    - apply Rle_trans with (1 := dB_drop v (3 / 1024) ltac:(lra)). apply Rmult_le_compat_l; [left; apply dB_pos|lra]. }
  assert (LOW : forall v, -120 <= v -> bpow radix2 (-24) <= dB v).
  { intros v Hv. apply Rle_trans with (1 := dB_m120). unfold dB. apply Rpower10_mono. lra. }
  destruct KL as (dl & Dl & ELr). destruct KR as (dr & Dr & ERr). split.
  - apply (quieter _ _ (B2R s) _ _ ltac:(lra) (LOW _ (proj1 (pan_left_rng (B2R g) ltac:(lra)))) (dB_pos _) (STEP _ _ dl Dl ELr) ltac:(lra) EL EL').
  - apply (quieter _ _ (B2R s) _ _ ltac:(lra) (LOW _ (proj1 (pan_right_rng (B2R g) ltac:(lra)))) (dB_pos _) (STEP _ _ dr Dr ERr) ltac:(lra) ER ER').
Qed.
(** the peak asked of normalize, in decibels *)
Lemma dB_range v : -300 <= v <= 300 -> bpow radix2 (-50) <= dB v <= bpow radix2 50.
Proof.
  intro H. assert (E : Rpower 10 15 = 10 ^ 15) by (rewrite <- Rpower_pow by lra; f_equal; simpl; ring).
  assert (U : Rpower 10 15 <= bpow radix2 50) by (rewrite E; change (bpow radix2 50) with 1125899906842624; simpl; lra).
  unfold dB. split.
  - apply Rle_trans with (Rpower 10 (- (15))); [|apply Rpower10_mono; lra]. rewrite Rpower_Ropp. change (-50)%Z with (- (50))%Z. rewrite bpow_opp. apply Rinv_le; [apply Rpower10_pos|exact U].
  - apply Rle_trans with (2 := U). apply Rpower10_mono. lra.
Qed.
Lemma target_ok m (db : f64) : pow10_accurate m -> fin db -> -300 <= B2R db <= 300 ->
  let t := to32 (db_to_linear m db) in fin t /\ Rabs (B2R t - dB (B2R db)) <= dB (B2R db) * bpow radix2 (-23) /\ bpow radix2 (-60) <= B2R t <= bpow radix2 60.
Proof.
  intros HM F H t. destruct (db_to_linear_ok m db HM F) as [FG EG]; [apply Rabs_le; lra|]. rewrite bp39 in EG. pose proof (dB_range _ H) as R.
  set (D := dB (B2R db)) in *. set (g := db_to_linear m db) in *. pose proof (bpow_gt_0 radix2 (-50)) as b. apply Rabs_le_inv in EG.
  assert (B51 : bpow radix2 51 = 2 * bpow radix2 50) by (change 51%Z with (1 + 50)%Z; rewrite bpow_plus; reflexivity).
  assert (B5 : bpow radix2 (-50) = 2 * bpow radix2 (-51)) by (change (-50)%Z with (1 + -51)%Z; rewrite bpow_plus; reflexivity).
  destruct (fcast_le (p2:=24) (e2:=128) g (bpow radix2 51) FG) as (FT & VT & _); [apply fmt32_b; lia|apply bpow_lt; lia|apply Rabs_le; lra|]. change (fcast 24 128 g) with t in FT, VT.
  destruct (rnd_rel (prec:=24) (emax:=128) (B2R g)) as (d & Hd & E).
  { rewrite Rabs_pos_eq by lra. apply Rle_trans with (bpow radix2 (-51)); [apply bpow_le; unfold SpecFloat.emin; lia|lra]. }
  change (bpow radix2 (- (24))) with (/ 16777216) in Hd. apply Rabs_le_inv in Hd. rewrite <- VT in E. change (bpow radix2 (-23)) with (/ 8388608).
  assert (G0 : 0 < B2R g) by lra. split; [exact FT|]. rewrite E.
  assert (N : - (B2R g * / 16777216) <= B2R g * d <= B2R g * / 16777216) by (split; [replace (- (B2R g * / 16777216)) with (B2R g * - / 16777216) by ring|]; apply Rmult_le_compat_l; lra).
  split; [apply Rabs_le; rewrite Rmult_plus_distr_l, Rmult_1_r; split; lra|]. rewrite Rmult_plus_distr_l, Rmult_1_r.
  assert (bpow radix2 (-60) <= bpow radix2 (-51)) by (apply bpow_le; lia). assert (bpow radix2 51 <= bpow radix2 60) by (apply bpow_le; lia). split; lra.
Qed.
Theorem normalize_to_db m (db : f64) (t : list f32) (a b : f32) : pow10_accurate m -> fin db -> -300 <= B2R db <= 300 ->
  (Z.of_nat (length t) <= 2 ^ 24)%Z -> (forall s, In s t -> fin s /\ Rabs (B2R s) <= bpow radix2 60) -> In a t -> In b t -> bpow radix2 (-59) <= Rabs (B2R a - B2R b) ->
  exists p : R, Rabs (p - dB (B2R db)) <= dB (B2R db) * bpow radix2 (-21) /\
    (forall o, In o (normalize m db t) -> fin o /\ Rabs (B2R o) <= p) /\ (exists o, In o (normalize m db t) /\ Rabs (B2R o) = p).
Proof.
  intros HM F H HL HT Ia Ib HD. destruct (target_ok m db HM F H) as (FT & ET & RT).
  destruct (normalize_peak m db t a b HL HT Ia Ib HD FT RT) as (p & P & EP & A & B). exists p. split; [|exact (conj A B)].
  pose proof (dB_pos (B2R db)) as PD. set (D := dB (B2R db)) in *. set (q := B2R (to32 (db_to_linear m db))) in *.
  change (bpow radix2 (-21)) with (/ 2097152). change (bpow radix2 (-22)) with (/ 4194304) in EP. change (bpow radix2 (-23)) with (/ 8388608) in ET.
  apply Rabs_le_inv in EP. apply Rabs_le_inv in ET. apply Rabs_le. lra.
Qed.
