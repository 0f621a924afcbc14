(** * Accuracy of the sine generator against the mathematical sine *)

From Coq Require Import ZArith List Bool Reals Lra Lia Psatz Ratan Machin.
From Flocq Require Import Core.Core IEEE754.BinarySingleNaN Relative Sterbenz Plus_error.
From Verif Require Import Model.Floats Model.Generators Spec.Libm
  Proof.FloatFacts Proof.SampleFormatP Proof.FormatsP Proof.UtilsP Proof.ResamplerP Proof.GeneratorsP Proof.GeneratorsP2 Proof.GeneratorsP3.
Import ListNotations.
Local Open Scope R_scope.

(** ** pi and sin *)
Lemma PI_bounds : 31415926535 / 10000000000 <= PI <= 31415926536 / 10000000000.
Proof.
  pose proof (PI_2_3_7_ineq 6) as [L U].
  unfold sum_f_R0, tg_alt, PI_2_3_7_tg, Ratan_seq in L, U. simpl in L, U. lra.
Qed.

Lemma sin_lip a b : Rabs (sin a - sin b) <= Rabs (a - b).
Proof.
  assert (G : forall a b, a < b -> Rabs (sin b - sin a) <= Rabs (b - a)).
  { intros x y H. destruct (MVT_cor2 sin cos x y H) as (c & E & _); [intros; apply derivable_pt_lim_sin|].
    rewrite E, Rabs_mult. rewrite <- (Rmult_1_l (Rabs (y - x))) at 2. apply Rmult_le_compat_r; [apply Rabs_pos|].
    apply Rabs_le. apply COS_bound. }
  destruct (Rtotal_order a b) as [H|[H|H]].
  - rewrite Rabs_minus_sym, (Rabs_minus_sym a). apply G, H.
  - subst. rewrite !Rminus_diag_eq, Rabs_R0 by reflexivity. lra.
  - apply G. lra.
Qed.
Lemma cos_lip a b : Rabs (cos a - cos b) <= Rabs (a - b).
Proof. rewrite !cos_sin. eapply Rle_trans; [apply sin_lip|]. apply Req_le. f_equal. ring. Qed.

Lemma mvt_sin a b : a <= b -> exists c, sin b - sin a = cos c * (b - a) /\ a <= c <= b.
Proof.
  intro H0. destruct (Rle_lt_or_eq_dec _ _ H0) as [H|H].

  - destruct (MVT_cor2 sin cos a b H) as (c & E & H1); [intros; apply derivable_pt_lim_sin|]. exists c. split; [exact E|]. lra.
  - subst b. exists a. split; [ring|lra].
Qed.
(** linear interpolation of sin over an interval of width h *)
Lemma sin_interp a h g : 0 <= h -> 0 <= g <= 1 -> Rabs ((1 - g) * sin a + g * sin (a + h) - sin (a + g * h)) <= h * h / 4.
Proof.
  intros Hh Hg.
  destruct (mvt_sin a (a + g * h)) as (c1 & E1 & B1); [nra|].
  destruct (mvt_sin (a + g * h) (a + h)) as (c2 & E2 & B2); [nra|].
  replace ((1 - g) * sin a + g * sin (a + h) - sin (a + g * h))
    with (g * (sin (a + h) - sin (a + g * h)) - (1 - g) * (sin (a + g * h) - sin a)) by ring.
  rewrite E1, E2.
  replace (g * (cos c2 * (a + h - (a + g * h))) - (1 - g) * (cos c1 * (a + g * h - a))) with ((g * (1 - g) * h) * (cos c2 - cos c1)) by ring.
  assert (G4 : 0 <= g * (1 - g) <= / 4) by (pose proof (Rle_0_sqr (g - / 2)) as Q; unfold Rsqr in Q; split; nra).
  rewrite Rabs_mult, (Rabs_pos_eq (g * (1 - g) * h)) by nra.
  assert (CL : Rabs (cos c2 - cos c1) <= h).
  { eapply Rle_trans; [apply cos_lip|]. apply Rabs_le. lra. }
  apply Rle_trans with (/ 4 * h * h); [|lra].
  apply Rmult_le_compat; [nra|apply Rabs_pos|nra|exact CL].
Qed.

Lemma sin_shift x n : sin (x - 2 * PI * INR n) = sin x.
Proof. rewrite <- (sin_period (x - 2 * PI * INR n) n). f_equal. ring. Qed.

(** ** the phase *)
Definition sin_states (n : nat) (s : sine) : sine := Nat.iter n sin_adv s.

Lemma sin_adv_drift x d : fin x -> fin d -> -1 <= B2R x <= 4799 -> 0 <= B2R d <= 4800 ->
  exists w : nat, (w <= 1)%nat /\
  Rabs (B2R (sin_ind (sin_adv (mkSine x d))) - (B2R x + B2R d - 4800 * INR w)) <= bpow radix2 (-40).
Proof.
  intros Fx Fd Hx Hd. unfold sin_adv. cbn [sin_ind sin_inc]. cbv zeta. set (y0 := fadd x d).
  assert (FM : fmt64 9599) by exact (fmt64_Z 9599 ltac:(lia)).
  destruct (fadd_le x d 9599 Fx Fd FM) as (A & B & C).
  { apply b1024s. rewrite sixty. lra. } { apply Rabs_le. lra. }
  fold y0 in A, B, C. apply Rabs_le_inv in C.
  assert (E : Rabs (B2R y0 - (B2R x + B2R d)) <= bpow radix2 (-40)).
  { rewrite B. change (-40)%Z with (14 - 53 - 1)%Z. apply rnd_err; [unfold SpecFloat.emin; lia|].
    change (bpow radix2 14) with 16384. apply Rabs_le. lra. }
  destruct z4799 as [F1 V1]. destruct z4800 as [F2 V2].
  destruct (fge y0 _) eqn:G.
  - apply fge_true in G; try assumption. rewrite V1 in G.
    assert (FS : fmt64 (B2R y0 - 4800)).
    { apply (sterbenz radix2 (SpecFloat.fexp 53 1024)); [apply fmt_B2R|exact (fmt64_Z 4800 ltac:(lia))|lra]. }
    destruct (fsub_ok y0 (of_Z WAVETABLE_SIZE) A F2) as [P Q]; rewrite V2, rnd_fmt in * by exact FS.
    { apply b1024s. rewrite sixty. apply Rabs_le. lra. }
    exists 1%nat. split; [lia|]. rewrite Q. simpl INR.
    replace (B2R y0 - 4800 - (B2R x + B2R d - 4800 * 1)) with (B2R y0 - (B2R x + B2R d)) by ring. exact E.
  - exists 0%nat. split; [lia|]. simpl INR. rewrite Rmult_0_r, Rminus_0_r. exact E.
Qed.
Lemma sin_adv_inv s : sin_inv s -> sin_inv (sin_adv s).
Proof.
  intros (F1 & H1 & F2 & H2). destruct (sin_next _ _ F1 F2 H1 H2) as [A B]. unfold sin_inv, sin_adv. cbn [sin_ind sin_inc]. auto.
Qed.
Lemma sin_states_inv n s : sin_inv s -> sin_inv (sin_states n s) /\ sin_inc (sin_states n s) = sin_inc s.
Proof.
  intro I. induction n as [|n IH]; [auto|]. cbn [sin_states Nat.iter nat_rect] in *. destruct IH as [J1 J2].
  split; [apply sin_adv_inv, J1|exact J2].
Qed.
Lemma sin_drift n : forall s, sin_inv s -> exists W : nat,
  Rabs (B2R (sin_ind (sin_states n s)) - (B2R (sin_ind s) + INR n * B2R (sin_inc s) - 4800 * INR W)) <= INR n * bpow radix2 (-40).
Proof.
  intros s I. induction n as [|n IH].
  - exists 0%nat. cbn [sin_states Nat.iter nat_rect]. simpl INR. rewrite !Rmult_0_l, Rmult_0_r, Rplus_0_r, Rminus_0_r, Rminus_diag_eq, Rabs_R0 by reflexivity. lra.
  - destruct IH as (W & E). destruct (sin_states_inv n s I) as [(F1 & H1 & F2 & H2) J2].
    destruct (sin_adv_drift _ _ F1 F2 H1 H2) as (w & _ & D).
    exists (W + w)%nat. rewrite S_INR, plus_INR.
    change (sin_states (S n) s) with (sin_adv (sin_states n s)).
    change (sin_adv (mkSine (sin_ind (sin_states n s)) (sin_inc (sin_states n s)))) with (sin_adv (sin_states n s)) in D.
    rewrite J2 in D.
    match goal with |- Rabs ?e <= _ => replace e with ((B2R (sin_ind (sin_adv (sin_states n s))) - (B2R (sin_ind (sin_states n s)) + B2R (sin_inc s) - 4800 * INR w))
      + (B2R (sin_ind (sin_states n s)) - (B2R (sin_ind s) + INR n * B2R (sin_inc s) - 4800 * INR W))) by ring end.
    eapply Rle_trans; [apply Rabs_triang|]. rewrite Rmult_plus_distr_r, Rmult_1_l, Rplus_comm. apply Rplus_le_compat; assumption.
Qed.
(** against the ideal phase n*f/10 *)
Lemma sin_tuning n (f : f64) : fin f -> 0 <= B2R f <= 48000 -> exists W : nat,
  Rabs (B2R (sin_ind (sin_states n (sin_new f))) - (INR n * B2R f / 10 - 4800 * INR W)) <= INR n * bpow radix2 (-39).
Proof.
  intros F H. destruct (sin_drift n (sin_new f) (sin_new_inv f F H)) as (W & E). exists W.
  unfold sin_new in E at 2 3. cbn [sin_ind sin_inc] in E. change (B2R (f0 : f64)) with 0 in E.
  assert (E2 : Rabs (B2R (sin_rate f) - B2R f / 10) <= bpow radix2 (-40)).
  { destruct (sin_rate_ok f F) as (_ & B & _). { rewrite Rabs_pos_eq by lra. apply b900. rewrite sixty. lra. }
    rewrite B. change (-40)%Z with (14 - 53 - 1)%Z. apply rnd_err; [unfold SpecFloat.emin; lia|].
    change (bpow radix2 14) with 16384. apply Rabs_le. lra. }
  pose proof (pos_INR n) as Pn. set (x := B2R (sin_ind (sin_states n (sin_new f)))) in *.
  replace (x - (INR n * B2R f / 10 - 4800 * INR W))
    with ((x - (0 + INR n * B2R (sin_rate f) - 4800 * INR W)) + INR n * (B2R (sin_rate f) - B2R f / 10)) by field.
  eapply Rle_trans; [apply Rabs_triang|]. rewrite (Rabs_mult (INR n)), (Rabs_pos_eq (INR n)) by exact Pn.
  assert (B : INR n * Rabs (B2R (sin_rate f) - B2R f / 10) <= INR n * bpow radix2 (-40)) by (apply Rmult_le_compat_l; assumption).
  change (-39)%Z with (-40 + 1)%Z. rewrite bpow_double. lra.
Qed.

(** ** one sample *)
Lemma mul_small a x e : -1 <= a <= 1 -> -e <= x <= e -> - e <= a * x <= e.
Proof. intros. split; nra. Qed.
Lemma entry_acc m i : sin_accurate m -> (0 <= i < 4800)%Z ->
  fin (wavetable_entry m i) /\ Rabs (B2R (wavetable_entry m i) - sin (2 * PI * IZR i / 4800)) <= / 1000000000.
Proof.
  intros Sa Hi. destruct (warg_ok i Hi) as (A & B & C). destruct (Sa _ A C) as [D E].
  unfold wavetable_entry. fold wstep. split; [exact D|].
  eapply Rle_trans; [apply (Rabs_tri3 _ (sin (B2R (fmul wstep (of_Z i)))))|].
  assert (AE : Rabs (B2R (fmul wstep (of_Z i)) - 2 * PI * IZR i / 4800) <= / 2000000000).
  { eapply Rle_trans; [apply (Rabs_tri3 _ (B2R wstep * IZR i))|].
    assert (I0 : 0 <= IZR i <= 4800) by (split; apply IZR_le; lia).
    assert (E1 : Rabs (B2R (fmul wstep (of_Z i)) - B2R wstep * IZR i) <= bpow radix2 (-51)).
    { rewrite B. change (-51)%Z with (3 - 53 - 1)%Z. apply rnd_err; [unfold SpecFloat.emin; lia|].
      change (bpow radix2 3) with 8. rewrite wstep_val, Rabs_pos_eq; nra. }
    assert (E2 : Rabs (B2R wstep * IZR i - 2 * PI * IZR i / 4800) <= / 4000000000).
    { replace (B2R wstep * IZR i - 2 * PI * IZR i / 4800) with (IZR i * (B2R wstep - 2 * PI / 4800)) by field.
      rewrite Rabs_mult, (Rabs_pos_eq (IZR i)) by lra.
      apply Rle_trans with (4800 * (/ 4000000000 / 4800)); [|lra].
      apply Rmult_le_compat; [lra|apply Rabs_pos|lra|]. rewrite wstep_val. pose proof PI_bounds. apply Rabs_le. lra. }
    change (bpow radix2 (-51)) with (/ 2251799813685248) in E1. lra. }
  pose proof (sin_lip (B2R (fmul wstep (of_Z i))) (2 * PI * IZR i / 4800)).
  change (bpow radix2 (-50)) with (/ 1125899906842624) in E. lra.
Qed.

Lemma sin_sample_pos m s : sin_bounded m -> sin_accurate m -> sin_inv s -> 0 <= B2R (sin_ind s) ->
  exists y, sin_process m s = Ok (y, sin_adv s) /\ fin y /\
    Rabs (B2R y - sin (2 * PI * B2R (sin_ind s) / 4800)) <= bpow radix2 (-21).
Proof.
  intros Sb Sa I P. assert (I' := I). destruct I' as (F1 & H1 & F2 & H2).
  unfold sin_process. set (x := sin_ind s) in *.
  destruct (sin_idx x F1 ltac:(lra)) as (_ & _ & Z1 & Z2 & E1 & E2 & G1 & GE & G2). cbv zeta in *.
  set (z := Zfloor (B2R x)) in *.
  assert (Z0 : (0 <= z)%Z) by (apply Zfloor_lub; lra).
  rewrite E1, E2, Z.max_r by exact Z0. rewrite !wavetable_in by (destruct (z =? 4799)%Z eqn:?; lia). cbn [bind].
  destruct (entry_bound m z Sb ltac:(lia)) as [A1 A2].
  destruct (entry_acc m z Sa ltac:(lia)) as [_ A3].
  set (j := (if z =? 4799 then 0 else z + 1)%Z) in *.
  assert (Hj : (0 <= j < 4800)%Z) by (unfold j; destruct (Z.eqb_spec z 4799); lia).
  destruct (entry_bound m j Sb Hj) as [B1 B2]. destruct (entry_acc m j Sa Hj) as [_ B3].
  assert (SJ : sin (2 * PI * IZR j / 4800) = sin (2 * PI * IZR z / 4800 + 2 * PI / 4800)).
  { unfold j. destruct (Z.eqb_spec z 4799) as [->|N].
    - replace (2 * PI * 4799 / 4800 + 2 * PI / 4800) with (2 * PI) by field. rewrite sin_2PI.
      replace (2 * PI * 0 / 4800) with 0 by field. apply sin_0.
    - f_equal. rewrite plus_IZR. field. }
  rewrite SJ in B3.
  set (g := fsub x (ffloor x)) in *.
  destruct (blend g _ _ G1 G2 A1 A2 B1 B2) as (Y1 & Y2 & HH & HV & M1 & M2 & N1 & N2 & Y3). cbv zeta in *.
  set (h := fsub (of_Z 1) g) in *. set (a := wavetable_entry m z) in *. set (b := wavetable_entry m j) in *.
  set (y := fadd (fmul h a) (fmul g b)) in *.
  eexists. split; [reflexivity|].
  destruct (fcast_le (p2:=24) (e2:=128) y 1 Y1 (fmt32_Z 1 ltac:(lia))) as (O1 & O2 & _).
  { change 1 with (bpow radix2 0). apply bpow_lt. lia. } { exact Y2. }
  split; [exact O1|].
  assert (R0 : Rabs (B2R (to32 y) - B2R y) <= bpow radix2 (-25)).
  { assert (OE : B2R (to32 y) = rnd32 (B2R y)) by exact O2. rewrite OE. change (-25)%Z with (0 - 24 - 1)%Z.
    apply rnd_err; [unfold SpecFloat.emin; lia|]. exact Y2. }
  assert (S54 : forall t, Rabs t <= 2 -> Rabs (rnd64 t - t) <= bpow radix2 (-53)).
  { intros t Ht. change (-53)%Z with (1 - 53 - 1)%Z. apply rnd_err; [unfold SpecFloat.emin; lia|]. exact Ht. }
  change (bpow radix2 (-53)) with (/ 9007199254740992) in S54.
  apply Rabs_le_inv in A2. apply Rabs_le_inv in B2.
  assert (HA : -1 <= B2R h * B2R a <= 1) by (apply mul_small; lra).
  assert (GB : -1 <= B2R g * B2R b <= 1) by (apply mul_small; lra).
  assert (e1 := S54 (B2R h * B2R a) ltac:(apply Rabs_le; lra)). rewrite <- M2 in e1.
  assert (e2 := S54 (B2R g * B2R b) ltac:(apply Rabs_le; lra)). rewrite <- N2 in e2.
  apply Rabs_le_inv in e1. apply Rabs_le_inv in e2.
  assert (MH : Rabs (B2R (fmul h a)) <= 1).
  { rewrite M2. apply rnd_abs_le; [exact fmt64_1|]. apply Rabs_le. lra. }
  assert (MG : Rabs (B2R (fmul g b)) <= 1).
  { rewrite N2. apply rnd_abs_le; [exact fmt64_1|]. apply Rabs_le. lra. }
  apply Rabs_le_inv in MH. apply Rabs_le_inv in MG.
  assert (e3 := S54 (B2R (fmul h a) + B2R (fmul g b)) ltac:(apply Rabs_le; lra)). rewrite <- Y3 in e3.
  assert (e4 := S54 (1 - B2R g) ltac:(apply Rabs_le; lra)). rewrite <- HV in e4.
  set (G := B2R x - IZR z) in *.
  assert (e5 := S54 G ltac:(apply Rabs_le; unfold G; lra)). rewrite <- GE in e5.
  apply Rabs_le_inv in e3. apply Rabs_le_inv in e4. apply Rabs_le_inv in e5.
  set (A := sin (2 * PI * IZR z / 4800)) in *. set (B := sin (2 * PI * IZR z / 4800 + 2 * PI / 4800)) in *.
  apply Rabs_le_inv in A3. apply Rabs_le_inv in B3.
  assert (AB : -1 <= A <= 1 /\ -1 <= B <= 1) by (split; apply SIN_bound).
  assert (PB := PI_bounds).
  assert (INT := sin_interp (2 * PI * IZR z / 4800) (2 * PI / 4800) G ltac:(lra) ltac:(unfold G; lra)).
  replace (2 * PI * IZR z / 4800 + G * (2 * PI / 4800)) with (2 * PI * B2R x / 4800) in INT by (unfold G; field).
  fold A B in INT.
  assert (HB : 2 * PI / 4800 * (2 * PI / 4800) / 4 <= 42837 / 100000000000).
  { assert (D : 0 <= 2 * PI / 4800 <= 13089969390001 / 10000000000000000) by (clear - PB; lra). clear - D. set (t := 2 * PI / 4800) in *. nra. }
  (* float noise before the interpolation *)
  assert (NZ : Rabs (B2R y - ((1 - G) * A + G * B)) <= / 100000000).
  { assert (n1 : - / 1000000000 <= B2R h * B2R a - B2R h * A <= / 1000000000).
    { replace (B2R h * B2R a - B2R h * A) with (B2R h * (B2R a - A)) by ring. apply mul_small; lra. }
    assert (n2 : - / 1000000000 <= B2R g * B2R b - B2R g * B <= / 1000000000).
    { replace (B2R g * B2R b - B2R g * B) with (B2R g * (B2R b - B)) by ring. apply mul_small; lra. }
    assert (n3 : - / 4503599627370496 <= B2R h * A - (1 - G) * A <= / 4503599627370496).
    { replace (B2R h * A - (1 - G) * A) with (A * (B2R h - (1 - B2R g) + (G - B2R g))) by ring. apply mul_small; lra. }
    assert (n4 : - / 4503599627370496 <= B2R g * B - G * B <= / 4503599627370496).
    { replace (B2R g * B - G * B) with (B * (B2R g - G)) by ring. apply mul_small; lra. }
    apply Rabs_le. lra. }
  change (bpow radix2 (-25)) with (/ 33554432) in R0. change (bpow radix2 (-21)) with (/ 2097152).
  apply Rabs_le_inv in NZ. apply Rabs_le_inv in R0. apply Rabs_le_inv in INT. apply Rabs_le. lra.
Qed.

Lemma sin_sample_neg m s : sin_bounded m -> sin_zero m -> sin_inv s -> B2R (sin_ind s) < 0 ->
  exists y, sin_process m s = Ok (y, sin_adv s) /\ fin y /\ B2R y = 0.
Proof.
  intros Sb Sz I P. destruct I as (F1 & H1 & F2 & H2).
  unfold sin_process. set (x := sin_ind s) in *.
  destruct (sin_idx x F1 ltac:(lra)) as (_ & _ & Z1 & Z2 & E1 & E2 & G1 & GE & G2). cbv zeta in *.
  set (z := Zfloor (B2R x)) in *.
  assert (Z0 : z = (-1)%Z).
  { assert (z < 0)%Z by (apply lt_IZR; lra). lia. }
  rewrite E1, E2. rewrite Z0. change (Z.max 0 (-1)) with 0%Z. change (if (-1 =? 4799)%Z then 0%Z else (-1 + 1)%Z) with 0%Z.
  rewrite !wavetable_in by lia. cbn [bind]. eexists. split; [reflexivity|].
  destruct (entry_bound m 0 Sb ltac:(lia)) as [A1 A2].
  destruct (blend _ _ _ G1 G2 A1 A2 A1 A2) as (Y1 & _ & _ & _ & M1 & M2 & N1 & N2 & Y3). cbv zeta in *.
  apply to32_zero; [exact Y1|]. rewrite Y3, M2, N2, entry_0 by exact Sz. change (B2R (f0 : f64)) with 0.
  rewrite !Rmult_0_r, !rnd_0, Rplus_0_r, rnd_0. reflexivity.
Qed.

(** ** whole runs *)
Lemma sin_run_states m : sin_bounded m -> forall n s, sin_inv s ->
  exists ys, sin_run m (repeat GNext n) s = Ok (ys, sin_states n s) /\ length ys = n /\
    forall i, (i < n)%nat -> exists y, nth_error ys i = Some y /\ exists s', sin_process m (sin_states i s) = Ok (y, s').
Proof.
  intros Sb n. induction n as [|n IH]; intros s I.
  - exists []. split; [reflexivity|]. split; [reflexivity|]. intros i Hi. lia.
  - unfold sin_run. cbn [repeat grun]. fold (sin_run m).
    destruct (sin_step m s Sb I) as (y & s1 & E & I' & _). pose proof (sin_state _ _ _ _ E) as Es. subst s1. rewrite E. cbn [bind].
    destruct (IH _ I') as (ys & E2 & L & N). rewrite E2. cbn [bind]. exists (y :: ys).
    assert (SS : forall k, sin_states k (sin_adv s) = sin_states (S k) s).
    { induction k as [|k IHk]; [reflexivity|]. change (sin_states (S k) (sin_adv s)) with (sin_adv (sin_states k (sin_adv s))).
      rewrite IHk. reflexivity. }
    rewrite SS. split; [reflexivity|]. split; [simpl; lia|]. intros i Hi. destruct i as [|i].
    + exists y. split; [reflexivity|]. exists (sin_adv s). exact E.
    + destruct (N i ltac:(lia)) as (y' & Ny & s' & Es'). exists y'. split; [exact Ny|]. exists s'. rewrite <- SS. exact Es'.
Qed.

Lemma sin_accuracy m (f : f64) n : sin_bounded m -> sin_zero m -> sin_accurate m -> fin f -> 0 <= B2R f <= 48000 ->
  exists ys s', sin_run m (repeat GNext n) (sin_new f) = Ok (ys, s') /\ length ys = n /\
    forall i, (i < n)%nat -> exists y, nth_error ys i = Some y /\ is_finite y = true /\
      Rabs (B2R y - sin (2 * PI * B2R f * INR i / 48000)) <= bpow radix2 (-9) + INR i * bpow radix2 (-48).
Proof.
  intros Sb Sz Sa F H. assert (I := sin_new_inv f F H). destruct (sin_run_states m Sb n _ I) as (ys & E & L & N).
  exists ys, (sin_states n (sin_new f)). split; [exact E|]. split; [exact L|]. intros i Hi.
  destruct (N i Hi) as (y & Ny & s' & Es). exists y. split; [exact Ny|].
  destruct (sin_states_inv i _ I) as [Ii _]. set (s := sin_states i (sin_new f)) in *.
  assert (K : fin y /\ Rabs (B2R y - sin (2 * PI * B2R (sin_ind s) / 4800)) <= bpow radix2 (-9)).
  { change (bpow radix2 (-9)) with (/ 512). destruct (Rle_lt_dec 0 (B2R (sin_ind s))) as [P|P].
    - destruct (sin_sample_pos m s Sb Sa Ii P) as (y' & E' & F' & A'). rewrite E' in Es. injection Es as <- _.
      split; [exact F'|]. change (bpow radix2 (-21)) with (/ 2097152) in A'. lra.
    - destruct (sin_sample_neg m s Sb Sz Ii P) as (y' & E' & F' & A'). rewrite E' in Es. injection Es as <- _.
      split; [exact F'|]. rewrite A'. rewrite <- sin_0 at 1. eapply Rle_trans; [apply sin_lip|].
      destruct Ii as (_ & Hi' & _). pose proof PI_bounds. rewrite Rabs_pos_eq; nra. }
  destruct K as [Fy K]. split; [exact Fy|].
  destruct (sin_tuning i f F H) as (W & T). fold s in T.
  eapply Rle_trans; [apply (Rabs_tri3 _ (sin (2 * PI * B2R (sin_ind s) / 4800)))|]. apply Rplus_le_compat; [exact K|].
  rewrite <- (sin_shift (2 * PI * B2R f * INR i / 48000) W).
  eapply Rle_trans; [apply sin_lip|].
  replace (2 * PI * B2R (sin_ind s) / 4800 - (2 * PI * B2R f * INR i / 48000 - 2 * PI * INR W))
    with ((2 * PI / 4800) * (B2R (sin_ind s) - (INR i * B2R f / 10 - 4800 * INR W))) by field.
  pose proof PI_bounds. pose proof (pos_INR i).
  rewrite Rabs_mult, (Rabs_pos_eq (2 * PI / 4800)) by lra.
  apply Rle_trans with (/ 512 * (INR i * bpow radix2 (-39))).
  - apply Rmult_le_compat; [lra|apply Rabs_pos|lra|exact T].
  - change (bpow radix2 (-39)) with (/ 549755813888). change (bpow radix2 (-48)) with (/ 281474976710656). lra.
Qed.

(** ** clones of MonoResampler / MonoWav *)
From Verif Require Import Model.Mono Model.Resampler.
Fixpoint last_speed (v : f64) (ops : list rop) : f64 :=
  match ops with [] => v | RSpeed g :: ops => last_speed g ops | RProcess :: ops => last_speed v ops end.
Lemma resampler_state r y r' : resampler_process r = Ok (y, r') -> r' = r \/ r' = advance r.
Proof.
  intro E. unfold resampler_process in E. cbv zeta in E. destruct (_ && _).
  - left. apply (f_equal (fun x => match x with Ok (_, t) => t | Panic => r end)) in E. symmetry. exact E.
  - right. destruct (usize_add _ _) as [n|]; [|discriminate]. cbn [bind] in E.
    match type of E with bind ?e _ = _ => destruct e as [p1|]; [|discriminate] end. cbn [bind] in E.
    match type of E with bind ?e _ = _ => destruct e as [x1|]; [|discriminate] end. cbn [bind] in E.
    apply (f_equal (fun x => match x with Ok (_, t) => t | Panic => r end)) in E. symmetry. exact E.
Qed.
Lemma resampler_clone_run ops : forall v r r0 ys r', resampler_clone r = set_playback_speed r0 v ->
  rrun ops r = Ok (ys, r') -> resampler_clone r' = set_playback_speed r0 (last_speed v ops).
Proof.
  induction ops as [|[g|] ops IH]; intros v r r0 ys r' C E.
  - injection E as <- <-. exact C.
  - cbn [rrun last_speed] in *. apply (IH g (set_playback_speed r g) r0 ys r'); [|exact E].
    unfold resampler_clone, set_playback_speed in *. cbn [r_data r_ind r_inc r_speed r_ls r_le] in *. congruence.
  - cbn [rrun last_speed] in *. destruct (resampler_process r) as [[y r1]|] eqn:E1; [|discriminate]. cbn [bind] in E.
    destruct (rrun ops r1) as [[zs r2]|] eqn:E2; [|discriminate]. cbn [bind] in E.
    apply (f_equal (fun x => match x with Ok (_, t) => t | Panic => r2 end)) in E. cbv beta iota in E. subst r2.
    apply (IH v r1 r0 zs r'); [|exact E2]. destruct (resampler_state _ _ _ E1) as [-> | ->]; exact C.
Qed.
