(** * Generators whose frequency changes while they run *)

From Coq Require Import ZArith List Bool Reals Lra Lia Psatz.
From Flocq Require Import Core.Core IEEE754.BinarySingleNaN Relative Sterbenz Plus_error.
From Verif Require Import Model.Floats Model.Generators Spec.Libm Spec.Waves Spec.Sweep
  Proof.FloatFacts Proof.SampleFormatP Proof.FormatsP Proof.UtilsP Proof.ResamplerP Proof.GeneratorsP Proof.GeneratorsP2 Proof.GeneratorsP3 Proof.GeneratorsP4 Proof.WavesP.
Import ListNotations.
Local Open Scope R_scope.

(** ** Sine *)
Lemma sin_phase_sample m s (P e : R) (W : nat) : sin_bounded m -> sin_zero m -> sin_accurate m -> sin_inv s ->
  Rabs (B2R (sin_ind s) - (4800 * P - 4800 * INR W)) <= e ->
  exists y, sin_process m s = Ok (y, sin_adv s) /\ fin y /\ Rabs (B2R y - sin (2 * PI * P)) <= bpow radix2 (-9) + e / 512.
Proof.
  intros Sb Sz Sa I D.
  assert (K : exists y, sin_process m s = Ok (y, sin_adv s) /\ fin y /\ Rabs (B2R y - sin (2 * PI * B2R (sin_ind s) / 4800)) <= bpow radix2 (-9)).
  { change (bpow radix2 (-9)) with (/ 512). destruct (Rle_lt_dec 0 (B2R (sin_ind s))) as [G|G].
    - destruct (sin_sample_pos m s Sb Sa I G) as (y & E & F & A). exists y. split; [exact E|]. split; [exact F|].
      change (bpow radix2 (-21)) with (/ 2097152) in A. lra.
    - destruct (sin_sample_neg m s Sb Sz I G) as (y & E & F & A). exists y. split; [exact E|]. split; [exact F|].
      rewrite A. rewrite <- sin_0 at 1. eapply Rle_trans; [apply sin_lip|].
      destruct I as (_ & Hi' & _). pose proof PI_bounds. rewrite Rabs_pos_eq; nra. }
  destruct K as (y & E & F & K). exists y. split; [exact E|]. split; [exact F|].
  eapply Rle_trans; [apply (Rabs_tri3 _ (sin (2 * PI * B2R (sin_ind s) / 4800)%R))|]. apply Rplus_le_compat; [exact K|].
  rewrite <- (GeneratorsP4.sin_shift (2 * PI * P) W). eapply Rle_trans; [apply sin_lip|].
  replace (2 * PI * B2R (sin_ind s) / 4800 - (2 * PI * P - 2 * PI * INR W))
    with ((2 * PI / 4800) * (B2R (sin_ind s) - (4800 * P - 4800 * INR W))) by field.
  pose proof PI_bounds. rewrite Rabs_mult, (Rabs_pos_eq (2 * PI / 4800)) by lra.
  unfold Rdiv at 2. rewrite (Rmult_comm e). apply Rmult_le_compat; [lra|apply Rabs_pos|lra|exact D].
Qed.

Lemma sin_rate_err (f : f64) : fin f -> 0 <= B2R f <= 48000 -> Rabs (B2R (sin_rate f) - B2R f / 10) <= bpow radix2 (-40).
Proof.
  intros F H. destruct (sin_rate_ok f F) as (_ & B & _). { rewrite Rabs_pos_eq by lra. apply b900. rewrite sixty. lra. }
  rewrite B. change (-40)%Z with (14 - 53 - 1)%Z. apply rnd_err; [unfold SpecFloat.emin; lia|].
  change (bpow radix2 14) with 16384. apply Rabs_le. lra.
Qed.

Lemma sin_sweep_gen m ops : sin_bounded m -> sin_zero m -> sin_accurate m -> freqs (fun f => fin f /\ 0 <= B2R f <= 48000) ops ->
  forall s f (P e : R) (W : nat), sin_inv s -> sin_inc s = sin_rate f -> fin f -> 0 <= B2R f <= 48000 ->
  Rabs (B2R (sin_ind s) - (4800 * P - 4800 * INR W)) <= e ->
  exists ys s', sin_run m ops s = Ok (ys, s') /\ length ys = length (heard f ops) /\
    forall i y, nth_error ys i = Some y -> fin y /\
      Rabs (B2R y - sin (2 * PI * (P + periods (heard f ops) i))) <= bpow radix2 (-9) + (e + INR i * bpow radix2 (-39)) / 512.
Proof.
  intros Sb Sz Sa Ho. induction Ho as [|o ops Hf Ho IH]; intros s f P e W I Ei F H D.
  - exists [], s. split; [reflexivity|]. split; [reflexivity|]. intros [|i] y Hy; discriminate.
  - destruct o as [g|]; unfold sin_run; cbn [grun heard]; fold (sin_run m).
    + destruct Hf as [Fg Hg]. apply (IH (sin_set_frequency s g) g P e W).
      * destruct I as (I1 & I2 & _). destruct (sin_rate_range g Fg Hg). unfold sin_inv, sin_set_frequency. cbn [sin_ind sin_inc]. auto.
      * reflexivity.
      * exact Fg.
      * exact Hg.
      * exact D.
    + destruct (sin_phase_sample m s P e W Sb Sz Sa I D) as (y0 & E & F0 & A0). rewrite E. cbn [bind].
      assert (I' := I). destruct I' as (F1 & H1 & F2 & H2). destruct (sin_adv_drift _ _ F1 F2 H1 H2) as (w & _ & Dw).
      assert (RE := sin_rate_err f F H).
      destruct (IH (sin_adv s) f (P + B2R f / 48000) (e + bpow radix2 (-39)) (W + w)%nat) as (ys & s' & E' & L & A).
      * apply sin_adv_inv, I.
      * exact Ei.
      * exact F.
      * exact H.
      * rewrite plus_INR.
        match goal with |- Rabs ?x <= _ => replace x with
          ((B2R (sin_ind (sin_adv s)) - (B2R (sin_ind s) + B2R (sin_inc s) - 4800 * INR w))
           + (B2R (sin_ind s) - (4800 * P - 4800 * INR W)) + (B2R (sin_inc s) - B2R f / 10)) by field end.
        eapply Rle_trans; [apply Rabs_triang|]. eapply Rle_trans; [apply Rplus_le_compat_r, Rabs_triang|].
        assert (Dw' : Rabs (B2R (sin_ind (sin_adv s)) - (B2R (sin_ind s) + B2R (sin_inc s) - 4800 * INR w)) <= bpow radix2 (-40)).
        { destruct s. exact Dw. }
        rewrite <- Ei in RE. change (-39)%Z with (-40 + 1)%Z. rewrite bpow_double. lra.
      * rewrite E'. cbn [bind]. exists (y0 :: ys), s'. split; [reflexivity|]. split; [cbn [length]; lia|].
        intros [|i] y Hy.
        -- cbn [nth_error] in Hy. assert (y = y0) as -> by congruence. split; [exact F0|]. cbn [periods]. rewrite Rplus_0_r. simpl INR.
           rewrite Rmult_0_l, Rplus_0_r. exact A0.
        -- cbn [nth_error] in Hy. destruct (A i y Hy) as [Fy Ay]. split; [exact Fy|]. cbn [periods].
           rewrite <- Rplus_assoc, S_INR. eapply Rle_trans; [exact Ay|]. apply Req_le. field.
Qed.
Lemma sin_sweep m (f : f64) ops : sin_bounded m -> sin_zero m -> sin_accurate m -> fin f -> 0 <= B2R f <= 48000 ->
  freqs (fun f => fin f /\ 0 <= B2R f <= 48000) ops ->
  exists ys s', sin_run m ops (sin_new f) = Ok (ys, s') /\ length ys = length (heard f ops) /\
    forall i y, nth_error ys i = Some y -> fin y /\
      Rabs (B2R y - sin (2 * PI * periods (heard f ops) i)) <= bpow radix2 (-9) + INR i * bpow radix2 (-48).
Proof.
  intros Sb Sz Sa F H Ho. destruct (sin_sweep_gen m ops Sb Sz Sa Ho (sin_new f) f 0 0 0%nat) as (ys & s' & E & L & A).
  - apply sin_new_inv; assumption.
  - reflexivity.
  - exact F.
  - exact H.
  - change (B2R (sin_ind (sin_new f))) with 0. simpl INR. rewrite !Rmult_0_r, !Rminus_0_r, Rabs_R0. lra.
  - exists ys, s'. split; [exact E|]. split; [exact L|]. intros i y Hy. destruct (A i y Hy) as [Fy Ay]. split; [exact Fy|].
    rewrite Rplus_0_l in Ay. eapply Rle_trans; [exact Ay|]. apply Req_le.
    change (bpow radix2 (-39)) with (/ 549755813888). change (bpow radix2 (-48)) with (/ 281474976710656). field.
Qed.

(** ** Sawtooth *)
Lemma saw_phase_sample s (p e : R) (W : Z) : saw_inv s -> Rabs (B2R (saw_inc s) - (2 * p - 2 * IZR W)) <= e ->
  let y := fst (saw_process s) in fin y /\ (Rabs (sawtooth_wave p) < 1 - e -> Rabs (B2R y - sawtooth_wave p) <= bpow radix2 (-25) + e).
Proof.
  intros I E. cbv zeta. destruct (saw_step _ I) as (_ & O). change (fst (saw_process s)) with (to32 (saw_inc s)) in *.
  destruct I as (_ & _ & I3 & I4). destruct O as (O1 & _). split; [exact O1|]. intro G.
  pose proof (to32_unit_err _ I3 ltac:(lra)) as R1. unfold sawtooth_wave in *. set (V := Zfloor (p + / 2)) in *.
  set (x := B2R (saw_inc s)) in *. apply Rabs_le_inv in E. apply Rabs_lt_inv in G.
  assert (EQ : V = W).
  { assert (L : -1 < IZR (V - W) < 1) by (rewrite minus_IZR; lra). destruct L as [L1 L2]. apply lt_IZR in L1. apply lt_IZR in L2. lia. }
  rewrite EQ in *. replace (B2R (to32 (saw_inc s)) - (2 * p - 2 * IZR W)) with ((B2R (to32 (saw_inc s)) - x) + (x - (2 * p - 2 * IZR W))) by ring.
  eapply Rle_trans; [apply Rabs_triang|]. apply Rplus_le_compat; [exact R1|]. apply Rabs_le. lra.
Qed.
Lemma saw_sweep_gen ops : freqs (fun f => fin f /\ 0 <= B2R f <= 24000) ops ->
  forall s f (p e : R) (W : Z), saw_inv s -> saw_irate s = saw_rate f -> fin f -> 0 <= B2R f <= 24000 ->
  Rabs (B2R (saw_inc s) - (2 * p - 2 * IZR W)) <= e ->
  exists ys s', saw_run ops s = Ok (ys, s') /\ length ys = length (heard f ops) /\
    forall i y, nth_error ys i = Some y -> let w := sawtooth_wave (p + periods (heard f ops) i) in fin y /\
      (Rabs w < 1 - (e + INR i * bpow radix2 (-51)) -> Rabs (B2R y - w) <= bpow radix2 (-25) + (e + INR i * bpow radix2 (-51))).
Proof.
  intro Ho. induction Ho as [|o ops Hf Ho IH]; intros s f p e W I Ei F H D.
  - exists [], s. split; [reflexivity|]. split; [reflexivity|]. intros [|i] y Hy; discriminate.
  - destruct o as [g|]; unfold saw_run; cbn [grun heard]; fold saw_run.
    + destruct Hf as [Fg Hg]. apply (IH (saw_set_frequency s g) g p e W).
      * destruct I as (_ & _ & I3 & I4). destruct (saw_rate_nonneg g Fg Hg). unfold saw_inv, saw_set_frequency. cbn [saw_irate saw_inc]. auto.
      * reflexivity.
      * exact Fg.
      * exact Hg.
      * exact D.
    + destruct (saw_phase_sample s p e W I D) as (F0 & A0). destruct (saw_process s) as [y0 s1] eqn:E. cbn [fst] in F0, A0. cbn [bind].
      destruct (saw_step s I) as (I1 & _ & _ & w & d & _ & Hd & V). rewrite E in I1, V. cbn [snd] in I1, V.
      assert (RE := saw_rate_err f F H). rewrite <- Ei in RE.
      destruct (IH s1 f (p + B2R f / 48000) (e + bpow radix2 (-51)) (W + w)%Z) as (ys & s' & E' & L & A).
      * exact I1.
      * assert (s1 = snd (saw_process s)) as -> by (rewrite E; reflexivity). exact Ei.
      * exact F.
      * exact H.
      * rewrite V, plus_IZR.
        match goal with |- Rabs ?x <= _ => replace x with
          ((B2R (saw_inc s) - (2 * p - 2 * IZR W)) + (B2R (saw_irate s) - 2 * B2R f / 48000) + d) by field end.
        eapply Rle_trans; [apply Rabs_triang|]. eapply Rle_trans; [apply Rplus_le_compat_r, Rabs_triang|].
        change (bpow radix2 (-53)) with (/ 9007199254740992) in *. change (bpow radix2 (-52)) with (/ 4503599627370496) in *.
        change (bpow radix2 (-51)) with (/ 2251799813685248). lra.
      * rewrite E'. cbn [bind]. exists (y0 :: ys), s'. split; [reflexivity|]. split; [cbn [length]; lia|].
        intros [|i] y Hy.
        -- cbn [nth_error] in Hy. assert (y = y0) as -> by congruence. cbn [periods]. cbv zeta. rewrite Rplus_0_r. simpl INR.
           rewrite Rmult_0_l, Rplus_0_r. split; [exact F0|exact A0].
        -- cbn [nth_error] in Hy. destruct (A i y Hy) as [Fy Ay]. cbv zeta. split; [exact Fy|]. cbn [periods].
           rewrite <- Rplus_assoc, S_INR. replace (e + (INR i + 1) * bpow radix2 (-51)) with (e + bpow radix2 (-51) + INR i * bpow radix2 (-51)) by ring. exact Ay.
Qed.
Lemma saw_sweep (f : f64) ops : fin f -> 0 <= B2R f <= 24000 -> freqs (fun f => fin f /\ 0 <= B2R f <= 24000) ops ->
  exists ys s', saw_run ops (saw_new f) = Ok (ys, s') /\ length ys = length (heard f ops) /\
    forall i y, nth_error ys i = Some y -> let w := sawtooth_wave (periods (heard f ops) i) in fin y /\
      (Rabs w < 1 - INR i * bpow radix2 (-51) -> Rabs (B2R y - w) <= bpow radix2 (-25) + INR i * bpow radix2 (-51)).
Proof.
  intros F H Ho. destruct (saw_sweep_gen ops Ho (saw_new f) f 0 0 0%Z) as (ys & s' & E & L & A).
  - apply saw_new_inv; assumption.
  - reflexivity.
  - exact F.
  - exact H.
  - change (B2R (saw_inc (saw_new f))) with 0. rewrite !Rmult_0_r, !Rminus_0_r, Rabs_R0. lra.
  - exists ys, s'. split; [exact E|]. split; [exact L|]. intros i y Hy. pose proof (A i y Hy) as B. cbv zeta in *. rewrite !Rplus_0_l in B. exact B.
Qed.

(** ** Triangle: setting the frequency before every sample *)
Definition nag (f : f64) (n : nat) : list gop := concat (repeat [GFreq f; GNext] n).
Lemma heard_nag g f n : heard g (nag f n) = repeat f n.
Proof. unfold nag. revert g. induction n as [|n IH]; intro g; [reflexivity|]. cbn [repeat concat app heard]. rewrite IH. reflexivity. Qed.

Definition tri_nag (f : f64) (s : triangle) : triangle := snd (tri_process (tri_set_frequency s f)).
Lemma tri_nag_step (f : f64) s (k : R) : fin f -> 0 <= B2R f <= 24000 -> tri_inv s ->
  let r := B2R (tri_rate f) in let L := 2 - rnd64 (1 + r) in
  L <= B2R (tri_inc s) \/ k * (r - bpow radix2 (-52)) <= B2R (tri_inc s) /\ 0 <= B2R (tri_inc s) ->
  let s' := tri_nag f s in tri_inv s' /\
  (L <= B2R (tri_inc s') \/ (k + 1) * (r - bpow radix2 (-52)) <= B2R (tri_inc s') /\ 0 <= B2R (tri_inc s')).
Proof.
  intros F H I. cbv zeta. intro C. assert (HA : Rabs (B2R f) <= 24000) by (rewrite Rabs_pos_eq; lra).
  assert (I1 := tri_set_inv s f I F HA). destruct (tri_step _ I1) as (I' & _ & _ & _ & _ & K). fold (tri_nag f s) in *.
  split; [exact I'|]. unfold tri_sum in K. change (tri_inc (tri_set_frequency s f)) with (tri_inc s) in K.
  change (tri_irate (tri_set_frequency s f)) with (tri_rate f) in K.
  destruct (tri_rate_ok f F HA) as (Fr & Vr & Br). set (r := B2R (tri_rate f)) in *.
  assert (R0 : 0 <= r). { rewrite Vr. apply (rnd_ge_fmt (prec:=53) (emax:=1024)); [apply generic_format_0|]. rewrite INV_val. nra. }
  assert (RE : Rabs (rnd64 (B2R (tri_inc s) + r) - (B2R (tri_inc s) + r)) <= bpow radix2 (-52)).
  { change (-52)%Z with (2 - 53 - 1)%Z. apply rnd_err; [unfold SpecFloat.emin; lia|]. change (bpow radix2 2) with 4.
    destruct I as (_ & _ & _ & I4). eapply Rle_trans; [apply Rabs_triang|]. lra. }
  assert (R1 : Rabs (rnd64 (1 + r) - (1 + r)) <= bpow radix2 (-52)).
  { change (-52)%Z with (2 - 53 - 1)%Z. apply rnd_err; [unfold SpecFloat.emin; lia|]. change (bpow radix2 2) with 4.
    apply Rabs_le_inv in Br. apply Rabs_le. lra. }
  destruct I as (_ & _ & I3 & I4). apply Rabs_le_inv in I4.
  assert (M : rnd64 (B2R (tri_inc s) + r) <= rnd64 (1 + r)) by (apply rnd_le; lra).
  assert (M2 : B2R (tri_inc s) <= rnd64 (B2R (tri_inc s) + r)) by (apply (rnd_ge_fmt (prec:=53) (emax:=1024)); [apply fmt_B2R|lra]).
  apply Rabs_le_inv in RE. apply Rabs_le_inv in R1.
  change (bpow radix2 (-52)) with (/ 4503599627370496) in *. set (x := rnd64 (B2R (tri_inc s) + r)) in *.
  destruct K as [(K1 & _ & K2)|[(K1 & _ & K2)|(K1 & _ & K2)]].
  - left. rewrite K2. lra.
  - exfalso. destruct C as [C|[_ C]]; lra.
  - rewrite K2. destruct C as [C|[C1 C2]]; [left; lra|]. right. split; [|lra]. rewrite Rmult_plus_distr_r. lra.
Qed.

Lemma tri_nag_run (f : f64) : fin f -> 0 <= B2R f <= 24000 -> forall n s (k : R), tri_inv s ->
  let r := B2R (tri_rate f) in let L := 2 - rnd64 (1 + r) in
  L <= B2R (tri_inc s) \/ k * (r - bpow radix2 (-52)) <= B2R (tri_inc s) /\ 0 <= B2R (tri_inc s) ->
  exists ys s', tri_run (nag f n) s = Ok (ys, s') /\ length ys = n /\
    forall i y, nth_error ys i = Some y -> exists t, tri_inv t /\ y = to32 (tri_inc t) /\
      (L <= B2R (tri_inc t) \/ (k + INR i) * (r - bpow radix2 (-52)) <= B2R (tri_inc t) /\ 0 <= B2R (tri_inc t)).
Proof.
  intros F H n. induction n as [|n IH]; intros s k I r L C.
  - exists [], s. split; [reflexivity|]. split; [reflexivity|]. intros [|i] y Hy; discriminate.
  - destruct (tri_nag_step f s k F H I C) as (I' & C'). fold r in C'. fold L in C'.
    destruct (IH _ (k + 1) I' C') as (ys & s' & E & Ln & A).
    unfold nag. cbn [repeat concat app]. unfold tri_run. cbn [grun]. fold tri_run. fold (nag f n).
    rewrite (surjective_pairing (tri_process (tri_set_frequency s f))). cbn [bind]. fold (tri_nag f s). rewrite E. cbn [bind].
    assert (I1 : tri_inv (tri_set_frequency s f)) by (apply tri_set_inv; [exact I|exact F|rewrite Rabs_pos_eq; lra]).
    destruct (tri_step _ I1) as (_ & _ & _ & O & _). change (tri_inc (tri_set_frequency s f)) with (tri_inc s) in O.
    exists (fst (tri_process (tri_set_frequency s f)) :: ys), s'. split; [reflexivity|]. split; [cbn [length]; lia|].
    intros [|i] y Hy; cbn [nth_error] in Hy.
    + exists s. split; [exact I|]. split; [congruence|]. simpl INR. rewrite Rplus_0_r. exact C.
    + destruct (A i y Hy) as (t & It & Et & Ct). exists t. split; [exact It|]. split; [exact Et|].
      rewrite S_INR. replace (k + (INR i + 1)) with (k + 1 + INR i) by ring. exact Ct.
Qed.

Lemma tri_nag_stuck (f : f64) (n : nat) : fin f -> bpow radix2 (-20) <= B2R f <= 24000 ->
  exists ys s', tri_run (nag f n) (tri_new f) = Ok (ys, s') /\ length ys = n /\
    forall i y, nth_error ys i = Some y -> 12001 <= B2R f * INR i -> fin y /\ 1 - 4 * B2R f / 48000 - bpow radix2 (-24) <= B2R y <= 1.
Proof.
  intros F H. change (bpow radix2 (-20)) with (/ 1048576) in H. assert (HA : Rabs (B2R f) <= 24000) by (rewrite Rabs_pos_eq; lra).
  destruct (tri_nag_run f F ltac:(lra) n (tri_new f) 0 (tri_new_inv f F HA)) as (ys & s' & E & L & A).
  { right. change (B2R (tri_inc (tri_new f))) with 0. lra. }
  exists ys, s'. split; [exact E|]. split; [exact L|]. intros i y Hy Hi.
  destruct (A i y Hy) as (t & (_ & _ & I3 & I4) & -> & C). clear A E L Hy. apply Rabs_le_inv in I4.
  pose proof (to32_unit_err _ I3 I4) as T. destruct (to32_unit _ I3 I4) as [T1 T2]. split; [exact T1|].
  pose proof (tri_rate_err f F HA) as RE. destruct (tri_rate_ok f F HA) as (_ & _ & Br). set (r := B2R (tri_rate f)) in *.
  assert (R1 : Rabs (rnd64 (1 + r) - (1 + r)) <= bpow radix2 (-52)).
  { change (-52)%Z with (2 - 53 - 1)%Z. apply rnd_err; [unfold SpecFloat.emin; lia|]. change (bpow radix2 2) with 4.
    apply Rabs_le_inv in Br. apply Rabs_le. lra. }
  apply Rabs_le_inv in R1. apply Rabs_le_inv in RE. apply Rabs_le_inv in T.
  change (bpow radix2 (-52)) with (/ 4503599627370496) in *. change (bpow radix2 (-51)) with (/ 2251799813685248) in *.
  change (bpow radix2 (-24)) with (/ 16777216). change (bpow radix2 (-25)) with (/ 33554432) in T.
  split; [|lra]. destruct C as [C|[C _]]; [lra|]. exfalso. rewrite Rplus_0_l in C.
  assert (Pi := pos_INR i).
  assert (B : INR i * (B2R f * (99999 / 100000 / 12000)) <= INR i * (r - / 4503599627370496)) by (apply Rmult_le_compat_l; lra).
  lra.
Qed.
