(** * Proofs about Sine; getters, setters and clones of all generators *)

From Coq Require Import ZArith List Bool Reals Lra Lia Psatz.
From Flocq Require Import Core.Core IEEE754.BinarySingleNaN Relative Sterbenz Plus_error.
From Verif Require Import Model.Floats Model.Generators Spec.Libm
  Proof.FloatFacts Proof.SampleFormatP Proof.FormatsP Proof.UtilsP Proof.ResamplerP Proof.GeneratorsP Proof.GeneratorsP2.
Import ListNotations.
Local Open Scope R_scope.

Lemma z4800 : fin (of_Z WAVETABLE_SIZE : f64) /\ B2R (of_Z WAVETABLE_SIZE : f64) = 4800.
Proof. exact (of_Z64 4800 ltac:(lia)). Qed.
Lemma z4799 : fin (fsub (of_Z WAVETABLE_SIZE) (of_Z 1) : f64) /\ B2R (fsub (of_Z WAVETABLE_SIZE) (of_Z 1) : f64) = 4799.
Proof. destruct z4800 as [A B], one64 as [C D]. apply (fsub_int64 _ _ 4800 1); try assumption. lia. Qed.
Lemma z10 : fin (of_Z WAVETABLE_FREQ : f64) /\ B2R (of_Z WAVETABLE_FREQ : f64) = 10.
Proof. exact (of_Z64 10 ltac:(lia)). Qed.

Lemma to_usize_neg (x : f64) : fin x -> B2R x <= 0 -> to_usize x = 0%Z.
Proof.
  intros F H. unfold to_usize. rewrite (to_int_fin _ _ _ F), Ztrunc_ceil by exact H.
  assert (Zceil (B2R x) <= 0)%Z by (apply Zceil_glb; exact H). unfold u64_max. lia.
Qed.
Lemma to_usize_floor (x : f64) k : fin x -> B2R x = IZR k -> (0 <= k <= 2 ^ 60)%Z -> to_usize x = k.
Proof. intros F V H. apply to_usize_fin; [exact F|exact H|]. rewrite V. lra. Qed.

(** ** the wavetable *)
Definition wstep : f64 := fmul (fmul (fmul (of_Z 2) PI64) INV_SAMPLE_RATE) (of_Z WAVETABLE_FREQ).
Lemma wstep_ok : fin wstep /\ B2R wstep = IZR 6036682881730935 * bpow radix2 (-62).
Proof.
  assert (E : wstep = lit 6036682881730935 (-62)) by (apply B2SF_inj; vm_compute; reflexivity).
  rewrite E. apply lit_ok.
  - apply fmt_FLT; [reflexivity|unfold SpecFloat.emin; lia].
  - change (bpow radix2 (-62)) with (/ IZR (2 ^ 62)). change (2 ^ 62)%Z with 4611686018427387904%Z.
    rewrite Rabs_pos_eq by lra. apply Rlt_trans with 1; [lra|]. change 1 with (bpow radix2 0). apply bpow_lt. lia.
Qed.
Lemma wstep_val : B2R wstep = 6036682881730935 / 4611686018427387904.
Proof. rewrite (proj2 wstep_ok). reflexivity. Qed.

Lemma warg_ok i : (0 <= i < 4800)%Z -> fin (fmul wstep (of_Z i)) /\ B2R (fmul wstep (of_Z i)) = rnd64 (B2R wstep * IZR i) /\
  Rabs (B2R (fmul wstep (of_Z i))) <= 8.
Proof.
  intro Hi. destruct wstep_ok as [F _]. destruct (of_Z64 i ltac:(lia)) as [G V].
  assert (I0 : 0 <= IZR i <= 4800) by (split; apply IZR_le; lia).
  destruct (fmul_le wstep (of_Z i) 8 F G) as (A & B & C).
  - exact (fmt64_Z 8 ltac:(lia)).
  - apply b1024s. rewrite sixty. lra.
  - rewrite V, wstep_val, Rabs_pos_eq; nra.
  - rewrite V in B. auto.
Qed.
Lemma entry_bound m i : sin_bounded m -> (0 <= i < 4800)%Z -> fin (wavetable_entry m i) /\ Rabs (B2R (wavetable_entry m i)) <= 1.
Proof. intros S H. apply S. apply (warg_ok i H). Qed.
Lemma entry_0 m : sin_zero m -> wavetable_entry m 0 = f0.
Proof.
  intro S. unfold wavetable_entry. fold wstep. replace (fmul wstep (of_Z 0)) with (f0 : f64); [exact S|].
  apply B2SF_inj. vm_compute. reflexivity.
Qed.
Lemma wavetable_in m i : (0 <= i < 4800)%Z -> wavetable m i = Ok (wavetable_entry m i).
Proof.
  intro H. unfold wavetable. change WAVETABLE_SIZE with 4800%Z.
  destruct (Z.leb_spec 0 i), (Z.ltb_spec i 4800); try lia. reflexivity.
Qed.

(** ** interpolation *)
Lemma blend (g a b : f64) : fin g -> 0 <= B2R g <= 1 -> fin a -> Rabs (B2R a) <= 1 -> fin b -> Rabs (B2R b) <= 1 ->
  let h := fsub (of_Z 1) g in let y := fadd (fmul h a) (fmul g b) in
  fin y /\ Rabs (B2R y) <= 1 /\ 0 <= B2R h <= 1 /\ B2R h = rnd64 (1 - B2R g) /\
  fin (fmul h a) /\ B2R (fmul h a) = rnd64 (B2R h * B2R a) /\ fin (fmul g b) /\ B2R (fmul g b) = rnd64 (B2R g * B2R b) /\
  B2R y = rnd64 (B2R (fmul h a) + B2R (fmul g b)).
Proof.
  intros Fg Hg Fa Ha Fb Hb h y. destruct one64 as [F1 V1].
  destruct (fsub_le (of_Z 1) g 1 F1 Fg fmt64_1) as (A & B & _).
  { apply b1024s. rewrite sixty. lra. } { rewrite V1, Rabs_pos_eq; lra. }
  fold h in A, B. rewrite V1 in B.
  assert (H0 : 0 <= B2R h <= 1).
  { rewrite B. split; [apply rnd_nonneg; lra|]. apply (rnd_le_fmt (prec:=53) (emax:=1024)); [exact fmt64_1|lra]. }
  assert (HE : Rabs (B2R h - (1 - B2R g)) <= bpow radix2 (-54)).
  { rewrite B. change (-54)%Z with (0 - 53 - 1)%Z. apply rnd_err; [unfold SpecFloat.emin; lia|].
    change (bpow radix2 0) with 1. rewrite Rabs_pos_eq; lra. }
  destruct (fmul_le h a (B2R h) A Fa (fmt_B2R h)) as (C1 & C2 & C3).
  { apply b1024s. rewrite sixty. lra. }
  { rewrite Rabs_mult, (Rabs_pos_eq (B2R h)) by lra. rewrite <- (Rmult_1_r (B2R h)) at 2. apply Rmult_le_compat_l; lra. }
  destruct (fmul_le g b (B2R g) Fg Fb (fmt_B2R g)) as (D1 & D2 & D3).
  { apply b1024s. rewrite sixty. lra. }
  { rewrite Rabs_mult, (Rabs_pos_eq (B2R g)) by lra. rewrite <- (Rmult_1_r (B2R g)) at 2. apply Rmult_le_compat_l; lra. }
  assert (S : Rabs (B2R (fmul h a) + B2R (fmul g b)) <= 1 + bpow radix2 (0 - 53)).
  { eapply Rle_trans; [apply Rabs_triang|]. apply Rabs_le_inv in HE.
    change (bpow radix2 (-54)) with (/ 18014398509481984) in HE. change (bpow radix2 (0 - 53)) with (/ 9007199254740992). lra. }
  assert (R1 : Rabs (rnd64 (B2R (fmul h a) + B2R (fmul g b))) <= 1).
  { pose proof (rnd_absorb64 0 ltac:(lia)) as AB. change (bpow radix2 0) with 1 in AB. rewrite <- AB.
    apply Rabs_le_inv in S. apply Rabs_le. split.
    - rewrite <- (rnd_opp (prec:=53) (emax:=1024)). apply rnd_le. lra.
    - apply rnd_le. lra. }
  destruct (fadd_ok (fmul h a) (fmul g b) C1 D1) as [E1 E2].
  { apply b1024s. rewrite sixty. lra. }
  fold y in E1, E2. rewrite E2. repeat split; try assumption; lra.
Qed.

(** index computation for a phase in [-1,4800) *)
Lemma sin_idx (x : f64) : fin x -> -1 <= B2R x < 4800 ->
  let k := ffloor x in let z := Zfloor (B2R x) in
  fin k /\ B2R k = IZR z /\ (-1 <= z <= 4799)%Z /\ IZR z <= B2R x < IZR z + 1 /\
  to_usize k = Z.max 0 z /\
  to_usize (if fge (fadd k (of_Z 1)) (of_Z WAVETABLE_SIZE : f64) then f0 else fadd k (of_Z 1)) = (if z =? 4799 then 0 else z + 1)%Z /\
  fin (fsub x k) /\ B2R (fsub x k) = rnd64 (B2R x - IZR z) /\ 0 <= B2R (fsub x k) <= 1.
Proof.
  intros F H k z. destruct (ffloor_ok x F) as [A B]. fold k z in A, B.
  pose proof (Zfloor_lb (B2R x)) as L. pose proof (Zfloor_ub (B2R x)) as U. fold z in L, U.
  assert (Z1 : (-1 <= z)%Z) by (apply Zfloor_lub; lra).
  assert (Z2 : (z < 4800)%Z) by (apply lt_IZR; lra).
  destruct one64 as [F1 V1]. destruct z4800 as [F48 V48].
  destruct (fadd_int k (of_Z 1) z 1 A F1 B V1) as [C D]; [lia|].
  split; [exact A|]. split; [exact B|]. split; [lia|]. split; [lra|].
  split.
  { destruct (Z.le_gt_cases 0 z) as [P|P].
    - rewrite Z.max_r by lia. apply to_usize_floor; [exact A|exact B|lia].
    - rewrite Z.max_l by lia. apply to_usize_neg; [exact A|]. rewrite B. apply IZR_le. lia. }
  split.
  { rewrite fge_R by assumption. rewrite D, V48, Rle_bool_IZR.
    destruct (Z.eqb_spec z 4799) as [->|N]; [reflexivity|].
    destruct (Z.leb_spec 4800 (z + 1)); [lia|]. apply to_usize_floor; [exact C|exact D|lia]. }
  destruct (fsub_le x k 1 F A fmt64_1) as (P & Q & R1).
  { apply b1024s. rewrite sixty. lra. } { rewrite B, Rabs_pos_eq; lra. }
  split; [exact P|]. rewrite B in Q. split; [exact Q|]. apply Rabs_le_inv in R1. split; [|lra].
  rewrite Q. apply rnd_nonneg. lra.
Qed.

Lemma sin_next (x d : f64) : fin x -> fin d -> -1 <= B2R x <= 4799 -> 0 <= B2R d <= 4800 ->
  let y := fadd x d in let y := if fge y (fsub (of_Z WAVETABLE_SIZE) (of_Z 1)) then fsub y (of_Z WAVETABLE_SIZE) else y in
  fin y /\ -1 <= B2R y <= 4799.
Proof.
  intros Fx Fd Hx Hd y0. assert (FM : fmt64 9599) by exact (fmt64_Z 9599 ltac:(lia)).
  destruct (fadd_le x d 9599 Fx Fd FM) as (A & B & C).
  { apply b1024s. rewrite sixty. lra. } { apply Rabs_le. lra. }
  fold y0 in A, B, C. apply Rabs_le_inv in C.
  assert (L : -1 <= B2R y0) by (rewrite B; apply (rnd_ge_fmt (prec:=53) (emax:=1024)); [exact (fmt_opp _ fmt64_1)|lra]).
  destruct z4799 as [F1 V1]. destruct z4800 as [F2 V2]. cbv zeta.
  destruct (fge y0 _) eqn:G.
  - apply fge_true in G; try assumption. rewrite V1 in G.
    assert (FS : fmt64 (B2R y0 - 4800)).
    { apply (sterbenz radix2 (SpecFloat.fexp 53 1024)); [apply fmt_B2R|exact (fmt64_Z 4800 ltac:(lia))|lra]. }
    destruct (fsub_ok y0 (of_Z WAVETABLE_SIZE) A F2) as [P Q]; rewrite V2, rnd_fmt in * by exact FS.
    { apply b1024s. rewrite sixty. apply Rabs_le. lra. }
    split; [exact P|]. lra.
  - apply fge_false in G; try assumption. rewrite V1 in G. split; [exact A|]. lra.
Qed.

Definition sin_inv (s : sine) : Prop :=
  fin (sin_ind s) /\ -1 <= B2R (sin_ind s) <= 4799 /\ fin (sin_inc s) /\ 0 <= B2R (sin_inc s) <= 4800.

Lemma sin_step m s : sin_bounded m -> sin_inv s ->
  exists y s', sin_process m s = Ok (y, s') /\ sin_inv s' /\ fin y /\ -1 <= B2R y <= 1 /\ sin_inc s' = sin_inc s.
Proof.
  intros Sb (F1 & H1 & F2 & H2). unfold sin_process.
  destruct (sin_idx (sin_ind s) F1 ltac:(lra)) as (_ & _ & Z1 & _ & E1 & E2 & G1 & _ & G2). cbv zeta in *.
  set (z := Zfloor (B2R (sin_ind s))) in *.
  rewrite E1, E2. rewrite !wavetable_in by (destruct (z =? 4799)%Z eqn:?; lia). cbn [bind].
  destruct (sin_next (sin_ind s) (sin_inc s) F1 F2 H1 H2) as [N1 N2]. cbv zeta in N1, N2.
  destruct (entry_bound m (Z.max 0 z) Sb ltac:(lia)) as [A1 A2].
  destruct (entry_bound m (if z =? 4799 then 0 else z + 1)%Z Sb) as [B1 B2]; [destruct (z =? 4799)%Z eqn:?; lia|].
  destruct (blend (fsub (sin_ind s) (ffloor (sin_ind s))) _ _ G1 G2 A1 A2 B1 B2) as (Y1 & Y2 & _). cbv zeta in Y1, Y2.
  destruct (to32_unit _ Y1) as [O1 O2]; [apply Rabs_le_inv, Y2|].
  eexists _, _. split; [reflexivity|]. split; [|split; [exact O1|split; [exact O2|reflexivity]]].
  unfold sin_inv. cbn [sin_ind sin_inc]. auto.
Qed.

Lemma sin_rate_ok f : fin f -> Rabs (B2R f) <= bpow radix2 900 ->
  fin (sin_rate f) /\ B2R (sin_rate f) = rnd64 (B2R f / 10) /\ Rabs (B2R (sin_rate f)) <= bpow radix2 900.
Proof.
  intros F H. destruct z10 as [F1 V1]. unfold sin_rate.
  destruct (fdiv_le f (of_Z WAVETABLE_FREQ) (bpow radix2 900) F) as (A & B & C).
  - rewrite V1. lra.
  - apply fmt64_b. lia.
  - apply bpow_lt. lia.
  - rewrite V1. unfold Rdiv. rewrite Rabs_mult, (Rabs_pos_eq (/ 10)) by lra. pose proof (Rabs_pos (B2R f)). lra.
  - rewrite V1 in B. auto.
Qed.
Lemma b900 x : x <= IZR (2 ^ 60) -> x <= bpow radix2 900.
Proof. intro H. apply Rle_trans with (1 := H). rewrite IZR_pow2 by lia. apply bpow_le. lia. Qed.
Lemma sin_rate_range f : fin f -> 0 <= B2R f <= 48000 -> fin (sin_rate f) /\ 0 <= B2R (sin_rate f) <= 4800.
Proof.
  intros F H. destruct (sin_rate_ok f F) as (A & B & _).
  { rewrite Rabs_pos_eq by lra. apply b900. rewrite sixty. lra. }
  split; [exact A|]. rewrite B. split; [apply rnd_nonneg; lra|].
  apply (rnd_le_fmt (prec:=53) (emax:=1024)); [exact (fmt64_Z 4800 ltac:(lia))|lra].
Qed.
Lemma sin_new_inv f : fin f -> 0 <= B2R f <= 48000 -> sin_inv (sin_new f).
Proof.
  intros F H. destruct (sin_rate_range f F H) as [A B]. unfold sin_inv, sin_new. cbn [sin_ind sin_inc].
  change (B2R (f0 : f64)) with 0. repeat split; try assumption; lra.
Qed.

Lemma sin_hist m ops : sin_bounded m -> freqs (fun f => is_finite f = true /\ 0 <= B2R f <= 48000) ops -> forall s, sin_inv s ->
  exists ys s', sin_run m ops s = Ok (ys, s') /\ sin_inv s' /\ Forall (fun y => is_finite y = true /\ -1 <= B2R y <= 1) ys.
Proof.
  intros Sb H. induction H as [|o ops Ho H IH]; intros s I.
  - exists [], s. split; [reflexivity|]. auto.
  - unfold sin_run. destruct o as [f|]; cbn [grun]; fold (sin_run m).
    + apply (IH (sin_set_frequency s f)). destruct Ho as [Hf1 Hf2]. destruct (sin_rate_range f Hf1 Hf2) as [A B].
      destruct I as (I1 & I2 & _). unfold sin_inv, sin_set_frequency. cbn [sin_ind sin_inc]. auto.
    + destruct (sin_step m s Sb I) as (y & s1 & E & I' & O1 & O2 & _). rewrite E. cbn [bind].
      destruct (IH s1 I') as (ys & s2 & E2 & J1 & J2). rewrite E2. cbn [bind]. exists (y :: ys), s2.
      split; [reflexivity|]. split; [exact J1|]. constructor; auto.
Qed.

(** ** too high frequencies *)
Lemma sin_panics m s : fin (sin_ind s) -> 4800 <= B2R (sin_ind s) -> sin_process m s = Panic.
Proof.
  intros F H. destruct (ffloor_ok _ F) as [A B]. unfold sin_process. cbv zeta.
  assert (Z1 : (4800 <= Zfloor (B2R (sin_ind s)))%Z) by (apply Zfloor_lub; exact H).
  assert (T : (4800 <= to_usize (ffloor (sin_ind s)))%Z).
  { unfold to_usize. rewrite (to_int_fin _ _ _ A), B, Ztrunc_IZR. unfold u64_max. lia. }
  unfold wavetable at 1. change WAVETABLE_SIZE with 4800%Z.
  destruct (Z.ltb_spec (to_usize (ffloor (sin_ind s))) 4800); [lia|]. rewrite andb_false_r. reflexivity.
Qed.
Definition sin_adv (s : sine) : sine :=
  let ind := fadd (sin_ind s) (sin_inc s) in
  mkSine (if fge ind (fsub (of_Z WAVETABLE_SIZE) (of_Z 1)) then fsub ind (of_Z WAVETABLE_SIZE) else ind) (sin_inc s).
Lemma sin_state m s y s' : sin_process m s = Ok (y, s') -> s' = sin_adv s.
Proof.
  intro E. unfold sin_process in E. cbv zeta in E.
  destruct (wavetable m _) as [a|]; [|discriminate]. destruct (wavetable m _) as [b|]; [|discriminate]. cbn [bind] in E.
  apply (f_equal (fun r => match r with Ok (_, t) => t | Panic => s end)) in E. cbv beta iota in E. symmetry. exact E.
Qed.
Lemma sin_high_step m s y s' : fin (sin_ind s) -> 0 <= B2R (sin_ind s) < 4800 -> fin (sin_inc s) ->
  4801 <= B2R (sin_inc s) <= bpow radix2 37 -> sin_process m s = Ok (y, s') ->
  sin_inc s' = sin_inc s /\ fin (sin_ind s') /\ B2R (sin_ind s) + / 2 <= B2R (sin_ind s').
Proof.
  intros F1 H1 F2 H2 E. rewrite (sin_state _ _ _ _ E). unfold sin_adv. cbv zeta. cbn [sin_ind sin_inc]. split; [reflexivity|].
  assert (B38 : bpow radix2 37 = 137438953472) by reflexivity. rewrite B38 in H2.
  assert (FM : fmt64 (bpow radix2 38)) by (apply fmt64_b; lia).
  assert (V38 : bpow radix2 38 = 274877906944) by reflexivity.
  destruct (fadd_le (sin_ind s) (sin_inc s) (bpow radix2 38) F1 F2 FM) as (A & B & C).
  { apply bpow_lt. lia. } { rewrite V38. apply Rabs_le. lra. }
  set (x := fadd (sin_ind s) (sin_inc s)) in *.
  assert (E1 : Rabs (B2R x - (B2R (sin_ind s) + B2R (sin_inc s))) <= bpow radix2 (38 - 53 - 1)).
  { rewrite B. apply rnd_err; [unfold SpecFloat.emin; lia|]. rewrite V38. apply Rabs_le. lra. }
  change (bpow radix2 (38 - 53 - 1)) with (/ 65536) in E1. apply Rabs_le_inv in E1.
  destruct z4799 as [F3 V3]. destruct z4800 as [F4 V4].
  assert (G : fge x (fsub (of_Z WAVETABLE_SIZE) (of_Z 1)) = true) by (apply fge_true; try assumption; rewrite V3; lra).
  rewrite G. apply Rabs_le_inv in C. rewrite V38 in C.
  destruct (fsub_le x (of_Z WAVETABLE_SIZE) (bpow radix2 38) A F4 FM) as (P & Q & _).
  { apply bpow_lt. lia. } { rewrite V4, V38. apply Rabs_le. lra. }
  split; [exact P|].
  assert (E2 : Rabs (B2R (fsub x (of_Z WAVETABLE_SIZE)) - (B2R x - 4800)) <= bpow radix2 (38 - 53 - 1)).
  { rewrite Q, V4. apply rnd_err; [unfold SpecFloat.emin; lia|]. rewrite V38. apply Rabs_le. lra. }
  change (bpow radix2 (38 - 53 - 1)) with (/ 65536) in E2. apply Rabs_le_inv in E2. lra.
Qed.
Lemma sin_high_run m n : forall s, fin (sin_ind s) -> 0 <= B2R (sin_ind s) -> fin (sin_inc s) ->
  4801 <= B2R (sin_inc s) <= bpow radix2 37 -> (1 <= n)%nat -> 1 + 2 * (4800 - B2R (sin_ind s)) <= INR n ->
  sin_run m (repeat GNext n) s = Panic.
Proof.
  induction n as [|n IH]; intros s F1 H1 F2 H2 Hn Hi; [lia|].
  unfold sin_run. cbn [repeat grun]. fold (sin_run m).
  destruct (Rle_lt_dec 4800 (B2R (sin_ind s))) as [L|L]; [rewrite sin_panics by assumption; reflexivity|].
  destruct (sin_process m s) as [[y s1]|] eqn:E; [|reflexivity]. cbn [bind].
  destruct (sin_high_step m s y s1 F1 ltac:(lra) F2 H2 E) as (I1 & I2 & I3). rewrite S_INR in Hi.
  assert (N1 : (1 <= n)%nat).
  { destruct n as [|n]; [|lia]. simpl INR in Hi. lra. }
  rewrite IH; [reflexivity|exact I2|lra|rewrite I1; exact F2|rewrite I1; exact H2|exact N1|lra].
Qed.
Lemma sin_high m f n : fin f -> 48010 <= B2R f <= bpow radix2 40 -> (9602 <= Z.of_nat n)%Z ->
  sin_run m (repeat GNext n) (sin_new f) = Panic.
Proof.
  intros F H Hn. change (bpow radix2 40) with 1099511627776 in H.
  destruct (sin_rate_ok f F) as (A & B & _).
  { rewrite Rabs_pos_eq by lra. apply b900. rewrite sixty. lra. }
  assert (R1 : 4801 <= B2R (sin_rate f) <= bpow radix2 37).
  { rewrite B. split.
    - apply (rnd_ge_fmt (prec:=53) (emax:=1024)); [exact (fmt64_Z 4801 ltac:(lia))|lra].
    - apply (rnd_le_fmt (prec:=53) (emax:=1024)); [apply fmt64_b; lia|]. change (bpow radix2 37) with 137438953472. lra. }
  apply sin_high_run; cbn [sin_new sin_ind sin_inc]; change (B2R (f0 : f64)) with 0; try assumption; try reflexivity; try lra; try lia.
  rewrite INR_IZR_INZ. apply IZR_le in Hn. lra.
Qed.
Lemma sin_96000 m : sin_run m [GNext; GNext] (sin_new (of_Z 96000)) = Panic.
Proof.
  unfold sin_run. cbn [grun]. destruct (sin_process m (sin_new (of_Z 96000))) as [[y s]|] eqn:E; [|reflexivity]. cbn [bind].
  assert (I : sin_ind s = of_Z 4800).
  { rewrite (sin_state _ _ _ _ E). apply B2SF_inj. vm_compute. reflexivity. }
  rewrite sin_panics; [reflexivity|rewrite I; reflexivity|]. rewrite I. destruct (of_Z64 4800 ltac:(lia)) as [_ ->]. lra.
Qed.

(** ** negative frequencies *)
Definition sin_neg (s : sine) : Prop :=
  fin (sin_ind s) /\ - bpow radix2 953 <= B2R (sin_ind s) <= 0 /\ fin (sin_inc s) /\ - bpow radix2 900 <= B2R (sin_inc s) <= 0.
Lemma to32_zero (y : f64) : fin y -> B2R y = 0 -> fin (to32 y) /\ B2R (to32 y) = 0.
Proof.
  intros F H. destruct (fcast_ok (p2:=24) (e2:=128) y F) as [A B].
  - rewrite H, round_0 by typeclasses eauto. rewrite Rabs_R0. apply bpow_gt_0.
  - split; [exact A|]. etransitivity; [exact B|]. rewrite H. apply round_0. typeclasses eauto.
Qed.
Lemma sin_neg_step m s : sin_bounded m -> sin_zero m -> sin_neg s ->
  exists y s', sin_process m s = Ok (y, s') /\ fin y /\ B2R y = 0 /\ sin_neg s' /\ sin_inc s' = sin_inc s.
Proof.
  intros Sb Sz (F1 & H1 & F2 & H2). unfold sin_process. set (x := sin_ind s) in *.
  destruct (ffloor_ok x F1) as [A B]. set (k := ffloor x) in *. set (z := Zfloor (B2R x)) in *.
  pose proof (Zfloor_lb (B2R x)) as L. pose proof (Zfloor_ub (B2R x)) as U. fold z in L, U.
  destruct one64 as [FO VO]. destruct z4800 as [F48 V48]. destruct z4799 as [F47 V47].
  pose proof (bpow_gt_0 radix2 900) as P9.
  assert (P953 : 4 <= bpow radix2 953) by (change 4 with (bpow radix2 2); apply bpow_le; lia).
  assert (D954 : bpow radix2 954 = 2 * bpow radix2 953) by (change 954%Z with (953 + 1)%Z; apply bpow_double).
  assert (Z1 : - bpow radix2 953 - 1 <= IZR z <= 0).
  { split; [lra|]. apply IZR_le. apply le_IZR. apply Rle_trans with (B2R x); lra. }
  destruct (fadd_le k (of_Z 1) (bpow radix2 954) A FO) as (K1 & K2 & K3).
  { apply fmt64_b. lia. } { apply bpow_lt. lia. } { rewrite B, VO. apply Rabs_le. lra. }
  destruct (fsub_le x k 1 F1 A fmt64_1) as (G1 & G2 & G3).
  { apply b1024s. rewrite sixty. lra. } { rewrite B, Rabs_pos_eq; lra. }
  assert (G4 : 0 <= B2R (fsub x k) <= 1).
  { apply Rabs_le_inv in G3. split; [|lra]. rewrite G2. apply rnd_nonneg. rewrite B. lra. }
  assert (T0 : to_usize k = 0%Z) by (apply to_usize_neg; [exact A|rewrite B; lra]).
  assert (KU : B2R (fadd k (of_Z 1)) <= 1).
  { rewrite K2, B, VO. apply (rnd_le_fmt (prec:=53) (emax:=1024)); [exact fmt64_1|lra]. }
  assert (GF : fge (fadd k (of_Z 1)) (of_Z WAVETABLE_SIZE) = false).
  { apply fge_false; try assumption. rewrite V48. lra. }
  cbv zeta. rewrite GF, T0.
  (* the next index is 0, or 1 with weight 0 *)
  assert (Nx : exists j, to_usize (fadd k (of_Z 1)) = j /\ (0 <= j < 4800)%Z /\ (j = 0%Z \/ B2R (fsub x k) = 0)).
  { destruct (Z.eq_dec z 0) as [E|E].
    - exists 1%Z. assert (X0 : B2R x = 0) by (rewrite E in L; lra).
      split; [|split; [lia|right]].
      + apply to_usize_floor; [exact K1| |lia]. rewrite K2, B, E, VO, Rplus_0_l. apply (rnd_fmt (prec:=53) (emax:=1024)). exact fmt64_1.
      + rewrite G2, B, E, X0, Rminus_0_r. apply rnd_0.
    - exists 0%Z. assert (Zn : (z <= -1)%Z) by (assert (z <= 0)%Z by (apply le_IZR; lra); lia).
      apply IZR_le in Zn. split; [|split; [lia|left; reflexivity]].
      apply to_usize_neg; [exact K1|]. rewrite K2, B, VO. apply rnd_nonpos. lra. }
  destruct Nx as (j & Ej & Hj & Hz). rewrite Ej, !wavetable_in by lia. cbn [bind].
  destruct (entry_bound m 0 Sb ltac:(lia)) as [A1 A2]. destruct (entry_bound m j Sb Hj) as [B1 B2'].
  destruct (blend (fsub x k) _ _ G1 G4 A1 A2 B1 B2') as (Y1 & _ & _ & _ & M1 & M2 & N1 & N2 & Y2). cbv zeta in *.
  assert (Y0 : B2R (fadd (fmul (fsub (of_Z 1) (fsub x k)) (wavetable_entry m 0)) (fmul (fsub x k) (wavetable_entry m j))) = 0).
  { rewrite Y2, M2, N2, entry_0 by exact Sz. change (B2R (f0 : f64)) with 0. rewrite Rmult_0_r, rnd_0, Rplus_0_l.
    destruct Hz as [-> | ->].
    - rewrite entry_0 by exact Sz. change (B2R (f0 : f64)) with 0. rewrite Rmult_0_r, !rnd_0. reflexivity.
    - rewrite Rmult_0_l, !rnd_0. reflexivity. }
  destruct (to32_zero _ Y1 Y0) as [O1 O2].
  assert (RB : - bpow radix2 953 <= rnd64 (B2R x + B2R (sin_inc s)) <= 0).
  { split; [|apply rnd_nonpos; lra]. rewrite <- (rnd_absorb64 953) at 1 by lia.
    rewrite <- (rnd_opp (prec:=53) (emax:=1024)). apply rnd_le. change (953 - 53)%Z with 900%Z. lra. }
  destruct (fadd_ok x (sin_inc s) F1 F2) as [C1 C2].
  { apply Rle_lt_trans with (bpow radix2 953); [apply Rabs_le; lra|]. apply bpow_lt. lia. }
  assert (GG : fge (fadd x (sin_inc s)) (fsub (of_Z WAVETABLE_SIZE) (of_Z 1)) = false).
  { apply fge_false; try assumption. rewrite V47, C2. lra. }
  rewrite GG. eexists _, _. split; [reflexivity|]. split; [exact O1|]. split; [exact O2|]. split; [|reflexivity].
  unfold sin_neg. cbn [sin_ind sin_inc]. rewrite C2. repeat split; try assumption; lra.
Qed.

Lemma sin_neg_run m n : sin_bounded m -> sin_zero m -> forall s, sin_neg s ->
  exists ys s', sin_run m (repeat GNext n) s = Ok (ys, s') /\ length ys = n /\ Forall (fun y => is_finite y = true /\ B2R y = 0) ys.
Proof.
  intros Sb Sz. induction n as [|n IH]; intros s I.
  - exists [], s. split; [reflexivity|]. auto.
  - unfold sin_run. cbn [repeat grun]. fold (sin_run m).
    destruct (sin_neg_step m s Sb Sz I) as (y & s1 & E & O1 & O2 & I' & _). rewrite E. cbn [bind].
    destruct (IH s1 I') as (ys & s2 & E2 & J1 & J2). rewrite E2. cbn [bind]. exists (y :: ys), s2.
    split; [reflexivity|]. split; [simpl; lia|]. constructor; auto.
Qed.
Lemma sin_negative m n f : sin_bounded m -> sin_zero m -> fin f -> - bpow radix2 900 <= B2R f < 0 ->
  exists ys s', sin_run m (repeat GNext n) (sin_new f) = Ok (ys, s') /\ length ys = n /\ Forall (fun y => is_finite y = true /\ B2R y = 0) ys.
Proof.
  intros Sb Sz F H. apply sin_neg_run; try assumption.
  destruct (sin_rate_ok f F) as (A & B & C); [apply Rabs_le; lra|].
  unfold sin_neg, sin_new. cbn [sin_ind sin_inc]. change (B2R (f0 : f64)) with 0. apply Rabs_le_inv in C.
  pose proof (bpow_gt_0 radix2 953). repeat split; try assumption; try lra. rewrite B. apply rnd_nonpos. lra.
Qed.

(** ** getters and setters *)
Lemma rnd_rel64 x : bpow radix2 (-1000) <= Rabs x -> exists d, Rabs d <= bpow radix2 (-53) /\ rnd64 x = x * (1 + d).
Proof.
  intro H. apply (rnd_rel (prec:=53) (emax:=1024)). eapply Rle_trans; [|exact H]. apply bpow_le. unfold SpecFloat.emin. lia.
Qed.
Lemma b_small x : / 1152921504606846976 <= x -> bpow radix2 (-1000) <= x.
Proof. intro H. eapply Rle_trans; [|exact H]. change (/ 1152921504606846976) with (bpow radix2 (-60)). apply bpow_le. lia. Qed.
Lemma two_rel f d1 d2 : 0 <= f -> Rabs d1 <= bpow radix2 (-53) -> Rabs d2 <= bpow radix2 (-53) ->
  Rabs (f * (1 + d1) * (1 + d2) - f) <= f * bpow radix2 (-50).
Proof.
  change (bpow radix2 (-53)) with (/ 9007199254740992). change (bpow radix2 (-50)) with (/ 1125899906842624).
  intros Hf H1 H2. apply Rabs_le_inv in H1. apply Rabs_le_inv in H2.
  replace (f * (1 + d1) * (1 + d2) - f) with (f * (d1 + d2 + d1 * d2)) by ring.
  rewrite Rabs_mult, (Rabs_pos_eq f) by exact Hf. apply Rmult_le_compat_l; [exact Hf|].
  assert (P : -/ 9007199254740992 <= d1 * d2 <= / 9007199254740992) by nra.
  apply Rabs_le. lra.
Qed.

Section Getters.
Variable f : f64.
Hypothesis Ff : fin f.
Hypothesis Hf : bpow radix2 (-20) <= B2R f <= bpow radix2 20.
Lemma Hf' : / 1048576 <= B2R f <= 1048576.
Proof. exact Hf. Qed.

Lemma scaled_get (c : Z) (cf : f64 -> f64) : (c = 2 \/ c = 4)%Z -> fin (fmul (of_Z c) f) -> B2R (fmul (of_Z c) f) = IZR c * B2R f ->
  is_finite (fdiv (fmul (fmul (of_Z c) f) INV_SAMPLE_RATE) (fmul (of_Z c) INV_SAMPLE_RATE)) = true /\
  Rabs (B2R (fdiv (fmul (fmul (of_Z c) f) INV_SAMPLE_RATE) (fmul (of_Z c) INV_SAMPLE_RATE)) - B2R f) <= B2R f * bpow radix2 (-50).
Proof.
  intros Hc F1 V1. pose proof Hf' as Hf'. destruct INV_ok as [FI VI]. pose proof INV_val as VI'.
  assert (C : 2 <= IZR c <= 4) by (split; apply IZR_le; lia).
  assert (FC : fin (fmul (of_Z c) INV_SAMPLE_RATE) /\ B2R (fmul (of_Z c) INV_SAMPLE_RATE) = IZR c * B2R INV_SAMPLE_RATE).
  { destruct Hc as [-> | ->].
    - apply double_ok; [exact FI|]. rewrite VI', Rabs_pos_eq; lra.
    - apply quad_ok; [exact FI|]. rewrite VI', Rabs_pos_eq; lra. }
  destruct FC as [FC VC].
  set (I := B2R INV_SAMPLE_RATE) in *.
  assert (I0 : / 65536 < I < / 32768) by (rewrite VI'; lra).
  assert (FM : fmt64 (bpow radix2 20)) by (apply fmt64_b; lia).
  assert (B20 : bpow radix2 20 = 1048576) by reflexivity.
  assert (PR : / 68719476736 < IZR c * B2R f * I /\ IZR c * B2R f * I <= 1024).
  { split.
    - apply Rlt_le_trans with (2 * / 1048576 * / 65536); [lra|]. apply Rmult_le_compat; [lra|lra| |lra].
      apply Rmult_le_compat; lra.
    - apply Rle_trans with (4 * 1048576 * / 32768); [|lra]. apply Rmult_le_compat; [|lra| |lra].
      + apply Rmult_le_pos; lra.
      + apply Rmult_le_compat; lra. }
  destruct (fmul_le (fmul (of_Z c) f) INV_SAMPLE_RATE (bpow radix2 20) F1 FI FM) as (A & B & _).
  { apply bpow_lt. lia. } { rewrite V1, B20. fold I. rewrite Rabs_pos_eq; lra. }
  rewrite V1 in B. fold I in B.
  destruct (rnd_rel64 (IZR c * B2R f * I)) as (d1 & D1 & E1).
  { apply b_small. rewrite Rabs_pos_eq; lra. }
  rewrite E1 in B.
  assert (CI : 0 < IZR c * I) by (apply Rmult_lt_0_compat; lra).
  assert (QE : B2R (fmul (fmul (of_Z c) f) INV_SAMPLE_RATE) / B2R (fmul (of_Z c) INV_SAMPLE_RATE) = B2R f * (1 + d1)).
  { rewrite B, VC. field. lra. }
  change (bpow radix2 (-53)) with (/ 9007199254740992) in D1. assert (D1' := Rabs_le_inv _ _ D1).
  assert (QB : / 2097152 <= B2R f * (1 + d1) <= 2097152).
  { split; nra. }
  destruct (fdiv_le (fmul (fmul (of_Z c) f) INV_SAMPLE_RATE) (fmul (of_Z c) INV_SAMPLE_RATE) (bpow radix2 21) A) as (P & Q & _).
  { rewrite VC. lra. } { apply fmt64_b; lia. } { apply bpow_lt; lia. }
  { rewrite QE. change (bpow radix2 21) with 2097152. rewrite Rabs_pos_eq; lra. }
  split; [exact P|]. rewrite Q, QE. destruct (rnd_rel64 (B2R f * (1 + d1))) as (d2 & D2 & E2).
  { apply b_small. rewrite Rabs_pos_eq; lra. }
  rewrite E2. apply two_rel; [lra|exact D1|exact D2].
Qed.
Lemma abs_f : Rabs (B2R f) <= 1048576.
Proof. pose proof Hf'. rewrite Rabs_pos_eq; lra. Qed.

Lemma saw_get s : let g := saw_get_frequency (saw_set_frequency s f) in
  is_finite g = true /\ Rabs (B2R g - B2R f) <= B2R f * bpow radix2 (-50).
Proof. destruct (double_ok f Ff abs_f) as [A B]. apply (scaled_get 2 (fun x => x)); auto. Qed.
Lemma tri_get s : let g := tri_get_frequency (tri_set_frequency s f) in
  is_finite g = true /\ Rabs (B2R g - B2R f) <= B2R f * bpow radix2 (-50).
Proof. destruct (quad_ok f Ff abs_f) as [A B]. apply (scaled_get 4 (fun x => x)); auto. Qed.
Lemma sin_get s : let g := sin_get_frequency (sin_set_frequency s f) in
  is_finite g = true /\ Rabs (B2R g - B2R f) <= B2R f * bpow radix2 (-50).
Proof.
  pose proof Hf' as Hf'. destruct (sin_rate_ok f Ff) as (A & B & _). { apply b900. rewrite sixty. pose proof abs_f. lra. }
  unfold sin_get_frequency, sin_set_frequency. cbn [sin_inc].
  destruct (rnd_rel64 (B2R f / 10)) as (d1 & D1 & E1). { apply b_small. rewrite Rabs_pos_eq; lra. }
  rewrite E1 in B. destruct z10 as [F1 V1].
  assert (QE : B2R (sin_rate f) * 10 = B2R f * (1 + d1)) by (rewrite B; field).
  change (bpow radix2 (-53)) with (/ 9007199254740992) in D1. assert (D1' := Rabs_le_inv _ _ D1).
  assert (QB : / 2097152 <= B2R f * (1 + d1) <= 2097152) by (split; nra).
  destruct (fmul_le (sin_rate f) (of_Z WAVETABLE_FREQ) (bpow radix2 21) A F1) as (P & Q & _).
  { apply fmt64_b; lia. } { apply bpow_lt; lia. } { rewrite V1, QE. change (bpow radix2 21) with 2097152. rewrite Rabs_pos_eq; lra. }
  cbv zeta. split; [exact P|]. rewrite Q, V1, QE. destruct (rnd_rel64 (B2R f * (1 + d1))) as (d2 & D2 & E2).
  { apply b_small. rewrite Rabs_pos_eq; lra. }
  rewrite E2. apply two_rel; [lra|exact D1|exact D2].
Qed.
Lemma sq_get s : let g := sq_get_frequency (sq_set_frequency s f) in
  is_finite g = true /\ Rabs (B2R g - B2R f) <= B2R f * bpow radix2 (-50).
Proof.
  pose proof Hf' as Hf'. destruct (sq_half_ok f Ff) as (A & B & _).
  { destruct Hf as [H1 H2]. split; [eapply Rle_trans; [|exact H1]|eapply Rle_trans; [exact H2|]]; apply bpow_le; lia. }
  unfold sq_get_frequency, sq_set_frequency. cbn [sq_inv]. destruct SR64_ok as [FS VS].
  assert (QR : / 65536 <= 48000 / (2 * B2R f) <= 34359738368).
  { split.
    - apply Rmult_le_reg_r with (2 * B2R f); [lra|]. unfold Rdiv. rewrite Rmult_assoc, Rinv_l by lra. lra.
    - apply Rmult_le_reg_r with (2 * B2R f); [lra|]. unfold Rdiv. rewrite Rmult_assoc, Rinv_l by lra. lra. }
  destruct (rnd_rel64 (48000 / (2 * B2R f))) as (d1 & D1 & E1). { apply b_small. rewrite Rabs_pos_eq; lra. }
  rewrite E1 in B. change (bpow radix2 (-53)) with (/ 9007199254740992) in D1. assert (D1' := Rabs_le_inv _ _ D1).
  destruct c2 as [F3 V3].
  assert (FD : fmt64 (2 * B2R (sq_half f))) by (apply fmt64_double, fmt_B2R).
  assert (HB : / 131072 <= B2R (sq_half f) <= 68719476736) by (rewrite B; split; nra).
  destruct (fmul_ok (of_Z 2) (sq_half f) F3 A) as [C D]; rewrite V3, rnd_fmt in * by exact FD.
  { apply b1024s. rewrite sixty, Rabs_pos_eq; lra. }
  assert (QE : 48000 / B2R (fmul (of_Z 2) (sq_half f)) = B2R f * / (1 + d1)).
  { rewrite D, B. field. lra. }
  assert (I1 : 1 - / 4503599627370496 <= / (1 + d1) <= 1 + / 4503599627370496).
  { split; apply Rmult_le_reg_r with (1 + d1); try lra; rewrite Rinv_l by lra; nra. }
  assert (QB : / 2097152 <= B2R f * / (1 + d1) <= 2097152) by (split; nra).
  destruct (fdiv_le SR64 (fmul (of_Z 2) (sq_half f)) (bpow radix2 21) FS) as (P & Q & _).
  { rewrite D. lra. } { apply fmt64_b; lia. } { apply bpow_lt; lia. }
  { rewrite VS, QE. change (bpow radix2 21) with 2097152. rewrite Rabs_pos_eq; lra. }
  cbv zeta. split; [exact P|]. rewrite Q, VS, QE. destruct (rnd_rel64 (B2R f * / (1 + d1))) as (d2 & D2 & E2).
  { apply b_small. rewrite Rabs_pos_eq; lra. }
  rewrite E2. change (bpow radix2 (-53)) with (/ 9007199254740992) in D2. assert (D2' := Rabs_le_inv _ _ D2).
  change (bpow radix2 (-50)) with (/ 1125899906842624).
  set (t := / (1 + d1)) in *.
  replace (B2R f * t * (1 + d2) - B2R f) with (B2R f * ((t - 1) + t * d2)) by ring.
  rewrite Rabs_mult, (Rabs_pos_eq (B2R f)) by lra. apply Rmult_le_compat_l; [lra|].
  assert (- / 4503599627370496 <= t * d2 <= / 4503599627370496) by (split; nra).
  apply Rabs_le. lra.
Qed.
End Getters.

(** the triangle's reported frequency is the set one up to the sign *)
Lemma tri_rate_pos f : fin f -> bpow radix2 (-20) <= B2R f <= 24000 -> 0 < B2R (tri_rate f).
Proof. intros F H. pose proof (tri_rate_lb f F H). pose proof (bpow_gt_0 radix2 (-50)). lra. Qed.
Lemma tri_get_neg s : fin (tri_irate s) -> - bpow radix2 20 <= B2R (tri_irate s) <= - bpow radix2 (-50) ->
  is_finite (tri_get_frequency s) = true /\ B2R (tri_get_frequency s) < 0.
Proof.
  intros F H. destruct INV_ok as [FI _]. pose proof INV_val as VI. unfold tri_get_frequency.
  change (bpow radix2 20) with 1048576 in H. change (bpow radix2 (-50)) with (/ 1125899906842624) in H.
  destruct (quad_ok INV_SAMPLE_RATE FI) as [A B]; [rewrite VI, Rabs_pos_eq; lra|].
  assert (I0 : / 16384 < 4 * B2R INV_SAMPLE_RATE < / 8192) by (rewrite VI; lra).
  set (c := 4 * B2R INV_SAMPLE_RATE) in *.
  assert (Q : -17179869184 <= B2R (tri_irate s) / c <= - / 1125899906842624).
  { split; apply Rmult_le_reg_r with c; try lra; unfold Rdiv; rewrite Rmult_assoc, Rinv_l by lra; nra. }
  destruct (fdiv_le (tri_irate s) (fmul (of_Z 4) INV_SAMPLE_RATE) (bpow radix2 34) F) as (C & D & _).
  - rewrite B. lra.
  - apply fmt64_b. lia.
  - apply bpow_lt. lia.
  - rewrite B. change (bpow radix2 34) with 17179869184. apply Rabs_le. lra.
  - split; [exact C|]. rewrite D, B. apply Rle_lt_trans with (- bpow radix2 (-50)); [|pose proof (bpow_gt_0 radix2 (-50)); lra].
    apply (rnd_le_fmt (prec:=53) (emax:=1024)); [apply fmt_opp, fmt64_b; lia|].
    change (bpow radix2 (-50)) with (/ 1125899906842624). lra.
Qed.
Lemma tri_get_wrong f : fin f -> bpow radix2 (-20) <= B2R f <= 24000 ->
  exists n, is_finite (tri_get_frequency (nsteps tri_process n (tri_new f))) = true /\
            B2R (tri_get_frequency (nsteps tri_process n (tri_new f))) < 0.
Proof.
  intros F H. destruct (tri_turns f F H) as [n E]. exists n. pose proof (tri_rate_lb f F H) as L.
  destruct (tri_rate_ok f F) as (A & _); [change (bpow radix2 (-20)) with (/ 1048576) in H; rewrite Rabs_pos_eq; lra|].
  apply tri_get_neg; rewrite E; [rewrite fneg_fin; exact A|]. rewrite fneg_R. change (bpow radix2 20) with 1048576. lra.
Qed.

(** ** clones *)
Fixpoint last_freq (f : f64) (ops : list gop) : f64 :=
  match ops with [] => f | GFreq g :: ops => last_freq g ops | GNext :: ops => last_freq f ops end.
Section Clone.
Context {St : Type} (setf : St -> f64 -> St) (step : St -> res (f32 * St)) (new : f64 -> St) (clone : St -> St).
Hypothesis clone_new : forall f, clone (new f) = new f.
Hypothesis clone_set : forall s f, clone (setf s f) = new f.
Hypothesis clone_step : forall s y s', step s = Ok (y, s') -> clone s' = clone s.
Lemma clone_run ops : forall f s ys s', clone s = new f -> grun setf step ops s = Ok (ys, s') -> clone s' = new (last_freq f ops).
Proof.
  induction ops as [|[g|] ops IH]; intros f s ys s' C E.
  - injection E as <- <-. exact C.
  - cbn [grun last_freq] in *. apply (IH g _ _ _ (clone_set s g) E).
  - cbn [grun last_freq] in *. destruct (step s) as [[y s1]|] eqn:E1; [|discriminate]. cbn [bind] in E.
    destruct (grun setf step ops s1) as [[zs s2]|] eqn:E2; [|discriminate]. cbn [bind] in E. injection E as _ <-.
    apply (IH f s1 zs s2); [|exact E2]. rewrite (clone_step _ _ _ E1). exact C.
Qed.
End Clone.
Lemma saw_clone_run ops f ys s : saw_run ops (saw_new f) = Ok (ys, s) -> saw_clone s = saw_new (last_freq f ops).
Proof.
  apply (clone_run saw_set_frequency (fun s => Ok (saw_process s)) saw_new saw_clone); try reflexivity.
  intros t y t' E. injection E as _ <-. reflexivity.
Qed.
Lemma sq_clone_run ops f ys s : sq_run ops (sq_new f) = Ok (ys, s) -> sq_clone s = sq_new (last_freq f ops).
Proof.
  apply (clone_run sq_set_frequency (fun s => Ok (sq_process s)) sq_new sq_clone); try reflexivity.
  intros t y t' E. injection E as _ <-. reflexivity.
Qed.
Lemma sin_clone_run m ops f ys s : sin_run m ops (sin_new f) = Ok (ys, s) -> sin_clone s = sin_new (last_freq f ops).
Proof.
  apply (clone_run sin_set_frequency (sin_process m) sin_new sin_clone); try reflexivity.
  intros t y t' E. rewrite (sin_state _ _ _ _ E). reflexivity.
Qed.
Lemma tri_clone_run ops : forall f s ys s', tri_irate s = tri_rate f \/ tri_irate s = fneg (tri_rate f) ->
  tri_run ops s = Ok (ys, s') ->
  tri_clone s' = tri_new (last_freq f ops) \/ tri_clone s' = mkTri (fneg (tri_rate (last_freq f ops))) f0.
Proof.
  induction ops as [|[g|] ops IH]; intros f s ys s' C E.
  - injection E as <- <-. unfold tri_clone, tri_new. cbn [last_freq]. destruct C as [-> | ->]; auto.
  - unfold tri_run in E. cbn [grun last_freq] in *. fold tri_run in E. apply (IH g (tri_set_frequency s g) ys s'); [left; reflexivity|exact E].
  - unfold tri_run in E. cbn [grun last_freq] in *. fold tri_run in E. cbn [bind] in E.
    assert (C' : tri_irate (snd (tri_process s)) = tri_rate f \/ tri_irate (snd (tri_process s)) = fneg (tri_rate f)).
    { unfold tri_process. destruct (_ || _); cbn [snd tri_irate]; [|exact C].
      destruct C as [-> | ->]; [right; reflexivity|left; apply fneg_invol]. }
    destruct (tri_process s) as [y s1]. cbn [snd] in C'.
    change (grun tri_set_frequency (fun s => Ok (tri_process s)) ops s1) with (tri_run ops s1) in E.
    destruct (tri_run ops s1) as [[zs s2]|] eqn:E2; [|discriminate]. cbn [bind] in E. injection E as _ <-.
    apply (IH f s1 zs s2 C' E2).
Qed.
