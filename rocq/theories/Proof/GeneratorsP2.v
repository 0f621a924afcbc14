(** * Proofs about Triangle and Square *)

From Coq Require Import ZArith List Bool Reals Lra Lia Psatz.
From Flocq Require Import Core.Core IEEE754.BinarySingleNaN Relative Sterbenz Plus_error.
From Verif Require Import Model.Floats Model.Generators
  Proof.FloatFacts Proof.SampleFormatP Proof.FormatsP Proof.UtilsP Proof.ResamplerP Proof.GeneratorsP.
Import ListNotations.
Local Open Scope R_scope.

Lemma fexp64_k k : (-1021 <= k)%Z -> SpecFloat.fexp 53 1024 k = (k - 53)%Z.
Proof. intro H. unfold SpecFloat.fexp, SpecFloat.emin. lia. Qed.
(** a power of two absorbs a positive error of half its ulp *)
Lemma rnd_absorb64 e : (-1000 <= e)%Z -> rnd64 (bpow radix2 e + bpow radix2 (e - 53)) = bpow radix2 e.
Proof.
  intro He. pose proof (bpow_gt_0 radix2 (e - 53)) as P. pose proof (bpow_gt_0 radix2 e) as P'.
  assert (L : bpow radix2 (e - 53) < bpow radix2 e) by (apply bpow_lt; lia).
  set (x := bpow radix2 e + bpow radix2 (e - 53)).
  assert (Mx : mag radix2 x = (e + 1)%Z :> Z) by (apply mag_bounds; rewrite bpow_double; unfold x; lra).
  unfold round, scaled_mantissa, cexp. rewrite Mx, fexp64_k by lia.
  assert (EM : IZR (2 ^ 52) * bpow radix2 (e + 1 - 53) = bpow radix2 e).
  { rewrite IZR_pow2 by lia. rewrite <- bpow_plus. f_equal. ring. }
  assert (SM : x * bpow radix2 (- (e + 1 - 53)) = IZR (2 ^ 52) + / 2).
  { apply Rmult_eq_reg_r with (bpow radix2 (e + 1 - 53)); [|pose proof (bpow_gt_0 radix2 (e + 1 - 53)); lra].
    rewrite Rmult_assoc, <- bpow_plus. replace (- (e + 1 - 53) + (e + 1 - 53))%Z with 0%Z by ring.
    change (bpow radix2 0) with 1. rewrite Rmult_1_r, Rmult_plus_distr_r, EM.
    replace (bpow radix2 (e + 1 - 53)) with (2 * bpow radix2 (e - 53)) by (rewrite <- bpow_double; f_equal; ring).
    unfold x. field. }
  rewrite SM. change (2 ^ 52)%Z with 4503599627370496%Z in *.
  assert (FF : Zfloor (4503599627370496 + / 2) = 4503599627370496%Z) by (apply Zfloor_imp; rewrite plus_IZR; lra).
  unfold Znearest. rewrite FF, Rcompare_Eq by lra. change (negb (Z.even 4503599627370496)) with false. cbn iota.
  unfold F2R. simpl Fnum. simpl Fexp. exact EM.
Qed.

(** ** Triangle *)
Definition tri_inv (s : triangle) : Prop :=
  fin (tri_irate s) /\ Rabs (B2R (tri_irate s)) <= 2 /\ fin (tri_inc s) /\ Rabs (B2R (tri_inc s)) <= 1.

(** the sum computed by a step *)
Definition tri_sum (s : triangle) : R := rnd64 (B2R (tri_inc s) + B2R (tri_irate s)).

Lemma tri_step s : tri_inv s -> tri_inv (snd (tri_process s)) /\
  fin (fst (tri_process s)) /\ -1 <= B2R (fst (tri_process s)) <= 1 /\
  fst (tri_process s) = to32 (tri_inc s) /\
  Rabs (B2R (tri_inc (snd (tri_process s))) - B2R (tri_inc s)) <= Rabs (B2R (tri_irate s)) + bpow radix2 (-52) /\
  ((1 <= tri_sum s /\ tri_irate (snd (tri_process s)) = fneg (tri_irate s) /\ B2R (tri_inc (snd (tri_process s))) = 2 - tri_sum s) \/
   (tri_sum s <= -1 /\ tri_irate (snd (tri_process s)) = fneg (tri_irate s) /\ B2R (tri_inc (snd (tri_process s))) = -2 - tri_sum s) \/
   (-1 < tri_sum s < 1 /\ tri_irate (snd (tri_process s)) = tri_irate s /\ B2R (tri_inc (snd (tri_process s))) = tri_sum s)).
Proof.
  intros (F1 & H1 & F2 & H2). unfold tri_sum, tri_process.
  destruct (to32_unit (tri_inc s) F2) as [O1 O2]; [apply Rabs_le_inv, H2|].
  assert (F3 : fmt64 3) by exact (fmt64_Z 3 ltac:(lia)).
  destruct (fadd_le (tri_inc s) (tri_irate s) 3 F2 F1 F3) as (A & B & C).
  { apply b1024s. rewrite sixty. lra. } { eapply Rle_trans; [apply Rabs_triang|]. lra. }
  rewrite <- B.
  set (x := fadd (tri_inc s) (tri_irate s)) in *.
  assert (E : Rabs (B2R x - (B2R (tri_inc s) + B2R (tri_irate s))) <= bpow radix2 (-52)).
  { rewrite B. change (-52)%Z with (2 - 53 - 1)%Z. apply rnd_err; [unfold SpecFloat.emin; lia|].
    change (bpow radix2 2) with 4. eapply Rle_trans; [apply Rabs_triang|]. lra. }
  change (bpow radix2 (-52)) with (/ 4503599627370496) in *.
  assert (D : Rabs (B2R x - B2R (tri_inc s)) <= Rabs (B2R (tri_irate s)) + / 4503599627370496).
  { replace (B2R x - B2R (tri_inc s)) with ((B2R x - (B2R (tri_inc s) + B2R (tri_irate s))) + B2R (tri_irate s)) by ring.
    eapply Rle_trans; [apply Rabs_triang|]. lra. }
  destruct one64 as [FO VO]. destruct mone64 as [FM VM]. destruct c2 as [FT VT]. destruct cm2 as [FN VN].
  apply Rabs_le_inv in C. apply Rabs_le_inv in H2.
  destruct (fge x (of_Z 1)) eqn:G; [|destruct (fle x (of_Z (-1))) eqn:G2]; cbn [orb fst snd tri_irate tri_inc].
  - apply fge_true in G; try assumption. rewrite VO in G.
    assert (FS : fmt64 (2 - B2R x)).
    { apply (sterbenz radix2 (SpecFloat.fexp 53 1024)); [exact fmt64_2|apply fmt_B2R|lra]. }
    destruct (fsub_ok (of_Z 2) x FT A) as [P Q]; rewrite VT, rnd_fmt in * by exact FS.
    { apply b1024s. rewrite sixty. apply Rabs_le. lra. }
    split; [|split; [exact O1|split; [exact O2|split; [reflexivity|split]]]].
    + unfold tri_inv. cbn [tri_irate tri_inc]. rewrite fneg_fin, fneg_R, Rabs_Ropp. repeat split; try assumption.
      rewrite Q. apply Rabs_le. lra.
    + rewrite Q. eapply Rle_trans; [|exact D]. rewrite (Rabs_pos_eq (B2R x - _)) by lra. apply Rabs_le. lra.
    + left. auto.
  - apply fle_true in G2; try assumption. rewrite VM in G2.
    assert (FS : fmt64 (-2 - B2R x)).
    { replace (-2 - B2R x) with (- (2 - - B2R x)) by ring. apply fmt_opp.
      apply (sterbenz radix2 (SpecFloat.fexp 53 1024)); [exact fmt64_2|apply fmt_opp, fmt_B2R|lra]. }
    destruct (fsub_ok (of_Z (-2)) x FN A) as [P Q]; rewrite VN, rnd_fmt in * by exact FS.
    { apply b1024s. rewrite sixty. apply Rabs_le. lra. }
    split; [|split; [exact O1|split; [exact O2|split; [reflexivity|split]]]].
    + unfold tri_inv. cbn [tri_irate tri_inc]. rewrite fneg_fin, fneg_R, Rabs_Ropp. repeat split; try assumption.
      rewrite Q. apply Rabs_le. lra.
    + rewrite Q. eapply Rle_trans; [|exact D]. rewrite (Rabs_left1 (B2R x - _)) by lra. apply Rabs_le. lra.
    + right. left. auto.
  - apply fge_false in G; try assumption. apply fle_false in G2; try assumption. rewrite VO in G. rewrite VM in G2.
    split; [|split; [exact O1|split; [exact O2|split; [reflexivity|split]]]].
    + unfold tri_inv. cbn [tri_irate tri_inc]. repeat split; try assumption. apply Rabs_le. lra.
    + exact D.
    + right. right. auto.
Qed.

Lemma tri_new_inv f : fin f -> Rabs (B2R f) <= 24000 -> tri_inv (tri_new f).
Proof.
  intros F H. destruct (tri_rate_ok f F H) as (A & _ & B). unfold tri_inv, tri_new. cbn [tri_irate tri_inc].
  repeat split; try assumption. simpl. rewrite Rabs_R0. lra.
Qed.
Lemma tri_set_inv s f : tri_inv s -> fin f -> Rabs (B2R f) <= 24000 -> tri_inv (tri_set_frequency s f).
Proof.
  intros (_ & _ & I3 & I4) F H. destruct (tri_rate_ok f F H) as (A & _ & B). unfold tri_inv, tri_set_frequency. cbn [tri_irate tri_inc].
  auto.
Qed.

Lemma tri_hist ops : freqs (fun f => is_finite f = true /\ Rabs (B2R f) <= 24000) ops -> forall s ys s', tri_inv s ->
  tri_run ops s = Ok (ys, s') -> tri_inv s' /\ Forall (fun y => is_finite y = true /\ -1 <= B2R y <= 1) ys.
Proof.
  intro H. induction H as [|o ops Ho H IH]; intros s ys s' I E.
  - injection E as <- <-. auto.
  - destruct o as [f|]; unfold tri_run in E; cbn [grun] in E; fold tri_run in E.
    + apply (IH (tri_set_frequency s f)); [|exact E]. destruct Ho as [Hf1 Hf2]. apply tri_set_inv; assumption.
    + cbn [bind] in E. destruct (tri_step s I) as (I' & O1 & O2 & _).
      destruct (tri_process s) as [y s1]. cbn [fst snd] in *.
      change (grun tri_set_frequency (fun s => Ok (tri_process s)) ops s1) with (tri_run ops s1) in E.
      destruct (tri_run ops s1) as [[zs s2]|] eqn:E2; [|discriminate]. cbn [bind] in E. injection E as <- <-.
      destruct (IH s1 zs s2 I' E2) as [J1 J2]. split; [exact J1|]. constructor; auto.
Qed.
Lemma tri_nsteps_inv n s : tri_inv s -> tri_inv (nsteps tri_process n s).
Proof. intro I. induction n as [|n IH]; [exact I|]. rewrite nsteps_S. apply (tri_step _ IH). Qed.

Lemma fneg_invol {p e} (x : binary_float p e) : fneg (fneg x) = x.
Proof. destruct x as [[]|[]| |[] ? ? ?]; reflexivity. Qed.

(** the slope after n samples is the initial one with the sign given by the parity of the reflections *)
Fixpoint reflections (n : nat) (s : triangle) : nat :=
  match n with
  | O => O
  | S n => ((if Rlt_bool (Rabs (tri_sum s)) 1 then 0 else 1) + reflections n (snd (tri_process s)))%nat
  end.
Lemma tri_slope n : forall s, tri_inv s ->
  tri_irate (nsteps tri_process n s) = if Nat.even (reflections n s) then tri_irate s else fneg (tri_irate s).
Proof.
  induction n as [|n IH]; intros s I; [reflexivity|]. cbn [nsteps reflections].
  destruct (tri_step s I) as (I' & _ & _ & _ & _ & K). rewrite (IH _ I').
  destruct K as [(K1 & K2 & _)|[(K1 & K2 & _)|(K1 & K2 & _)]].
  - rewrite Rlt_bool_false by (rewrite Rabs_pos_eq; lra). cbn [plus]. rewrite Nat.even_succ, <- Nat.negb_even, K2.
    destruct (Nat.even _); cbn [negb]; [reflexivity|apply fneg_invol].
  - rewrite Rlt_bool_false by (rewrite Rabs_left1; lra). cbn [plus]. rewrite Nat.even_succ, <- Nat.negb_even, K2.
    destruct (Nat.even _); cbn [negb]; [reflexivity|apply fneg_invol].
  - rewrite Rlt_bool_true by (apply Rabs_lt; lra). cbn [plus]. rewrite K2. reflexivity.
Qed.

(** symmetry: the negated state produces the negated wave *)
Definition tri_opp (s t : triangle) : Prop :=
  tri_inv s /\ tri_inv t /\ B2R (tri_irate t) = - B2R (tri_irate s) /\ B2R (tri_inc t) = - B2R (tri_inc s).
Lemma tri_opp_step s t : tri_opp s t -> tri_opp (snd (tri_process s)) (snd (tri_process t)) /\
  B2R (fst (tri_process t)) = - B2R (fst (tri_process s)).
Proof.
  intros (I & J & E1 & E2). destruct (tri_step s I) as (I' & _ & _ & O1 & _ & K). destruct (tri_step t J) as (J' & _ & _ & O2 & _ & L).
  assert (SS : tri_sum t = - tri_sum s).
  { unfold tri_sum. rewrite E1, E2, <- (rnd_opp (prec:=53) (emax:=1024)). f_equal. ring. }
  split.
  - unfold tri_opp. split; [exact I'|]. split; [exact J'|].
    destruct K as [(K1 & K2 & K3)|[(K1 & K2 & K3)|(K1 & K2 & K3)]], L as [(L1 & L2 & L3)|[(L1 & L2 & L3)|(L1 & L2 & L3)]]; try lra;
    rewrite K2, K3, L2, L3, ?fneg_R; split; lra.
  - rewrite O1, O2. destruct I as (_ & _ & I3 & I4), J as (_ & _ & J3 & J4).
    destruct (fcast_le (p2:=24) (e2:=128) (tri_inc s) 1 I3 (fmt32_Z 1 ltac:(lia))) as (_ & P & _).
    { change 1 with (bpow radix2 0). apply bpow_lt. lia. } { exact I4. }
    destruct (fcast_le (p2:=24) (e2:=128) (tri_inc t) 1 J3 (fmt32_Z 1 ltac:(lia))) as (_ & Q & _).
    { change 1 with (bpow radix2 0). apply bpow_lt. lia. } { exact J4. }
    unfold to32. etransitivity; [exact Q|]. etransitivity; [|apply f_equal; symmetry; exact P]. rewrite E2. apply rnd_opp.
Qed.
Lemma tri_opp_out n : forall s t, tri_opp s t -> B2R (nth_out tri_process n t) = - B2R (nth_out tri_process n s).
Proof.
  induction n as [|n IH]; intros s t H; [apply (tri_opp_step s t H)|].
  unfold nth_out. cbn [nsteps]. apply (IH _ _ (proj1 (tri_opp_step s t H))).
Qed.
Lemma tri_clone_neg n f s : fin f -> Rabs (B2R f) <= 24000 -> tri_irate s = fneg (tri_rate f) ->
  B2R (nth_out tri_process n (tri_clone s)) = - B2R (nth_out tri_process n (tri_new f)).
Proof.
  intros F H E. apply tri_opp_out. pose proof (tri_new_inv f F H) as I. destruct (tri_rate_ok f F H) as (A & _ & B).
  unfold tri_opp, tri_clone, tri_new in *. cbn [tri_irate tri_inc] in *. rewrite E. split; [exact I|].
  unfold tri_inv. cbn [tri_irate tri_inc]. rewrite fneg_fin, fneg_R, Rabs_Ropp. change (B2R (f0 : f64)) with 0. rewrite Rabs_R0.
  repeat split; try assumption; try reflexivity; lra.
Qed.

(** the slope of every audible triangle turns negative at some point *)
Lemma tri_rate_lb f : fin f -> bpow radix2 (-20) <= B2R f <= 24000 -> bpow radix2 (-50) <= B2R (tri_rate f) <= 2.
Proof.
  intros F H. change (bpow radix2 (-20)) with (/ 1048576) in H.
  destruct (tri_rate_ok f F) as (_ & B & C); [rewrite Rabs_pos_eq; lra|]. apply Rabs_le_inv in C. split; [|lra].
  rewrite B. apply (rnd_ge_fmt (prec:=53) (emax:=1024)); [apply fmt64_b; lia|]. rewrite INV_val.
  change (bpow radix2 (-50)) with (/ 1125899906842624). nra.
Qed.
Lemma tri_turns f : fin f -> bpow radix2 (-20) <= B2R f <= 24000 ->
  exists n, tri_irate (nsteps tri_process n (tri_new f)) = fneg (tri_rate f).
Proof.
  intros F H. pose proof (tri_rate_lb f F H) as R1. change (bpow radix2 (-20)) with (/ 1048576) in H.
  assert (I0 : tri_inv (tri_new f)) by (apply tri_new_inv; [exact F|rewrite Rabs_pos_eq; lra]).
  set (x := fun n => tri_sum (nsteps tri_process n (tri_new f))).
  assert (J : forall n, (forall k, (k < n)%nat -> x k < 1) ->
    tri_irate (nsteps tri_process n (tri_new f)) = tri_rate f /\ 0 <= B2R (tri_inc (nsteps tri_process n (tri_new f)))).
  { induction n as [|n IH]; intro Hk.
    - cbn [nsteps tri_new tri_irate tri_inc]. change (B2R (f0 : f64)) with 0. split; [reflexivity|lra].
    - destruct IH as (I1 & I2); [intros k Hk'; apply Hk; lia|].
      specialize (Hk n (Nat.lt_succ_diag_r n)). unfold x in Hk.
      assert (S0 : 0 <= tri_sum (nsteps tri_process n (tri_new f))).
      { unfold tri_sum. apply rnd_nonneg. rewrite I1. change (bpow radix2 (-50)) with (/ 1125899906842624) in R1. lra. }
      destruct (tri_step _ (tri_nsteps_inv n _ I0)) as (_ & _ & _ & _ & _ & [(K1 & K2 & K3)|[(K1 & K2 & K3)|(K1 & K2 & K3)]]); try lra.
      rewrite nsteps_S, K2, K3, I1. auto. }
  destruct (escape x 1 (bpow radix2 (-51))) as (n & N1 & N2).
  - apply bpow_gt_0.
  - intros n Hn. destruct (J n) as (I1 & I2); [intros k Hk; apply Hn; lia|].
    assert (Hn' := Hn n (le_n _)). unfold x in Hn'.
    destruct (J (S n)) as (I3 & I4); [intros k Hk; apply Hn; lia|].
    assert (S0 : 0 <= tri_sum (nsteps tri_process n (tri_new f))).
    { unfold tri_sum. apply rnd_nonneg. rewrite I1. change (bpow radix2 (-50)) with (/ 1125899906842624) in R1. lra. }
    destruct (tri_step _ (tri_nsteps_inv n _ I0)) as (_ & _ & _ & _ & _ & [(K1 & K2 & K3)|[(K1 & K2 & K3)|(K1 & K2 & K3)]]); try lra.
    unfold x. unfold tri_sum at 2. rewrite I3. rewrite nsteps_S, K3.
    assert (E : Rabs (rnd64 (tri_sum (nsteps tri_process n (tri_new f)) + B2R (tri_rate f)) - (tri_sum (nsteps tri_process n (tri_new f)) + B2R (tri_rate f))) <= bpow radix2 (-52)).
    { change (-52)%Z with (2 - 53 - 1)%Z. apply rnd_err; [unfold SpecFloat.emin; lia|].
      change (bpow radix2 2) with 4. change (bpow radix2 (-50)) with (/ 1125899906842624) in R1. apply Rabs_le. lra. }
    apply Rabs_le_inv in E.
    change (bpow radix2 (-50)) with (/ 1125899906842624) in *. change (bpow radix2 (-51)) with (/ 2251799813685248).
    change (bpow radix2 (-52)) with (/ 4503599627370496) in *. lra.
  - exists (S n). destruct (J n N2) as (I1 & I2).
    destruct (tri_step _ (tri_nsteps_inv n _ I0)) as (_ & _ & _ & _ & _ & [(K1 & K2 & K3)|[(K1 & K2 & K3)|(K1 & K2 & K3)]]);
      unfold x in N1; try lra.
    rewrite nsteps_S, K2, I1. reflexivity.
Qed.

(** ** Square *)
Lemma sq_out s : fst (sq_process s) = of_Z 1 \/ fst (sq_process s) = of_Z (-1).
Proof. unfold sq_process. cbn [fst]. destruct (_ && _); auto. Qed.
Lemma sq_hist ops : forall s ys s', sq_run ops s = Ok (ys, s') -> Forall (fun y => y = of_Z 1 \/ y = of_Z (-1)) ys.
Proof.
  induction ops as [|[f|] ops IH]; intros s ys s' E.
  - injection E as <- <-. constructor.
  - unfold sq_run in E; cbn [grun] in E; fold sq_run in E. apply (IH _ _ _ E).
  - unfold sq_run in E; cbn [grun bind] in E; fold sq_run in E. pose proof (sq_out s) as O.
    destruct (sq_process s) as [y s1]. cbn [fst] in O.
    destruct (sq_run ops s1) as [[zs s2]|] eqn:E2; [|discriminate]. cbn [bind] in E. injection E as <- <-.
    constructor; [exact O|]. apply (IH _ _ _ E2).
Qed.

Lemma fsub_int64 (x y : f64) a b : fin x -> fin y -> B2R x = IZR a -> B2R y = IZR b ->
  (Z.abs (a - b) <= 2 ^ 53)%Z -> fin (fsub x y) /\ B2R (fsub x y) = IZR (a - b).
Proof.
  intros Fx Fy Ex Ey H. pose proof (fmt64_Z _ H) as Hf.
  destruct (fsub_ok x y Fx Fy) as [A B]; rewrite Ex, Ey, <- minus_IZR in *.
  - rewrite rnd_fmt by exact Hf. rewrite <- abs_IZR. apply Rle_lt_trans with (IZR (2 ^ 53)); [apply IZR_le; exact H|].
    apply b1024s. apply IZR_le. lia.
  - rewrite rnd_fmt in B by exact Hf. auto.
Qed.

(** a square with integer phase K and integer half period m *)
Definition sq_at (s : square) (K m : Z) : Prop :=
  fin (sq_ind s) /\ B2R (sq_ind s) = IZR K /\ fin (sq_inv s) /\ B2R (sq_inv s) = IZR m.
Lemma Rle_bool_IZR a b : Rle_bool (IZR a) (IZR b) = (a <=? b)%Z.
Proof. destruct (Z.leb_spec a b); [apply Rle_bool_true, IZR_le|apply Rle_bool_false, IZR_lt]; assumption. Qed.
Lemma Rlt_bool_IZR a b : Rlt_bool (IZR a) (IZR b) = (a <? b)%Z.
Proof. destruct (Z.ltb_spec a b); [apply Rlt_bool_true, IZR_lt|apply Rlt_bool_false, IZR_le]; assumption. Qed.
Lemma sq_int_step s K m : (0 <= K <= 2 ^ 52)%Z -> (1 <= m <= 2 ^ 50)%Z -> sq_at s K m ->
  fst (sq_process s) = (if (m <=? K) && (K <? 2 * m) then of_Z (-1) else of_Z 1)%Z /\
  sq_at (snd (sq_process s)) ((if (2 * m <=? K)%Z then K - 2 * m else K) + 1) m.
Proof.
  intros HK Hm (F1 & V1 & F2 & V2). destruct c2 as [F3 V3]. destruct one64 as [F4 V4].
  destruct (fmul_int (of_Z 2) (sq_inv s) 2 m F3 F2 V3 V2) as [A B]; [lia|].
  unfold sq_process. cbn [fst snd]. unfold sq_at. cbn [sq_ind sq_inv].
  rewrite !fge_R, flt_R by assumption. rewrite B, V1, V2, !Rle_bool_IZR, Rlt_bool_IZR.
  split; [reflexivity|].
  destruct (Z.leb_spec (2 * m) K) as [L|L].
  - destruct (fsub_int64 (sq_ind s) _ K (2 * m) F1 A V1 B) as [C D]; [lia|].
    destruct (fadd_int _ (of_Z 1) _ 1 C F4 D V4) as [P Q]; [lia|]. auto.
  - destruct (fadd_int (sq_ind s) (of_Z 1) K 1 F1 F4 V1 V4) as [P Q]; [lia|]. auto.
Qed.

Lemma sq_period n : forall s m, (1 <= m <= 2 ^ 50)%Z -> sq_at s 0 m ->
  sq_at (nsteps sq_process n s) (if Nat.eqb n 0 then 0 else (Z.of_nat n - 1) mod (2 * m) + 1)%Z m.
Proof.
  intros s m Hm H. induction n as [|n IH]; [exact H|]. rewrite nsteps_S.
  set (K := (if Nat.eqb n 0 then 0 else (Z.of_nat n - 1) mod (2 * m) + 1)%Z) in *.
  assert (KB : (0 <= K <= 2 * m)%Z).
  { unfold K. destruct (Nat.eqb n 0); [lia|]. pose proof (Z.mod_pos_bound (Z.of_nat n - 1) (2 * m) ltac:(lia)). lia. }
  destruct (sq_int_step _ K m ltac:(clearbody K; clear -KB Hm; lia) Hm IH) as [_ S'].
  replace (if Nat.eqb (S n) 0 then 0 else (Z.of_nat (S n) - 1) mod (2 * m) + 1)%Z with ((if (2 * m <=? K)%Z then K - 2 * m else K) + 1)%Z; [exact S'|].
  cbn [Nat.eqb]. f_equal. replace (Z.of_nat (S n) - 1)%Z with (Z.of_nat n) by lia.
  unfold K. destruct (Nat.eqb_spec n 0) as [->|N].
  - destruct (Z.leb_spec (2 * m) 0); [lia|]. change (Z.of_nat 0) with 0%Z. rewrite Z.mod_small by lia. reflexivity.
  - pose proof (Z.mod_pos_bound (Z.of_nat n - 1) (2 * m) ltac:(lia)) as MB.
    pose proof (Z.div_mod (Z.of_nat n - 1) (2 * m) ltac:(lia)) as DM.
    set (q := ((Z.of_nat n - 1) / (2 * m))%Z) in *. set (t := ((Z.of_nat n - 1) mod (2 * m))%Z) in *.
    destruct (Z.leb_spec (2 * m) (t + 1)).
    + apply (Z.mod_unique _ _ (q + 1)); [left; lia|]. nia.
    + apply (Z.mod_unique _ _ q); [left; lia|]. lia.
Qed.
Lemma sq_nth n s m : (1 <= m <= 2 ^ 50)%Z -> sq_at s 0 m ->
  nth_out sq_process n s = if (Z.of_nat n mod (2 * m) <? m)%Z then of_Z 1 else of_Z (-1).
Proof.
  intros Hm H. unfold nth_out. pose proof (sq_period n s m Hm H) as P.
  set (K := (if Nat.eqb n 0 then 0 else (Z.of_nat n - 1) mod (2 * m) + 1)%Z) in *.
  assert (KB : (0 <= K <= 2 * m)%Z).
  { unfold K. destruct (Nat.eqb n 0); [lia|]. pose proof (Z.mod_pos_bound (Z.of_nat n - 1) (2 * m) ltac:(lia)). lia. }
  destruct (sq_int_step _ K m ltac:(clearbody K; clear -KB Hm; lia) Hm P) as [O _]. rewrite O.
  assert (E : (Z.of_nat n mod (2 * m) = if K =? 2 * m then 0 else K)%Z).
  { unfold K. destruct (Nat.eqb_spec n 0) as [->|N].
    - destruct (Z.eqb_spec 0 (2 * m)); [lia|]. apply Z.mod_small. lia.
    - pose proof (Z.mod_pos_bound (Z.of_nat n - 1) (2 * m) ltac:(lia)) as MB.
      pose proof (Z.div_mod (Z.of_nat n - 1) (2 * m) ltac:(lia)) as DM.
      set (q := ((Z.of_nat n - 1) / (2 * m))%Z) in *. set (t := ((Z.of_nat n - 1) mod (2 * m))%Z) in *.
      symmetry. destruct (Z.eqb_spec (t + 1) (2 * m)).
      + apply (Z.mod_unique _ _ (q + 1)); [left; lia|]. nia.
      + apply (Z.mod_unique _ _ q); [left; lia|]. lia. }
  rewrite E. destruct (Z.eqb_spec K (2 * m)) as [->|N].
  - rewrite Z.ltb_irrefl, andb_false_r. destruct (Z.ltb_spec 0 m); [reflexivity|lia].
  - destruct (Z.leb_spec m K), (Z.ltb_spec K (2 * m)), (Z.ltb_spec K m); try lia; reflexivity.
Qed.

(** catching up after a frequency increase *)
Lemma sq_catch_state k : forall s K m, (0 <= K <= 2 ^ 52)%Z -> (1 <= m <= 2 ^ 50)%Z -> sq_at s K m ->
  (2 * m <= K - (Z.of_nat k - 1) * (2 * m - 1))%Z -> sq_at (nsteps sq_process k s) (K - Z.of_nat k * (2 * m - 1)) m.
Proof.
  induction k as [|k IH]; intros s K m HK Hm A H.
  - cbn [nsteps]. replace (K - Z.of_nat 0 * (2 * m - 1))%Z with K by lia. exact A.
  - rewrite nsteps_S. assert (P := IH s K m HK Hm A ltac:(lia)).
    destruct (sq_int_step _ (K - Z.of_nat k * (2 * m - 1)) m ltac:(nia) Hm P) as [_ S'].
    destruct (Z.leb_spec (2 * m) (K - Z.of_nat k * (2 * m - 1))); [|lia].
    replace (K - Z.of_nat (S k) * (2 * m - 1))%Z with (K - Z.of_nat k * (2 * m - 1) - 2 * m + 1)%Z by lia. exact S'.
Qed.
Lemma sq_catch k s K m : (0 <= K <= 2 ^ 52)%Z -> (1 <= m <= 2 ^ 50)%Z -> sq_at s K m ->
  (2 * m <= K - Z.of_nat k * (2 * m - 1))%Z -> nth_out sq_process k s = of_Z 1.
Proof.
  intros HK Hm A H. unfold nth_out. assert (P := sq_catch_state k s K m HK Hm A ltac:(nia)).
  destruct (sq_int_step _ (K - Z.of_nat k * (2 * m - 1)) m ltac:(nia) Hm P) as [O _]. rewrite O.
  destruct (Z.ltb_spec (K - Z.of_nat k * (2 * m - 1)) (2 * m)); [lia|]. rewrite andb_false_r. reflexivity.
Qed.

(** any half period: the phase is at least 1 after one sample *)
Definition sq_ok (s : square) : Prop := fin (sq_ind s) /\ 0 <= B2R (sq_ind s) <= bpow radix2 53.
Lemma sq_ok_step s : sq_ok s -> fin (sq_inv s) -> 0 <= B2R (sq_inv s) <= bpow radix2 200 ->
  sq_ok (snd (sq_process s)) /\ 1 <= B2R (sq_ind (snd (sq_process s))).
Proof.
  intros (F1 & H1) F2 H2. destruct c2 as [F3 V3]. destruct one64 as [F4 V4].
  assert (FD : fmt64 (2 * B2R (sq_inv s))) by (apply fmt64_double, fmt_B2R).
  destruct (fmul_ok (of_Z 2) (sq_inv s) F3 F2) as [A B]; rewrite V3, rnd_fmt in * by exact FD.
  { rewrite Rabs_pos_eq by lra. apply Rle_lt_trans with (bpow radix2 201); [|apply bpow_lt; lia].
    change 201%Z with (200 + 1)%Z. rewrite bpow_double. lra. }
  unfold sq_process. cbn [snd]. unfold sq_ok. cbn [sq_ind].
  set (z := if fge (sq_ind s) (fmul (of_Z 2) (sq_inv s)) then _ else _).
  assert (Z : fin z /\ 0 <= B2R z <= bpow radix2 53).
  { unfold z. destruct (fge _ _) eqn:G; [|auto]. apply fge_true in G; try assumption. rewrite B in G.
    destruct (fsub_le (sq_ind s) (fmul (of_Z 2) (sq_inv s)) (bpow radix2 53) F1 A) as (P & Q & R0).
    - apply fmt64_b. lia.
    - apply bpow_lt. lia.
    - rewrite B, Rabs_pos_eq; lra.
    - apply Rabs_le_inv in R0. split; [exact P|]. split; [|lra]. rewrite Q. apply rnd_nonneg. lra. }
  destruct Z as [Z1 Z2].
  assert (RB : rnd64 (B2R z + 1) <= bpow radix2 53).
  { rewrite <- (rnd_absorb64 53) by lia. apply rnd_le. change (bpow radix2 (53 - 53)) with 1. lra. }
  assert (LB : 1 <= rnd64 (B2R z + 1)) by (apply (rnd_ge_fmt (prec:=53) (emax:=1024)); [exact fmt64_1|lra]).
  destruct (fadd_ok z (of_Z 1) Z1 F4) as [P Q]; rewrite V4 in *.
  { rewrite Rabs_pos_eq by lra. eapply Rle_lt_trans; [exact RB|]. apply bpow_lt. lia. }
  rewrite Q. repeat split; try assumption; lra.
Qed.

Lemma sq_stuck_out s : sq_ok s -> fin (sq_inv s) -> 0 <= B2R (sq_inv s) <= / 2 -> 1 <= B2R (sq_ind s) -> fst (sq_process s) = of_Z 1.
Proof.
  intros (F1 & H1) F2 H2 H3. destruct c2 as [F3 V3].
  assert (FD : fmt64 (2 * B2R (sq_inv s))) by (apply fmt64_double, fmt_B2R).
  destruct (fmul_ok (of_Z 2) (sq_inv s) F3 F2) as [A B]; rewrite V3, rnd_fmt in * by exact FD.
  { rewrite Rabs_pos_eq by lra. apply b1024s. rewrite sixty. lra. }
  unfold sq_process. cbn [fst].
  assert (G : flt (sq_ind s) (fmul (of_Z 2) (sq_inv s)) = false) by (apply flt_false; try assumption; rewrite B; lra).
  rewrite G, andb_false_r. reflexivity.
Qed.
Lemma half_b200 x : x <= / 2 -> x <= bpow radix2 200.
Proof. intro H. apply Rle_trans with 1; [lra|]. change 1 with (bpow radix2 0). apply bpow_le. lia. Qed.
Lemma sq_stuck n : forall s, sq_ok s -> fin (sq_inv s) -> 0 <= B2R (sq_inv s) <= / 2 -> 1 <= B2R (sq_ind s) ->
  nth_out sq_process n s = of_Z 1.
Proof.
  induction n as [|n IH]; intros s O F H L; [apply sq_stuck_out; assumption|].
  unfold nth_out. cbn [nsteps]. destruct (sq_ok_step s O F) as [P Q]; [pose proof (half_b200 _ (proj2 H)); lra|].
  apply (IH (snd (sq_process s))); try assumption.
Qed.

(** the half period of a frequency *)
Lemma sq_half_ok f : fin f -> bpow radix2 (-100) <= B2R f <= bpow radix2 1000 ->
  fin (sq_half f) /\ B2R (sq_half f) = rnd64 (48000 / (2 * B2R f)) /\ 0 <= B2R (sq_half f) <= bpow radix2 200.
Proof.
  intros F H. destruct c2 as [F3 V3]. destruct SR64_ok as [FS VS].
  pose proof (bpow_gt_0 radix2 (-100)) as P0.
  assert (FD : fmt64 (2 * B2R f)) by (apply fmt64_double, fmt_B2R).
  destruct (fmul_ok (of_Z 2) f F3 F) as [A B]; rewrite V3, rnd_fmt in * by exact FD.
  { rewrite Rabs_pos_eq by lra. apply Rle_lt_trans with (bpow radix2 1001); [|apply bpow_lt; lia].
    change 1001%Z with (1000 + 1)%Z. rewrite bpow_double. lra. }
  assert (Q : 0 <= 48000 / (2 * B2R f) <= bpow radix2 200).
  { split; [apply Rmult_le_pos; [lra|apply Rlt_le, Rinv_0_lt_compat; lra]|].
    apply Rmult_le_reg_r with (2 * B2R f); [lra|]. unfold Rdiv. rewrite Rmult_assoc, Rinv_l by lra.
    apply Rle_trans with (bpow radix2 200 * (2 * bpow radix2 (-100))).
    - replace (bpow radix2 200 * (2 * bpow radix2 (-100))) with (2 * (bpow radix2 200 * bpow radix2 (-100))) by ring.
      rewrite <- bpow_plus. apply Rle_trans with (IZR (2 ^ 60)); [rewrite sixty; lra|].
      rewrite IZR_pow2 by lia. assert (bpow radix2 60 <= bpow radix2 (200 + -100)) by (apply bpow_le; lia).
      pose proof (bpow_gt_0 radix2 60). lra.
    - apply Rmult_le_compat_l; [apply bpow_ge_0|]. lra. }
  unfold sq_half.
  destruct (fdiv_le SR64 (fmul (of_Z 2) f) (bpow radix2 200) FS) as (C & D & E).
  - rewrite B. lra.
  - apply fmt64_b. lia.
  - apply bpow_lt. lia.
  - rewrite VS, B. rewrite Rabs_pos_eq; lra.
  - rewrite D. rewrite VS, B in *. split; [exact C|]. split; [reflexivity|].
    split; [apply rnd_nonneg; lra|]. rewrite D in E. apply Rabs_le_inv in E. lra.
Qed.
Lemma sq_half_small f : fin f -> 48000 <= B2R f <= bpow radix2 1000 -> fin (sq_half f) /\ 0 <= B2R (sq_half f) <= / 2.
Proof.
  intros F H. destruct (sq_half_ok f F) as (A & B & C).
  { split; [|lra]. apply Rle_trans with 1; [|lra]. change 1 with (bpow radix2 0). apply bpow_le. lia. }
  split; [exact A|]. split; [apply C|]. rewrite B.
  apply (rnd_le_fmt (prec:=53) (emax:=1024)); [change (/ 2) with (bpow radix2 (-1)); apply fmt64_b; lia|].
  apply Rmult_le_reg_r with (2 * B2R f); [lra|]. unfold Rdiv. rewrite Rmult_assoc, Rinv_l by lra. lra.
Qed.

Lemma sq_ok_run ops : freqs (fun f => is_finite f = true /\ bpow radix2 (-100) <= B2R f <= bpow radix2 1000) ops ->
  forall s ys s', sq_ok s -> fin (sq_inv s) -> 0 <= B2R (sq_inv s) <= bpow radix2 200 ->
  sq_run ops s = Ok (ys, s') -> sq_ok s' /\ fin (sq_inv s') /\ 0 <= B2R (sq_inv s') <= bpow radix2 200.
Proof.
  intro H. induction H as [|o ops Ho H IH]; intros s ys s' I F J E.
  - injection E as <- <-. auto.
  - destruct o as [f|]; unfold sq_run in E; cbn [grun] in E; fold sq_run in E.
    + destruct Ho as [Hf1 Hf2]. destruct (sq_half_ok f Hf1 Hf2) as (A & _ & B).
      apply (IH (sq_set_frequency s f) ys s'); assumption.
    + cbn [bind] in E. destruct (sq_ok_step s I F J) as (I' & _).
      assert (EI : sq_inv (snd (sq_process s)) = sq_inv s) by reflexivity.
      destruct (sq_process s) as [y s1]. cbn [fst snd] in *.
      destruct (sq_run ops s1) as [[zs s2]|] eqn:E2; [|discriminate]. cbn [bind] in E. injection E as <- <-.
      apply (IH s1 zs s2); try assumption; rewrite EI; assumption.
Qed.

(** once the frequency is at least 48 kHz the output is constant: from the first sample after the change on *)
Lemma sq_dc f0' ops f ys s n : fin f0' -> bpow radix2 (-100) <= B2R f0' <= bpow radix2 1000 ->
  freqs (fun f => is_finite f = true /\ bpow radix2 (-100) <= B2R f <= bpow radix2 1000) ops ->
  fin f -> 48000 <= B2R f <= bpow radix2 1000 -> sq_run ops (sq_new f0') = Ok (ys, s) ->
  nth_out sq_process (S n) (sq_set_frequency s f) = of_Z 1.
Proof.
  intros F0 H0 Hops F H E. destruct (sq_half_ok f0' F0 H0) as (A & _ & B).
  assert (O : sq_ok (sq_new f0')).
  { split; [reflexivity|]. cbn [sq_new sq_ind]. change (B2R (f0 : f64)) with 0. pose proof (bpow_ge_0 radix2 53). lra. }
  destruct (sq_ok_run ops Hops (sq_new f0') ys s O A B E) as (P & Q & R0).
  destruct (sq_half_small f F H) as [C D].
  unfold nth_out. cbn [nsteps].
  destruct (sq_ok_step (sq_set_frequency s f)) as [U V]; [exact P|exact C|cbn [sq_set_frequency sq_inv]; pose proof (half_b200 _ (proj2 D)); lra|].
  apply (sq_stuck n); assumption.
Qed.
