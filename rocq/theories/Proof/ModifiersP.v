(** Delay lines, echoes, the generic filter and the stateless modifiers. *)
From Coq Require Import ZArith Znumtheory Zpow_facts List Bool Lia Reals Lra.
From Flocq Require Import Core.Core IEEE754.BinarySingleNaN Mult_error.
From Verif Require Import Model.Floats Model.Utils Model.Modifiers Proof.FloatFacts Proof.SampleFormatP Proof.FormatsP Proof.UtilsP.
Import ListNotations.
Local Open Scope R_scope.

(** ** C41: Delay *)
Lemma delay_run (q xs : list f32) :
  run_res delay_process q xs = Ok (firstn (length xs) (q ++ xs), skipn (length xs) (q ++ xs)).
Proof.
  revert q. induction xs as [|x xs IH]; intro q.
  - cbn [run_res length firstn skipn]. rewrite app_nil_r. reflexivity.
  - cbn [run_res length]. unfold delay_process at 1.
    replace (q ++ x :: xs) with ((q ++ [x]) ++ xs) by (rewrite <- app_assoc; reflexivity).
    destruct (q ++ [x]) as [|y q'] eqn:E; [destruct q; discriminate|].
    cbn [bind]. rewrite IH. reflexivity.
Qed.

Lemma zeros_length n : (0 <= n)%Z -> Z.of_nat (length (zeros n)) = n.
Proof. intro H. unfold zeros. rewrite repeat_length. lia. Qed.
Lemma zeros_nth n k : (k < length (zeros n))%nat -> nth_error (zeros n) k = Some f0.
Proof.
  intro H. destruct (nth_error (zeros n) k) as [v|] eqn:E; [|apply nth_error_None in E; lia].
  apply nth_error_In in E. unfold zeros in E. apply repeat_spec in E. rewrite E. reflexivity.
Qed.

Lemma nth_error_firstn_lt {A} (l : list A) n k : (k < n)%nat -> nth_error (firstn n l) k = nth_error l k.
Proof.
  revert n k. induction l as [|a l IH]; intros [|n] [|k] H; try lia; cbn; try reflexivity.
  apply IH. lia.
Qed.

Lemma delay_exact (n : nat) (xs : list f32) :
  exists ys q, run_res delay_process (repeat f0 n) xs = Ok (ys, q) /\ length ys = length xs /\ length q = n /\
    forall k, (k < length xs)%nat ->
      nth_error ys k = if (k <? n)%nat then Some f0 else nth_error xs (k - n).
Proof.
  rewrite delay_run. do 2 eexists. split; [reflexivity|].
  split; [rewrite firstn_length, app_length, repeat_length; lia|].
  split; [rewrite skipn_length, app_length, repeat_length; lia|].
  intros k Hk. rewrite nth_error_firstn_lt by exact Hk.
  destruct (Nat.ltb_spec k n) as [L|L].
  - rewrite nth_error_app1 by (rewrite repeat_length; exact L).
    replace (repeat f0 n) with (zeros (Z.of_nat n)) by (unfold zeros; rewrite Nat2Z.id; reflexivity).
    apply zeros_nth. unfold zeros. rewrite Nat2Z.id, repeat_length. exact L.
  - rewrite nth_error_app2 by (rewrite repeat_length; exact L). rewrite repeat_length. reflexivity.
Qed.

(** ** C42 *)
Lemma s2s_nonneg d : (0 <= seconds_to_samples d)%Z.
Proof.
  unfold seconds_to_samples, to_usize. apply (to_int_range 0 u64_max). unfold u64_max. lia.
Qed.

Lemma delay_new_length d : Z.of_nat (length (delay_new d)) = seconds_to_samples d.
Proof. apply zeros_length, s2s_nonneg. Qed.

Lemma Z_div_R a b : (0 < b)%Z -> IZR (a / b) <= IZR a / IZR b < IZR (a / b) + 1.
Proof.
  intro Hb. pose proof (Z.div_mod a b ltac:(lia)) as E. pose proof (Z.mod_pos_bound a b Hb) as M.
  assert (B : 0 < IZR b) by (apply IZR_lt; exact Hb).
  assert (Q : IZR a = IZR b * IZR (a / b) + IZR (a mod b)) by (rewrite <- mult_IZR, <- plus_IZR; f_equal; exact E).
  assert (M1 : 0 <= IZR (a mod b)) by (apply IZR_le; lia).
  assert (M2 : IZR (a mod b) < IZR b) by (apply IZR_lt; lia).
  rewrite Q. unfold Rdiv. rewrite Rmult_plus_distr_r.
  replace (IZR b * IZR (a / b) * / IZR b) with (IZR (a / b)) by (field; lra).
  split.
  - assert (0 <= IZR (a mod b) * / IZR b) by (apply Rmult_le_pos; [exact M1|left; apply Rinv_0_lt_compat; exact B]). lra.
  - assert (IZR (a mod b) * / IZR b < 1).
    { apply Rmult_lt_reg_r with (IZR b); [exact B|]. rewrite Rmult_assoc, Rinv_l, Rmult_1_r, Rmult_1_l by lra. exact M2. }
    lra.
Qed.

Lemma div_ne_err a k : (0 <= k)%Z -> Rabs (IZR (div_ne a k) - IZR a / bpow radix2 k) <= 1.
Proof.
  intro Hk. assert (P : (0 < 2 ^ k)%Z) by (apply Z.pow_pos_nonneg; lia).
  pose proof (Z_div_R a (2 ^ k) P) as H. rewrite IZR_pow2 in H by exact Hk.
  assert (D : div_ne a k = (a / 2 ^ k)%Z \/ div_ne a k = (a / 2 ^ k + 1)%Z).
  { unfold div_ne. cbv zeta. repeat match goal with |- context [if ?c then _ else _] => destruct c end; auto. }
  apply Rabs_le. destruct D as [-> | ->]; [|rewrite plus_IZR]; lra.
Qed.

(** all three roundings of seconds to nanoseconds are within 1+2^-6 ns, below 2^17 seconds *)
Lemma nanos_close md (x : f64) : fin x -> 0 <= B2R x <= 131072 ->
  exists N, nanos_of_f64 md x = Ok N /\ Rabs (IZR N - B2R x * 1000000000) <= 1 + / 64 /\ (0 <= N)%Z.
Proof.
  intros Fx Hx. destruct GIGA_ok as [FG VG]. destruct md.
  - cbn [nanos_of_f64].
    destruct (fmul_le x (of_Z GIGA) (bpow radix2 47) Fx FG) as (A & B & C);
      [apply fmt64_b; lia|apply bpow_lt; lia| |].
    { rewrite VG. rewrite Rabs_pos_eq by lra. change (bpow radix2 47) with 140737488355328. lra. }
    rewrite VG in B.
    assert (P : 0 <= B2R (fmul x (of_Z GIGA))) by (rewrite B; apply rnd_nonneg; lra).
    rewrite A. rewrite (proj2 (fle_true f0 _ eq_refl A)) by exact P. cbn [andb].
    eexists. split; [reflexivity|]. rewrite Btrunc_Ztrunc, B, Ztrunc_floor by (rewrite <- B; exact P).
    assert (E : Rabs (rnd64 (B2R x * 1000000000) - B2R x * 1000000000) <= bpow radix2 (-7)).
    { apply (rnd_err (prec:=53) (emax:=1024) 47); [unfold SpecFloat.emin; lia|].
      rewrite Rabs_pos_eq by lra. change (bpow radix2 47) with 140737488355328. lra. }
    change (bpow radix2 (-7)) with (/ 128) in E. apply Rabs_le_inv in E.
    pose proof (Zfloor_lb (rnd64 (B2R x * 1000000000))). pose proof (Zfloor_ub (rnd64 (B2R x * 1000000000))).
    split; [apply Rabs_le; lra|]. apply Zfloor_lub. simpl. rewrite <- B. exact P.
  - destruct x as [s|s| |s m e Hb]; try discriminate.
    { exists 0%Z. split; [reflexivity|]. split; [|lia]. simpl. apply Rabs_le. lra. }
    assert (s = false) as -> by (destruct s; [exfalso|reflexivity];
      assert (F2R (Float radix2 (Zneg m) e) < 0) by (apply F2R_lt_0; reflexivity); simpl in Hx; lra).
    cbn [nanos_of_f64]. eexists. split; [reflexivity|]. unfold GIGA.
    change (B2R (B754_finite false m e Hb)) with (IZR (Zpos m) * bpow radix2 e).
    destruct (Z.leb_spec 0 e) as [He|He].
    + rewrite !mult_IZR, IZR_pow2 by exact He. split; [|].
      * match goal with |- Rabs (?a - ?a) <= _ => replace (a - a) with 0 by ring end. rewrite Rabs_R0. lra.
      * assert (0 < 2 ^ e)%Z by (apply Z.pow_pos_nonneg; lia). lia.
    + assert (P : (0 < 2 ^ (- e))%Z) by (apply Z.pow_pos_nonneg; lia).
      pose proof (Z_div_R (Zpos m * 1000000000) (2 ^ (- e)) P) as H. rewrite IZR_pow2, mult_IZR in H by lia.
      split; [|apply Z.div_pos; lia].
      replace (IZR (Zpos m) * bpow radix2 e * 1000000000) with (IZR (Zpos m) * 1000000000 / bpow radix2 (- e)).
      { apply Rabs_le. lra. }
      unfold Rdiv. rewrite <- bpow_opp, Z.opp_involutive. ring.
  - destruct x as [s|s| |s m e Hb]; try discriminate.
    { exists 0%Z. split; [reflexivity|]. split; [|lia]. simpl. apply Rabs_le. lra. }
    assert (s = false) as -> by (destruct s; [exfalso|reflexivity];
      assert (F2R (Float radix2 (Zneg m) e) < 0) by (apply F2R_lt_0; reflexivity); simpl in Hx; lra).
    cbn [nanos_of_f64]. eexists. split; [reflexivity|]. unfold GIGA.
    change (B2R (B754_finite false m e Hb)) with (IZR (Zpos m) * bpow radix2 e).
    destruct (Z.leb_spec 0 e) as [He|He].
    + rewrite !mult_IZR, IZR_pow2 by exact He. split; [|].
      * match goal with |- Rabs (?a - ?a) <= _ => replace (a - a) with 0 by ring end. rewrite Rabs_R0. lra.
      * assert (0 < 2 ^ e)%Z by (apply Z.pow_pos_nonneg; lia). lia.
    + pose proof (div_ne_err (Zpos m * 1000000000) (- e) ltac:(lia)) as H. rewrite mult_IZR in H.
      assert (P : (0 < 2 ^ (- e))%Z) by (apply Z.pow_pos_nonneg; lia).
      split.
      * replace (IZR (Zpos m) * bpow radix2 e * 1000000000) with (IZR (Zpos m) * 1000000000 / bpow radix2 (- e)).
        { lra. }
        unfold Rdiv. rewrite <- bpow_opp, Z.opp_involutive. ring.
      * unfold div_ne. cbv zeta. assert (0 <= Zpos m * 1000000000 / 2 ^ (- e))%Z by (apply Z.div_pos; lia).
        repeat match goal with |- context [if ?c then _ else _] => destruct c end; lia.
Qed.

Lemma ZnearestA_eq x n : Rabs (x - IZR n) < / 2 -> ZnearestA x = n.
Proof. intro H. apply Znearest_imp. exact H. Qed.

Lemma delay_length_round_trip md n : (0 <= n <= 2 ^ 32)%Z ->
  exists d, delay_get_delay md (zeros n) = Ok d /\ seconds_to_samples d = n /\
    Rabs (IZR (secs d) + IZR (nanos d) / 1000000000 - IZR n / 48000) <= 2 / 1000000000 /\
    (0 <= secs d < 2 ^ 32)%Z /\ (0 <= nanos d < 1000000000)%Z.
Proof.
  intro Hn. destruct SR64_ok as [FS VS]. destruct (of_Z64 n ltac:(lia)) as [Fn Vn].
  assert (N0 : 0 <= IZR n) by (apply IZR_le; lia).
  assert (N1 : IZR n <= 4294967296) by (apply IZR_le; lia).
  unfold delay_get_delay. rewrite zeros_length by lia.
  destruct (fdiv_le (of_Z n) SR64 131072 Fn) as (A & B & C);
    [rewrite VS; lra|apply (fmt64_Z 131072); lia|pose proof bpow_1024_big; lra|rewrite Vn, VS, Rabs_pos_eq; lra|].
  rewrite Vn, VS in B. set (x := fdiv (of_Z n) SR64) in *.
  assert (X0 : 0 <= B2R x) by (rewrite B; apply rnd_nonneg; lra).
  assert (X1 : B2R x <= 131072) by (rewrite Rabs_pos_eq in C by exact X0; exact C).
  assert (EX : Rabs (B2R x - IZR n / 48000) <= bpow radix2 (-37)).
  { rewrite B. apply (rnd_err (prec:=53) (emax:=1024) 17); [unfold SpecFloat.emin; lia|].
    change (bpow radix2 17) with 131072. rewrite Rabs_pos_eq; lra. }
  change (bpow radix2 (-37)) with (/ 137438953472) in EX. apply Rabs_le_inv in EX.
  destruct (nanos_close md x A (conj X0 X1)) as (N & EN & HN & NP).
  apply Rabs_le_inv in HN.
  assert (NB : (N <= 131073 * 1000000000)%Z) by (apply le_IZR; rewrite mult_IZR; lra).
  unfold from_secs_f64. rewrite EN. cbn [bind]. change (2 ^ 64 * GIGA)%Z with (2 ^ 64 * 1000000000)%Z.
  destruct (Z.ltb_spec N (2 ^ 64 * 1000000000)) as [_|L]; [|lia].
  set (d := mkDur (N / GIGA) (N mod GIGA)).
  assert (DO : dur_ok d).
  { split; cbn [secs nanos d]; unfold GIGA.
    - split; [apply Z.div_pos; lia|]. apply Z.div_lt_upper_bound; lia.
    - apply Z.mod_pos_bound. lia. }
  assert (DR : dur_R d = IZR N / 1000000000).
  { unfold dur_R. cbn [secs nanos d]. unfold GIGA. rewrite (Z.div_mod N 1000000000) at 3 by lia.
    rewrite plus_IZR, mult_IZR. field. }
  exists d. split; [reflexivity|]. fold (dur_R d).
  assert (DC : Rabs (dur_R d - IZR n / 48000) <= 1 / 1000000000 + / 32000000000).
  { rewrite DR. apply Rabs_le. lra. }
  split; [|split; [apply Rabs_le; apply Rabs_le_inv in DC; lra|exact DO]].
  destruct (s2s_formula d DO) as [F P]. destruct (as_secs_ok d DO) as (A' & B' & C' & D').
  rewrite F. apply ZnearestA_eq.
  destruct DO as [[S1 S2] [M1 M2]]. unfold GIGA in M2.
  assert (R1 : 0 <= IZR (nanos d)) by (apply IZR_le; lia).
  assert (R2 : IZR (nanos d) <= 999999999) by (apply IZR_le; lia).
  assert (R3 : 0 <= IZR (secs d)) by (apply IZR_le; lia).
  apply Rabs_le_inv in DC. unfold dur_R in DC.
  set (a := B2R (as_secs_f64 d)) in *. set (q := rnd64 (IZR (nanos d) / 1000000000)) in *.
  assert (E1 : Rabs (q - IZR (nanos d) / 1000000000) <= bpow radix2 (-54)).
  { apply (rnd_err (prec:=53) (emax:=1024) 0); [unfold SpecFloat.emin; lia|]. change (bpow radix2 0) with 1. apply Rabs_le. lra. }
  assert (E2 : Rabs (a - (IZR (secs d) + q)) <= bpow radix2 (-37)).
  { rewrite B'. apply (rnd_err (prec:=53) (emax:=1024) 17); [unfold SpecFloat.emin; lia|].
    change (bpow radix2 17) with 131072. apply Rabs_le_inv in E1.
    change (bpow radix2 (-54)) with (/ 18014398509481984) in E1. apply Rabs_le. lra. }
  change (bpow radix2 (-54)) with (/ 18014398509481984) in E1.
  change (bpow radix2 (-37)) with (/ 137438953472) in E2.
  apply Rabs_le_inv in E1. apply Rabs_le_inv in E2.
  assert (E3 : Rabs (rnd64 (a * 48000) - a * 48000) <= bpow radix2 (-21)).
  { apply (rnd_err (prec:=53) (emax:=1024) 33); [unfold SpecFloat.emin; lia|].
    change (bpow radix2 33) with 8589934592. rewrite Rabs_pos_eq by lra. lra. }
  change (bpow radix2 (-21)) with (/ 2097152) in E3. apply Rabs_le_inv in E3.
  apply Rabs_lt. lra.
Qed.

(** ** C43 *)
Lemma delay_clone_length q : length (delay_clone q) = (length q * Z.to_nat 48000)%nat.
Proof. unfold delay_clone, zeros, SAMPLE_RATE. rewrite repeat_length. lia. Qed.
Lemma echo_clone_length e :
  length (e_delay (echo_clone e)) = (length (e_delay e) * Z.to_nat 48000)%nat /\ e_gain (echo_clone e) = e_gain e.
Proof. split; [|reflexivity]. unfold echo_clone, zeros, SAMPLE_RATE. cbn. rewrite repeat_length. lia. Qed.

(** ** C44: Echo *)
Lemma echo_run_gen : forall (xs q : list f32) (g : f32), q <> [] ->
  exists ys q', run_res echo_process (mkEcho q g) xs = Ok (ys, mkEcho q' g) /\
    length ys = length xs /\ length q' = length q /\
    forall k x, nth_error xs k = Some x ->
      exists o, nth_error (q ++ ys) k = Some o /\ nth_error ys k = Some (fadd (fmul o g) x).
Proof.
  induction xs as [|x xs IH]; intros q g Hq.
  - exists [], q. repeat split. intros k x H. destruct k; discriminate.
  - destruct q as [|o q]; [contradiction|]. cbn [run_res]. unfold echo_process at 1. cbn [e_delay e_gain].
    set (w := fadd (fmul o g) x). cbv zeta. cbn [bind].
    destruct (IH (q ++ [w]) g ltac:(destruct q; discriminate)) as (ys & q' & E & L1 & L2 & H).
    rewrite E. cbn [bind]. exists (w :: ys), q'. split; [reflexivity|].
    split; [cbn; lia|]. split; [rewrite L2, app_length; cbn; lia|].
    intros [|k] x' Hx.
    + injection Hx as <-. exists o. split; reflexivity.
    + cbn [nth_error] in *. destruct (H k x' Hx) as (o' & H1 & H2). exists o'.
      cbn [app]. rewrite <- app_assoc in H1. split; assumption.
Qed.

Lemma echo_recurrence (n : nat) (g : f32) (xs : list f32) : (0 < n)%nat ->
  exists ys q', run_res echo_process (mkEcho (repeat f0 n) g) xs = Ok (ys, mkEcho q' g) /\
    length ys = length xs /\ length q' = n /\
    forall k x, nth_error xs k = Some x ->
      exists o, (if (k <? n)%nat then o = f0 else nth_error ys (k - n) = Some o) /\
        nth_error ys k = Some (fadd (fmul o g) x).
Proof.
  intro Hn. destruct (echo_run_gen xs (repeat f0 n) g) as (ys & q' & E & L1 & L2 & H).
  { destruct n; [lia|discriminate]. }
  exists ys, q'. rewrite repeat_length in L2. split; [exact E|]. split; [exact L1|]. split; [exact L2|].
  intros k x Hx. destruct (H k x Hx) as (o & H1 & H2). exists o. split; [|exact H2].
  destruct (Nat.ltb_spec k n) as [L|L].
  - rewrite nth_error_app1 in H1 by (rewrite repeat_length; exact L).
    apply nth_error_In, repeat_spec in H1. exact H1.
  - rewrite nth_error_app2, repeat_length in H1 by (rewrite repeat_length; exact L). exact H1.
Qed.

(** ** C45: boundedness.  [echo_bound_gen]: with the rounded product *)
Lemma echo_bound_gen (g : f32) (X B : R) :
  fin g -> fmt32 B -> B < bpow radix2 128 -> 0 <= B -> 0 <= X ->
  (forall y, Rabs y <= B -> Rabs (rnd32 (y * B2R g)) <= B) ->
  (forall y x, Rabs y <= B -> Rabs x <= X -> Rabs (rnd32 (rnd32 (y * B2R g) + x)) <= B) ->
  forall (xs q : list f32), q <> [] ->
  (forall x, In x xs -> fin x /\ Rabs (B2R x) <= X) -> (forall o, In o q -> fin o /\ Rabs (B2R o) <= B) ->
  exists ys e', run_res echo_process (mkEcho q g) xs = Ok (ys, e') /\
    forall y, In y ys -> fin y /\ Rabs (B2R y) <= B.
Proof.
  intros Fg FB HB B0 X0 K1 K. induction xs as [|x xs IH]; intros q Hq Hx Ho.
  - exists [], (mkEcho q g). split; [reflexivity|]. intros y [].
  - destruct q as [|o q]; [contradiction|]. cbn [run_res]. unfold echo_process at 1. cbn [e_delay e_gain].
    destruct (Ho o (or_introl eq_refl)) as [Fo Bo]. destruct (Hx x (or_introl eq_refl)) as [Fx Bx].
    destruct (fmul_ok o g Fo Fg) as [A1 A2].
    { eapply Rle_lt_trans; [apply K1; exact Bo|exact HB]. }
    destruct (fadd_ok (fmul o g) x A1 Fx) as [A3 A4].
    { rewrite A2. eapply Rle_lt_trans; [apply K; [exact Bo|exact Bx]|exact HB]. }
    set (w := fadd (fmul o g) x) in *. cbv zeta. cbn [bind].
    assert (W : fin w /\ Rabs (B2R w) <= B).
    { split; [exact A3|]. rewrite A4, A2. apply K; assumption. }
    destruct (IH (q ++ [w])) as (ys & e' & E & H).
    { destruct q; discriminate. }
    { intros z Hz. apply Hx. right. exact Hz. }
    { intros z Hz. apply in_app_or in Hz. destruct Hz as [Hz|[<-|[]]]; [apply Ho; right; exact Hz|exact W]. }
    rewrite E. cbn [bind]. eexists _, _. split; [reflexivity|].
    intros y [<-|Hy]; [exact W|apply H, Hy].
Qed.

(** rounding to nearest even does not exceed an even [B] by half an ulp; an odd [B] cannot be hit *)
Lemma rnd_le_mid (B v : R) : fmt32 B -> 0 <= B -> v < B + ulp radix2 (SpecFloat.fexp 24 128) B / 2 -> rnd32 v <= B.
Proof.
  intros FB B0 H. apply (round_N_le_midp radix2 (SpecFloat.fexp 24 128)); [exact FB|].
  rewrite succ_eq_pos by exact B0. lra.
Qed.

Lemma rnd_mid_even (M e : Z) : (e = SpecFloat.fexp 24 128 (mag radix2 (IZR M * bpow radix2 e)))%Z ->
  (e = SpecFloat.fexp 24 128 (mag radix2 ((IZR M + / 2) * bpow radix2 e)))%Z ->
  Z.even M = true -> rnd32 ((IZR M + / 2) * bpow radix2 e) = IZR M * bpow radix2 e.
Proof.
  intros H1 H2 HE. unfold round, scaled_mantissa, cexp. rewrite <- H2.
  rewrite Rmult_assoc, <- bpow_plus. replace (e + - e)%Z with 0%Z by ring. simpl (bpow radix2 0). rewrite Rmult_1_r.
  unfold F2R. simpl. f_equal. f_equal. unfold Znearest.
  assert (F : Zfloor (IZR M + / 2) = M) by (apply Zfloor_imp; rewrite plus_IZR; lra).
  rewrite F, Rcompare_Eq by lra. rewrite HE. reflexivity.
Qed.

#[local] Instance fexp32_valid : Valid_exp (SpecFloat.fexp 24 128) := FLT_exp_valid (SpecFloat.emin 24 128) 24.
#[local] Instance fexp32_mono : Monotone_exp (SpecFloat.fexp 24 128) := FLT_exp_monotone (SpecFloat.emin 24 128) 24.

Lemma odd_half (gm eg M K : Z) : Z.odd M = true -> (0 < M)%Z -> (0 <= gm)%Z ->
  IZR gm * bpow radix2 eg * IZR M = IZR K - / 2 -> IZR gm * bpow radix2 eg <= 1 ->
  IZR gm * bpow radix2 eg = / 2.
Proof.
  intros HM M0 G0 E G1. destruct (Z.leb_spec 0 eg) as [He|He].
  - exfalso. rewrite <- IZR_pow2 in E by exact He. rewrite <- !mult_IZR in E.
    assert (2 * (gm * 2 ^ eg * M) = 2 * K - 1)%Z; [|lia].
    apply eq_IZR. rewrite minus_IZR, (mult_IZR 2), (mult_IZR 2), E. lra.
  - assert (PB : 0 < bpow radix2 (- eg)) by apply bpow_gt_0.
    assert (Q : (2 * gm * M = (2 * K - 1) * 2 ^ (- eg))%Z).
    { apply eq_IZR. rewrite !mult_IZR, minus_IZR, mult_IZR, IZR_pow2 by lia.
      assert (E' : IZR gm * IZR M = (IZR K - / 2) * bpow radix2 (- eg)).
      { rewrite <- E. replace (IZR gm * bpow radix2 eg * IZR M * bpow radix2 (- eg))
          with (IZR gm * IZR M * (bpow radix2 eg * bpow radix2 (- eg))) by ring.
        rewrite <- bpow_plus. replace (eg + - eg)%Z with 0%Z by ring. simpl. ring. }
      lra. }
    assert (RP : rel_prime (2 ^ (- eg)) M).
    { apply rel_prime_sym, rel_prime_Zpower_r; [lia|]. apply Zgcd_1_rel_prime.
      apply Z.odd_spec in HM. destruct HM as [h ->].
      replace (2 * h + 1)%Z with (1 + h * 2)%Z by ring.
      rewrite Z.gcd_comm, Z.gcd_add_mult_diag_r. reflexivity. }
    assert (D : (2 ^ (- eg) | 2 * gm)%Z).
    { apply (Gauss _ M); [|exact RP]. exists (2 * K - 1)%Z. rewrite <- Q. ring. }
    destruct D as [j Hj].
    assert (P : (0 < 2 ^ (- eg))%Z) by (apply Z.pow_pos_nonneg; lia).
    assert (G : 2 * (IZR gm * bpow radix2 eg) = IZR j).
    { rewrite <- Rmult_assoc, <- mult_IZR, Hj, mult_IZR, IZR_pow2 by lia.
      rewrite Rmult_assoc, <- bpow_plus. replace (- eg + eg)%Z with 0%Z by ring. simpl. ring. }
    assert (J : (0 <= j <= 2)%Z).
    { split; apply le_IZR; rewrite <- G; [|lra].
      apply Rmult_le_pos; [lra|]. apply Rmult_le_pos; [apply IZR_le; exact G0|apply bpow_ge_0]. }
    assert (JM : (j * M = 2 * K - 1)%Z).
    { apply Z.mul_reg_r with (2 ^ (- eg))%Z; [lia|]. rewrite <- Q, Hj. ring. }
    assert (C : (j = 0 \/ j = 1 \/ j = 2)%Z) by lia. destruct C as [ -> | [ -> | -> ] ]; [lia|lra|lia].
Qed.

Lemma echo_key (g B X : R) : fmt32 g -> fmt32 B -> bpow radix2 (-125) <= B -> 0 <= X -> Rabs g * B + X <= B ->
  rnd32 (rnd32 (Rabs g * B) + X) <= B.
Proof.
  intros Fg FB B0 X0 H. set (p := Rabs g * B) in *.
  assert (BP : 0 < B) by (eapply Rlt_le_trans; [apply bpow_gt_0|exact B0]).
  assert (P0 : 0 <= p) by (apply Rmult_le_pos; [apply Rabs_pos|lra]).
  assert (PB : p <= B) by lra.
  assert (E1 : Rabs (rnd32 p - p) <= / 2 * ulp radix2 (SpecFloat.fexp 24 128) p) by apply error_le_half_ulp, fexp32_valid.
  assert (E2 : ulp radix2 (SpecFloat.fexp 24 128) p <= ulp radix2 (SpecFloat.fexp 24 128) B).
  { apply ulp_le; try typeclasses eauto. rewrite !Rabs_pos_eq by lra. exact PB. }
  apply Rabs_le_inv in E1.
  assert (UB : ulp radix2 (SpecFloat.fexp 24 128) B = bpow radix2 (cexp radix2 (SpecFloat.fexp 24 128) B)) by (apply ulp_neq_0; lra).
  set (e := cexp radix2 (SpecFloat.fexp 24 128) B) in *.
  destruct (Rle_lt_dec (/ 2 * bpow radix2 e) (rnd32 p - p)) as [L|L].
  2:{ apply rnd_le_mid; [exact FB|lra|]. rewrite UB. lra. }
  assert (EQ : rnd32 p - p = / 2 * bpow radix2 e) by lra.
  assert (UP : ulp radix2 (SpecFloat.fexp 24 128) p = bpow radix2 e) by lra.
  assert (PN : p <> 0).
  { intro Z. rewrite Z, rnd_0 in EQ. pose proof (bpow_gt_0 radix2 e). lra. }
  rewrite ulp_neq_0 in UP by exact PN. apply bpow_inj in UP.
  set (M := Ztrunc (scaled_mantissa radix2 (SpecFloat.fexp 24 128) B)).
  assert (BM : B = IZR M * bpow radix2 e) by exact FB.
  assert (M0 : (0 < M)%Z).
  { apply lt_IZR. apply Rmult_lt_reg_r with (bpow radix2 e); [apply bpow_gt_0|]. rewrite Rmult_0_l, <- BM. exact BP. }
  destruct (Z.even M) eqn:EM.
  - apply Rle_trans with (rnd32 ((IZR M + / 2) * bpow radix2 e)).
    { apply rnd_le. rewrite Rmult_plus_distr_r, <- BM. lra. }
    apply Req_le. rewrite BM. apply rnd_mid_even; [rewrite <- BM; reflexivity| |exact EM].
    rewrite Rmult_plus_distr_r, <- BM.
    assert (MG : mag radix2 (B + / 2 * bpow radix2 e) = mag radix2 B :> Z).
    { apply (mag_plus_eps radix2 (SpecFloat.fexp 24 128)); [exact BP|exact FB|]. rewrite UB. pose proof (bpow_gt_0 radix2 e). lra. }
    rewrite MG. reflexivity.
  - exfalso. set (K := ZnearestE (scaled_mantissa radix2 (SpecFloat.fexp 24 128) p)).
    assert (RP : rnd32 p = IZR K * bpow radix2 e).
    { unfold round, F2R. cbn [Fnum Fexp]. rewrite UP. reflexivity. }
    pose proof (bpow_gt_0 radix2 e) as PE.
    assert (FG : fmt32 (Rabs g)) by (apply generic_format_abs; exact Fg).
    set (gm := Ztrunc (scaled_mantissa radix2 (SpecFloat.fexp 24 128) (Rabs g))). set (eg := cexp radix2 (SpecFloat.fexp 24 128) (Rabs g)).
    assert (GM : Rabs g = IZR gm * bpow radix2 eg) by exact FG.
    assert (G1 : Rabs g <= 1).
    { apply Rmult_le_reg_r with B; [exact BP|]. fold p. lra. }
    assert (HF : Rabs g = / 2).
    { rewrite GM. apply (odd_half gm eg M K).
      - rewrite <- Z.negb_even, EM. reflexivity.
      - exact M0.
      - apply le_IZR. apply Rmult_le_reg_r with (bpow radix2 eg); [apply bpow_gt_0|].
        rewrite Rmult_0_l, <- GM. apply Rabs_pos.
      - rewrite <- GM. apply Rmult_eq_reg_r with (bpow radix2 e); [|lra].
        rewrite Rmult_assoc, <- BM. fold p. rewrite Rmult_minus_distr_r, <- RP. lra.
      - rewrite <- GM. exact G1. }
    assert (FP : fmt32 p).
    { unfold p. rewrite HF, Rmult_comm. change (/ 2) with (bpow radix2 (-1)).
      apply (mult_bpow_exact_FLT radix2 (SpecFloat.emin 24 128) 24); [exact FB|].
      assert (-124 <= mag radix2 B)%Z.
      { assert (-125 < mag radix2 B)%Z; [|lia]. apply mag_gt_bpow. rewrite Rabs_pos_eq by lra. exact B0. }
      unfold SpecFloat.emin. lia. }
    rewrite rnd_fmt in EQ by exact FP. lra.
Qed.

Lemma echo_bounded (n : nat) (g : f32) (X B : R) (xs : list f32) :
  (0 < n)%nat -> fin g -> fmt32 B -> bpow radix2 (-125) <= B < bpow radix2 128 -> 0 <= X ->
  Rabs (B2R g) * B + X <= B ->
  (forall x, In x xs -> fin x /\ Rabs (B2R x) <= X) ->
  exists ys e', run_res echo_process (mkEcho (repeat f0 n) g) xs = Ok (ys, e') /\ forall y, In y ys -> fin y /\ Rabs (B2R y) <= B.
Proof.
  intros Hn Fg FB [HB0 HB] X0 HC Hx.
  assert (B0 : 0 <= B) by (eapply Rle_trans; [apply bpow_ge_0|exact HB0]).
  assert (KR : forall y, Rabs y <= B -> Rabs (rnd32 (y * B2R g)) <= rnd32 (Rabs (B2R g) * B)).
  { intros y Hy. rewrite rnd32_abs. apply rnd_le. rewrite Rabs_mult, Rmult_comm.
    apply Rmult_le_compat_l; [apply Rabs_pos|exact Hy]. }
  apply (echo_bound_gen g X B Fg FB HB B0 X0).
  - intros y Hy. eapply Rle_trans; [apply KR, Hy|]. apply rnd_le_fmt; [exact FB|lra].
  - intros y x Hy Hxx. rewrite rnd32_abs.
    apply Rle_trans with (rnd32 (rnd32 (Rabs (B2R g) * B) + X)).
    + apply rnd_le. eapply Rle_trans; [apply Rabs_triang|]. specialize (KR y Hy). lra.
    + apply echo_key; try assumption. apply fmt_B2R.
  - destruct n; [lia|discriminate].
  - exact Hx.
  - intros o Ho. apply repeat_spec in Ho. subst o. split; [reflexivity|]. change (B2R (f0 : f32)) with 0. rewrite Rabs_R0. exact B0.
Qed.
