(** * Looped playback of recorded curves *)
From Coq Require Import ZArith List Bool Reals Lra Lia Psatz.
From Flocq Require Import Core.Core IEEE754.BinarySingleNaN.
From Verif Require Import Model.Floats Model.Mono Model.Wav Model.Resampler Spec.Playback Spec.Response Spec.Pitch Spec.Loop
  Proof.FloatFacts Proof.SampleFormatP Proof.WavP Proof.ResamplerP Proof.ResamplerP2 Proof.ResamplerP3 Proof.PlayP Proof.PitchP.
Import ListNotations.
Local Open Scope R_scope.

(** the same resampler without its loop *)
Definition unloop (r : resampler) : resampler := mkRes (r_data r) (r_ind r) (r_inc r) (r_speed r) 0 0.
Lemma unloop_same r y r' : let len := Z.of_nat (length (r_data r)) in (0 <= r_ls r < r_le r)%Z -> (r_le r < len)%Z -> (len <= 2 ^ 24)%Z ->
  fin (r_ind r) -> 0 <= B2R (r_ind r) < IZR (r_le r) -> resampler_process r = Ok (y, r') ->
  r' = advance r /\ resampler_process (unloop r) = Ok (y, advance (unloop r)).
Proof.
  intros len H1 H2 H3 F H E.
  assert (U : (to_usize (r_ind r) < r_le r)%Z) by (apply (proj2 (usize_lt (r_ind r) (r_le r) F (proj1 H) ltac:(lia))); apply H).
  assert (T : to_usize (ftrunc (r_ind r)) = to_usize (r_ind r)) by apply to_usize_trunc.
  pose proof (to_usize_nonneg (r_ind r)) as U0.
  unfold resampler_process in *. cbn [unloop r_data r_ind r_le r_ls]. fold len in E |- *. rewrite T in E |- *.
  destruct (Z.leb_spec len (to_usize (r_ind r))) as [X|_]; [lia|]. cbn [andb] in E |- *.
  unfold usize_add in E |- *. destruct (Z.leb_spec (to_usize (r_ind r) + 1) u64_max) as [_|X]; [|unfold u64_max in X; lia]. cbn [bind] in E |- *.
  destruct (Z.leb_spec len (to_usize (r_ind r) + 1)) as [X|_]; [lia|]. cbn [andb] in E |- *.
  destruct (index (r_data r) (to_usize (ftrunc (fadd (r_ind r) (of_Z 1))))) as [p1|]; [|discriminate]. cbn [bind] in E |- *.
  destruct (index (r_data r) (to_usize (r_ind r))) as [x1|]; [|discriminate]. cbn [bind] in E |- *.
  assert (E1 := f_equal (fun o => match o with Ok (a, b) => b | Panic => r' end) E). assert (E2 := f_equal (fun o => match o with Ok (a, b) => a | Panic => y end) E). cbn beta iota in E1, E2.
  split; [symmetry; exact E1|]. rewrite E2. reflexivity.
Qed.
(** where the position goes *)
Lemma advance_wrap (r : resampler) : (0 <= r_ls r < r_le r)%Z -> (r_le r <= 2 ^ 23)%Z ->
  is_finite (r_ind r) = true -> 0 <= B2R (r_ind r) < IZR (r_le r) -> good_step (r_inc r) (r_ls r) (r_le r) (r_speed r) ->
  let x := rnd32 (B2R (r_ind r) + B2R (step r)) in
  exists m : Z, B2R (r_ind (advance r)) = x - IZR m * IZR (r_le r - r_ls r).
Proof.
  intros H1 H2 F H [Fs Hs]. unfold step_of in *. unfold advance, step. cbn [r_ind].
  set (st := fmul (r_inc r) (to32 (r_speed r))) in *. set (ls := r_ls r) in *. set (le := r_le r) in *.
  assert (FM : fmt32 (IZR (le + (le - ls - 1)))) by (apply fmt32_Z; lia).
  assert (Bnd : B2R (r_ind r) + B2R st <= IZR (le + (le - ls - 1))) by (rewrite plus_IZR; lra).
  destruct (fadd_le (r_ind r) st (IZR (le + (le - ls - 1))) F Fs FM) as (A & B & _).
  { apply Rle_lt_trans with (IZR (2 ^ 24)); [apply IZR_le; lia|]. rewrite IZR_pow2 by lia. apply bpow_lt. lia. }
  { rewrite Rabs_pos_eq by lra. exact Bnd. }
  set (x := fadd (r_ind r) st) in *.
  assert (X1 : B2R x <= IZR (le + (le - ls - 1))).
  { rewrite B. apply (rnd_le_fmt (prec:=24) (emax:=128)); assumption. }
  destruct (of_Z32 le ltac:(lia)) as [Fe Ve].
  destruct (Z.eqb_spec le 0) as [|_]; [lia|]. cbn [negb]. rewrite andb_true_r.
  destruct (fge x (of_Z le)) eqn:G.
  - apply fge_true in G; try assumption. rewrite Ve in G. exists 1%Z. rewrite <- B, Rmult_1_l.
    assert (Q1 : IZR (le - ls) <= IZR le) by (apply IZR_le; lia). assert (Q2 : 0 <= IZR (le - ls)) by (apply (IZR_le 0); lia).
    assert (Q3 : IZR (le + (le - ls - 1)) <= IZR (2 ^ 24)) by (apply IZR_le; lia).
    apply (fsub32_exact x (le - ls) A); [lra|lia|]. rewrite Rabs_pos_eq by lra. lra.
  - exists 0%Z. rewrite <- B. lra.
Qed.


Section Loop.
Variables (data : list Mono) (ls le : Z).
Let len := Z.of_nat (length data).
Hypothesis H1 : (0 <= ls < le)%Z. Hypothesis H2 : (le < len)%Z. Hypothesis H3 : (len <= 2 ^ 23)%Z.
Hypothesis NP : forall q, (0 <= q <= 22)%Z -> le = (2 ^ q)%Z -> len <> (2 ^ q + 1)%Z.
Variables (inc : f32) (speed : f64).
Hypothesis GS : good_step inc ls le speed.
Let st : R := B2R (step_of inc speed).
(** positions in [G], each step rounded by at most [d] *)
Variable G : R -> Prop. Variable d : R.
Hypothesis Gs : forall p, G p -> 0 <= p < IZR le -> Rabs (rnd32 (p + st) - (p + st)) <= d /\ G (rnd32 (p + st)).
Hypothesis Gm : forall p m, G p -> G (p - IZR m * IZR (le - ls)).
Hypothesis G0 : G 0.
Let R0 (r : resampler) : Prop := r_data r = data /\ r_ls r = ls /\ r_le r = le /\ r_inc r = inc /\ r_speed r = speed /\ fin (r_ind r) /\ 0 <= B2R (r_ind r) < IZR le /\ G (B2R (r_ind r)).
Lemma loop_call r : R0 r -> exists y, resampler_process r = Ok (y, advance r) /\ R0 (advance r) /\
  exists m, Rabs (B2R (r_ind (advance r)) - (B2R (r_ind r) + st - IZR m * IZR (le - ls))) <= d.
Proof.
  intros (D & A & B & C & Sp & F & P & GG).
  destruct (resampler_process r) as [[y r1]|] eqn:E.
  2:{ exfalso. apply process_loop_panic_iff in E; rewrite ?D, ?A, ?B; try assumption; try lia.
      destruct E as (q & K1 & K2 & _ & K3). rewrite D in K2. fold len in K2. refine (NP q K1 _ K2).
      enough (2 ^ q - 1 < le)%Z by lia. apply lt_IZR. rewrite minus_IZR, IZR_pow2 by lia. apply Rle_lt_trans with (B2R (r_ind r)); [|apply P]. rewrite K3.
      assert (bpow radix2 (q - 24) <= 1) by (apply (bpow_le radix2 _ 0); lia). lra. }
  assert (Er : r1 = advance r).
  { destruct (process_inv _ _ _ E) as [(_ & _ & _ & T)|(j & _ & _ & _ & T)]; [lia|exact T]. }
  rewrite Er. exists y. split; [reflexivity|].
  assert (GS' : good_step (r_inc r) (r_ls r) (r_le r) (r_speed r)) by (rewrite A, B, C, Sp; exact GS).
  assert (P' : 0 <= B2R (r_ind r) < IZR (r_le r)) by (rewrite B; exact P).
  destruct (advance_loop r ltac:(rewrite A, B; exact H1) ltac:(lia) F P' GS') as (Q1 & Q2). rewrite B in Q2.
  destruct (advance_wrap r ltac:(rewrite A, B; exact H1) ltac:(lia) F P' GS') as (m & M). rewrite A, B in M.
  assert (Est : B2R (step r) = st) by (unfold step, st, step_of; rewrite C, Sp; reflexivity). rewrite Est in M.
  destruct (Gs _ GG P) as (S1 & S2). split.
  - split; [exact D|]. split; [exact A|]. split; [exact B|]. split; [exact C|]. split; [exact Sp|]. split; [exact Q1|]. split; [exact Q2|]. rewrite M. apply Gm, S2.
  - exists m. rewrite M. replace (_ - _) with (rnd32 (B2R (r_ind r) + st) - (B2R (r_ind r) + st)) by ring. exact S1.
Qed.
Lemma loop_calls n : forall r, R0 r -> exists ys r', rcalls n r = Ok (ys, r') /\ length ys = n /\ R0 r' /\
  exists m, Rabs (B2R (r_ind r') - (B2R (r_ind r) + INR n * st - IZR m * IZR (le - ls))) <= INR n * d.
Proof.
  induction n as [|n IH]; intros r Hr.
  - exists [], r. split; [reflexivity|]. split; [reflexivity|]. split; [exact Hr|]. exists 0%Z. simpl. replace (_ - _) with 0 by ring. rewrite Rabs_R0. lra.
  - destruct (loop_call r Hr) as (y & E & Hr1 & m1 & M1). destruct (IH _ Hr1) as (ys & r' & E2 & L2 & Hr2 & m2 & M2).
    exists (y :: ys), r'. rewrite rcalls_S, E. cbn [bind]. rewrite E2. cbn [bind]. split; [reflexivity|]. split; [cbn; rewrite L2; reflexivity|]. split; [exact Hr2|].
    exists (m1 + m2)%Z. rewrite S_INR, plus_IZR. apply Rabs_le_inv in M1, M2. apply Rabs_le. lra.
Qed.
(** what comes out *)
Lemma loop_curve e L M g eps n : (-124 <= e <= 125)%Z -> within e data -> smooth L M g -> recording eps g data -> repeats (le - ls) g ->
  exists ys r', rcalls n (mkRes data f0 inc speed ls le) = Ok (ys, r') /\ length ys = n /\
    forall i, (i < n)%nat -> exists p m, 0 <= p < IZR le /\ Rabs (p - (INR i * st - IZR m * IZR (le - ls))) <= INR i * d /\ is_finite (nth i ys f0) = true /\
      let D := bpow radix2 (e - 22) + eps + M / 8 + L * (INR i * d) in
      (~ below_power p -> Rabs (B2R (nth i ys f0) - g (INR i * st)) <= D) /\ Rabs (B2R (nth i ys f0) - g (INR i * st)) <= D + L.
Proof.
  intros He W Sm Rc Rp. set (r0 := mkRes data f0 inc speed ls le).
  assert (Hr : R0 r0).
  { unfold R0, r0. cbn [r_data r_ls r_le r_inc r_speed r_ind]. split; [reflexivity|]. split; [reflexivity|]. split; [reflexivity|]. split; [reflexivity|]. split; [reflexivity|]. split; [reflexivity|].
    change (B2R (f0 : f32)) with 0. split; [|exact G0]. split; [lra|]. apply (IZR_lt 0). lia. }
  destruct (loop_calls n r0 Hr) as (ys & r' & E & Ly & _). exists ys, r'. split; [exact E|]. split; [exact Ly|].
  intros i Hi. destruct (rcalls_nth n i r0 ys r' Hi E) as (zs & r1 & r2 & E1 & E2).
  destruct (loop_calls i r0 Hr) as (zs' & r1' & E1' & _ & Hr1 & m & Mm). rewrite E1 in E1'.
  assert (r1' = r1) as -> by congruence. clear E1' zs'.
  change (B2R (r_ind r0)) with 0 in Mm. rewrite Rplus_0_l in Mm. destruct Hr1 as (D & A & B & C & Sp & F & P & _).
  set (p := B2R (r_ind r1)) in *. exists p, m. split; [exact P|]. split; [exact Mm|].
  assert (P' : 0 <= B2R (r_ind r1) < IZR (r_le r1)) by (rewrite B; exact P).
  destruct (unloop_same r1 _ _ ltac:(rewrite A, B; exact H1) ltac:(rewrite B, D; exact H2) ltac:(rewrite D; fold len; lia) F P' E2) as (_ & E3).
  assert (Pl : playing (unloop r1)).
  { split; [reflexivity|]. split; [exact F|]. split; [apply P|]. unfold step, unloop. cbn [r_inc r_speed r_data]. rewrite C, Sp. destruct GS as [Fs Hs]. split; [exact Fs|]. split.
    - split; [apply Hs|]. eapply Rle_trans; [apply Hs|]. apply Rle_trans with (IZR (2 ^ 23)); [apply IZR_le; lia|]. rewrite IZR_pow2 by lia. apply bpow_le. lia.
    - rewrite D. fold len. lia. }
  assert (B1 : B2R (r_ind (unloop r1)) < IZR (Z.of_nat (length data)) - 1).
  { change (r_ind (unloop r1)) with (r_ind r1). fold p. fold len. apply Rlt_le_trans with (IZR le); [apply P|]. rewrite <- minus_IZR. apply IZR_le. lia. }
  destruct (smooth_call e data (unloop r1) _ _ L M g eps He W ltac:(fold len; lia) Sm Rc Pl D B1 E3) as (Fy & Q1 & Q2).
  change (B2R (r_ind (unloop r1))) with p in Q1, Q2. split; [exact Fy|].
  assert (RP : forall k t, g (t + IZR k * IZR (le - ls)) = g t).
  { assert (N : forall (k : nat) t, g (t + INR k * IZR (le - ls)) = g t).
    { induction k as [|k IH]; intro t; [simpl; rewrite Rmult_0_l, Rplus_0_r; reflexivity|].
      rewrite S_INR. replace (t + (INR k + 1) * IZR (le - ls)) with ((t + INR k * IZR (le - ls)) + IZR (le - ls)) by ring. rewrite Rp. apply IH. }
    intros k t. destruct (Z.le_gt_cases 0 k) as [K|K].
    - specialize (N (Z.to_nat k) t). rewrite INR_IZR_INZ, Z2Nat.id in N by exact K. exact N.
    - specialize (N (Z.to_nat (- k)) (t + IZR k * IZR (le - ls))). rewrite INR_IZR_INZ, Z2Nat.id, opp_IZR in N by lia.
      rewrite <- N. f_equal. ring. }
  assert (Lp : Rabs (g p - g (INR i * st)) <= L * (INR i * d)).
  { rewrite <- (RP (- m)%Z (INR i * st)). replace (INR i * st + IZR (- m) * IZR (le - ls)) with (INR i * st - IZR m * IZR (le - ls)) by (rewrite opp_IZR; ring).
    eapply Rle_trans; [exact (smooth_lip L M g _ p Sm)|]. apply Rmult_le_compat_l; [|exact Mm].
    destruct Sm as (g1 & g2 & _ & X). pose proof (Rabs_pos (g1 0)). destruct (X 0). lra. }
  cbn zeta. apply Rabs_le_inv in Lp, Q2. split; [intro NB; specialize (Q1 NB); apply Rabs_le_inv in Q1|]; apply Rabs_le; split; lra.
Qed.
End Loop.
