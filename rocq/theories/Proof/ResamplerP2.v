(** * Proofs about MonoResampler: unity playback, looping, output bounds *)

From Coq Require Import ZArith List Bool Reals Lra Lia Psatz.
From Flocq Require Import Core.Core IEEE754.BinarySingleNaN.
From Verif Require Import Model.Floats Model.Mono Model.Wav Model.Resampler
  Proof.FloatFacts Proof.SampleFormatP Proof.FormatsP Proof.WavP Proof.ResamplerP.
Import ListNotations.
Local Open Scope R_scope.

(** ** small integers in f32 *)
Lemma fadd32_int a b : (Z.abs a <= 2 ^ 24)%Z -> (Z.abs b <= 2 ^ 24)%Z -> (0 < a + b <= 2 ^ 24)%Z ->
  fadd (of_Z a : f32) (of_Z b) = of_Z (a + b).
Proof.
  intros Ha Hb H. destruct (of_Z32 a Ha) as [Fa Va]. destruct (of_Z32 b Hb) as [Fb Vb].
  destruct (of_Z32 (a + b) ltac:(lia)) as [Fc Vc].
  pose proof (fmt32_Z (a + b) ltac:(lia)) as Hf.
  destruct (fadd_ok (of_Z a) (of_Z b) Fa Fb) as [A B]; rewrite Va, Vb, <- plus_IZR in *.
  - rewrite rnd_fmt by exact Hf. rewrite <- abs_IZR. apply Rle_lt_trans with (IZR (2 ^ 24)); [apply IZR_le; lia|].
    rewrite IZR_pow2 by lia. apply bpow_lt. lia.
  - rewrite rnd_fmt in B by exact Hf. apply fin_eq; [exact A|exact Fc|congruence|].
    rewrite B. apply (IZR_neq _ 0). lia.
Qed.
Lemma fsub32_int a b : (Z.abs a <= 2 ^ 24)%Z -> (Z.abs b <= 2 ^ 24)%Z -> (Z.abs (a - b) <= 2 ^ 24)%Z ->
  fin (fsub (of_Z a : f32) (of_Z b)) /\ B2R (fsub (of_Z a : f32) (of_Z b)) = IZR (a - b).
Proof.
  intros Ha Hb H. destruct (of_Z32 a Ha) as [Fa Va]. destruct (of_Z32 b Hb) as [Fb Vb].
  pose proof (fmt32_Z (a - b) H) as Hf.
  destruct (fsub_ok (of_Z a) (of_Z b) Fa Fb) as [A B]; rewrite Va, Vb, <- minus_IZR in *.
  - rewrite rnd_fmt by exact Hf. rewrite <- abs_IZR. apply Rle_lt_trans with (IZR (2 ^ 24)); [apply IZR_le; lia|].
    rewrite IZR_pow2 by lia. apply bpow_lt. lia.
  - rewrite rnd_fmt in B by exact Hf. auto.
Qed.
Lemma fsub32_int_eq a b : (0 <= a <= 2 ^ 24)%Z -> (0 <= b <= 2 ^ 24)%Z -> (b <= a)%Z ->
  fsub (of_Z a : f32) (of_Z b) = of_Z (a - b).
Proof.
  intros Ha Hb H. destruct (Z.eq_dec a b) as [->|N].
  - rewrite Z.sub_diag. destruct (of_Z32 b ltac:(lia)) as [Fb Vb].
    pose proof (Bminus_correct 24 128 _ _ mode_NE (of_Z b : f32) (of_Z b) Fb Fb) as C. simpl round_mode in C.
    rewrite Rminus_diag_eq, round_0, Rabs_R0, Rlt_bool_true in C; try reflexivity; try typeclasses eauto; [|apply bpow_gt_0].
    destruct C as (C1 & C2 & C3). rewrite Rcompare_Eq in C3 by reflexivity.
    unfold fsub. apply B2R_Bsign_inj; [exact C2|reflexivity|rewrite C1; reflexivity|].
    rewrite C3. destruct (Bsign (of_Z b : f32)); reflexivity.
  - destruct (fsub32_int a b ltac:(lia) ltac:(lia) ltac:(lia)) as [A B].
    destruct (of_Z32 (a - b) ltac:(lia)) as [Fc Vc].
    apply fin_eq; [exact A|exact Fc|congruence|]. rewrite B. apply (IZR_neq _ 0). lia.
Qed.

Lemma ffract_Z k : (0 <= k <= 2 ^ 24)%Z -> ffract (of_Z k : f32) = f0.
Proof.
  intro H. destruct (of_Z32 k ltac:(lia)) as [F V]. destruct (ftrunc_ok (of_Z k : f32) F) as [A B].
  rewrite V, Ztrunc_IZR in B. unfold ffract.
  pose proof (Bminus_correct 24 128 _ _ mode_NE (of_Z k : f32) (ftrunc (of_Z k)) F A) as C. simpl round_mode in C.
  rewrite V, B, Rminus_diag_eq, round_0, Rabs_R0, Rlt_bool_true in C; try reflexivity; try typeclasses eauto; [|apply bpow_gt_0].
  destruct C as (C1 & C2 & C3). rewrite Rcompare_Eq in C3 by reflexivity.
  unfold fsub. apply B2R_Bsign_inj; [exact C2|reflexivity|rewrite C1; reflexivity|].
  rewrite C3.
  assert (Q : Bsign (of_Z k : f32) = false).
  { destruct (Z.eq_dec k 0) as [->|]; [reflexivity|].
    apply Bsign_pos. rewrite V. apply IZR_lt. lia. }
  rewrite Q. reflexivity.
Qed.

(** ** what an output is made of *)
Definition mix (fr x1 x2 : f32) : f32 := fadd x1 (fmul fr (fsub x2 x1)).
Definition sample_at (data : list Mono) (i : nat) : f32 := mono_into_sample (nth i data mono_new).
(** every sample is finite and at most 2^e in magnitude *)
Definition within (e : Z) (data : list Mono) : Prop :=
  Forall (fun m => is_finite (mono m) = true /\ Rabs (B2R (mono m)) <= bpow radix2 e) data.

Lemma within_at e data i : within e data -> fin (sample_at data i) /\ Rabs (B2R (sample_at data i)) <= bpow radix2 e.
Proof.
  intro H. unfold sample_at, mono_into_sample. destruct (Nat.lt_ge_cases i (length data)) as [L|L].
  - unfold within in H. rewrite Forall_forall in H. apply H, nth_In, L.
  - rewrite nth_overflow by exact L. split; [reflexivity|]. simpl. rewrite Rabs_R0. apply bpow_ge_0.
Qed.

Lemma process_inv r y r' : resampler_process r = Ok (y, r') ->
  (y = f0 /\ r' = r /\ (Z.of_nat (length (r_data r)) <= to_usize (r_ind r))%Z /\ r_le r = 0%Z) \/
  (exists j, (0 <= to_usize (r_ind r) < Z.of_nat (length (r_data r)))%Z /\ (0 <= j < Z.of_nat (length (r_data r)))%Z /\
     y = mix (ffract (r_ind r)) (sample_at (r_data r) (Z.to_nat (to_usize (r_ind r)))) (sample_at (r_data r) (Z.to_nat j)) /\
     r' = advance r).
Proof.
  set (len := Z.of_nat (length (r_data r))).
  assert (IX : forall i (m : Mono), index (r_data r) i = Ok m -> (0 <= i < len)%Z /\ m = nth (Z.to_nat i) (r_data r) mono_new).
  { intros i m E. destruct (Z.lt_ge_cases i len) as [L|L]; [|rewrite index_panic in E by exact L; discriminate].
    destruct (Z.le_gt_cases 0 i) as [P|P].
    - rewrite (index_ok _ i mono_new) in E by (fold len; lia). injection E as <-. auto.
    - exfalso. unfold index in E. destruct (Z.leb_spec 0 i); [lia|]. discriminate E. }
  unfold resampler_process. fold len. rewrite to_usize_trunc.
  destruct ((len <=? to_usize (r_ind r))%Z && (r_le r =? 0)%Z) eqn:Q.
  - intro E. injection E as <- <-. left. apply andb_prop in Q. destruct Q as [Q1 Q2].
    apply Z.leb_le in Q1. apply Z.eqb_eq in Q2. auto.
  - destruct (usize_add _ _); [|discriminate]. cbn [bind].
    match goal with |- bind ?e _ = _ -> _ => destruct e as [m2|] eqn:E2; [|discriminate] end. cbn [bind].
    destruct (index (r_data r) (to_usize (r_ind r))) as [m1|] eqn:E1; [|discriminate]. cbn [bind].
    intro E. injection E as <- <-. right.
    destruct (IX _ _ E1) as [L1 ->].
    assert (J : exists j, (0 <= j < len)%Z /\ m2 = nth (Z.to_nat j) (r_data r) mono_new).
    { destruct ((len <=? a)%Z && negb (r_le r =? 0)%Z).
      - destruct (usize_sub _ _); [|discriminate]. cbn [bind] in E2. eexists. exact (IX _ _ E2).
      - destruct (len <=? a)%Z; [injection E2 as <-; exists (to_usize (r_ind r)); auto|eexists; exact (IX _ _ E2)]. }
    destruct J as (j & Lj & ->). exists j. repeat split; try assumption; lia.
Qed.

(** at an integer position the output is the sample itself *)
Lemma mix_0 (e : Z) x1 x2 : (e <= 126)%Z -> fin x1 -> fin x2 -> Rabs (B2R x1) <= bpow radix2 e -> Rabs (B2R x2) <= bpow radix2 e ->
  fin (mix f0 x1 x2) /\ B2R (mix f0 x1 x2) = B2R x1.
Proof.
  intros He F1 F2 H1 H2. unfold mix.
  assert (E126 : bpow radix2 e <= bpow radix2 126) by (apply bpow_le; exact He).
  destruct (fsub_le x2 x1 (bpow radix2 127) F2 F1) as (A & B & C).
  { apply fmt32_b; lia. } { apply bpow_lt; lia. }
  { replace 127%Z with (126 + 1)%Z by lia. rewrite bpow_double.
    eapply Rle_trans; [apply Rabs_triang|]. rewrite Rabs_Ropp. lra. }
  destruct (fmul_le f0 (fsub x2 x1) 0 ltac:(reflexivity) A) as (D & E & _).
  { apply fmt_0. } { apply bpow_gt_0. } { simpl. rewrite Rmult_0_l, Rabs_R0. lra. }
  change (B2R (f0 : f32)) with 0 in E. rewrite Rmult_0_l, rnd_0 in E.
  destruct (fadd_le x1 (fmul f0 (fsub x2 x1)) (Rabs (B2R x1)) F1 D) as (G & K & _).
  { apply generic_format_abs, fmt_B2R. } { apply abs_B2R_lt. } { rewrite E, Rplus_0_r. lra. }
  split; [exact G|]. rewrite K, E, Rplus_0_r. apply rnd_B2R.
Qed.

(** ** unity rate *)
Lemma unity_inc : to32 (fmul (of_Z 48000) INV_SAMPLE_RATE) = of_Z 1.
Proof. apply B2SF_inj. vm_compute. reflexivity. Qed.
Lemma unity_step : fmul (of_Z 1 : f32) (to32 (of_Z 1)) = of_Z 1.
Proof. apply B2SF_inj. vm_compute. reflexivity. Qed.

Definition U (data : list Mono) (ls le k : Z) : resampler := mkRes data (of_Z k) (of_Z 1) (of_Z 1) ls le.
Lemma U_new data ls le : (ls <= le)%Z -> resampler_new data (of_Z 48000) ls le = U data ls le 0.
Proof.
  intro H. unfold resampler_new. destruct (Z.ltb_spec le ls); [lia|]. rewrite unity_inc.
  unfold U. change (of_Z 0 : f32) with (f0 : f32). reflexivity.
Qed.

(** next position *)
Definition unity_next (ls le k : Z) : Z :=
  if (le <=? k + 1)%Z && negb (le =? 0)%Z then (k + 1 - (le - ls))%Z else (k + 1)%Z.

Lemma U_advance data ls le k : (0 <= k < 2 ^ 24)%Z -> (0 <= ls <= le)%Z -> (le <= 2 ^ 24)%Z -> advance (U data ls le k) = U data ls le (unity_next ls le k).
Proof.
  intros Hk Hl Hle. unfold advance, U. cbn [r_data r_ind r_inc r_speed r_ls r_le]. rewrite unity_step.
  rewrite fadd32_int by lia. unfold unity_next.
  destruct (of_Z32 (k + 1) ltac:(lia)) as [F V]. destruct (of_Z32 le ltac:(lia)) as [F2 V2].
  assert (E : fge (of_Z (k + 1) : f32) (of_Z le) = (le <=? k + 1)%Z).
  { rewrite fge_R by assumption. rewrite V, V2. destruct (Z.leb_spec le (k + 1)).
    - apply Rle_bool_true, IZR_le; assumption.
    - apply Rle_bool_false, IZR_lt; assumption. }
  rewrite E. destruct ((le <=? k + 1)%Z && negb (le =? 0)%Z) eqn:Q; [|reflexivity].
  apply andb_prop in Q. destruct Q as [Q1 Q2]. apply Z.leb_le in Q1.
  rewrite fsub32_int_eq by lia. reflexivity.
Qed.

(** one unity step inside the track *)
Lemma U_step e data ls le k : (e <= 126)%Z -> within e data ->
  (0 <= k < Z.of_nat (length data))%Z -> (k < 2 ^ 24)%Z ->
  (0 <= ls <= le)%Z -> (le <= 2 ^ 24)%Z ->
  exists y, resampler_process (U data ls le k) = Ok (y, U data ls le (unity_next ls le k)) /\
    fin y /\ B2R y = B2R (sample_at data (Z.to_nat k)).
Proof.
  intros He W Hk Hk2 Hl Hle. set (len := Z.of_nat (length data)) in *.
  unfold resampler_process. rewrite to_usize_trunc.
  change (r_ind (U data ls le k)) with (of_Z k : f32). rewrite to_usize_Z by lia.
  change (r_data (U data ls le k)) with data. change (r_le (U data ls le k)) with le. change (r_ls (U data ls le k)) with ls.
  fold len. destruct (Z.leb_spec len k); [lia|]. cbn [andb]. unfold usize_add.
  destruct (Z.leb_spec (k + 1) u64_max) as [|T]; [|unfold u64_max in T; lia]. cbn [bind].
  rewrite ffract_Z by lia. rewrite U_advance by lia.
  assert (J : exists j, (0 <= j < len)%Z /\
    (if (len <=? k + 1)%Z && negb (le =? 0)%Z
     then do l <- usize_sub le ls; index data (to_usize (fsub (of_Z k : f32) (of_Z l)))
     else if (len <=? k + 1)%Z then index data k
     else index data (to_usize (ftrunc (fadd (of_Z k : f32) (of_Z 1))))) = Ok (nth (Z.to_nat j) data mono_new)).
  { destruct ((len <=? k + 1)%Z && negb (le =? 0)%Z) eqn:Q.
    - unfold usize_sub. destruct (Z.leb_spec ls le); [|lia]. cbn [bind].
      destruct (fsub32_int k (le - ls) ltac:(lia) ltac:(lia) ltac:(lia)) as [A B].
      exists (to_usize (fsub (of_Z k : f32) (of_Z (le - ls)))).
      assert (L : (0 <= to_usize (fsub (of_Z k : f32) (of_Z (le - ls))) < len)%Z).
      { unfold to_usize. rewrite (to_int_fin _ _ _ A), B, Ztrunc_IZR. unfold u64_max. lia. }
      split; [exact L|]. apply index_ok. exact L.
    - destruct (Z.leb_spec len (k + 1)).
      + exists k. split; [lia|]. apply index_ok. fold len. lia.
      + exists (k + 1)%Z. split; [lia|]. rewrite to_usize_trunc, fadd32_int by lia. rewrite to_usize_Z by lia.
        apply index_ok. fold len. lia. }
  destruct J as (j & Lj & ->). cbn [bind]. rewrite (index_ok data k mono_new) by (fold len; lia). cbn [bind].
  eexists. split; [reflexivity|].
  destruct (within_at e data (Z.to_nat k) W) as [A1 A2]. destruct (within_at e data (Z.to_nat j) W) as [B1 B2].
  exact (mix_0 e _ _ He A1 B1 A2 B2).
Qed.

Lemma rcalls_S n r : rcalls (S n) r = do (y, r') <- resampler_process r; do (ys, r'') <- rcalls n r'; Ok (y :: ys, r'').
Proof. reflexivity. Qed.

(** n unity steps along any position sequence that stays inside the track *)
Lemma U_run e data ls le (pos : nat -> Z) : (e <= 126)%Z -> within e data -> (0 <= ls <= le)%Z -> (le <= 2 ^ 24)%Z ->
  forall n s, (forall i, (s <= i < s + n)%nat -> (0 <= pos i < Z.of_nat (length data))%Z /\ (pos i < 2 ^ 24)%Z /\ pos (S i) = unity_next ls le (pos i)) ->
  exists ys, rcalls n (U data ls le (pos s)) = Ok (ys, U data ls le (pos (s + n)%nat)) /\ length ys = n /\
    forall i, (i < n)%nat -> fin (nth i ys f0) /\ B2R (nth i ys f0) = B2R (sample_at data (Z.to_nat (pos (s + i)%nat))).
Proof.
  intros He W Hl Hle. induction n as [|n IH]; intros s Hp.
  - exists []. rewrite Nat.add_0_r. split; [reflexivity|]. split; [reflexivity|]. intros i Hi. lia.
  - destruct (Hp s ltac:(lia)) as (P1 & P2 & P3).
    destruct (U_step e data ls le (pos s) He W P1 P2 Hl Hle) as (y & E & Fy & Vy).
    destruct (IH (S s)) as (ys & E2 & L & N). { intros i Hi. apply Hp. lia. }
    exists (y :: ys). rewrite rcalls_S, E. cbn [bind]. rewrite <- P3, E2. cbn [bind].
    replace (S s + n)%nat with (s + S n)%nat by lia. split; [reflexivity|]. split; [simpl; lia|].
    intros [|i] Hi.
    + rewrite Nat.add_0_r. simpl nth. auto.
    + simpl nth. replace (s + S i)%nat with (S s + i)%nat by lia. apply N. lia.
Qed.

Lemma rcalls_app a : forall b r, rcalls (a + b) r =
  do (ys, r') <- rcalls a r; do (zs, r'') <- rcalls b r'; Ok (ys ++ zs, r'').
Proof.
  induction a as [|a IH]; intros b r.
  - change (rcalls 0 r) with (Ok ([] : list f32, r)). cbn [bind plus]. destruct (rcalls b r) as [[zs r'']|]; reflexivity.
  - cbn [plus]. rewrite !rcalls_S. destruct (resampler_process r) as [[y r']|]; [|reflexivity]. cbn [bind].
    rewrite IH. destruct (rcalls a r') as [[ys r1]|]; [|reflexivity]. cbn [bind].
    destruct (rcalls b r1) as [[zs r2]|]; reflexivity.
Qed.

(** ** silence is permanent *)
Lemma silent_process r : r_le r = 0%Z -> (Z.of_nat (length (r_data r)) <= to_usize (r_ind r))%Z ->
  resampler_process r = Ok (f0, r).
Proof.
  intros H1 H2. unfold resampler_process. apply Z.leb_le in H2. rewrite H2, H1. reflexivity.
Qed.
Lemma silent_forever ops : forall r, r_le r = 0%Z -> (Z.of_nat (length (r_data r)) <= to_usize (r_ind r))%Z ->
  exists n r', rrun ops r = Ok (repeat f0 n, r') /\ r_ind r' = r_ind r.
Proof.
  induction ops as [|[s|] ops IH]; intros r H1 H2.
  - exists 0%nat, r. auto.
  - cbn [rrun]. exact (IH (set_playback_speed r s) H1 H2).
  - cbn [rrun]. rewrite silent_process by assumption. cbn [bind].
    destruct (IH r H1 H2) as (n & r' & E & I). rewrite E. exists (S n), r'. auto.
Qed.
Lemma silent_calls n : forall r, r_le r = 0%Z -> (Z.of_nat (length (r_data r)) <= to_usize (r_ind r))%Z ->
  rcalls n r = Ok (repeat f0 n, r).
Proof.
  induction n as [|n IH]; intros r H1 H2; [reflexivity|].
  rewrite rcalls_S, silent_process by assumption. cbn [bind]. rewrite IH by assumption. reflexivity.
Qed.

(** ** C24 *)
Lemma unity_playback e data n : (e <= 126)%Z -> within e data -> (Z.of_nat (length data) <= 2 ^ 24)%Z ->
  exists ys r', rcalls n (resampler_new data (of_Z 48000) 0 0) = Ok (ys, r') /\ length ys = n /\
    forall i, (i < n)%nat ->
      ((i < length data)%nat -> is_finite (nth i ys f0) = true /\ B2R (nth i ys f0) = B2R (sample_at data i)) /\
      ((length data <= i)%nat -> nth i ys f0 = f0).
Proof.
  intros He W Hl. rewrite U_new by lia.
  set (m := Nat.min n (length data)).
  destruct (U_run e data 0 0 Z.of_nat He W ltac:(lia) ltac:(lia) m 0) as (ys & E & L & N).
  { intros i Hi. unfold m in Hi. split; [lia|]. split; [lia|].
    unfold unity_next. cbn [Z.eqb negb]. rewrite andb_false_r. lia. }
  change (Z.of_nat 0) with 0%Z in E. cbn [plus] in E, N.
  destruct (Nat.le_gt_cases n (length data)) as [C|C].
  - assert (Em : m = n) by (unfold m; lia). rewrite Em in *. eexists. eexists. split; [exact E|]. split; [exact L|].
    intros i Hi. split; [|lia]. intro. specialize (N i Hi). rewrite Nat2Z.id in N. exact N.
  - assert (Em : m = length data) by (unfold m; lia). rewrite Em in *.
    assert (Hn : rcalls n (U data 0 0 0) = rcalls (length data + (n - length data)) (U data 0 0 0)) by (f_equal; lia).
    rewrite Hn, rcalls_app, E. cbn [bind].
    assert (SL : (Z.of_nat (length data) <= to_usize (of_Z (Z.of_nat (length data)) : f32))%Z).
    { rewrite to_usize_Z by lia. lia. }
    rewrite (silent_calls (n - length data) (U data 0 0 (Z.of_nat (length data))) eq_refl SL). cbn [bind].
    eexists. eexists. split; [reflexivity|]. split; [rewrite app_length, repeat_length; lia|].
    intros i Hi. split; intro Q.
    + rewrite app_nth1 by lia. specialize (N i Q). rewrite Nat2Z.id in N. exact N.
    + rewrite app_nth2 by lia. apply nth_repeat.
Qed.

(** ** C29: long tracks *)
Lemma stuck_add : fadd (of_Z (2 ^ 24) : f32) (of_Z 1) = of_Z (2 ^ 24).
Proof. apply B2SF_inj. vm_compute. reflexivity. Qed.

Lemma U_stuck e data : (e <= 126)%Z -> within e data -> (2 ^ 24 < Z.of_nat (length data))%Z ->
  exists y, resampler_process (U data 0 0 (2 ^ 24)) = Ok (y, U data 0 0 (2 ^ 24)) /\
    fin y /\ B2R y = B2R (sample_at data (Z.to_nat (2 ^ 24))).
Proof.
  intros He W Hl. unfold resampler_process.
  assert (Adv : advance (U data 0 0 (2 ^ 24)) = U data 0 0 (2 ^ 24)).
  { unfold advance, U. cbn [r_data r_ind r_inc r_speed r_ls r_le]. rewrite unity_step, stuck_add.
    rewrite andb_false_r. reflexivity. }
  rewrite Adv. unfold U. cbn [r_data r_ind r_inc r_speed r_ls r_le]. rewrite stuck_add.
  rewrite !to_usize_trunc, to_usize_Z by lia. set (len := Z.of_nat (length data)) in *.
  destruct (Z.leb_spec len (2 ^ 24)); [lia|]. cbn [andb].
  unfold usize_add. destruct (Z.leb_spec (2 ^ 24 + 1) u64_max) as [|T]; [|unfold u64_max in T; lia]. cbn [bind].
  rewrite ffract_Z by lia. cbn [Z.eqb negb]. rewrite andb_false_r.
  rewrite !(index_ok data (2 ^ 24) mono_new) by (fold len; lia).
  assert (E : (if (len <=? 2 ^ 24 + 1)%Z then Ok (nth (Z.to_nat (2 ^ 24)) data mono_new) else Ok (nth (Z.to_nat (2 ^ 24)) data mono_new))
    = Ok (nth (Z.to_nat (2 ^ 24)) data mono_new)) by (destruct (len <=? _)%Z; reflexivity).
  rewrite E. cbn [bind]. eexists. split; [reflexivity|].
  destruct (within_at e data (Z.to_nat (2 ^ 24)) W) as [A1 A2].
  exact (mix_0 e _ _ He A1 A1 A2 A2).
Qed.

Lemma long_playback e data n : (e <= 126)%Z -> within e data -> (2 ^ 24 < Z.of_nat (length data))%Z ->
  exists ys r', rcalls n (resampler_new data (of_Z 48000) 0 0) = Ok (ys, r') /\ length ys = n /\
    forall i, (i < n)%nat -> is_finite (nth i ys f0) = true /\
      B2R (nth i ys f0) = B2R (sample_at data (Z.to_nat (Z.min (Z.of_nat i) (2 ^ 24)))).
Proof.
  intros He W Hl. rewrite U_new by lia.
  assert (G : forall n k, (0 <= k <= 2 ^ 24)%Z -> exists ys r', rcalls n (U data 0 0 k) = Ok (ys, r') /\ length ys = n /\
    forall i, (i < n)%nat -> is_finite (nth i ys f0) = true /\
      B2R (nth i ys f0) = B2R (sample_at data (Z.to_nat (Z.min (k + Z.of_nat i) (2 ^ 24))))).
  { clear n. induction n as [|n IH]; intros k Hk.
    - exists [], (U data 0 0 k). split; [reflexivity|]. split; [reflexivity|]. intros i Hi. lia.
    - assert (S1 : exists y k', (0 <= k' <= 2 ^ 24)%Z /\ k' = Z.min (k + 1) (2 ^ 24) /\
        resampler_process (U data 0 0 k) = Ok (y, U data 0 0 k') /\ fin y /\ B2R y = B2R (sample_at data (Z.to_nat k))).
      { destruct (Z.eq_dec k (2 ^ 24)) as [->|].
        - destruct (U_stuck e data He W Hl) as (y & A & B & C). exists y, (2 ^ 24)%Z.
          split; [lia|]. split; [lia|]. auto.
        - destruct (U_step e data 0 0 k He W ltac:(lia) ltac:(lia) ltac:(lia) ltac:(lia)) as (y & A & B & C).
          unfold unity_next in A. cbn [Z.eqb negb] in A. rewrite andb_false_r in A.
          exists y, (k + 1)%Z. split; [lia|]. split; [lia|]. auto. }
      destruct S1 as (y & k' & K1 & K2 & E & Fy & Vy).
      destruct (IH k' K1) as (ys & r' & E2 & L & N).
      exists (y :: ys), r'. rewrite rcalls_S, E. cbn [bind]. rewrite E2. cbn [bind].
      split; [reflexivity|]. split; [simpl; lia|].
      intros [|i] Hi.
      + simpl nth. split; [exact Fy|]. rewrite Vy. do 3 f_equal. lia.
      + simpl nth. destruct (N i ltac:(lia)) as [N1 N2]. split; [exact N1|]. rewrite N2. do 3 f_equal. lia. }
  exact (G n 0%Z ltac:(lia)).
Qed.

(** ** unity looping *)
(** position of the n-th output of a loop [ls, le): play to le, then repeat the loop *)
Definition loop_pos (ls le : Z) (n : nat) : Z :=
  if (Z.of_nat n <? le)%Z then Z.of_nat n else (ls + (Z.of_nat n - le) mod (le - ls))%Z.

Lemma loop_pos_step ls le n : (0 <= ls < le)%Z -> (0 <= loop_pos ls le n < le)%Z /\
  loop_pos ls le (S n) = unity_next ls le (loop_pos ls le n).
Proof.
  intro H. unfold loop_pos.
  assert (M : forall a, (0 <= a)%Z -> (0 <= a mod (le - ls) < le - ls)%Z) by (intros; apply Z.mod_pos_bound; lia).
  destruct (Z.ltb_spec (Z.of_nat n) le) as [A|A].
  - split; [lia|]. unfold unity_next. replace (le =? 0)%Z with false by (symmetry; apply Z.eqb_neq; lia).
    cbn [negb]. rewrite andb_true_r.
    destruct (Z.leb_spec le (Z.of_nat n + 1)); destruct (Z.ltb_spec (Z.of_nat (S n)) le); try lia.
    replace (Z.of_nat (S n) - le)%Z with 0%Z by lia. rewrite Z.mod_0_l by lia. lia.
  - pose proof (M (Z.of_nat n - le)%Z ltac:(lia)) as M1. split; [lia|].
    destruct (Z.ltb_spec (Z.of_nat (S n)) le); [lia|]. unfold unity_next.
    replace (le =? 0)%Z with false by (symmetry; apply Z.eqb_neq; lia). cbn [negb]. rewrite andb_true_r.
    replace (Z.of_nat (S n) - le)%Z with (Z.of_nat n - le + 1)%Z by lia.
    rewrite <- Zplus_mod_idemp_l.
    set (q := ((Z.of_nat n - le) mod (le - ls))%Z) in *.
    destruct (Z.leb_spec le (ls + q + 1)).
    + replace (q + 1)%Z with (le - ls)%Z by lia. rewrite Z.mod_same by lia. lia.
    + rewrite Z.mod_small by lia. lia.
Qed.

Lemma loop_playback e data ls le n : (e <= 126)%Z -> within e data ->
  (0 <= ls < le)%Z -> (le <= Z.of_nat (length data))%Z -> (le <= 2 ^ 24)%Z ->
  exists ys r', rcalls n (resampler_new data (of_Z 48000) ls le) = Ok (ys, r') /\ length ys = n /\
    forall i, (i < n)%nat -> is_finite (nth i ys f0) = true /\
      B2R (nth i ys f0) = B2R (sample_at data (Z.to_nat (loop_pos ls le i))).
Proof.
  intros He W H1 H2 H3. rewrite U_new by lia.
  destruct (U_run e data ls le (loop_pos ls le) He W ltac:(lia) H3 n 0) as (ys & E & L & N).
  { intros i _. destruct (loop_pos_step ls le i H1) as [P Q]. split; [lia|]. split; [lia|]. exact Q. }
  assert (P0 : loop_pos ls le 0 = 0%Z).
  { unfold loop_pos. change (Z.of_nat 0) with 0%Z. destruct (Z.ltb_spec 0 le); lia. }
  rewrite P0 in E. eexists. eexists. split; [exact E|]. split; [exact L|]. intros i Hi. exact (N i Hi).
Qed.

Lemma loop_pos_0 le n : (0 < le)%Z -> loop_pos 0 le n = (Z.of_nat n mod le)%Z.
Proof.
  intro H. unfold loop_pos. destruct (Z.ltb_spec (Z.of_nat n) le).
  - rewrite Z.mod_small; lia.
  - rewrite Z.sub_0_r, Z.add_0_l. rewrite <- (Z_mod_plus_full (Z.of_nat n - le) 1 le). f_equal. ring.
Qed.

(** unusable loops: past the end, or empty *)
Lemma bad_loop e data ls le n : (e <= 126)%Z -> within e data -> (Z.of_nat (length data) < 2 ^ 24)%Z ->
  (0 <= ls <= le)%Z -> (le <= 2 ^ 24)%Z -> (0 < le)%Z ->
  (Z.of_nat (length data) < le \/ ls = le)%Z ->
  (rcalls n (resampler_new data (of_Z 48000) ls le) = Panic <-> (length data < n)%nat).
Proof.
  intros He W Hlen H1 H2 H0 Hbad. rewrite U_new by lia.
  assert (R : forall m, (m <= length data)%nat -> exists ys, rcalls m (U data ls le 0) = Ok (ys, U data ls le (Z.of_nat m))).
  { intros m Hm. destruct (U_run e data ls le Z.of_nat He W ltac:(lia) H2 m 0) as (ys & E & _).
    - intros i Hi. split; [lia|]. split; [lia|]. unfold unity_next.
      destruct (Z.leb_spec le (Z.of_nat i + 1)).
      + destruct (Z.eqb_spec le 0); cbn [negb andb]; [lia|]. destruct Hbad; lia.
      + cbn [andb]. lia.
    - exists ys. exact E. }
  assert (B : resampler_process (U data ls le (Z.of_nat (length data))) = Panic).
  { unfold resampler_process, U. cbn [r_data r_ind r_inc r_speed r_ls r_le].
    rewrite to_usize_trunc, to_usize_Z by lia. set (len := Z.of_nat (length data)) in *.
    destruct (Z.eqb_spec le 0); [lia|]. rewrite andb_false_r. cbn [negb].
    unfold usize_add. destruct (Z.leb_spec (len + 1) u64_max) as [|T]; [|unfold u64_max in T; lia]. cbn [bind].
    match goal with |- bind ?e _ = _ => destruct e; [|reflexivity] end. cbn [bind].
    rewrite (index_panic data len) by (fold len; lia). reflexivity. }
  destruct (Nat.lt_ge_cases (length data) n) as [C|C].
  - split; [auto|]. intros _. destruct (R (length data) (le_n _)) as (ys & E).
    replace n with (length data + S (n - length data - 1))%nat by lia.
    rewrite rcalls_app, E. cbn [bind]. rewrite rcalls_S, B. reflexivity.
  - split; [|lia]. destruct (R n C) as (ys & E). rewrite E. discriminate.
Qed.

(** ** C25: the panicking cases do occur *)
Lemma pred_speed_ok k : (0 <= k <= 22)%Z ->
  fin (lit (2 ^ 24 - 1) (k - 24) : f64) /\ B2R (lit (2 ^ 24 - 1) (k - 24) : f64) = bpow radix2 k - bpow radix2 (k - 24).
Proof.
  intro Hk. assert (E : IZR (2 ^ 24 - 1) * bpow radix2 (k - 24) = bpow radix2 k - bpow radix2 (k - 24)).
  { rewrite minus_IZR, IZR_pow2 by lia. rewrite Rmult_minus_distr_r, <- bpow_plus. rewrite Rmult_1_l. f_equal. f_equal. ring. }
  destruct (lit_ok (prec:=53) (emax:=1024) (2 ^ 24 - 1) (k - 24)) as [A B].
  - apply fmt_FLT; [reflexivity|unfold SpecFloat.emin; lia].
  - rewrite E. pose proof (bpow_gt_0 radix2 (k - 24)). assert (bpow radix2 (k - 24) <= bpow radix2 k) by (apply bpow_le; lia).
    rewrite Rabs_pos_eq by lra. apply Rle_lt_trans with (bpow radix2 k); [lra|apply bpow_lt; lia].
  - rewrite E in B. auto.
Qed.

Lemma nl_panics (data : list Mono) k : (0 <= k <= 22)%Z -> Z.of_nat (length data) = (2 ^ k + 1)%Z ->
  rrun [RSpeed (lit (2 ^ 24 - 1) (k - 24)); RProcess; RProcess] (resampler_new data (of_Z 48000) 0 0) = Panic.
Proof.
  intros Hk Hlen. rewrite U_new by lia. cbn [rrun].
  set (s := lit (2 ^ 24 - 1) (k - 24) : f64). destruct (pred_speed_ok k Hk) as [Fs Vs]. fold s in Fs, Vs.
  assert (Pk : (0 < 2 ^ k)%Z) by (apply Z.pow_pos_nonneg; lia).
  assert (Pk2 : (2 ^ k <= 2 ^ 22)%Z) by (apply Z.pow_le_mono_r; lia).
  pose proof (bpow_gt_0 radix2 (k - 24)) as P24.
  assert (P24' : bpow radix2 (k - 24) < bpow radix2 k) by (apply bpow_lt; lia).
  set (x := bpow radix2 k - bpow radix2 (k - 24)) in *.
  assert (Fx : fmt32 x).
  { unfold x. replace (bpow radix2 k) with (IZR (2 ^ 24) * bpow radix2 (k - 24)).
    - replace (IZR (2 ^ 24) * bpow radix2 (k - 24) - bpow radix2 (k - 24)) with (IZR (2 ^ 24 - 1) * bpow radix2 (k - 24)).
      + apply scaled_fmt; lia.
      + rewrite minus_IZR. ring.
    - rewrite IZR_pow2 by lia. rewrite <- bpow_plus. f_equal. ring. }
  assert (Lx : x < bpow radix2 128).
  { apply Rlt_trans with (bpow radix2 k); [unfold x; lra|apply bpow_lt; lia]. }
  assert (Ax : Rabs x <= x) by (rewrite Rabs_pos_eq; unfold x; lra).
  destruct (fcast_le (p2:=24) (e2:=128) s x Fs Fx Lx) as (A1 & A2 & _). { rewrite Vs. exact Ax. }
  rewrite Vs, rnd_fmt in A2 by exact Fx.
  destruct (of_Z32 1 ltac:(lia)) as [F1 V1].
  destruct (fmul_le (of_Z 1) (to32 s) x F1 A1 Fx Lx) as (B1 & B2 & _). { unfold to32. rewrite V1, A2, Rmult_1_l. exact Ax. }
  unfold to32 in B2 at 2. rewrite V1, A2, Rmult_1_l, rnd_fmt in B2 by exact Fx.
  destruct (fadd_le (of_Z 0) (fmul (of_Z 1) (to32 s)) x ltac:(reflexivity) B1 Fx Lx) as (C1 & C2 & _).
  { rewrite B2. change (B2R (of_Z 0 : f32)) with 0. rewrite Rplus_0_l. exact Ax. }
  rewrite B2 in C2. change (B2R (of_Z 0 : f32)) with 0 in C2. rewrite Rplus_0_l, rnd_fmt in C2 by exact Fx.
  destruct (resampler_process (set_playback_speed (U data 0 0 0) s)) as [[y r']|] eqn:E; [|reflexivity].
  cbn [bind].
  assert (Er : r' = advance (set_playback_speed (U data 0 0 0) s)).
  { destruct (process_inv _ _ _ E) as [(_ & _ & T & _)|(j & _ & _ & _ & T)]; [exfalso|exact T].
    change (r_data (set_playback_speed (U data 0 0 0) s)) with data in T.
    change (to_usize (r_ind (set_playback_speed (U data 0 0 0) s))) with 0%Z in T. lia. }
  assert (P : resampler_process r' = Panic).
  { apply process_nl_panic_iff.
    - rewrite Er. reflexivity.
    - rewrite Er. change (r_data _) with data. lia.
    - exists k. split; [exact Hk|]. rewrite Er. split; [exact Hlen|].
      assert (Ei : r_ind (advance (set_playback_speed (U data 0 0 0) s)) = fadd (of_Z 0) (fmul (of_Z 1) (to32 s))).
      { unfold advance, U, set_playback_speed. cbn [r_data r_ind r_inc r_speed r_ls r_le]. rewrite andb_false_r. reflexivity. }
      rewrite Ei. split; [exact C1|exact C2]. }
  rewrite P. reflexivity.
Qed.

(** longer tracks *)
Lemma long_panics (data : list Mono) : Z.of_nat (length data) = (2 ^ 24 + 4)%Z ->
  rrun [RSpeed (of_Z (2 ^ 24 + 2)); RProcess; RProcess] (resampler_new data (of_Z 48000) 0 0) = Panic.
Proof.
  intros Hlen. rewrite U_new by lia. cbn [rrun].
  destruct (resampler_process (set_playback_speed (U data 0 0 0) (of_Z (2 ^ 24 + 2)))) as [[y r']|] eqn:E; [|reflexivity].
  cbn [bind].
  assert (Er : r' = advance (set_playback_speed (U data 0 0 0) (of_Z (2 ^ 24 + 2)))).
  { destruct (process_inv _ _ _ E) as [(_ & _ & T & _)|(j & _ & _ & _ & T)]; [exfalso|exact T].
    change (r_data (set_playback_speed (U data 0 0 0) (of_Z (2 ^ 24 + 2)))) with data in T.
    change (to_usize (r_ind (set_playback_speed (U data 0 0 0) (of_Z (2 ^ 24 + 2))))) with 0%Z in T. lia. }
  assert (Ei : r_ind (advance (set_playback_speed (U data 0 0 0) (of_Z (2 ^ 24 + 2)))) = of_Z (2 ^ 24 + 2)).
  { unfold advance, U, set_playback_speed. cbn [r_data r_ind r_inc r_speed r_ls r_le]. rewrite andb_false_r.
    apply B2SF_inj. vm_compute. reflexivity. }
  assert (P : resampler_process r' = Panic).
  { rewrite Er. unfold resampler_process. rewrite Ei.
    change (r_data _) with data. change (r_le _) with 0%Z. rewrite Hlen, !to_usize_trunc.
    change (to_usize (of_Z (2 ^ 24 + 2) : f32)) with (2 ^ 24 + 2)%Z.
    assert (Q : to_usize (fadd (of_Z (2 ^ 24 + 2) : f32) (of_Z 1)) = (2 ^ 24 + 4)%Z) by (vm_compute; reflexivity).
    rewrite Q. rewrite (index_panic data (2 ^ 24 + 4)) by lia. reflexivity. }
  rewrite P. reflexivity.
Qed.
