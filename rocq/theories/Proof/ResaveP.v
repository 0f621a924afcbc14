(** * Proofs: opening a file and saving it again *)

From Coq Require Import ZArith List Bool Reals Lra Lia Psatz.
From Flocq Require Import Core.Core IEEE754.BinarySingleNaN.
From Verif Require Import Model.Floats Model.SampleFormat Model.Mono Model.Wav Spec.Quantum Spec.Resave
  Proof.FloatFacts Proof.SampleFormatP Proof.WavP Proof.FileP.
Import ListNotations.
Local Open Scope R_scope.

Lemma of_depth_eq a d : of_depth a d = depth_of a d.
Proof. unfold of_depth, depth_of. destruct (a =? 8)%Z, (a =? 16)%Z; reflexivity. Qed.
Lemma data_depth a d : data_of (of_depth a d) = d.
Proof. unfold of_depth. destruct (a =? 8)%Z, (a =? 16)%Z; reflexivity. Qed.
Lemma dec_depth a d : dec_of (of_depth a d) = decz_of a.
Proof. unfold of_depth, decz_of. destruct (a =? 8)%Z, (a =? 16)%Z; reflexivity. Qed.
Definition clip_if (clip : bool) (s : f32) : f32 := if clip then clip_sample s else s.
Lemma clipped_map clip t : clipped clip t = map (clip_if clip) t.
Proof. destruct clip; [reflexivity|]. cbn. symmetry. apply map_id. Qed.

(** whole frames *)
Lemma resave_frames a b clip h d n : good_bps b -> (0 < channel_count h <= 65535)%Z -> Z.of_nat (length d) = (Z.of_nat n * channel_count h)%Z ->
  resave h (of_depth a d) b clip =
    Ok (Some (mkHeader 1 (channel_count h) 48000 b, of_depth b (map (fun z => enc_of b (clip_if clip (decz_of a z))) d))).
Proof.
  intros Gb Hc Hl. destruct (read_round_robin h (of_depth a d) ltac:(lia)) as (ts & E & L & D).
  rewrite data_depth, dec_depth in D. set (cc := Z.to_nat (channel_count h)) in *. rewrite L in D.
  assert (Ld : length d = (n * cc)%nat) by (unfold cc; nia).
  assert (LT : forall c, (c < cc)%nat -> length (nth c ts []) = n).
  { intros c Hcc.
    assert (K : forall k, (k < length (nth c ts []) <-> k < n)%nat).
    { intro k. rewrite <- nth_error_Some, (D c k Hcc). transitivity (nth_error d (c + k * cc) <> None).
      - destruct (nth_error d (c + k * cc)); cbn; split; congruence.
      - rewrite nth_error_Some, Ld. nia. }
    destruct (Nat.lt_trichotomy (length (nth c ts [])) n) as [X|[X|X]]; [|exact X|]; apply K in X; lia. }
  assert (SL : same_lengths ts).
  { intros t u Ht Hu. apply (In_nth _ _ []) in Ht, Hu. destruct Ht as (i & Hi & <-), Hu as (j & Hj & <-). rewrite !LT; lia. }
  assert (NE : ts <> []) by (intros ->; cbn in L; unfold cc in L; lia).
  destruct (write_ok (fun _ _ => true) ts b clip NE SL Gb) as (v & W & Lv & Nv). cbv zeta in W.
  unfold resave. rewrite E. cbn [bind]. rewrite W, L. unfold cc. rewrite Z2Nat.id, Z.mod_small by lia. fold cc. rewrite of_depth_eq.
  do 4 f_equal. apply list_ext. intro q.
  assert (H0 : length (hd [] ts) = n).
  { destruct ts as [|t ts']; [congruence|]. cbn [hd]. specialize (LT 0%nat ltac:(unfold cc; lia)). exact LT. }
  rewrite H0, L in *.
  destruct (Nat.lt_ge_cases q (length d)) as [Q|Q].
  2:{ transitivity (@None Z); [|symmetry]; apply nth_error_None; [lia|rewrite map_length; lia]. }
  assert (C0 : cc <> 0%nat) by (unfold cc; lia).
  pose proof (Nat.div_mod q cc C0) as QE. pose proof (Nat.mod_upper_bound q cc C0) as QM.
  set (c := (q mod cc)%nat) in *. set (j := (q / cc)%nat) in *.
  assert (Hj : (j < n)%nat) by nia. replace q with (c + j * cc)%nat by nia.
  rewrite (Nv c j (nth c ts [])); [|apply List.nth_error_nth'; lia|exact Hj].
  rewrite clipped_map, !nth_error_map, (D c j QM).
  destruct (nth_error d (c + j * cc)); reflexivity.
Qed.
(** a last frame that is not whole *)
Lemma resave_odd a b clip h d : (0 < channel_count h)%Z -> (Z.of_nat (length d) mod channel_count h <> 0)%Z ->
  resave h (of_depth a d) b clip = Ok None.
Proof.
  intros Hc Hl. destruct (read_round_robin h (of_depth a d) Hc) as (ts & E & L & D).
  rewrite data_depth, dec_depth in D. set (cc := Z.to_nat (channel_count h)) in *. rewrite L in D.
  unfold resave. rewrite E. cbn [bind].
  destruct (write_errors (fun _ _ => true) ts b clip) as [W _]; [reflexivity|]. apply W. right. left. intro S.
  assert (DD : dealt cc (decz_of a) d ts) by (split; [exact L|exact D]).
  assert (C0 : (0 < cc)%nat) by (unfold cc; lia).
  set (q := (length d / cc)%nat). set (r := (length d mod cc)%nat).
  assert (QE : length d = (cc * q + r)%nat) by (apply Nat.div_mod; lia).
  assert (QM : (r < cc)%nat) by (apply Nat.mod_upper_bound; lia).
  assert (R0 : r <> 0%nat).
  { intro X. apply Hl. rewrite QE, X, Nat.add_0_r, Nat2Z.inj_mul. unfold cc. rewrite Z2Nat.id by lia. rewrite Z.mul_comm. apply Z.mod_mul. lia. }
  assert (Hl0 : length (nth 0 ts []) = length (nth (cc - 1) ts [])) by (apply S; apply nth_In; lia).
  pose proof (dealt_length _ _ _ _ 0%nat DD ltac:(lia) q) as K0. pose proof (dealt_length _ _ _ _ (cc - 1)%nat DD ltac:(lia) q) as K1.
  rewrite Hl0 in K0. assert (X : (q < length (nth (cc - 1) ts []))%nat) by (apply K0; nia). apply K1 in X. nia.
Qed.

(** ** integers *)
Lemma own_depth a z : in_depth a z -> enc_of a (decz_of a z) = z.
Proof.
  intros [[-> H]|[[-> H]|[-> H]]]; [exact (u8_round_trip z H)|exact (i16_round_trip z H)|exact (i24_round_trip z H)].
Qed.
Lemma decoded_unit a z : in_depth a z -> above_lowest a z -> fin (decz_of a z) /\ Rabs (B2R (decz_of a z)) <= 1.
Proof.
  intros [[-> H]|[[-> H]|[-> H]]] [N1 N2]; unfold decz_of; cbn [Z.eqb Pos.eqb].
  - destruct (from_u8_ok z H) as [F V]. split; [exact F|]. rewrite V. assert (0 <= IZR z <= 255) by (split; apply IZR_le; lia). apply Rabs_le. lra.
  - destruct (from_i16_ok z H) as (F & V & _). split; [exact F|]. rewrite V. apply rnd_unit.
    assert (-32767 <= IZR z <= 32767) by (split; apply IZR_le; lia). apply Rabs_le. lra.
  - destruct (from_i24_ok z ltac:(lia)) as (F & V & _). split; [exact F|]. rewrite V. apply rnd_unit.
    assert (-8388607 <= IZR z <= 8388607) by (split; apply IZR_le; lia). apply Rabs_le. lra.
Qed.
Lemma clip_unit clip s : fin s -> Rabs (B2R s) <= 1 -> clip_if clip s = s.
Proof.
  intros F H. destruct clip; [|reflexivity]. cbn [clip_if]. unfold clip_sample. destruct one32 as [F1 V1]. destruct mone32 as [F2 V2].
  rewrite (fgt_R _ _ F F1), (flt_R _ _ F F2), V1, V2. apply Rabs_le_inv in H.
  rewrite !Rlt_bool_false by lra. reflexivity.
Qed.
Lemma enc_unit b s : good_bps b -> fin s -> Rabs (B2R s) <= 1 -> in_depth b (enc_of b s) /\ above_lowest b (enc_of b s).
Proof.
  intros Hb Fs Hs. pose proof Hs as Hs'. apply Rabs_le_inv in Hs'.
  destruct Hb as [->|[->| ->]]; unfold enc_of, in_depth, above_lowest; cbn [Z.eqb Pos.eqb]; destruct (encoders_range s) as [R8 R16].
  - split; [left; auto|split; intros [X _]; discriminate].
  - pose proof (acc_i16' s Fs Hs) as A.
    assert (U : (-32767 <= sample_to_i16 s)%Z).
    { apply Rabs_le_inv in A. apply le_IZR. apply Rnot_lt_le. intro X. assert (IZR (sample_to_i16 s) <= -32768) by (apply IZR_le; apply lt_IZR in X; lia). lra. }
    split; [right; left; auto|split; intros [X Y]; [lia|discriminate]].
  - pose proof (acc_i24 s Fs Hs) as A.
    assert (U : (-8388607 <= sample_to_i24 s <= 8388607)%Z).
    { apply Rabs_le_inv in A. split; apply le_IZR; apply Rnot_lt_le; intro X.
      - assert (IZR (sample_to_i24 s) <= -8388608) by (apply IZR_le; apply lt_IZR in X; lia). lra.
      - assert (8388608 <= IZR (sample_to_i24 s)) by (apply IZR_le; apply lt_IZR in X; lia). lra. }
    split; [right; right; split; [reflexivity|lia]|split; intros [X Y]; [discriminate|lia]].
Qed.
(** up to a deeper file and back *)
Lemma back8 z (y : f32) : (0 <= z <= 255)%Z -> fin y -> Rabs (B2R y) <= 1 -> Rabs (B2R y - (IZR z - 128) / 128) <= / 65000 -> sample_to_u8 y = z.
Proof.
  intros H F U D. destruct (acc_u8' y F U) as (k & -> & A). apply Rabs_le_inv in D, A.
  assert (k = z); [|lia]. apply Z.le_antisymm; apply Z.lt_succ_r, lt_IZR; rewrite succ_IZR; lra.
Qed.
Lemma back16 z (y : f32) : (-32767 <= z <= 32767)%Z -> fin y -> Rabs (B2R y) <= 1 -> Rabs (B2R y - rnd32 (IZR z / 32767)) <= / 8000000 -> sample_to_i16 y = z.
Proof.
  intros H F U D. pose proof (acc_i16' y F U) as A.
  assert (-32767 <= IZR z <= 32767) by (split; apply IZR_le; lia).
  destruct (rnd_unit (IZR z / 32767)) as [_ C]; [apply Rabs_le; lra|]. change (bpow radix2 (-25)) with (/ 33554432) in C.
  apply Rabs_le_inv in D, A, C. apply Z.le_antisymm; apply Z.lt_succ_r, lt_IZR; rewrite succ_IZR; lra.
Qed.
Lemma up_and_down a b z : (a <= b)%Z -> good_bps b -> in_depth a z -> above_lowest a z ->
  in_depth b (enc_of b (decz_of a z)) /\ above_lowest b (enc_of b (decz_of a z)) /\ enc_of a (decz_of b (enc_of b (decz_of a z))) = z.
Proof.
  intros Hab Gb Hz Al. destruct (decoded_unit a z Hz Al) as [F U]. destruct (enc_unit b _ Gb F U) as [I J].
  split; [exact I|]. split; [exact J|].
  destruct (Z.eq_dec a b) as [->|Nab]; [rewrite !own_depth; [reflexivity|exact Hz|exact I]|].
  destruct (quantised b _ Gb F U) as (Fy & Uy & Q). set (y := decz_of b (enc_of b (decz_of a z))) in *.
  destruct Hz as [[-> H]|[[-> H]|[-> H]]].
  - unfold decz_of in Q. cbn [Z.eqb Pos.eqb] in Q. destruct (from_u8_ok z H) as [_ V]. rewrite V in Q.
    apply (back8 z y H Fy Uy). eapply Rle_trans; [exact Q|]. destruct Gb as [->|[->| ->]]; [congruence| |]; unfold quantum; cbn [Z.eqb Pos.eqb]; lra.
  - assert (b = 24%Z) as -> by (destruct Gb as [->|[->| ->]]; lia).
    unfold decz_of in Q. cbn [Z.eqb Pos.eqb] in Q. destruct (from_i16_ok z H) as (_ & V & _). rewrite V in Q.
    apply (back16 z y); [destruct Al as [X _]; lia|exact Fy|exact Uy|exact Q].
  - destruct Gb as [->|[->| ->]]; lia.
Qed.

(** ** files *)
Lemma same_file a h d n : good_bps a -> (0 < channel_count h <= 65535)%Z -> Z.of_nat (length d) = (Z.of_nat n * channel_count h)%Z -> Forall (in_depth a) d ->
  resave h (of_depth a d) a false = Ok (Some (mkHeader 1 (channel_count h) 48000 a, of_depth a d)).
Proof.
  intros Ga Hc Hl Hd. rewrite (resave_frames a a false h d n Ga Hc Hl). do 4 f_equal. cbn [clip_if].
  rewrite <- (map_id d) at 2. apply map_ext_in. intros z Hz. apply own_depth. rewrite Forall_forall in Hd. exact (Hd z Hz).
Qed.
Lemma deeper_and_back a b c1 c2 h d n : (a <= b)%Z -> good_bps a -> good_bps b -> (0 < channel_count h <= 65535)%Z ->
  Z.of_nat (length d) = (Z.of_nat n * channel_count h)%Z -> Forall (fun z => in_depth a z /\ above_lowest a z) d ->
  exists h' d', resave h (of_depth a d) b c1 = Ok (Some (h', of_depth b d')) /\ channel_count h' = channel_count h /\ Forall (in_depth b) d' /\
    resave h' (of_depth b d') a c2 = Ok (Some (mkHeader 1 (channel_count h) 48000 a, of_depth a d)).
Proof.
  intros Hab Ga Gb Hc Hl Hd. rewrite Forall_forall in Hd.
  set (d' := map (fun z => enc_of b (clip_if c1 (decz_of a z))) d).
  assert (E : forall z, In z d -> clip_if c1 (decz_of a z) = decz_of a z).
  { intros z Hz. destruct (Hd z Hz) as [X Y]. destruct (decoded_unit a z X Y). apply clip_unit; assumption. }
  eexists _, d'. split; [exact (resave_frames a b c1 h d n Gb Hc Hl)|]. split; [reflexivity|]. split.
  - apply Forall_forall. intros y Hy. apply in_map_iff in Hy. destruct Hy as (z & <- & Hz). rewrite E by exact Hz.
    destruct (Hd z Hz) as [X Y]. apply (up_and_down a b z Hab Gb X Y).
  - rewrite (resave_frames b a c2 _ d' n Ga); [|exact Hc|unfold d'; rewrite map_length; exact Hl]. cbn [channel_count].
    do 4 f_equal. unfold d'. rewrite map_map. rewrite <- (map_id d) at 2. apply map_ext_in. intros z Hz. rewrite E by exact Hz.
    destruct (Hd z Hz) as [X Y]. destruct (up_and_down a b z Hab Gb X Y) as (I & J & K).
    destruct (decoded_unit b _ I J) as [F U]. rewrite clip_unit by assumption. exact K.
Qed.
(** ** what is lost *)
Lemma rate_lost a h d n : good_bps a -> (0 < channel_count h <= 65535)%Z -> Z.of_nat (length d) = (Z.of_nat n * channel_count h)%Z -> Forall (in_depth a) d ->
  sampling_rate h <> 48000%Z -> exists h', resave h (of_depth a d) a false = Ok (Some (h', of_depth a d)) /\ sampling_rate h' <> sampling_rate h.
Proof. intros Ga Hc Hl Hd R. eexists. split; [apply (same_file a h d n Ga Hc Hl Hd)|]. cbn. congruence. Qed.
Lemma clip_lowest h n : channel_count h = 1%Z -> resave h (Sixteen (repeat (-32768)%Z n)) 16 true = Ok (Some (mkHeader 1 1 48000 16, Sixteen (repeat (-32767)%Z n))).
Proof.
  intro Hc. change (Sixteen (repeat (-32768)%Z n)) with (of_depth 16 (repeat (-32768)%Z n)).
  rewrite (resave_frames 16 16 true h _ n); [|right; left; reflexivity|lia|rewrite repeat_length, Hc; lia].
  assert (X : map (fun z => enc_of 16 (clip_if true (decz_of 16 z))) (repeat (-32768)%Z n) = repeat (-32767)%Z n).
  { assert (V : enc_of 16 (clip_if true (decz_of 16 (-32768))) = (-32767)%Z) by (vm_compute; reflexivity).
    induction n as [|n IH]; [reflexivity|]. cbn [repeat map]. rewrite V, IH. reflexivity. }
  rewrite X, Hc. reflexivity.
Qed.
Lemma deep_lowest h : channel_count h = 1%Z -> exists z, resave h (Sixteen [-32768]%Z) 24 false = Ok (Some (mkHeader 1 1 48000 24, TwentyFour [z])) /\ ~ in_depth 24 z.
Proof.
  intro Hc. exists (-8388863)%Z. split; [|intros [[X _]|[[X _]|[_ X]]]; lia].
  change (Sixteen [-32768]%Z) with (of_depth 16 [-32768]%Z).
  rewrite (resave_frames 16 24 false h _ 1); [|right; right; reflexivity|lia|cbn [length]; lia].
  cbn [map]. replace (enc_of 24 (clip_if false (decz_of 16 (-32768)))) with (-8388863)%Z by (vm_compute; reflexivity).
  rewrite Hc. reflexivity.
Qed.
