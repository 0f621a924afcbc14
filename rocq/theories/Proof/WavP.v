(** * Proofs about read_wav / write_wav *)

From Coq Require Import ZArith List Bool Reals Lra Lia.
From Flocq Require Import Core.Core IEEE754.BinarySingleNaN.
From Verif Require Import Model.Floats Model.SampleFormat Model.Wav
  Proof.FloatFacts Proof.SampleFormatP.
Import ListNotations.

Lemma list_ext {A} (a : list A) : forall b, (forall k, nth_error a k = nth_error b k) -> a = b.
Proof.
  induction a as [|x a IH]; intros [|y b] H; try reflexivity.
  - specialize (H 0%nat). discriminate.
  - specialize (H 0%nat). discriminate.
  - f_equal. { specialize (H 0%nat). injection H. auto. }
    apply IH. intro k. exact (H (S k)).
Qed.

(** ** reading *)
Lemma push_at_ok {A} (ts : list (list A)) : forall i x, (i < length ts)%nat ->
  exists ts', push_at ts i x = Ok ts' /\ length ts' = length ts /\
    forall c, nth c ts' [] = if Nat.eqb c i then nth i ts [] ++ [x] else nth c ts [].
Proof.
  induction ts as [|t ts IH]; simpl; intros i x Hi; [lia|].
  destruct i as [|i].
  - eexists. split; [reflexivity|]. split; [reflexivity|]. intros [|c]; reflexivity.
  - destruct (IH i x ltac:(lia)) as (ts' & E & L & N). rewrite E. cbn [bind].
    eexists. split; [reflexivity|]. split; [simpl; congruence|]. intros [|c]; [reflexivity|]. apply N.
Qed.

(** position k of track c after the elements [p] have been distributed over n tracks *)
Definition dealt {A} (n : nat) (dec : Z -> A) (p : list Z) (ts : list (list A)) : Prop :=
  length ts = n /\
  forall c k, (c < n)%nat -> nth_error (nth c ts []) k = option_map dec (nth_error p (c + k * n)).

Lemma nth_error_app_end {A} (l : list A) x k :
  nth_error (l ++ [x]) k = if Nat.ltb k (length l) then nth_error l k else if Nat.eqb k (length l) then Some x else None.
Proof.
  destruct (Nat.ltb_spec k (length l)).
  - apply nth_error_app1. assumption.
  - rewrite nth_error_app2 by assumption. destruct (Nat.eqb_spec k (length l)).
    + subst. rewrite Nat.sub_diag. reflexivity.
    + destruct (k - length l)%nat as [|j] eqn:E; [lia|]. destruct j; reflexivity.
Qed.

Lemma dealt_length {A} n dec p (ts : list (list A)) c : dealt n dec p ts -> (c < n)%nat ->
  forall k, (k < length (nth c ts []) <-> c + k * n < length p)%nat.
Proof.
  intros [L H] Hc k. rewrite <- !nth_error_Some. rewrite (H c k Hc).
  destruct (nth_error p (c + k * n)); simpl; split; intro E; try congruence.
Qed.

Lemma distribute_ok {A} n (dec : Z -> A) : (0 < n)%nat -> forall d p ts, dealt n dec p ts ->
  exists ts', distribute n dec (length p) d ts = Ok ts' /\ dealt n dec (p ++ d) ts'.
Proof.
  intro Hn. induction d as [|z d IH]; intros p ts D.
  - exists ts. split; [reflexivity|]. rewrite app_nil_r. exact D.
  - cbn [distribute]. destruct n as [|n']; [lia|]. set (n := S n') in *.
    pose proof (Nat.mod_upper_bound (length p) n ltac:(lia)) as Hm.
    pose proof (Nat.div_mod (length p) n ltac:(lia)) as DM.
    set (c0 := (length p mod n)%nat) in *. set (q := (length p / n)%nat) in *.
    destruct D as [L H].
    destruct (push_at_ok ts c0 (dec z)) as (ts' & E & L' & N); [lia|].
    rewrite E. cbn [bind].
    assert (D' : dealt n dec (p ++ [z]) ts').
    { split; [lia|]. intros c k Hc. rewrite N. rewrite nth_error_app_end.
      assert (LL : length (nth c0 ts []) = q).
      { pose proof (dealt_length n dec p ts c0 (conj L H) Hm) as K.
        destruct (Nat.lt_trichotomy (length (nth c0 ts [])) q) as [T|[T|T]]; [|exact T|].
        - exfalso. specialize (K (length (nth c0 ts []))). destruct K as [_ K].
          assert (length (nth c0 ts []) < length (nth c0 ts []))%nat by (apply K; nia). lia.
        - exfalso. specialize (K q). destruct K as [K _]. specialize (K T). nia. }
      destruct (Nat.eqb_spec c c0) as [->|Nc].
      - rewrite nth_error_app_end, LL.
        destruct (Nat.ltb_spec k q) as [T|T].
        + destruct (Nat.ltb_spec (c0 + k * n) (length p)); [|nia]. apply H; assumption.
        + destruct (Nat.ltb_spec (c0 + k * n) (length p)); [nia|].
          destruct (Nat.eqb_spec k q) as [->|Nk].
          * destruct (Nat.eqb_spec (c0 + q * n) (length p)); [reflexivity|nia].
          * destruct (Nat.eqb_spec (c0 + k * n) (length p)); [nia|reflexivity].
      - rewrite (H c k Hc). destruct (Nat.ltb_spec (c + k * n) (length p)) as [T|T]; [reflexivity|].
        destruct (Nat.eqb_spec (c + k * n) (length p)) as [Eq|].
        + exfalso. apply Nc. unfold c0. rewrite <- Eq. rewrite Nat.mod_add by lia. symmetry. apply Nat.mod_small, Hc.
        + rewrite (proj2 (nth_error_None p (c + k * n))) by exact T. reflexivity. }
    destruct (IH (p ++ [z]) ts' D') as (ts'' & E'' & D'').
    exists ts''. rewrite app_length in E''. simpl in E''. rewrite Nat.add_1_r in E''.
    split; [exact E''|]. rewrite <- app_assoc in D''. exact D''.
Qed.

Lemma nth_repeat_nil {A} n c : nth c (repeat (@nil A) n) [] = [].
Proof. revert c; induction n as [|n IH]; intros [|c]; simpl; auto. Qed.

Lemma dealt_start {A} n (dec : Z -> A) : dealt n dec [] (repeat [] n).
Proof.
  split; [apply repeat_length|]. intros c k Hc. rewrite nth_repeat_nil.
  destruct k; destruct c; simpl; try reflexivity; destruct (_ + _)%nat; reflexivity.
Qed.

Definition data_of (bd : bit_depth) : list Z :=
  match bd with Eight d => d | Sixteen d => d | TwentyFour d => d | Empty => [] end.
Definition dec_of (bd : bit_depth) : Z -> f32 :=
  match bd with Eight _ => sample_from_u8 | Sixteen _ => sample_from_i16 | _ => sample_from_i24 end.

Lemma read_round_robin h bd : (0 < channel_count h)%Z ->
  exists ts, read_wav (Some (h, bd)) = Ok (Some (h, ts)) /\
    length ts = Z.to_nat (channel_count h) /\
    (forall c k, (c < length ts)%nat ->
       nth_error (nth c ts []) k = option_map (dec_of bd) (nth_error (data_of bd) (c + k * length ts))).
Proof.
  intro H. assert (Hn : (0 < Z.to_nat (channel_count h))%nat) by lia.
  set (n := Z.to_nat (channel_count h)) in *.
  assert (K : exists ts, match bd with
               | Eight d => distribute n sample_from_u8 0 d (repeat [] n)
               | Sixteen d => distribute n sample_from_i16 0 d (repeat [] n)
               | TwentyFour d => distribute n sample_from_i24 0 d (repeat [] n)
               | Empty => Ok (repeat [] n)
               end = Ok ts /\ dealt n (dec_of bd) (data_of bd) ts).
  { destruct bd as [d|d|d|].
    - destruct (distribute_ok n sample_from_u8 Hn d [] _ (dealt_start n _)) as (ts & E & D). exists ts; auto.
    - destruct (distribute_ok n sample_from_i16 Hn d [] _ (dealt_start n _)) as (ts & E & D). exists ts; auto.
    - destruct (distribute_ok n sample_from_i24 Hn d [] _ (dealt_start n _)) as (ts & E & D). exists ts; auto.
    - eexists. split; [reflexivity|apply dealt_start]. }
  destruct K as (ts & E & L & D). exists ts. cbn [read_wav]. fold n. rewrite E. cbn [bind].
  split; [reflexivity|]. split; [exact L|]. rewrite L. exact D.
Qed.

Lemma read_lengths h bd ts c c' : (0 < channel_count h)%Z ->
  read_wav (Some (h, bd)) = Ok (Some (h, ts)) -> (c < length ts)%nat -> (c' < length ts)%nat ->
  (length (nth c ts []) <= length (nth c' ts []) + 1)%nat.
Proof.
  intros H E Hc Hc'. destruct (read_round_robin h bd H) as (ts' & E' & L & D).
  rewrite E in E'. injection E' as <-.
  assert (DD : dealt (length ts) (dec_of bd) (data_of bd) ts) by (split; [reflexivity|exact D]).
  pose proof (dealt_length _ _ _ _ c DD Hc) as K. pose proof (dealt_length _ _ _ _ c' DD Hc') as K'.
  destruct (Nat.le_gt_cases (length (nth c ts [])) (length (nth c' ts []) + 1)) as [T|T]; [exact T|exfalso].
  specialize (K (length (nth c' ts []) + 1)%nat). specialize (K' (length (nth c' ts []))).
  destruct K as [K _]. specialize (K T). destruct K' as [_ K'].
  assert (length (nth c' ts []) < length (nth c' ts []))%nat by (apply K'; nia). lia.
Qed.

Lemma read_zero_channels h bd : channel_count h = 0%Z ->
  (data_of bd <> [] -> read_wav (Some (h, bd)) = Panic) /\
  (data_of bd = [] -> read_wav (Some (h, bd)) = Ok (Some (h, []))).
Proof.
  intro H. cbn [read_wav]. rewrite H. destruct bd as [[|]|[|]|[|]|]; simpl; split; intro; congruence || reflexivity.
Qed.

(** ** writing *)
Definition same_lengths (ts : list (list f32)) : Prop :=
  forall t u, In t ts -> In u ts -> length t = length u.

Definition clipped (clip : bool) (t : list f32) : list f32 := if clip then map clip_sample t else t.
Lemma clipped_length clip t : length (clipped clip t) = length t.
Proof. destruct clip; [apply map_length|reflexivity]. Qed.

Lemma check_clip_ok len clip ts : (forall t, In t ts -> length t = len) ->
  check_clip len clip ts = Some (map (clipped clip) ts).
Proof.
  induction ts as [|t ts IH]; intro H; [reflexivity|]. cbn [check_clip map].
  rewrite (H t (or_introl eq_refl)), Nat.eqb_refl. cbn [negb].
  rewrite IH by (intros u Hu; apply H; right; exact Hu). reflexivity.
Qed.
Lemma check_clip_bad len clip ts t : In t ts -> length t <> len -> check_clip len clip ts = None.
Proof.
  induction ts as [|u ts IH]; intros I N; [inversion I|]. cbn [check_clip].
  destruct I as [->|I].
  - destruct (Nat.eqb_spec (length t) len); [congruence|reflexivity].
  - rewrite (IH I N). destruct (negb _); reflexivity.
Qed.

Lemma frame_ok enc i ts : (forall t, In t ts -> (i < length t)%nat) ->
  exists f, frame enc i ts = Ok f /\ length f = length ts /\
    forall c, nth_error f c = match nth_error ts c with Some t => option_map enc (nth_error t i) | None => None end.
Proof.
  induction ts as [|t ts IH]; intro H.
  - exists []. repeat split. intros [|c]; reflexivity.
  - cbn [frame]. pose proof (H t (or_introl eq_refl)) as Ht. apply nth_error_Some in Ht.
    destruct (nth_error t i) as [s|] eqn:Es; [|congruence]. cbn [unwrap bind].
    destruct IH as (f & -> & L & N); [intros u Hu; apply H; right; exact Hu|]. cbn [bind].
    eexists. split; [reflexivity|]. split; [simpl; congruence|].
    intros [|c]; [simpl; rewrite Es; reflexivity|apply N].
Qed.

(** element c + j*n of the interleaved data is the encoded sample j (relative to the start) of track c *)
Lemma interleave_ok enc ts len : (forall t, In t ts -> length t = len) -> forall m a, (a + m = len)%nat ->
  exists v, interleave enc (seq a m) ts = Ok v /\ length v = (m * length ts)%nat /\
    forall c j t, nth_error ts c = Some t -> (j < m)%nat ->
      nth_error v (c + j * length ts) = option_map enc (nth_error t (a + j)).
Proof.
  intros H. induction m as [|m IH]; intros a Ha.
  - exists []. repeat split. intros; lia.
  - cbn [seq interleave].
    destruct (frame_ok enc a ts) as (f & -> & Lf & Nf). { intros t Ht. rewrite (H t Ht). lia. }
    destruct (IH (S a) ltac:(lia)) as (v & -> & Lv & Nv). cbn [bind].
    eexists. split; [reflexivity|]. split; [rewrite app_length; simpl; lia|].
    intros c j t Hc Hj.
    assert (Hc' : (c < length ts)%nat) by (apply nth_error_Some; congruence).
    destruct j as [|j].
    + rewrite Nat.mul_0_l, !Nat.add_0_r, nth_error_app1 by lia. rewrite Nf, Hc. reflexivity.
    + rewrite nth_error_app2 by (simpl; lia). rewrite Lf.
      replace (c + S j * length ts - length ts)%nat with (c + j * length ts)%nat by (simpl; lia).
      rewrite (Nv c j t Hc ltac:(lia)). f_equal. f_equal. lia.
Qed.

Definition good_bps (b : Z) : Prop := b = 8%Z \/ b = 16%Z \/ b = 24%Z.
Definition enc_of (b : Z) : f32 -> Z :=
  if Z.eqb b 8 then sample_to_u8 else if Z.eqb b 16 then sample_to_i16 else sample_to_i24.
Definition depth_of (b : Z) : list Z -> bit_depth :=
  if Z.eqb b 8 then Eight else if Z.eqb b 16 then Sixteen else TwentyFour.
Definition decz_of (b : Z) : Z -> f32 :=
  if Z.eqb b 8 then sample_from_u8 else if Z.eqb b 16 then sample_from_i16 else sample_from_i24.

Lemma write_cons wr t0 ts' bps clip ts : ts = t0 :: ts' ->
  write_wav wr ts bps clip = match check_clip (length t0) clip ts with
      | None => Ok None
      | Some ts =>
          let h := mkHeader 1 (Z.of_nat (length ts) mod 2 ^ 16) SAMPLE_RATE bps in
          let out enc depth :=
            do v <- interleave enc (seq 0 (length t0)) ts;
            Ok (if wr h (depth v) then Some (h, depth v) else None) in
          if Z.eqb bps 8 then out sample_to_u8 Eight
          else if Z.eqb bps 16 then out sample_to_i16 Sixteen
          else if Z.eqb bps 24 then out sample_to_i24 TwentyFour
          else Ok None
      end.
Proof. intros ->. reflexivity. Qed.

Lemma write_ok wr ts bps clip : ts <> [] -> same_lengths ts -> good_bps bps ->
  exists v, let h := mkHeader 1 (Z.of_nat (length ts) mod 2 ^ 16) 48000 bps in
    write_wav wr ts bps clip = Ok (if wr h (depth_of bps v) then Some (h, depth_of bps v) else None) /\
    length v = (length (hd [] ts) * length ts)%nat /\
    forall c j t, nth_error ts c = Some t -> (j < length (hd [] ts))%nat ->
      nth_error v (c + j * length ts) = option_map (enc_of bps) (nth_error (clipped clip t) j).
Proof.
  intros Hne Hs Hb. destruct ts as [|t0 ts']; [congruence|]. set (ts := t0 :: ts') in *.
  assert (HL : forall t, In t ts -> length t = length t0) by (intros t Ht; apply Hs; [exact Ht|left; reflexivity]).
  pose proof (check_clip_ok (length t0) clip ts HL) as C.
  assert (HL' : forall t, In t (map (clipped clip) ts) -> length t = length t0).
  { intros t Ht. apply in_map_iff in Ht. destruct Ht as (u & <- & Hu). rewrite clipped_length. apply HL, Hu. }
  destruct (interleave_ok (enc_of bps) _ _ HL' (length t0) 0 eq_refl) as (v & I & Lv & Nv).
  rewrite map_length in Lv, Nv.
  exists v. cbv zeta. split; [|split].
  - rewrite (write_cons wr t0 ts' bps clip ts eq_refl). cbv zeta. rewrite C. rewrite map_length.
    destruct Hb as [ -> | [ -> | -> ] ]; unfold enc_of in I; simpl Z.eqb in *; cbn iota in *; rewrite I; reflexivity.
  - exact Lv.
  - intros c j t Hc Hj. apply (Nv c j (clipped clip t)); [|exact Hj].
    apply map_nth_error. exact Hc.
Qed.

Lemma write_errors wr ts bps clip :
  (forall h bd, wr h bd = true) ->
  (write_wav wr ts bps clip = Ok None <-> ts = [] \/ ~ same_lengths ts \/ ~ good_bps bps) /\
  write_wav wr ts bps clip <> Panic.
Proof.
  intro W. destruct ts as [|t0 ts'].
  { split; [|discriminate]. split; [left; reflexivity|reflexivity]. }
  set (ts := t0 :: ts').
  assert (D : (forall t, In t ts -> length t = length t0) \/ exists t, In t ts /\ length t <> length t0).
  { clear. generalize ts. intro l. induction l as [|t l IH].
    - left. intros t [].
    - destruct (Nat.eq_dec (length t) (length t0)).
      + destruct IH as [IH|(u & I & N)].
        * left. intros u [<-|Hu]; auto.
        * right. exists u. split; [right; exact I|exact N].
      + right. exists t. split; [left; reflexivity|assumption]. }
  destruct D as [D|(t & I & N)].
  - assert (S : same_lengths ts) by (intros t u Ht Hu; rewrite (D t Ht), (D u Hu); reflexivity).
    assert (G : good_bps bps \/ ~ good_bps bps).
    { unfold good_bps. destruct (Z.eq_dec bps 8), (Z.eq_dec bps 16), (Z.eq_dec bps 24); tauto. }
    destruct G as [G|G].
    + destruct (write_ok wr ts bps clip ltac:(discriminate) S G) as (v & E & _). cbv zeta in E.
      rewrite E, W. split; [|discriminate]. split; [discriminate|]. intros [K|[K|K]]; [discriminate|contradiction|contradiction].
    + assert (E : write_wav wr ts bps clip = Ok None).
      { rewrite (write_cons wr t0 ts' bps clip ts eq_refl). cbv zeta. rewrite (check_clip_ok _ clip ts D). unfold good_bps in G.
        destruct (Z.eqb_spec bps 8); [tauto|]. destruct (Z.eqb_spec bps 16); [tauto|].
        destruct (Z.eqb_spec bps 24); [tauto|]. reflexivity. }
      rewrite E. split; [|discriminate]. split; [auto|reflexivity].
  - assert (E : write_wav wr ts bps clip = Ok None).
    { rewrite (write_cons wr t0 ts' bps clip ts eq_refl). cbv zeta. rewrite (check_clip_bad _ clip ts t I N). reflexivity. }
    rewrite E. split; [|discriminate]. split; [|reflexivity]. intros _. right. left.
    intro S. apply N. apply S; [exact I|left; reflexivity].
Qed.

Lemma write_writer_failure wr ts bps clip : (forall h bd, wr h bd = false) ->
  write_wav wr ts bps clip = Ok None.
Proof.
  intro W. destruct (write_errors (fun _ _ => true) ts bps clip (fun _ _ => eq_refl)) as [I P].
  unfold write_wav in *. destruct ts as [|t0 ts']; [reflexivity|]. cbv zeta in *.
  destruct (check_clip (length t0) clip (t0 :: ts')) as [ts|]; [|reflexivity].
  destruct (Z.eqb bps 8); [|destruct (Z.eqb bps 16); [|destruct (Z.eqb bps 24); [|reflexivity]]];
  (destruct (interleave _ _ _); [cbn [bind] in *; rewrite W; reflexivity|exfalso; apply P; reflexivity]).
Qed.

(** ** write then read *)
Lemma nth_error_nth' {A} (l : list A) n d x : nth_error l n = Some x -> nth n l d = x.
Proof. apply nth_error_nth. Qed.

Lemma round_trip wr ts bps clip h bd : (Z.of_nat (length ts) <= 65535)%Z ->
  write_wav wr ts bps clip = Ok (Some (h, bd)) ->
  read_wav (Some (h, bd)) =
    Ok (Some (h, map (fun t => map (fun s => decz_of bps (enc_of bps s)) (clipped clip t)) ts)) /\
  channel_count h = Z.of_nat (length ts) /\ sampling_rate h = 48000%Z /\ bits_per_sample h = bps.
Proof.
  intros Hl E.
  assert (E1 : write_wav (fun _ _ => true) ts bps clip = Ok (Some (h, bd))).
  { unfold write_wav in *. destruct ts as [|t0 ts']; [discriminate|]. cbv zeta in *.
    destruct (check_clip (length t0) clip (t0 :: ts')) as [u|]; [|discriminate].
    destruct (Z.eqb bps 8); [|destruct (Z.eqb bps 16); [|destruct (Z.eqb bps 24); [|discriminate]]];
    (destruct (interleave _ _ _); [cbn [bind] in *; destruct (wr _ _); [exact E|discriminate]|discriminate]). }
  clear E. rename E1 into E.
  destruct (write_errors (fun _ _ => true) ts bps clip (fun _ _ => eq_refl)) as [I _].
  assert (NE : ts <> []) by (intros ->; rewrite (proj2 I) in E; [discriminate|auto]).
  assert (G : good_bps bps).
  { unfold good_bps. destruct (Z.eq_dec bps 8), (Z.eq_dec bps 16), (Z.eq_dec bps 24); try tauto.
    rewrite (proj2 I) in E; [discriminate|]. right. right. unfold good_bps. tauto. }
  assert (S : same_lengths ts).
  { intros t u Ht Hu. destruct (Nat.eq_dec (length t) (length u)) as [Q|Q]; [exact Q|].
    rewrite (proj2 I) in E; [discriminate|]. right. left. intro S. apply Q. apply S; assumption. }
  destruct (write_ok (fun _ _ => true) ts bps clip NE S G) as (v & Ev & Lv & Nv). cbv zeta in Ev.
  rewrite E in Ev. injection Ev as Eh Ebd.
  assert (HN : (0 < length ts)%nat) by (destruct ts; [congruence|simpl; lia]).
  assert (CC : channel_count h = Z.of_nat (length ts)).
  { rewrite Eh. cbn [channel_count]. apply Z.mod_small. lia. }
  split; [|split; [exact CC|rewrite Eh; split; reflexivity]].
  destruct (read_round_robin h bd ltac:(lia)) as (rs & Er & Lr & Nr).
  rewrite Er. do 3 f_equal. rewrite CC, Nat2Z.id in Lr.
  assert (Dd : data_of bd = v /\ dec_of bd = decz_of bps).
  { rewrite Ebd. unfold depth_of, decz_of. destruct G as [ -> | [ -> | -> ] ]; split; reflexivity. }
  destruct Dd as [Dd1 Dd2]. rewrite Dd1, Dd2, Lr in Nr.
  apply list_ext. intro c.
  destruct (nth_error ts c) as [t|] eqn:Ec.
  - rewrite (map_nth_error _ _ _ Ec).
    assert (Hc : (c < length ts)%nat) by (apply nth_error_Some; congruence).
    assert (Hc' : (c < length rs)%nat) by lia.
    destruct (nth_error rs c) as [r|] eqn:Erc; [|apply nth_error_None in Erc; lia].
    f_equal. pose proof (nth_error_nth _ _ [] Erc) as Q. apply list_ext. intro k. rewrite <- Q.
    rewrite (Nr c k Hc). rewrite nth_error_map.
    assert (Lt : length t = length (hd [] ts)).
    { apply S; [eapply nth_error_In; exact Ec|]. destruct ts; [congruence|left; reflexivity]. }
    destruct (Nat.lt_ge_cases k (length (hd [] ts))) as [K|K].
    + rewrite (Nv c k t Ec K). destruct (nth_error (clipped clip t) k); reflexivity.
    + rewrite (proj2 (nth_error_None v (c + k * length ts))) by (rewrite Lv; nia).
      rewrite (proj2 (nth_error_None (clipped clip t) k)) by (rewrite clipped_length; lia). reflexivity.
  - rewrite (proj2 (nth_error_None rs c)) by (apply nth_error_None in Ec; lia).
    symmetry. apply nth_error_None. rewrite map_length. apply nth_error_None in Ec. exact Ec.
Qed.

(** re-encoding what was read yields the same integers *)
Lemma reencode bps s : good_bps bps ->
  (bps = 24%Z -> (- 2 ^ 23 <= sample_to_i24 s <= 2 ^ 23 - 1)%Z) ->
  enc_of bps (decz_of bps (enc_of bps s)) = enc_of bps s.
Proof.
  intros [ -> | [ -> | -> ] ] H; unfold enc_of, decz_of; simpl Z.eqb; cbn iota.
  - apply u8_round_trip. apply (encoders_range s).
  - apply i16_round_trip. apply (encoders_range s).
  - apply i24_round_trip. apply H. reflexivity.
Qed.

(** ** clipping *)
Local Open Scope R_scope.
Lemma one32 : fin (of_Z 1 : f32) /\ B2R (of_Z 1 : f32) = 1.
Proof. apply (of_Z32 1). lia. Qed.
Lemma mone32 : fin (of_Z (-1) : f32) /\ B2R (of_Z (-1) : f32) = -1.
Proof. apply (of_Z32 (-1)). lia. Qed.

Lemma clip_range (s : f32) : is_nan s = false ->
  fin (clip_sample s) /\ Rabs (B2R (clip_sample s)) <= 1 /\
  (fin s -> Rabs (B2R s) <= 1 -> clip_sample s = s) /\
  (fge s (of_Z 1) = true -> clip_sample s = of_Z 1) /\
  (fle s (of_Z (-1)) = true -> clip_sample s = of_Z (-1)).
Proof.
  intro N. destruct one32 as [F1 V1]. destruct mone32 as [F2 V2].
  destruct (is_finite s) eqn:F.
  - unfold clip_sample. rewrite (fgt_R _ _ F F1), (flt_R _ _ F F2), V1, V2.
    destruct (Rlt_bool_spec 1 (B2R s)) as [A|A]; [|destruct (Rlt_bool_spec (B2R s) (-1)) as [B|B]].
    + split; [exact F1|]. split; [rewrite V1; apply Rabs_le; lra|]. split; [intros _ K; apply Rabs_le_inv in K; lra|].
      split; [reflexivity|]. intro K. apply fle_true in K; try assumption. lra.
    + split; [exact F2|]. split; [rewrite V2; apply Rabs_le; lra|]. split; [intros _ K; apply Rabs_le_inv in K; lra|].
      split; [|reflexivity]. intro K. rewrite fge_R in K by assumption.
      destruct (Rle_bool_spec (B2R (of_Z 1 : f32)) (B2R s)); [lra|discriminate].
    + split; [exact F|]. split; [apply Rabs_le; lra|]. split; [reflexivity|]. split; intro K.
      * rewrite fge_R in K by assumption. destruct (Rle_bool_spec (B2R (of_Z 1 : f32)) (B2R s)); [|discriminate].
        apply fin_eq; try assumption; lra.
      * apply fle_true in K; try assumption. apply fin_eq; try assumption; lra.
  - destruct s as [?|[]| |? ? ? ?]; try discriminate.
    + replace (clip_sample (B754_infinity true)) with (of_Z (-1) : f32) by reflexivity.
      split; [exact F2|]. split; [rewrite V2; apply Rabs_le; lra|]. split; [discriminate|].
      split; [intro K; discriminate K|reflexivity].
    + replace (clip_sample (B754_infinity false)) with (of_Z 1 : f32) by reflexivity.
      split; [exact F1|]. split; [rewrite V1; apply Rabs_le; lra|]. split; [discriminate|].
      split; [reflexivity|intro K; discriminate K].
Qed.

Lemma clip_nan : clip_sample B754_nan = B754_nan.
Proof. reflexivity. Qed.

Lemma clip_i24_range s : (- (2 ^ 23 - 1) <= sample_to_i24 (clip_sample s) <= 2 ^ 23 - 1)%Z.
Proof.
  destruct (is_nan s) eqn:N.
  - destruct s; try discriminate. vm_compute. split; discriminate.
  - destruct (clip_range s N) as (A & B & _). exact (proj1 (i24_in_range_bytes _ A B)).
Qed.

Lemma interleave_in enc is ts v z : interleave enc is ts = Ok v -> In z v ->
  exists t s, In t ts /\ In s t /\ z = enc s.
Proof.
  revert v. induction is as [|i is IH]; intros v E I; cbn [interleave] in E.
  - injection E as <-. inversion I.
  - destruct (frame enc i ts) as [f|] eqn:Ef; [|discriminate]. cbn [bind] in E.
    destruct (interleave enc is ts) as [r|]; [|discriminate]. injection E as <-.
    apply in_app_or in I. destruct I as [I|I]; [|apply (IH r eq_refl I)].
    clear IH. revert f Ef I. induction ts as [|t ts IHt]; intros f Ef I; cbn [frame] in Ef.
    + injection Ef as <-. inversion I.
    + destruct (nth_error t i) as [s|] eqn:Es; [|discriminate]. cbn [unwrap bind] in Ef.
      destruct (frame enc i ts) as [f'|]; [|discriminate]. injection Ef as <-.
      destruct I as [<-|I].
      * exists t, s. split; [left; reflexivity|]. split; [eapply nth_error_In; exact Es|reflexivity].
      * destruct (IHt f' eq_refl I) as (t' & s' & A & B & C). exists t', s'. split; [right; exact A|auto].
Qed.

Definition int_fits (bps z : Z) : Prop :=
  if Z.eqb bps 8 then (0 <= z <= 255)%Z else (- 2 ^ (bps - 1) <= z <= 2 ^ (bps - 1) - 1)%Z.

Lemma write_clip_fits wr ts bps h bd : write_wav wr ts bps true = Ok (Some (h, bd)) ->
  Forall (int_fits bps) (data_of bd).
Proof.
  intro E. unfold write_wav in E. destruct ts as [|t0 ts']; [discriminate|]. cbv zeta in E.
  destruct (check_clip (length t0) true (t0 :: ts')) as [u|] eqn:C; [|discriminate].
  assert (U : forall t s, In t u -> In s t -> exists s0, s = clip_sample s0).
  { revert C. clear E. generalize (length t0), (t0 :: ts'). intros len l. revert u. clear.
    induction l as [|t l IH]; intros u C; cbn [check_clip] in C.
    - injection C as <-. intros t s [].
    - destruct (negb _); [discriminate|]. destruct (check_clip len true l) as [r|]; [|discriminate].
      injection C as <-. intros w s [<-|I] Is; [|apply (IH r eq_refl w s I Is)].
      apply in_map_iff in Is. destruct Is as (s0 & <- & _). exists s0. reflexivity. }
  apply Forall_forall. intros z Iz.
  destruct (Z.eqb_spec bps 8) as [->|]; [|destruct (Z.eqb_spec bps 16) as [->|]; [|destruct (Z.eqb_spec bps 24) as [->|]; [|discriminate]]];
  (destruct (interleave _ _ _) as [v|] eqn:I; [|discriminate]; cbn [bind] in E; destruct (wr _ _); [|discriminate];
   injection E as <- <-; cbn [data_of] in Iz; destruct (interleave_in _ _ _ _ _ I Iz) as (t & s & A & B & ->)).
  - apply (encoders_range s).
  - apply (encoders_range s).
  - destruct (U t s A B) as (s0 & ->). pose proof (clip_i24_range s0). unfold int_fits. simpl Z.eqb. cbn iota.
    change (2 ^ (24 - 1))%Z with 8388608%Z in *. change (2 ^ 23)%Z with 8388608%Z in *. lia.
Qed.

(** ** header channel count *)
Lemma write_channel_count wr ts bps clip h bd : write_wav wr ts bps clip = Ok (Some (h, bd)) ->
  channel_count h = (Z.of_nat (length ts) mod 65536)%Z.
Proof.
  intro E. unfold write_wav in E. destruct ts as [|t0 ts']; [discriminate|]. cbv zeta in E.
  assert (L : forall len l u, check_clip len clip l = Some u -> length u = length l).
  { clear. intros len l. induction l as [|t l IH]; intros u C; cbn [check_clip] in C; [injection C as <-; reflexivity|].
    destruct (negb _); [discriminate|]. destruct (check_clip len clip l) as [r|]; [|discriminate].
    injection C as <-. simpl. f_equal. apply IH. reflexivity. }
  destruct (check_clip (length t0) clip (t0 :: ts')) as [u|] eqn:C; [|discriminate].
  apply L in C. rewrite C in E.
  destruct (Z.eqb bps 8); [|destruct (Z.eqb bps 16); [|destruct (Z.eqb bps 24); [|discriminate]]];
  (destruct (interleave _ _ _); [cbn [bind] in *; destruct (wr _ _); [|discriminate]|discriminate]);
  injection E as <- <-; reflexivity.
Qed.

Lemma wrap_panics wr ts bps clip h bd : Z.of_nat (length ts) = 65536%Z -> (exists t s, In t ts /\ In s t) ->
  write_wav wr ts bps clip = Ok (Some (h, bd)) ->
  channel_count h = 0%Z /\ read_wav (Some (h, bd)) = Panic.
Proof.
  intros HL (t & s & It & Is) E. pose proof (write_channel_count _ _ _ _ _ _ E) as CC.
  rewrite HL in CC. change (65536 mod 65536)%Z with 0%Z in CC.
  split; [exact CC|]. apply (read_zero_channels h bd CC).
  assert (E1 : write_wav (fun _ _ => true) ts bps clip = Ok (Some (h, bd))).
  { unfold write_wav in *. destruct ts as [|t0 ts']; [discriminate|]. cbv zeta in *.
    destruct (check_clip (length t0) clip (t0 :: ts')) as [u|]; [|discriminate].
    destruct (Z.eqb bps 8); [|destruct (Z.eqb bps 16); [|destruct (Z.eqb bps 24); [|discriminate]]];
    (destruct (interleave _ _ _); [cbn [bind] in *; destruct (wr _ _); [exact E|discriminate]|discriminate]). }
  destruct (write_errors (fun _ _ => true) ts bps clip (fun _ _ => eq_refl)) as [I _].
  assert (NE : ts <> []) by (intros ->; inversion It).
  assert (G : good_bps bps).
  { unfold good_bps. destruct (Z.eq_dec bps 8), (Z.eq_dec bps 16), (Z.eq_dec bps 24); try tauto.
    rewrite (proj2 I) in E1; [discriminate|]. right. right. unfold good_bps. tauto. }
  assert (S : same_lengths ts).
  { intros a b Ha Hb. destruct (Nat.eq_dec (length a) (length b)) as [Q|Q]; [exact Q|].
    rewrite (proj2 I) in E1; [discriminate|]. right. left. intro S. apply Q. apply S; assumption. }
  destruct (write_ok (fun _ _ => true) ts bps clip NE S G) as (v & Ev & Lv & _). cbv zeta in Ev.
  rewrite E1 in Ev. injection Ev as _ Ebd.
  assert (Dd : data_of bd = v) by (rewrite Ebd; unfold depth_of; destruct G as [ -> | [ -> | -> ] ]; reflexivity).
  rewrite Dd. intros ->. simpl in Lv.
  assert (Lh : length (hd [] ts) = length t) by (apply S; [destruct ts; [congruence|left; reflexivity]|exact It]).
  assert (0 < length t)%nat by (destruct t; [inversion Is|simpl; lia]).
  assert (0 < length ts)%nat by (destruct ts; [congruence|simpl; lia]). nia.
Qed.

(** writing what was read back emits the same data *)
Lemma frame_map enc g i ts : (forall t s, In t ts -> In s t -> enc (g s) = enc s) ->
  frame enc i (map (map g) ts) = frame enc i ts.
Proof.
  induction ts as [|t ts IH]; intro H; [reflexivity|]. cbn [map frame].
  rewrite nth_error_map. destruct (nth_error t i) as [s|] eqn:E; [|reflexivity].
  cbn [option_map unwrap bind]. rewrite IH by (intros u x Hu Hx; apply (H u x); [right; exact Hu|exact Hx]).
  rewrite (H t s); [reflexivity|left; reflexivity|eapply nth_error_In; exact E].
Qed.
Lemma interleave_map enc g is ts : (forall t s, In t ts -> In s t -> enc (g s) = enc s) ->
  interleave enc is (map (map g) ts) = interleave enc is ts.
Proof.
  intro H. induction is as [|i is IH]; [reflexivity|]. cbn [interleave]. rewrite IH, (frame_map _ _ _ _ H). reflexivity.
Qed.
Lemma check_clip_false len ts : check_clip len false ts = Some ts \/ check_clip len false ts = None.
Proof.
  induction ts as [|t ts IH]; [left; reflexivity|]. cbn [check_clip].
  destruct (negb _); [right; reflexivity|]. destruct IH as [E|E]; rewrite E; auto.
Qed.
Lemma check_clip_map len g ts : check_clip len false (map (map g) ts) = option_map (map (map g)) (check_clip len false ts).
Proof.
  induction ts as [|t ts IH]; [reflexivity|]. cbn [check_clip map]. rewrite map_length.
  destruct (negb _); [reflexivity|]. rewrite IH. destruct (check_clip len false ts); reflexivity.
Qed.
Lemma write_map wr g ts bps : good_bps bps ->
  (forall t s, In t ts -> In s t -> enc_of bps (g s) = enc_of bps s) ->
  write_wav wr (map (map g) ts) bps false = write_wav wr ts bps false.
Proof.
  intros G H. destruct ts as [|t0 ts']; [reflexivity|].
  rewrite (write_cons wr (map g t0) (map (map g) ts') bps false (map (map g) (t0 :: ts')) eq_refl).
  rewrite (write_cons wr t0 ts' bps false _ eq_refl).
  rewrite check_clip_map, map_length. destruct (check_clip_false (length t0) (t0 :: ts')) as [E|E]; rewrite E; [|reflexivity].
  cbn [option_map]. cbv zeta. rewrite map_length.
  destruct G as [ -> | [ -> | -> ] ]; unfold enc_of in H; simpl Z.eqb in *; cbn iota in *;
    rewrite (interleave_map _ g _ _ H); reflexivity.
Qed.

Lemma rewrite_stable wr ts ts' bps h bd : (Z.of_nat (length ts) <= 65535)%Z ->
  (forall h bd, wr h bd = true) ->
  (bps = 24%Z -> Forall (Forall (fun s => (- 2 ^ 23 <= sample_to_i24 s <= 2 ^ 23 - 1)%Z)) ts) ->
  write_wav wr ts bps false = Ok (Some (h, bd)) -> read_wav (Some (h, bd)) = Ok (Some (h, ts')) ->
  write_wav wr ts' bps false = Ok (Some (h, bd)).
Proof.
  intros Hl W H24 E R. destruct (round_trip wr ts bps false h bd Hl E) as [R' _].
  rewrite R in R'. injection R' as ->.
  destruct (write_errors wr ts bps false W) as [I _].
  assert (G : good_bps bps).
  { unfold good_bps. destruct (Z.eq_dec bps 8), (Z.eq_dec bps 16), (Z.eq_dec bps 24); try tauto.
    rewrite (proj2 I) in E; [discriminate|]. right. right. unfold good_bps. tauto. }
  change (fun t => map (fun s => decz_of bps (enc_of bps s)) (clipped false t))
    with (map (fun s => decz_of bps (enc_of bps s))).
  rewrite (write_map wr _ ts bps G); [exact E|].
  intros t s It Is. apply reencode; [exact G|]. intro B. specialize (H24 B).
  rewrite Forall_forall in H24. specialize (H24 t It). rewrite Forall_forall in H24. exact (H24 s Is).
Qed.
