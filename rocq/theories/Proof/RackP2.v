(** * Racks built from scratch: they run, and what they put out *)
From Coq Require Import ZArith List Bool Arith Reals Lra Lia Psatz Permutation.
From Flocq Require Import Core.Core IEEE754.BinarySingleNaN.
From Verif Require Import Model.Floats Model.Utils Model.Generators Model.Modifiers Model.Filters Model.Sounds Model.Parts
  Spec.SoundSpec Spec.Libm Spec.Response Spec.Track Spec.Parts Spec.Flow Spec.Chain Spec.Rack
  Proof.FloatFacts Proof.SampleFormatP Proof.GenericP Proof.GeneratorsP4 Proof.OrderP Proof.SoundsP Proof.SoundsP2 Proof.SoundsP3 Proof.HeapP Proof.PartsP Proof.PartsP2 Proof.FlowP Proof.FlowP2 Proof.ChainP2 Proof.ChainP3 Proof.ChainP4 Proof.RackP.
Import ListNotations.

Definition rack_links (n : nat) : list (nat * nat) := flat_map (fun i => [(0, i); (i, 1)]) (seq 2 n).
Lemma rack_links_in n a b : In (a, b) (rack_links n) <-> (a = 0 /\ 2 <= b < 2 + n) \/ (b = 1 /\ 2 <= a < 2 + n).
Proof.
  unfold rack_links. rewrite in_flat_map. split.
  - intros (i & Hi & H). apply in_seq in Hi. destruct H as [H|[H|[]]]; injection H as <- <-; lia.
  - intros [[-> H]|[-> H]]; [exists b|exists a]; (split; [apply in_seq; lia|]); cbn; auto.
Qed.
Lemma rack_links_nodup n : NoDup (rack_links n).
Proof.
  unfold rack_links. assert (G : forall l, NoDup l -> (forall i, In i l -> 2 <= i) -> NoDup (flat_map (fun i => [(0, i); (i, 1)]) l)).
  { induction 1 as [|i l Hi NL IH]; intro B; [constructor|]. cbn [flat_map app]. assert (Bi := B i (or_introl eq_refl)).
    assert (K : forall a b, In (a, b) (flat_map (fun i => [(0, i); (i, 1)]) l) -> a <> i /\ b <> i).
    { intros a b H. apply in_flat_map in H. destruct H as (k & Hk & H). assert (Bk := B k (or_intror Hk)). assert (k <> i) by (intros ->; contradiction).
      destruct H as [H|[H|[]]]; injection H as <- <-; lia. }
    constructor; [intros [H|H]; [injection H; lia|apply K in H; lia]|]. constructor; [intro H; apply K in H; lia|]. apply IH. intros k Hk. apply B. right. exact Hk. }
  apply G; [apply seq_NoDup|]. intros i Hi. apply in_seq in Hi. lia.
Qed.
Lemma build_rack_links hs : build_rack hs = map CAddBlock hs ++ connects (rack_links (length hs)).
Proof.
  unfold build_rack, connects, rack_links. f_equal. generalize (seq 2 (length hs)). induction l as [|i l IH]; [reflexivity|]. cbn [flat_map map app fst snd]. rewrite IH. reflexivity.
Qed.
Lemma rack_blocks hs : blocks (build_rack hs) = 2 + length hs.
Proof.
  unfold blocks. f_equal. rewrite build_rack_links, filter_app, app_length. unfold connects.
  assert (A : length (filter (fun o => match o with CAddBlock _ => true | _ => false end) (map CAddBlock hs)) = length hs) by (induction hs; cbn; congruence).
  assert (B : forall l, filter (fun o => match o with CAddBlock _ => true | _ => false end) (map (fun e : nat * nat => CConnect (fst e) (snd e)) l) = []) by (induction l; cbn; congruence).
  rewrite A, B. cbn. lia.
Qed.
Lemma rack_handles U (h : heap U) hs : node_handles h (build_rack hs) = length h :: S (length h) :: hs.
Proof.
  unfold node_handles, moved_in. rewrite build_rack_links, flat_map_app. unfold connects. do 2 f_equal.
  assert (A : flat_map (fun o => match o with CAddBlock p => [p] | _ => [] end) (map CAddBlock hs) = hs) by (induction hs; cbn; congruence).
  assert (B : forall l, flat_map (fun o => match o with CAddBlock p => [p] | _ => [] end) (map (fun e : nat * nat => CConnect (fst e) (snd e)) l) = []) by (induction l; cbn; congruence).
  rewrite A, B. apply app_nil_r.
Qed.
Lemma rack_connected hs a b : connected (build_rack hs) a b <-> (a = 0 /\ 2 <= b < blocks (build_rack hs)) \/ (b = 1 /\ 2 <= a < blocks (build_rack hs)).
Proof.
  rewrite rack_blocks, <- rack_links_in. rewrite build_rack_links.
  assert (I : forall a b, In (CConnect a b) (map CAddBlock hs ++ connects (rack_links (length hs))) <-> In (a, b) (rack_links (length hs))).
  { intros c d. rewrite in_app_iff. unfold connects. split.
    - intros [H|H]; apply in_map_iff in H; destruct H as (x & E & H); [discriminate|]. destruct x. injection E as <- <-. exact H.
    - intro H. right. apply in_map_iff. exists (c, d). auto. }
  split; [intro H; apply I, connected_In, H|]. intro H. apply connected_by; [apply I, H|]. rewrite in_app_iff. unfold connects.
  intros [K|K]; apply in_map_iff in K; destruct K as (x & E & _); discriminate.
Qed.
Lemma rack_last hs : hs <> [] -> exists pre e, build_rack hs = pre ++ [e] /\ edits_order e = true.
Proof.
  intro H. destruct (length hs) as [|n] eqn:L; [destruct hs; [contradiction|discriminate]|].
  exists (map CAddBlock hs ++ flat_map (fun i => [CConnect 0 i; CConnect i 1]) (seq 2 n) ++ [CConnect 0 (2 + n)]), (CConnect (2 + n) 1). split; [|reflexivity].
  unfold build_rack. rewrite L, seq_S, flat_map_app, <- !app_assoc. reflexivity.
Qed.
Lemma new_get U (h : heap U) gi go p : p < length h -> get_mut U (snd (cs_new U h gi go)) p = get_mut U h p.
Proof. intro L. unfold get_mut, cs_new. cbn [alloc g_add_node snd]. rewrite <- app_assoc, nth_error_app1 by exact L. reflexivity. Qed.

Section Rack.
Variables (m : libm) (hs : list handle) (us : list (block kit)) (h : heap kit) (gi go : f64).
Hypothesis SB : sin_bounded m. Hypothesis NE : hs <> []. Hypothesis ND : NoDup hs.
Hypothesis GM : map (get_mut kit h) hs = map Some us.
Hypothesis MH : made_heap h.
Local Notation h1 := (snd (cs_new kit h gi go)).

Lemma hs_range p : In p hs -> p < length h /\ owned kit h p.
Proof.
  intro H. assert (K : exists b, get_mut kit h p = Some b).
  { assert (K := in_map (get_mut kit h) _ _ H). rewrite GM in K. apply in_map_iff in K. destruct K as (b & <- & _). eauto. }
  destruct K as [b K]. apply get_mut_spec in K. destruct K as (C & c & E & _). unfold count in C. rewrite E in C. split; [apply nth_error_Some; congruence|]. exists c. auto.
Qed.
Lemma rack_nodup : NoDup (node_handles h (build_rack hs)).
Proof.
  rewrite rack_handles. constructor; [intros [H|H]; [lia|apply hs_range in H; lia]|]. constructor; [intro H; apply hs_range in H; lia|exact ND].
Qed.
Lemma rack_gets : map (get_mut kit h1) (node_handles h (build_rack hs)) = map Some (Gainer kit (gain_block (to32 gi)) :: Gainer kit (gain_block (to32 go)) :: us).
Proof.
  rewrite rack_handles. cbn [map]. f_equal; [|f_equal].
  - unfold get_mut, cs_new. cbn [alloc g_add_node snd]. rewrite <- app_assoc, nth_error_app2, Nat.sub_diag by lia. reflexivity.
  - unfold get_mut, cs_new. cbn [alloc g_add_node snd]. rewrite <- app_assoc, nth_error_app2 by lia. replace (S (length h) - length h) with 1 by lia. reflexivity.
  - rewrite <- GM. apply map_ext_in. intros p Hp. apply new_get, hs_range, Hp.
Qed.
Lemma rack_proper : proper_history kit h (build_rack hs).
Proof.
  intros pre o post E. rewrite build_rack_links in E.
  assert (I : In o (map CAddBlock hs ++ connects (rack_links (length hs)))) by (rewrite E; apply in_or_app; right; left; reflexivity).
  apply in_app_or in I. destruct I as [I|I].
  - apply in_map_iff in I. destruct I as (p & <- & Hp). apply hs_range, Hp.
  - unfold connects in I. apply in_map_iff in I. destruct I as ([a b] & <- & Hl). apply rack_links_in in Hl. cbn [proper fst snd].
    enough (B : 2 + length hs <= blocks pre) by lia.
    (* the blocks are added before anything is connected *)
    cbn [fst snd] in E. unfold blocks.
    assert (K : forall l1 l2 (x : cop) pre post, (forall p, x <> CAddBlock p) -> map CAddBlock l1 ++ l2 = pre ++ x :: post ->
        length l1 <= length (filter (fun o => match o with CAddBlock _ => true | _ => false end) pre)).
    { clear. induction l1 as [|p l1 IH]; intros l2 x pre post NX E; [cbn; lia|]. destruct pre as [|q pre]; cbn in E; injection E as E1 E2; [exfalso; exact (NX p (eq_sym E1))|].
      subst q. cbn [filter length]. apply le_n_S, (IH l2 x pre post NX E2). }
    specialize (K hs (connects (rack_links (length hs))) (CConnect a b) pre post ltac:(discriminate) E). lia.
Qed.
Lemma rack_built : exists ys0 s, run_res (cs_step kit kit_prime (kit_process m)) (cs_new kit h gi go) (build_rack hs) = Ok (ys0, (s, h1)) /\
  cs_paused s = false /\ cs_muted s = false /\ forall xs, exists ys hp', run_res (cs_process kit kit_prime (kit_process m) s) h1 xs = Ok (ys, hp').
Proof.
  destruct (complex_safe kit kit_prime (kit_process m) kit_ok False kit_ok_prime (fun b => kit_ok_process m b SB) (fun f => f) h gi go (build_rack hs) (made_hP h MH) rack_proper) as (ys0 & [s h2] & E & CI).
  assert (HE : h2 = h1 /\ cs_paused s = false /\ cs_muted s = false).
  { rewrite build_rack_links in E. change (cs_new kit h gi go) with (fst (cs_new kit h gi go), h1) in E.
    destruct (add_blocks kit kit_prime (kit_process m) hs (fst (cs_new kit h gi go)) h1) as (s1 & E1 & G1 & A1 & A2 & A3 & A4 & A5).
    assert (G0 : cs_graph (fst (cs_new kit h gi go)) = mkGraph [length h; S (length h)] []) by (cbn; rewrite app_length, Nat.add_1_r; reflexivity). rewrite G0 in G1. cbn [g_nodes g_edges] in G1.
    destruct (connect_links kit kit_prime (kit_process m) (rack_links (length hs)) s1 h1) as (s2 & E2 & G2 & B1 & B2 & B3 & B4 & B5).
    - rewrite A1. reflexivity.
    - rewrite A2. reflexivity.
    - intros a b H. rewrite G1 in H. destruct H.
    - intros a b H. rewrite G1. cbn [g_nodes app length]. apply rack_links_in in H. lia.
    - rewrite G1. cbn [g_edges]. rewrite app_nil_r. apply NoDup_rev, rack_links_nodup.
    - rewrite (run_res_app _ _ _ _ _ _ E1), E2 in E. cbn [bind] in E. injection E as _ <- <-. rewrite B3, B4, A3, A4. repeat split. }
  destruct HE as (-> & Pa & Mu). exists ys0, s. split; [exact E|]. split; [exact Pa|]. split; [exact Mu|].
  destruct CI as (G & O & HP & N & _). cbn [fst snd] in *. generalize HP N. generalize h1. clear - G O SB. intros hp HP N xs. revert hp HP N.
  induction xs as [|x xs IH]; intros hp HP N; [do 2 eexists; reflexivity|].
  destruct (cs_process_ok kit kit_prime (kit_process m) kit_ok False kit_ok_prime (fun b => kit_ok_process m b SB) (fun f => f) _ s hp x G O HP N) as (y & hp1 & E).
  destruct (cs_process_hP kit kit_prime (kit_process m) kit_ok False kit_ok_prime (fun b => kit_ok_process m b SB) s hp x y hp1 HP E) as [HP1 C1].
  destruct (IH hp1 HP1 (nodes_count kit _ _ _ C1 N)) as (ys & hp2 & E2). cbn [run_res]. rewrite E. cbn [bind]. rewrite E2. cbn [bind]. eauto.
Qed.
End Rack.

(** ** the two results *)
Local Open Scope R_scope.
Lemma rack_heard m ps hs h gi go om w K rho X : let g := LGain (to32 gi) in let X1 := (1 + l_gain m g + l_drift m g) * X in
  sin_bounded m -> cos_accurate m -> pow_int_accurate m -> tan_accurate m -> (forall p, In p ps -> l_ok m p) -> l_ok m g ->
  0 <= K -> 0 <= rho < 1 -> bpow radix2 (-100) <= X -> X1 <= bpow radix2 90 -> adding (length ps) * rack_amp m ps X1 <= bpow radix2 120 ->
  ps <> [] -> NoDup hs -> map (get_mut kit h) hs = map Some (map (chain_block m) ps) -> made_heap h ->
  exists ys0 s K' rho', run_res (cs_step kit kit_prime (kit_process m)) (cs_new kit h gi go) (build_rack hs) = Ok (ys0, (s, snd (cs_new kit h gi go))) /\
    0 <= K' /\ 0 <= rho' < 1 /\ forall eps xs, 0 <= eps -> near_tone om w eps K rho X xs ->
    exists zs, outputs (run_res (cs_process kit kit_prime (kit_process m) s) (snd (cs_new kit h gi go)) xs) = Ok (map (fun z => fmul z (to32 go)) zs) /\ length zs = length xs /\
      near_tone om (rack_w m ps om (cmul (l_H m g om) w))
        (rack_err m ps (l_drift m g * X + l_gain m g * eps) X1 + (adding (length ps) - 1) * rack_amp m ps X1) K' rho' (adding (length ps) * rack_amp m ps X1) zs.
Proof.
  intros g X1 SB HC HP HT OK OG HK Hr HX HX1 HA NE ND GM MH.
  assert (NH : hs <> []). { intros ->. destruct ps; [contradiction|discriminate]. }
  destruct (rack_built m hs _ h gi go SB GM MH) as (ys0 & s & E & Pa & Mu & RUN). destruct (rack_last hs NH) as (pre & e & EP & Ee).
  destruct (rack_passes m ps gi go h pre e s (snd (cs_new kit h gi go)) om w K rho X HC HP HT OK OG HK Hr HX HX1 HA) as (K' & r' & K0 & R0 & T); try assumption.
  - exists ys0, (snd (cs_new kit h gi go)). rewrite <- EP. exact E.
  - intros a b. rewrite <- EP. apply rack_connected.
  - rewrite <- EP. apply (rack_nodup hs _ h ND GM).
  - rewrite <- EP. apply (rack_gets hs _ h gi go GM).
  - exists ys0, s, K', r'. split; [exact E|]. split; [exact K0|]. split; [exact R0|]. intros eps xs He N. destruct (RUN xs) as (ys & hp' & R).
    destruct (T eps xs ys hp' He N R) as (zs & EZ & LZ & NZ). exists zs. rewrite R. cbn [outputs]. subst ys. auto.
Qed.
Lemma adding_small n : INR n <= bpow radix2 24 -> adding n - 1 <= INR n * bpow radix2 (-23).
Proof.
  unfold adding. set (u := bpow radix2 (-24)). intro H. assert (u0 : 0 < u) by apply bpow_gt_0.
  assert (E : bpow radix2 (-23) = 2 * u) by (unfold u; change (-23)%Z with (1 + -24)%Z; rewrite bpow_plus; reflexivity). rewrite E.
  assert (HN : INR n * u <= 1). { apply Rle_trans with (bpow radix2 24 * u); [apply Rmult_le_compat_r; lra|]. unfold u. rewrite <- bpow_plus. right. reflexivity. }
  clearbody u. clear H E. induction n as [|n IH]; [cbn; lra|]. rewrite S_INR in *. change ((1 + u) ^ S n) with ((1 + u) * (1 + u) ^ n).
  assert (P : 0 <= INR n * u) by (apply Rmult_le_pos; [apply pos_INR|lra]). assert (IH' := IH ltac:(lra)).
  (* sharper: (1+u)^n <= 1 + n u + (n u)^2 *)
  assert (Q : forall k, INR k * u <= 1 -> (1 + u) ^ k <= 1 + INR k * u + (INR k * u) * (INR k * u)).
  { clear - u0. induction k as [|k IH]; intro HK; [change (INR 0) with 0; rewrite pow_O; lra|]. rewrite S_INR in *. change ((1 + u) ^ S k) with ((1 + u) * (1 + u) ^ k).
    assert (P : 0 <= INR k * u) by (apply Rmult_le_pos; [apply pos_INR|lra]). assert (IH' := IH ltac:(lra)).
    set (t := INR k * u) in *. replace ((INR k + 1) * u) with (t + u) in * by (unfold t; ring). clearbody t.
    assert (u * t * t <= u * t) by (assert (0 <= u * t) by (apply Rmult_le_pos; lra); nra).
    assert (0 <= u * u) by nra. assert ((1 + u) * (1 + u) ^ k <= (1 + u) * (1 + t + t * t)) by (apply Rmult_le_compat_l; lra). nra. }
  change ((1 + u) * (1 + u) ^ n) with ((1 + u) ^ S n). assert (QS := Q (S n)). rewrite S_INR in QS. specialize (QS HN). set (t := (INR n + 1) * u) in *.
  assert (T0 : 0 <= t) by (unfold t; lra). assert (T1 : t * t <= t) by nra.
  replace ((INR n + 1) * (2 * u)) with (2 * t) by (unfold t; ring). generalize dependent ((1 + u) ^ S n). intros. lra.
Qed.
Lemma chord_heard m fs hs h gi go :
  sin_bounded m -> sin_zero m -> sin_accurate m -> fs <> [] -> INR (length fs) <= bpow radix2 24 ->
  (forall f, In f fs -> fin f /\ 0 <= B2R f <= 48000) ->
  NoDup hs -> map (get_mut kit h) hs = map Some (map tone_block fs) -> made_heap h ->
  exists ys0 s, run_res (cs_step kit kit_prime (kit_process m)) (cs_new kit h gi go) (build_rack hs) = Ok (ys0, (s, snd (cs_new kit h gi go))) /\
    forall xs, exists zs, outputs (run_res (cs_process kit kit_prime (kit_process m) s) (snd (cs_new kit h gi go)) xs) = Ok (map (fun z => fmul z (to32 go)) zs) /\ length zs = length xs /\
      forall i z, nth_error zs i = Some z -> fin z /\
        Rabs (B2R z - rsum (map (fun f => sin (2 * PI * B2R f * INR i / 48000)) fs)) <= INR (length fs) * (bpow radix2 (-9) + INR i * bpow radix2 (-48)) + INR (length fs) * INR (length fs) * bpow radix2 (-23).
Proof.
  intros SB SZ SA NE LF OK ND GM MH. assert (NH : hs <> []). { intros ->. destruct fs; [contradiction|discriminate]. }
  destruct (rack_built m hs _ h gi go SB GM MH) as (ys0 & s & E & Pa & Mu & RUN). destruct (rack_last hs NH) as (pre & e & EP & Ee).
  exists ys0, s. split; [exact E|]. intro xs. destruct xs as [|x0 xr].
  { exists []. split; [reflexivity|]. split; [reflexivity|]. intros [|i] z Hz; discriminate. }
  destruct (RUN (x0 :: xr)) as (ys & hp' & R). assert (NX : x0 :: xr <> []) by discriminate. revert NX R. generalize (x0 :: xr). clear x0 xr. intros xs NX R.
  destruct (parallel_flow kit kit_prime (kit_process m) h gi go pre e s (snd (cs_new kit h gi go)) (map tone_block fs) xs ys hp') as (M & out & PM & HO & EY); try assumption.
  - exists ys0, (snd (cs_new kit h gi go)). rewrite <- EP. exact E.
  - intros a b. rewrite <- EP. apply rack_connected.
  - rewrite <- EP. apply (rack_nodup hs _ h ND GM).
  - rewrite <- EP. apply (rack_gets hs _ h gi go GM).
  - rewrite map_length in PM. rewrite R. cbn [outputs]. exists (map (fun k => sum_in (map (fun i => out i k) M)) (seq 0 (length xs))).
    split; [rewrite EY, map_map; reflexivity|]. split; [rewrite map_length, seq_length; reflexivity|].
    intros j z Hz. assert (Lj : (j < length xs)%nat) by (rewrite <- (seq_length (length xs) 0), <- (map_length (fun k => sum_in (map (fun i => out i k) M))); apply nth_error_Some; congruence).
    rewrite nth_error_map, (nth_error_nth' _ 0%nat) in Hz by (rewrite seq_length; exact Lj). rewrite seq_nth in Hz by exact Lj. cbn [option_map plus] in Hz. injection Hz as <-.
    set (n := length fs) in *. pose (ft := fun f : f64 => sin (2 * PI * B2R f * INR j / 48000)).
    set (ej := bpow radix2 (-9) + INR j * bpow radix2 (-48)).
    pose proof (adding_small n LF) as AS. pose proof (adding_ge n) as AG. assert (N0 : 0 <= INR n) by apply pos_INR.
    assert (YV : rsum (map (fun _ : nat => 1) (seq 0 n)) = INR n) by (rewrite rsum_const, seq_length; ring).
    assert (EV : rsum (map (fun _ : nat => ej) (seq 0 n)) = INR n * ej) by (rewrite rsum_const, seq_length; reflexivity).
    assert (TV : rsum (map (fun i => ft (nth i fs f0)) (seq 0 n)) = rsum (map ft fs)) by (unfold n; rewrite (map_nth_seq ft); reflexivity).
    destruct (sum_signals (seq 0 n) M (fun i => out i j) (fun i => ft (nth i fs f0)) (fun _ => ej) (fun _ => 1) PM) as (F & _ & D).
    + intros i Hi. apply in_seq in Hi. assert (Pi : nth_error fs i = Some (nth i fs f0)) by (apply nth_error_nth'; unfold n in Hi; lia).
      pose proof (HO i (tone_block (nth i fs f0))) as Hi2. rewrite nth_error_map, Pi in Hi2. specialize (Hi2 eq_refl). unfold tone_block in Hi2. rewrite user_cycle, tone_plays, map_length in Hi2.
      destruct (OK _ (nth_error_In _ _ Pi)) as [Ff Bf]. destruct (sin_accuracy m (nth i fs f0) (length xs) SB SZ SA Ff Bf) as (ts & s' & ET & LT & AT).
      destruct (sine_near m (nth i fs f0) (length xs) SB SZ SA Ff Bf) as (ts' & s2 & ET' & _ & NT). rewrite ET in ET'. injection ET' as <- <-.
      rewrite ET in Hi2. unfold outputs in Hi2. cbn [bind] in Hi2. assert (ts = map (out i) (seq 0 (length xs))) as -> by (injection Hi2; exact (fun q => q)).
      assert (Ej : nth_error (map (out i) (seq 0 (length xs))) j = Some (out i j)) by (rewrite nth_error_map, (nth_error_nth' _ 0%nat) by (rewrite seq_length; exact Lj); rewrite seq_nth by exact Lj; reflexivity).
      destruct (NT j _ Ej) as (Fo & Bo & _). split; [exact Fo|]. split; [exact Bo|].
      destruct (AT j Lj) as (y & Ey & _ & Ay). rewrite Ej in Ey. injection Ey as <-. exact Ay.
    + rewrite seq_length, YV. apply Rle_trans with (bpow radix2 2 * bpow radix2 24).
      * apply Rmult_le_compat; try lra. assert (INR n * bpow radix2 (-23) <= 2); [|change (bpow radix2 2) with 4; lra].
        apply Rle_trans with (bpow radix2 24 * bpow radix2 (-23)); [apply Rmult_le_compat_r; [apply bpow_ge_0|exact LF]|]. rewrite <- bpow_plus. right. reflexivity.
      * rewrite <- bpow_plus. apply bpow_le. lia.
    + rewrite seq_length, YV, TV, EV in D. split; [exact F|]. fold ft ej. eapply Rle_trans; [exact D|]. apply Rplus_le_compat_l.
      replace (INR n * INR n * bpow radix2 (-23)) with (INR n * bpow radix2 (-23) * INR n) by ring. apply Rmult_le_compat_r; assumption.
Qed.
(** ** a signal beside its own delay *)
Lemma dry_wet m d om w : cn2 (rack_w m [LPass; LDelay d] om w) = (2 + 2 * cos (om * INR (length (delay_new d)))) * cn2 w.
Proof.
  unfold rack_w. cbn [fold_right l_H]. set (t := om * INR (length (delay_new d))). pose proof (sin2_cos2 t) as Q. unfold Rsqr in Q. unfold cn2, cadd, cmul, cre, zi. destruct w as [a b]. cbn [fst snd].
  set (c := cos t) in *. set (s := sin t) in *. clearbody c s. transitivity ((1 + (s * s + c * c) + 2 * c) * (a * a + b * b)); [ring|rewrite Q; ring].
Qed.
