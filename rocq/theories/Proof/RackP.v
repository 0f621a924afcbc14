(** * Sums of signals in f32; racks of linear modifiers; chords *)
From Coq Require Import ZArith List Bool Arith Reals Lra Lia Psatz Permutation.
From Flocq Require Import Core.Core IEEE754.BinarySingleNaN Relative Plus_error.
From Verif Require Import Model.Floats Model.Utils Model.Generators Model.Modifiers Model.Filters Model.Sounds Model.Parts
  Spec.SoundSpec Spec.Libm Spec.Response Spec.Track Spec.Parts Spec.Flow Spec.Chain Spec.Rack
  Proof.FloatFacts Proof.SampleFormatP Proof.SoundsP2 Proof.SoundsP3 Proof.PartsP Proof.FlowP Proof.FlowP2 Proof.ChainP2 Proof.ChainP3 Proof.ChainP4.
Import ListNotations.
Local Open Scope R_scope.

(** ** adding up in f32 *)
Lemma rsum_cons a l : rsum (a :: l) = a + rsum l. Proof. reflexivity. Qed.
Lemma rsum_nil : rsum [] = 0. Proof. reflexivity. Qed.
Ltac rs := cbn [map app length]; rewrite ?rsum_cons, ?rsum_nil.
Lemma rsum_app a b : rsum (a ++ b) = rsum a + rsum b.
Proof. induction a as [|x a IH]; rs; [ring|]. rewrite IH. ring. Qed.
Lemma rsum_perm a b : Permutation a b -> rsum a = rsum b.
Proof. induction 1; rs; lra. Qed.
Lemma rsum_abs {A} (f g : A -> R) l : (forall a, In a l -> Rabs (f a) <= g a) -> Rabs (rsum (map f l)) <= rsum (map g l).
Proof.
  induction l as [|a l IH]; intro H; rs; [rewrite Rabs_R0; lra|]. eapply Rle_trans; [apply Rabs_triang|]. apply Rplus_le_compat; [apply H; left; reflexivity|].
  apply IH. intros b Hb. apply H. right. exact Hb.
Qed.
Lemma rsum_le {A} (f g : A -> R) l : (forall a, In a l -> f a <= g a) -> rsum (map f l) <= rsum (map g l).
Proof.
  induction l as [|a l IH]; intro H; rs; [lra|]. apply Rplus_le_compat; [apply H; left; reflexivity|]. apply IH. intros b Hb. apply H. right. exact Hb.
Qed.
Lemma rsum_sub {A} (f g : A -> R) l : rsum (map f l) - rsum (map g l) = rsum (map (fun a => f a - g a) l).
Proof. induction l as [|a l IH]; rs; [ring|]. rewrite <- IH. ring. Qed.
Lemma rsum_plus {A} (f g : A -> R) l : rsum (map (fun a => f a + g a) l) = rsum (map f l) + rsum (map g l).
Proof. induction l as [|a l IH]; rs; [ring|]. rewrite IH. ring. Qed.
Lemma rsum_const {A} (c : R) (l : list A) : rsum (map (fun _ => c) l) = INR (length l) * c.
Proof. induction l as [|a l IH]; rs; [cbn; ring|]. rewrite S_INR, IH. ring. Qed.
Lemma adding_ge n : 1 <= adding n.
Proof. unfold adding. apply pow_R1_Rle. pose proof (bpow_ge_0 radix2 (-24)). lra. Qed.
Lemma adding_S n : adding (S n) = (1 + bpow radix2 (-24)) * adding n. Proof. reflexivity. Qed.
Lemma sum_snoc xs x : sum_in (xs ++ [x]) = fadd (sum_in xs) x.
Proof. unfold sum_in. rewrite fold_left_app. reflexivity. Qed.
Lemma add_err (x y : f32) M : fin x -> fin y -> Rabs (B2R x + B2R y) <= M -> M <= bpow radix2 120 ->
  fin (fadd x y) /\ Rabs (B2R (fadd x y) - (B2R x + B2R y)) <= bpow radix2 (-24) * M.
Proof.
  intros Fx Fy B HM. destruct (fadd_le x y (bpow radix2 120) Fx Fy) as (F & V & _).
  { apply generic_format_bpow. vm_compute. discriminate. } { apply bpow_lt. lia. } { lra. }
  split; [exact F|]. rewrite V.
  destruct (@FLT_plus_error_N_ex radix2 (-149) 24 eq_refl (fun z => negb (Z.even z)) (B2R x) (B2R y) (fmt_B2R x) (fmt_B2R y)) as (d & Hd & E).
  change (rnd32 (B2R x + B2R y) = (B2R x + B2R y) * (1 + d)) in E. rewrite E.
  assert (U : u_ro radix2 24 / (1 + u_ro radix2 24) <= bpow radix2 (-24)).
  { unfold u_ro. replace (/ 2 * bpow radix2 (- (24) + 1)) with (bpow radix2 (-24)) by (change (- (24) + 1)%Z with (1 + -24)%Z; rewrite bpow_plus; change (bpow radix2 1) with 2; lra).
    pose proof (bpow_gt_0 radix2 (-24)). apply Rmult_le_reg_r with (1 + bpow radix2 (-24)); [lra|]. unfold Rdiv. rewrite Rmult_assoc, Rinv_l by lra. nra. }
  replace ((B2R x + B2R y) * (1 + d) - (B2R x + B2R y)) with (d * (B2R x + B2R y)) by ring. rewrite Rabs_mult. apply Rmult_le_compat; try apply Rabs_pos; lra.
Qed.
Lemma sum_err xs : Forall (fun x => fin x) xs -> adding (length xs) * rsum (map (fun x => Rabs (B2R x)) xs) <= bpow radix2 120 ->
  fin (sum_in xs) /\ Rabs (B2R (sum_in xs) - rsum (map B2R xs)) <= (adding (length xs) - 1) * rsum (map (fun x => Rabs (B2R x)) xs).
Proof.
  induction xs as [|x xs IH] using rev_ind; intros HF HB.
  - split; [reflexivity|]. rs. change (B2R (sum_in [])) with 0. rewrite Rminus_0_r, Rabs_R0. lra.
  - rewrite Forall_app in HF. destruct HF as [HF Hx]. inversion Hx as [|? ? Fx _]; subst.
    rewrite app_length in *. cbn [length] in *. rewrite Nat.add_1_r in *. rewrite !map_app, !rsum_app in *. cbn [map] in *. rewrite !rsum_cons, !rsum_nil, !Rplus_0_r in *.
    set (A := rsum (map (fun x => Rabs (B2R x)) xs)) in *. set (T := rsum (map B2R xs)) in *. rewrite adding_S in *. set (u := bpow radix2 (-24)) in *.
    assert (u0 : 0 < u) by apply bpow_gt_0. pose proof (adding_ge (length xs)) as G1. set (g := adding (length xs)) in *.
    assert (A0 : 0 <= A). { unfold A. clear. induction xs as [|x xs IH]; rs; [lra|]. pose proof (Rabs_pos (B2R x)). lra. }
    assert (x0 := Rabs_pos (B2R x)). set (a := Rabs (B2R x)) in *.
    assert (P1 : 0 <= u * (g * A)) by (apply Rmult_le_pos; [lra|apply Rmult_le_pos; lra]). assert (P2 : 0 <= u * (g * a)) by (apply Rmult_le_pos; [lra|apply Rmult_le_pos; lra]).
    assert (P3 : 0 <= (g - 1) * a) by (apply Rmult_le_pos; lra). assert (P4 : 0 <= (g - 1) * A) by (apply Rmult_le_pos; lra).
    destruct IH as [IF IE]; [exact HF|lra|].
    assert (BT : Rabs T <= A) by (unfold T, A; apply rsum_abs; intros; lra).
    assert (BS : Rabs (B2R (sum_in xs) + B2R x) <= g * A + a).
    { eapply Rle_trans; [apply Rabs_triang|]. fold a. assert (Rabs (B2R (sum_in xs)) <= g * A); [|lra]. apply Rabs_le. apply Rabs_le_inv in IE, BT. lra. }
    rewrite sum_snoc. destruct (add_err (sum_in xs) x (g * A + a) IF Fx BS) as [F E]; [lra|].
    split; [exact F|]. fold u in E. assert (P5 : 0 <= u * ((g - 1) * a)) by (apply Rmult_le_pos; lra). apply Rabs_le. apply Rabs_le_inv in E, IE. lra.
Qed.
(** signals known up to an error, added in any order *)
Lemma sum_signals {I} (l M : list I) (out : I -> f32) (T e Y : I -> R) : Permutation M l ->
  (forall i, In i l -> fin (out i) /\ Rabs (B2R (out i)) <= Y i /\ Rabs (B2R (out i) - T i) <= e i) ->
  adding (length l) * rsum (map Y l) <= bpow radix2 120 ->
  fin (sum_in (map out M)) /\ Rabs (B2R (sum_in (map out M))) <= adding (length l) * rsum (map Y l) /\
  Rabs (B2R (sum_in (map out M)) - rsum (map T l)) <= rsum (map e l) + (adding (length l) - 1) * rsum (map Y l).
Proof.
  intros PM H HB. pose proof (adding_ge (length l)) as G.
  assert (LM : length (map out M) = length l) by (rewrite map_length; apply Permutation_length, PM).
  assert (HM : forall i, In i M -> In i l) by (intros i; apply Permutation_in, PM).
  assert (AY : rsum (map (fun x => Rabs (B2R x)) (map out M)) <= rsum (map Y l)).
  { rewrite map_map, (rsum_perm _ _ (Permutation_map _ PM)). apply rsum_le. intros i Hi. apply (H i Hi). }
  assert (A0 : 0 <= rsum (map (fun x => Rabs (B2R x)) (map out M))).
  { apply Rle_trans with (Rabs (rsum (map B2R (map out M)))); [apply Rabs_pos|]. apply rsum_abs. intros; lra. }
  destruct (sum_err (map out M)) as [F E].
  { apply Forall_forall. intros x Hx. apply in_map_iff in Hx. destruct Hx as (i & <- & Hi). apply (H i (HM i Hi)). }
  { rewrite LM. eapply Rle_trans; [|exact HB]. apply Rmult_le_compat_l; lra. }
  rewrite LM in E. split; [exact F|].
  assert (E' : Rabs (B2R (sum_in (map out M)) - rsum (map B2R (map out M))) <= (adding (length l) - 1) * rsum (map Y l)).
  { eapply Rle_trans; [exact E|]. apply Rmult_le_compat_l; lra. }
  assert (V : rsum (map B2R (map out M)) = rsum (map (fun i => B2R (out i)) l)) by (rewrite map_map; apply rsum_perm, Permutation_map, PM).
  rewrite V in E'. split.
  - assert (B : Rabs (rsum (map (fun i => B2R (out i)) l)) <= rsum (map Y l)) by (apply rsum_abs; intros i Hi; apply (H i Hi)).
    apply Rabs_le. apply Rabs_le_inv in E', B. lra.
  - assert (D : Rabs (rsum (map (fun i => B2R (out i)) l) - rsum (map T l)) <= rsum (map e l)).
    { rewrite rsum_sub. apply rsum_abs. intros i Hi. apply (H i Hi). }
    apply Rabs_le. apply Rabs_le_inv in E', D. lra.
Qed.

(** ** a rack of linear modifiers *)
Lemma near_weaken om w eps K K' rho rho' X xs : 0 <= rho <= rho' -> 0 <= K <= K' -> near_tone om w eps K rho X xs -> near_tone om w eps K' rho' X xs.
Proof.
  intros Hr HK N j x E. destruct (N j x E) as (A & B & D). split; [exact A|]. split; [exact B|]. eapply Rle_trans; [exact D|]. apply Rplus_le_compat_l.
  apply Rmult_le_compat; try lra; [apply pow_le; lra|apply pow_incr; lra].
Qed.
Lemma all_pass m ps om w K rho X : cos_accurate m -> pow_int_accurate m -> tan_accurate m ->
  0 <= K -> 0 <= rho < 1 -> bpow radix2 (-100) <= X <= bpow radix2 90 -> (forall p, In p ps -> l_ok m p) ->
  exists K' rho', 0 <= K' /\ 0 <= rho' < 1 /\ forall p, In p ps -> forall eps xs, 0 <= eps -> near_tone om w eps K rho X xs ->
    exists ys, outputs (run_res (cycle (b_prime kit kit_prime) (b_process kit (kit_process m))) (chain_block m p) (map (fun x => [x]) xs)) = Ok ys /\ length ys = length xs /\
      near_tone om (cmul (l_H m p om) w) (l_drift m p * X + l_gain m p * eps) K' rho' ((1 + l_gain m p + l_drift m p) * X) ys.
Proof.
  intros HC HP HT HK Hr HX. induction ps as [|p r IH]; intro OK.
  - exists 0, 0. split; [lra|]. split; [lra|]. intros p [].
  - destruct IH as (K1 & r1 & K1p & R1 & T1); [intros q Hq; apply OK; right; exact Hq|].
    destruct (part_passes m om w K rho X p HC HP HT HK Hr HX (OK p (or_introl eq_refl))) as (K2 & r2 & K2p & R2 & T2).
    exists (K1 + K2), (Rmax r1 r2). split; [lra|]. pose proof (Rmax_l r1 r2). pose proof (Rmax_r r1 r2). split; [split; [lra|apply Rmax_lub_lt; lra]|].
    intros q [<-|Hq] eps xs He N.
    + destruct (T2 eps (map (fadd f0) xs) He (near_zero _ _ _ _ _ _ _ N)) as (ys & p' & E & L & N').
      exists ys. unfold chain_block. rewrite user_cycle, kit_modifier_filters, mod_fed, E. split; [reflexivity|]. rewrite map_length in L. split; [exact L|].
      apply (near_weaken _ _ _ K2 _ r2); [lra|lra|exact N'].
    + destruct (T1 q Hq eps xs He N) as (ys & E & L & N'). exists ys. split; [exact E|]. split; [exact L|]. apply (near_weaken _ _ _ K1 _ r1); [lra|lra|exact N'].
Qed.
Lemma rack_tone m ps om w j : tone om (rack_w m ps om w) j = rsum (map (fun p => tone om (cmul (l_H m p om) w) j) ps).
Proof. induction ps as [|p r IH]; [unfold tone; cbn; ring|]. cbn [rack_w fold_right map rsum]. rewrite tone_add. f_equal. exact IH. Qed.
Lemma map_nth_seq {A B} (f : A -> B) l d : map (fun i => f (nth i l d)) (seq 0 (length l)) = map f l.
Proof. apply nth_seq_map. Qed.

Lemma gain_run a xs : fst (run gain_process a xs) = map (fun x => fmul x a) xs.
Proof. induction xs as [|x r IH]; [reflexivity|]. cbn [map run gain_process]. destruct (run gain_process a r) eqn:Q. cbn [fst] in *. rewrite IH. reflexivity. Qed.
Lemma rack_passes m ps gi go h pre e s hp om w K rho X : let ops := pre ++ [e] in let g := LGain (to32 gi) in let X1 := (1 + l_gain m g + l_drift m g) * X in
  cos_accurate m -> pow_int_accurate m -> tan_accurate m -> (forall p, In p ps -> l_ok m p) -> l_ok m g ->
  0 <= K -> 0 <= rho < 1 -> bpow radix2 (-100) <= X -> X1 <= bpow radix2 90 -> adding (length ps) * rack_amp m ps X1 <= bpow radix2 120 ->
  reaches_state kit kit_prime (kit_process m) h gi go ops s -> edits_order e = true ->
  (forall a b, connected ops a b <-> (a = 0 /\ 2 <= b < blocks ops) \/ (b = 1 /\ 2 <= a < blocks ops))%nat ->
  cs_paused s = false -> cs_muted s = false -> NoDup (node_handles h ops) ->
  map (get_mut kit hp) (node_handles h ops) = map Some (Gainer kit (gain_block (to32 gi)) :: Gainer kit (gain_block (to32 go)) :: map (chain_block m) ps) ->
  exists K' rho', 0 <= K' /\ 0 <= rho' < 1 /\ forall eps xs ys hp', 0 <= eps -> near_tone om w eps K rho X xs ->
    run_res (cs_process kit kit_prime (kit_process m) s) hp xs = Ok (ys, hp') ->
    exists zs, ys = map (fun z => fmul z (to32 go)) zs /\ length zs = length xs /\
      near_tone om (rack_w m ps om (cmul (l_H m g om) w))
        (rack_err m ps (l_drift m g * X + l_gain m g * eps) X1 + (adding (length ps) - 1) * rack_amp m ps X1) K' rho' (adding (length ps) * rack_amp m ps X1) zs.
Proof.
  intros ops g X1 HC HP HT OK OG HK Hr HX HX1 HA RS He CO Pa Mu ND GM.
  assert (XP : 0 < X) by (pose proof (bpow_gt_0 radix2 (-100)); lra). destruct (part_grows m g OG) as [Gg Gd].
  assert (XX : X <= X1) by (unfold X1; clearbody X1; nra).
  destruct (gain_passes m om w K rho X HK Hr ltac:(lra) (to32 gi) OG) as (K1 & r1 & K1p & R1 & T1). fold g in T1. fold X1 in T1.
  destruct (all_pass m ps om (cmul (l_H m g om) w) K1 r1 X1 HC HP HT K1p R1 ltac:(lra) OK) as (K2 & r2 & K2p & R2 & T2).
  exists (INR (length ps) * K2), r2. split; [apply Rmult_le_pos; [apply pos_INR|exact K2p]|]. split; [exact R2|].
  intros eps xs ys hp' Hp N R. destruct xs as [|x0 xr].
  { cbn in R. injection R as <- <-. exists []. split; [reflexivity|]. split; [reflexivity|]. intros j x E. destruct j; discriminate. }
  set (xs := x0 :: xr) in *.
  destruct (parallel_flow kit kit_prime (kit_process m) h gi go pre e s hp (map (chain_block m) ps) xs ys hp' RS He CO Pa Mu ND GM ltac:(discriminate) R) as (M & out & PM & HO & EY).
  destruct (T1 eps (map (fadd f0) xs) Hp (near_zero _ _ _ _ _ _ _ N)) as (us & p' & E1 & L1 & N1). rewrite map_length in L1.
  assert (EU : us = map (fun x => fmul (fadd f0 x) (to32 gi)) xs).
  { pose proof (wrap_run gain_process MGain m (fun s x => eq_refl) (map (fadd f0) xs) (to32 gi)) as Q. cbn [l_part g] in E1. rewrite E1 in Q. rewrite gain_run, map_map in Q. congruence. }
  rewrite map_length in PM.
  exists (map (fun k => sum_in (map (fun i => out i k) M)) (seq 0 (length xs))). split; [rewrite EY, map_map; reflexivity|]. split; [rewrite map_length, seq_length; reflexivity|].
  intros j z Hz. assert (Lj : (j < length xs)%nat) by (rewrite <- (seq_length (length xs) 0), <- (map_length (fun k => sum_in (map (fun i => out i k) M))); apply nth_error_Some; congruence).
  rewrite nth_error_map in Hz. rewrite (nth_error_nth' _ 0%nat) in Hz by (rewrite seq_length; exact Lj). rewrite seq_nth in Hz by exact Lj. cbn [option_map plus] in Hz. injection Hz as <-.
  set (eps1 := l_drift m g * X + l_gain m g * eps) in *. assert (E0 : 0 <= eps1) by (unfold eps1; apply Rplus_le_le_0_compat; apply Rmult_le_pos; lra).
  pose (fe := fun p => l_drift m p * X1 + l_gain m p * eps1). pose (fa := fun p => (1 + l_gain m p + l_drift m p) * X1). pose (ft := fun p => tone om (cmul (l_H m p om) (cmul (l_H m g om) w)) j).
  assert (EV : rack_err m ps eps1 X1 + INR (length ps) * K2 * r2 ^ j = rsum (map (fun i => fe (nth i ps LPass) + K2 * r2 ^ j) (seq 0 (length ps)))).
  { rewrite (rsum_plus (fun i => fe (nth i ps LPass)) (fun _ => K2 * r2 ^ j)), rsum_const, seq_length, (map_nth_seq fe). unfold rack_err. fold fe. ring. }
  assert (AV : rack_amp m ps X1 = rsum (map (fun i => fa (nth i ps LPass)) (seq 0 (length ps)))).
  { rewrite (map_nth_seq fa). reflexivity. }
  assert (TV : tone om (rack_w m ps om (cmul (l_H m g om) w)) j = rsum (map (fun i => ft (nth i ps LPass)) (seq 0 (length ps)))).
  { rewrite (map_nth_seq ft). apply rack_tone. }
  destruct (sum_signals (seq 0 (length ps)) M (fun i => out i j) (fun i => ft (nth i ps LPass))
    (fun i => fe (nth i ps LPass) + K2 * r2 ^ j) (fun i => fa (nth i ps LPass)) PM) as (F & B & D).
  - intros i Hi. apply in_seq in Hi. assert (Pi : nth_error ps i = Some (nth i ps LPass)) by (apply nth_error_nth'; lia).
    pose proof (HO i (chain_block m (nth i ps LPass))) as Hi2. rewrite nth_error_map, Pi in Hi2. specialize (Hi2 eq_refl).
    destruct (T2 _ (nth_error_In _ _ Pi) eps1 us E0 N1) as (zs & EZ & LZ & NZ). rewrite EU in EZ. rewrite map_map in EZ. rewrite EZ in Hi2. assert (zs = map (out i) (seq 0 (length xs))) as -> by congruence.
    apply (NZ j (out i j)). rewrite nth_error_map, (nth_error_nth' _ 0%nat) by (rewrite seq_length; exact Lj). rewrite seq_nth by exact Lj. reflexivity.
  - rewrite seq_length, <- AV. exact HA.
  - rewrite seq_length, <- AV in *. rewrite <- TV, <- EV in D. split; [exact F|]. split; [exact B|]. eapply Rle_trans; [exact D|]. lra.
Qed.
