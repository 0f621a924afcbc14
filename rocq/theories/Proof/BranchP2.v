(** * Linear modifiers on branches *)
From Coq Require Import ZArith List Bool Arith Reals Lra Lia Psatz Permutation.
From Flocq Require Import Core.Core IEEE754.BinarySingleNaN Relative Plus_error.
From Verif Require Import Model.Floats Model.Utils Model.Generators Model.Modifiers Model.Filters Model.Sounds Model.Parts
  Spec.SoundSpec Spec.Libm Spec.Response Spec.Track Spec.Parts Spec.Flow Spec.Chain Spec.Rack Spec.Branches
  Proof.FloatFacts Proof.SampleFormatP Proof.SoundsP2 Proof.SoundsP3 Proof.PartsP Proof.FlowP Proof.FlowP2 Proof.ChainP2 Proof.ChainP3 Proof.ChainP4 Proof.RackP Proof.BranchP.
Import ListNotations.
Local Open Scope R_scope.

Lemma all_chains m (cs : list (list lpart)) om w K rho X : cos_accurate m -> pow_int_accurate m -> tan_accurate m ->
  0 <= K -> 0 <= rho < 1 -> bpow radix2 (-100) <= X -> (forall ps, In ps cs -> (forall p, In p ps -> l_ok m p) /\ chain_amp m ps X <= bpow radix2 90) ->
  exists K' rho', 0 <= K' /\ 0 <= rho' < 1 /\ forall ps, In ps cs -> forall eps xs, 0 <= eps -> near_tone om w eps K rho X xs ->
    exists ys, pipeline (b_prime kit kit_prime) (b_process kit (kit_process m)) (map (chain_block m) ps) xs = Ok ys /\ length ys = length xs /\
      near_tone om (chain_w m ps om w) (chain_err m ps eps X) K' rho' (chain_amp m ps X) ys.
Proof.
  intros HC HP HT HK Hr HX. induction cs as [|p r IH]; intro OK.
  - exists 0, 0. split; [lra|]. split; [lra|]. intros p [].
  - destruct IH as (K1 & r1 & K1p & R1 & T1); [intros q Hq; apply OK; right; exact Hq|]. destruct (OK p (or_introl eq_refl)) as [OK1 OK2].
    destruct (chain_passes m p HC HP HT OK1 om w K rho X HK Hr HX OK2) as (K2 & r2 & K2p & R2 & T2).
    exists (K1 + K2), (Rmax r1 r2). split; [lra|]. pose proof (Rmax_l r1 r2). pose proof (Rmax_r r1 r2). split; [split; [lra|apply Rmax_lub_lt; lra]|].
    intros q [<-|Hq] eps xs He N.
    + destruct (T2 eps xs He N) as (ys & E & L & N'). exists ys. split; [exact E|]. split; [exact L|]. apply (near_weaken _ _ _ K2 _ r2); [lra|lra|exact N'].
    + destruct (T1 q Hq eps xs He N) as (ys & E & L & N'). exists ys. split; [exact E|]. split; [exact L|]. apply (near_weaken _ _ _ K1 _ r1); [lra|lra|exact N'].
Qed.
Lemma paths_tone m ps Ls om w j : tone om (paths_w m ps Ls om w) j = rsum (map (fun L => tone om (chain_w m (path_parts ps L) om w) j) Ls).
Proof. induction Ls as [|p r IH]; [unfold tone; cbn; ring|]. cbn [paths_w fold_right map rsum]. rewrite tone_add. f_equal. exact IH. Qed.

Lemma branches_pass m ps Ls gi go h pre e s hp om w K rho X : let ops := pre ++ [e] in let g := LGain (to32 gi) in let X1 := (1 + l_gain m g + l_drift m g) * X in
  cos_accurate m -> pow_int_accurate m -> tan_accurate m -> (forall p, In p ps -> l_ok m p) -> l_ok m g ->
  0 <= K -> 0 <= rho < 1 -> bpow radix2 (-100) <= X -> X1 <= bpow radix2 90 ->
  (forall L, In L Ls -> chain_amp m (path_parts ps L) X1 <= bpow radix2 90) -> adding (length Ls) * paths_amp m ps Ls X1 <= bpow radix2 120 ->
  reaches_state kit kit_prime (kit_process m) h gi go ops s -> edits_order e = true ->
  branches (blocks ops) Ls -> (forall a b, connected ops a b <-> path_link Ls a b) ->
  cs_paused s = false -> cs_muted s = false -> NoDup (node_handles h ops) ->
  map (get_mut kit hp) (node_handles h ops) = map Some (Gainer kit (gain_block (to32 gi)) :: Gainer kit (gain_block (to32 go)) :: map (chain_block m) ps) ->
  exists K' rho', 0 <= K' /\ 0 <= rho' < 1 /\ forall eps xs ys hp', 0 <= eps -> near_tone om w eps K rho X xs ->
    run_res (cs_process kit kit_prime (kit_process m) s) hp xs = Ok (ys, hp') ->
    exists zs, ys = map (fun z => fmul z (to32 go)) zs /\ length zs = length xs /\
      near_tone om (paths_w m ps Ls om (cmul (l_H m g om) w))
        (paths_err m ps Ls (l_drift m g * X + l_gain m g * eps) X1 + (adding (length Ls) - 1) * paths_amp m ps Ls X1) K' rho' (adding (length Ls) * paths_amp m ps Ls X1) zs.
Proof.
  intros ops g X1 HC HP HT OK OG HK Hr HX HX1 HA1 HA RS He BR CO Pa Mu ND GM.
  assert (XP : 0 < X) by (pose proof (bpow_gt_0 radix2 (-100)); lra). destruct (part_grows m g OG) as [Gg Gd].
  assert (XX : X <= X1) by (unfold X1; clearbody X1; nra).
  assert (LP : (blocks ops = 2 + length ps)%nat).
  { pose proof RS as (ys0 & h0 & R0). destruct (proj1 (history_ginv kit kit_prime (kit_process m) _ _ _ _ _ _ _ R0)) as (_ & _ & LN & _).
    fold ops in LN. rewrite <- LN, (nodes_of kit kit_prime (kit_process m) _ _ _ _ _ _ _ R0). pose proof (f_equal (@length _) GM) as Q. rewrite !map_length in Q. cbn [length] in Q. rewrite map_length in Q. exact Q. }
  assert (IX : forall L x, In L Ls -> In x L -> nth_error ps (x - 2) = Some (nth (x - 2) ps LPass)).
  { intros L x HL Hx. apply nth_error_nth'. pose proof (br_range _ Ls BR L x HL Hx). lia. }
  assert (OKL : forall L, In L Ls -> forall p, In p (path_parts ps L) -> l_ok m p).
  { intros L HL p Hp. unfold path_parts in Hp. apply in_map_iff in Hp. destruct Hp as (x & <- & Hx). apply OK. exact (nth_error_In _ _ (IX L x HL Hx)). }
  destruct (gain_passes m om w K rho X HK Hr ltac:(lra) (to32 gi) OG) as (K1 & r1 & K1p & R1 & T1). fold g in T1. fold X1 in T1.
  destruct (all_chains m (map (path_parts ps) Ls) om (cmul (l_H m g om) w) K1 r1 X1 HC HP HT K1p R1 ltac:(lra)) as (K2 & r2 & K2p & R2 & T2).
  { intros q Hq. apply in_map_iff in Hq. destruct Hq as (L & <- & HL). split; [apply OKL, HL|apply HA1, HL]. }
  exists (INR (length Ls) * K2), r2. split; [apply Rmult_le_pos; [apply pos_INR|exact K2p]|]. split; [exact R2|].
  intros eps xs ys hp' Hp N R. destruct xs as [|x0 xr].
  { cbn in R. injection R as <- <-. exists []. split; [reflexivity|]. split; [reflexivity|]. intros j x E. destruct j; discriminate. }
  set (xs := x0 :: xr) in *.
  destruct (branches_flow kit kit_prime (kit_process m) h gi go pre e s hp (map (chain_block m) ps) xs ys hp' Ls RS He BR CO Pa Mu ND GM ltac:(discriminate) R) as (M & out & PM & HO & EY).
  destruct (T1 eps (map (fadd f0) xs) Hp (near_zero _ _ _ _ _ _ _ N)) as (us & p' & E1 & L1 & N1). rewrite map_length in L1.
  assert (EU : us = map (fun x => fmul (fadd f0 x) (to32 gi)) xs).
  { pose proof (wrap_run gain_process MGain m (fun s x => eq_refl) (map (fadd f0) xs) (to32 gi)) as Q. cbn [l_part g] in E1. rewrite E1 in Q. rewrite gain_run, map_map in Q. congruence. }
  exists (map (fun k => sum_in (map (fun i => out i k) M)) (seq 0 (length xs))). split; [rewrite EY, map_map; reflexivity|]. split; [rewrite map_length, seq_length; reflexivity|].
  intros j z Hz. assert (Lj : (j < length xs)%nat) by (rewrite <- (seq_length (length xs) 0), <- (map_length (fun k => sum_in (map (fun i => out i k) M))); apply nth_error_Some; congruence).
  rewrite nth_error_map in Hz. rewrite (nth_error_nth' _ 0%nat) in Hz by (rewrite seq_length; exact Lj). rewrite seq_nth in Hz by exact Lj. cbn [option_map plus] in Hz. injection Hz as <-.
  set (eps1 := l_drift m g * X + l_gain m g * eps) in *. assert (E0 : 0 <= eps1) by (unfold eps1; apply Rplus_le_le_0_compat; apply Rmult_le_pos; lra).
  destruct (sum_signals Ls M (fun L => out L j) (fun L => tone om (chain_w m (path_parts ps L) om (cmul (l_H m g om) w)) j)
    (fun L => chain_err m (path_parts ps L) eps1 X1 + K2 * r2 ^ j) (fun L => chain_amp m (path_parts ps L) X1) PM) as (F & B & D).
  - intros L HL.
    pose proof (HO L (map (chain_block m) (path_parts ps L)) HL) as HL2. rewrite <- EU in HL2.
    assert (Q : map (fun x => nth_error (map (chain_block m) ps) (x - 2)) L = map Some (map (chain_block m) (path_parts ps L))).
    { unfold path_parts. rewrite !map_map. apply map_ext_in. intros x Hx. rewrite nth_error_map, (IX L x HL Hx). reflexivity. }
    specialize (HL2 Q).
    destruct (T2 (path_parts ps L) (in_map _ _ _ HL) eps1 us E0 N1) as (zs & EZ & LZ & NZ). rewrite EZ in HL2. assert (zs = map (out L) (seq 0 (length xs))) as -> by congruence.
    apply (NZ j (out L j)). rewrite nth_error_map, (nth_error_nth' _ 0%nat) by (rewrite seq_length; exact Lj). rewrite seq_nth by exact Lj. reflexivity.
  - exact HA.
  - split; [exact F|]. split; [exact B|]. rewrite paths_tone. eapply Rle_trans; [exact D|].
    rewrite (rsum_plus (fun L => chain_err m (path_parts ps L) eps1 X1) (fun _ => K2 * r2 ^ j)), rsum_const. unfold paths_err, paths_amp. lra.
Qed.
Lemma dry_wet_gain m d a om w : cn2 (paths_w m [LDelay d; LGain a] [[]; [2; 3]%nat] om w) =
  (1 + 2 * B2R a * cos (om * INR (length (delay_new d))) + B2R a * B2R a) * cn2 w.
Proof.
  unfold paths_w, path_parts. cbn [fold_right map nth Nat.sub chain_w l_H]. unfold zi, cre, cmul, cadd, cn2. cbn [fst snd].
  pose proof (sin2_cos2 (om * INR (length (delay_new d)))) as Q. unfold Rsqr in Q. set (c := cos _) in *. set (t := sin _) in *. destruct w as [x y]. cbn [fst snd].
  replace (1 + 2 * B2R a * c + B2R a * B2R a) with (1 + 2 * B2R a * c + B2R a * B2R a * (t * t + c * c)) by (rewrite Q; ring). ring.
Qed.
