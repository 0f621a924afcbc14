(** * C114: branches that are mixed in step; C115: linear modifiers on branches *)
From Coq Require Import ZArith List Bool Arith Reals Lra Lia Permutation.
From Flocq Require Import Core.Core IEEE754.BinarySingleNaN.
From Verif Require Import Model.Floats Model.Utils Model.Generators Model.Modifiers Model.Filters Model.Sounds Model.Parts
  Spec.SoundSpec Spec.Libm Spec.Response Spec.Parts Spec.Flow Spec.Chain Spec.Rack Spec.Branches
  Proof.FloatFacts Proof.UtilsP Proof.LibmP Proof.FormatsP Proof.SoundsP2 Proof.SoundsP3 Proof.RackP Proof.LevelP2 Proof.BranchP Proof.BranchP2 Properties.Sounds.
Import ListNotations.
Local Open Scope nat_scope.

(** ** C114 *)
(** branches that fork and meet only at the output, all but one of them within one block of the longest: every block is
    processed, and after the block that feeds it *)
Theorem C114_order : forall (U : Type) (up : U -> f32 -> U) (uo : U -> res (f32 * U)) (h : heap U) (gi go : f64) (pre : list cop) (e : cop) (s : complex),
  let ops := pre ++ [e] in reaches_state U up uo h gi go ops s -> edits_order e = true -> levelled (blocks ops) (connected ops) ->
  (forall x, x < blocks ops -> In x (cs_order s)) /\ (forall a b, connected ops a b -> b <> 0 -> precedes (cs_order s) a b).
Proof. exact levelled_order. Qed.
(** so no connection delays anything: in each call each block gets what the blocks before it put out in that call *)
Theorem C114_no_delay : forall (U : Type) (up : U -> f32 -> U) (uo : U -> res (f32 * U)) (h : heap U) (gi go : f64) (pre : list cop) (e : cop)
    (s : complex) (hp : heap U) (bs : list (block U)) (xs ys : list f32) (hp' : heap U), let ops := pre ++ [e] in
  reaches_state U up uo h gi go ops s -> edits_order e = true ->
  levelled (blocks ops) (connected ops) -> (forall a, ~ connected ops a 0) ->
  cs_paused s = false -> cs_muted s = false -> NoDup (node_handles h ops) ->
  map (get_mut U hp) (node_handles h ops) = map Some bs -> xs <> [] ->
  run_res (cs_process U up uo s) hp xs = Ok (ys, hp') ->
  exists (P : nat -> list nat) (out : nat -> nat -> f32), (forall m, NoDup (P m) /\ forall a, In a (P m) <-> connected ops a m) /\
    ys = map (out 1) (seq 0 (length xs)) /\
    forall m b, nth_error bs m = Some b ->
      outputs (run_res (cycle (b_prime U up) (b_process U uo)) b (map (in_step P xs out m) (seq 0 (length xs)))) = Ok (map (out m) (seq 0 (length xs))).
Proof. exact levelled_flow. Qed.
(** in terms of paths from input to output: the sound puts out the sum over the paths of what the blocks on the path, one
    after the other, make of the input, between the two gains *)
Theorem C114_branches : forall (U : Type) (up : U -> f32 -> U) (uo : U -> res (f32 * U)) (h : heap U) (gi go : f64) (pre : list cop) (e : cop)
    (s : complex) (hp : heap U) (us : list (block U)) (xs ys : list f32) (hp' : heap U) (Ls : list (list nat)), let ops := pre ++ [e] in
  reaches_state U up uo h gi go ops s -> edits_order e = true ->
  branches (blocks ops) Ls -> (forall a b, connected ops a b <-> path_link Ls a b) ->
  cs_paused s = false -> cs_muted s = false -> NoDup (node_handles h ops) ->
  map (get_mut U hp) (node_handles h ops) = map Some (Gainer U (gain_block (to32 gi)) :: Gainer U (gain_block (to32 go)) :: us) -> xs <> [] ->
  run_res (cs_process U up uo s) hp xs = Ok (ys, hp') ->
  exists (M : list (list nat)) (out : list nat -> nat -> f32), Permutation M Ls /\
    (forall L vs, In L Ls -> map (fun x => nth_error us (x - 2)) L = map Some vs ->
       pipeline (b_prime U up) (b_process U uo) vs (map (fun x => fmul (fadd f0 x) (to32 gi)) xs) = Ok (map (out L) (seq 0 (length xs)))) /\
    ys = map (fun k => fmul (sum_in (map (fun L => out L k) M)) (to32 go)) (seq 0 (length xs)).
Proof. exact branches_flow. Qed.
(** the input itself, a fork after one block, and a branch of three: 1 + 4 + 4 + 8 times the input between gains of 3 and 5 *)
Definition wet_paths : list (list nat) := [[]; [2; 3]; [2; 4]; [5; 6; 7]].
Definition wet_pre : list cop :=
  map CAddBlock [0; 1; 2; 3; 4; 5] ++ [CConnect 0 1; CConnect 7 1; CConnect 4 1; CConnect 0 2; CConnect 5 6; CConnect 2 4; CConnect 3 1; CConnect 6 7; CConnect 2 3].
Definition wet_ops : list cop := wet_pre ++ [CConnect 0 5].
Ltac by_cases H := repeat (destruct H as [H|H]; [try discriminate; try (injection H as <- <-)|]); [..|destruct H].
Lemma wet_branches : branches 8 wet_paths.
Proof.
  unfold wet_paths. split; [|split; [|split; [|split]]].
  - repeat constructor; cbn; intuition discriminate.
  - intros L x HL Hx. cbn in HL. repeat (destruct HL as [<-|HL]; [cbn in Hx; lia|]). destruct HL.
  - intros x Hx. assert (K : x = 2 \/ x = 3 \/ x = 4 \/ 5 <= x < 8) by lia. destruct K as [->|[->|[->|K]]]; [exists [2; 3]|exists [2; 3]|exists [2; 4]|exists [5; 6; 7]]; cbn; (split; [tauto|lia]).
  - intros a a' b Nb H1 H2. apply path_link_In in H1, H2. cbn in H1, H2.
    repeat (destruct H1 as [H1|H1]; [injection H1 as <- <-; try lia; repeat (destruct H2 as [H2|H2]; [try discriminate; injection H2 as <-; reflexivity|]); destruct H2|]). destruct H1.
  - exists 3, []. intros L HL. cbn in HL. repeat (destruct HL as [<-|HL]; [cbn; split; [lia|first [left; reflexivity | right; lia]]|]). destruct HL.
Qed.
Example C114_ex : branches (blocks wet_ops) wet_paths /\ (forall a b, connected wet_ops a b <-> path_link wet_paths a b) /\
  shown (run_res (cs_step f32 dbl_prime dbl_process) (cs_new f32 (dbl_heap 6) (dZ 3) (dZ 5)) (wet_ops ++ [CProcess (fZ 1); CProcess (fZ 2)]))
  = vals (map (fun _ => None) wet_ops ++ [Some 255; Some 510])%Z.
Proof.
  split; [exact wet_branches|]. split; [|vm_compute; reflexivity]. intros a b. rewrite path_link_In. split.
  - intro H. apply connected_In in H. cbn in H |- *. repeat (destruct H as [H|H]; [try discriminate; injection H as <- <-; tauto|]). destruct H.
  - intro H. apply connected_by.
    + cbn in H |- *. repeat (destruct H as [H|H]; [injection H as <- <-; tauto|]). destruct H.
    + cbn. intro D. repeat (destruct D as [D|D]; [discriminate|]). destruct D.
Qed.
Example C114_ex_levelled : levelled (blocks wet_ops) (connected wet_ops) /\ (forall a, ~ connected wet_ops a 0).
Proof.
  split; [|intros a H; apply (proj1 (proj2 C114_ex)) in H; exact (no_linked_0 8 wet_paths wet_branches a H)].
  apply (levelled_ext _ (path_link wet_paths)); [intros; symmetry; apply C114_ex|apply (branches_levelled 8), wet_branches].
Qed.
(** two branches that are shorter by more than one block are too many: of branches of 0, 1 and 3 blocks, connected in this
    order, the last loses its last block *)
Definition cut_pre : list cop := map CAddBlock [0; 1; 2; 3] ++ [CConnect 0 1; CConnect 5 1; CConnect 0 3; CConnect 4 5; CConnect 2 1; CConnect 0 2].
Definition cut_ops : list cop := cut_pre ++ [CConnect 3 4].
Definition cut_paths : list (list nat) := [[]; [2]; [3; 4; 5]].
Theorem C114_two_short_branches_refuted : forall (U : Type) (up : U -> f32 -> U) (uo : U -> res (f32 * U)) (h : heap U) (gi go : f64),
  exists s, reaches_state U up uo h gi go cut_ops s /\ (forall a b, connected cut_ops a b <-> path_link cut_paths a b) /\ ~ In 5 (cs_order s).
Proof.
  intros. eexists. split; [do 2 eexists; cbv -[gain_block to32 dbl_prime dbl_process b_process b_prime fadd fmul f0]; reflexivity|]. split.
  - intros a b. rewrite path_link_In. split.
    + intro H. apply connected_In in H. cbn in H |- *. repeat (destruct H as [H|H]; [try discriminate; injection H as <- <-; tauto|]). destruct H.
    + intro H. apply connected_by.
      * cbn in H |- *. repeat (destruct H as [H|H]; [injection H as <- <-; tauto|]). destruct H.
      * cbn. intro D. repeat (destruct D as [D|D]; [discriminate|]). destruct D.
  - vm_compute. intro H. repeat (destruct H as [H|H]; [discriminate|]). destruct H.
Qed.
Example C114_ex_cut : shown (run_res (cs_step f32 dbl_prime dbl_process) (cs_new f32 (dbl_heap 4) (dZ 1) (dZ 1)) (cut_ops ++ [CProcess (fZ 1); CProcess (fZ 1)]))
  = vals (map (fun _ => None) cut_ops ++ [Some 3; Some 3])%Z.
Proof. vm_compute. reflexivity. Qed.

(** ** C115 *)
Local Open Scope R_scope.
(** linear modifiers on such branches: a tone comes out as a tone, its complex amplitude the sum over the paths of the
    products along each path, up to the parts' errors, the rounding of the additions, and an error that dies out *)
Theorem C115_branches_of_modifiers : forall (m : libm) (ps : list lpart) (Ls : list (list nat)) (gi go : f64) (h : heap kit) (pre : list cop) (e : cop) (s : complex) (hp : heap kit)
    (om : R) (w : C) (K rho X : R), let ops := pre ++ [e] in let g := LGain (to32 gi) in let X1 := (1 + l_gain m g + l_drift m g) * X in
  cos_accurate m -> pow_int_accurate m -> tan_accurate m -> (forall p, In p ps -> l_ok m p) -> l_ok m g ->
  0 <= K -> 0 <= rho < 1 -> bpow radix2 (-100) <= X -> X1 <= bpow radix2 90 ->
  (forall L, In L Ls -> chain_amp m (path_parts ps L) X1 <= bpow radix2 90) -> adding (length Ls) * paths_amp m ps Ls X1 <= bpow radix2 120 ->
  reaches_state kit kit_prime (kit_process m) h gi go ops s -> edits_order e = true ->
  branches (blocks ops) Ls -> (forall a b, connected ops a b <-> path_link Ls a b) ->
  cs_paused s = false -> cs_muted s = false -> NoDup (node_handles h ops) ->
  map (get_mut kit hp) (node_handles h ops) = map Some (Gainer kit (gain_block (to32 gi)) :: Gainer kit (gain_block (to32 go)) :: map (chain_block m) ps) ->
  exists K' rho', 0 <= K' /\ 0 <= rho' < 1 /\ forall (eps : R) (xs ys : list f32) (hp' : heap kit), 0 <= eps -> near_tone om w eps K rho X xs ->
    run_res (cs_process kit kit_prime (kit_process m) s) hp xs = Ok (ys, hp') ->
    exists zs, ys = map (fun z => fmul z (to32 go)) zs /\ length zs = length xs /\
      near_tone om (paths_w m ps Ls om (cmul (l_H m g om) w))
        (paths_err m ps Ls (l_drift m g * X + l_gain m g * eps) X1 + (adding (length Ls) - 1) * paths_amp m ps Ls X1) K' rho' (adding (length Ls) * paths_amp m ps Ls X1) zs.
Proof. exact branches_pass. Qed.
(** the signal beside its own delay at gain [a]: a comb of depth [a] *)
Theorem C115_dry_wet_comb : forall (m : libm) (d : duration) (a : f32) (om : R) (w : C),
  cn2 (paths_w m [LDelay d; LGain a] [[]; [2; 3]%nat] om w) = (1 + 2 * B2R a * cos (om * INR (length (delay_new d))) + B2R a * B2R a) * cn2 w.
Proof. exact dry_wet_gain. Qed.
(** one sample of delay at half gain beside the signal itself *)
Definition mix_parts : list lpart := [LDelay (mkDur 0 20833); LGain (lit 1 (-1))].
Definition mix_heap : heap kit := map (fun p => mkCell kit 1 (chain_block ideal_libm p)) mix_parts.
Definition mix_paths : list (list nat) := [[]; [2; 3]%nat].
Definition mix_ops : list cop := (map CAddBlock [0; 1] ++ [CConnect 0 1; CConnect 2 3; CConnect 3 1] ++ [CConnect 0 2])%nat.
Example C115_ex : branches (blocks mix_ops) mix_paths /\ (forall a b, connected mix_ops a b <-> path_link mix_paths a b) /\
  (forall p, In p mix_parts -> l_ok ideal_libm p) /\ (forall L, In L mix_paths -> chain_amp ideal_libm (path_parts mix_parts L) 8 <= bpow radix2 90) /\
  adding (length mix_paths) * paths_amp ideal_libm mix_parts mix_paths 8 <= bpow radix2 120 /\
  (let '(s, h) := cs_new kit mix_heap (of_Z 1) (of_Z 1) in
   match run_res (cs_step kit kit_prime (kit_process ideal_libm)) (s, h) (mix_ops ++ map (fun z => CProcess (of_Z z)) [2; -2; 2; -2; 2; 2; 2]%Z) with
   | Ok (ys, _) => skipn 6 (map (option_map B2SF) ys) = map (fun z => Some (B2SF (of_Z z : f32))) [2; -1; 1; -1; 1; 3; 3]%Z | Panic => False end).
Proof.
  assert (A : B2R (lit 1 (-1) : f32) = / 2) by (destruct (B2R_of_SF (lit 1 (-1) : f32) false 8388608 (-24)) as [_ ->]; [vm_compute; reflexivity|cbn; lra]).
  assert (LA : forall L, In L mix_paths -> chain_amp ideal_libm (path_parts mix_parts L) 8 <= 64).
  { intros L [<-|[<-|[]]]; unfold path_parts, mix_parts; cbn [map nth Nat.sub chain_amp l_gain l_drift]; [lra|]. rewrite A, Rabs_pos_eq by lra. change (bpow radix2 (-24)) with (/ 16777216). lra. }
  split; [|split; [|split; [|split; [|split]]]].
  - split; [|split; [|split; [|split]]].
    + repeat constructor; cbn; intuition discriminate.
    + intros L x HL Hx. cbn in HL. destruct HL as [<-|[<-|[]]]; cbn in Hx |- *; lia.
    + intros x Hx. cbn in Hx. exists [2; 3]%nat. cbn. split; [tauto|lia].
    + intros a a' b Nb H1 H2. apply path_link_In in H1, H2. cbn in H1, H2.
      repeat (destruct H1 as [H1|H1]; [injection H1 as <- <-; try lia; repeat (destruct H2 as [H2|H2]; [try discriminate; injection H2 as <-; reflexivity|]); destruct H2|]). destruct H1.
    + exists 2%nat, []. intros L HL. cbn in HL. destruct HL as [<-|[<-|[]]]; cbn; (split; [lia|first [left; reflexivity | right; lia]]).
  - intros a b. rewrite path_link_In. split.
    + intro H. apply connected_In in H. cbn in H |- *. repeat (destruct H as [H|H]; [try discriminate; injection H as <- <-; tauto|]). destruct H.
    + intro H. apply connected_by.
      * cbn in H |- *. repeat (destruct H as [H|H]; [injection H as <- <-; tauto|]). destruct H.
      * cbn. intro D. repeat (destruct D as [D|D]; [discriminate|]). destruct D.
  - intros p [<-|[<-|[]]]; [exact I|]. split; [vm_compute; reflexivity|]. rewrite A, Rabs_pos_eq by lra. apply Rle_trans with (bpow radix2 0); [cbn; lra|apply bpow_le; lia].
  - intros L HL. apply Rle_trans with (1 := LA L HL). apply Rle_trans with (bpow radix2 6); [cbn; lra|apply bpow_le; lia].
  - apply Rle_trans with (bpow radix2 10); [|apply bpow_le; lia]. unfold paths_amp, adding. cbn [map mix_paths length rsum fold_right]. change (bpow radix2 10) with 1024.
    pose proof (LA [] (or_introl eq_refl)) as A1. pose proof (LA _ (or_intror (or_introl eq_refl))) as A2.
    change (bpow radix2 (-24)) with (/ 16777216). lra.
  - vm_compute. reflexivity.
Qed.
