(** * C120: linear modifiers in a feedback loop of a ComplexSound *)
From Coq Require Import ZArith List Bool Arith Reals Lra Lia.
From Flocq Require Import Core.Core IEEE754.BinarySingleNaN.
From Verif Require Import Model.Floats Model.Utils Model.Generators Model.Modifiers Model.Filters Model.Sounds Model.Parts
  Spec.SoundSpec Spec.Libm Spec.Response Spec.Parts Spec.Flow Spec.Chain Spec.Convolve Spec.Branches Spec.Ring
  Proof.FloatFacts Proof.LibmP Proof.SoundsP2 Proof.SoundsP3 Proof.RackP Proof.LevelP2 Proof.RingP Proof.RingP2 Proof.RingP3 Proof.RingP4.
Import ListNotations.
Local Open Scope R_scope.

(** ** C120 *)
(** what goes round a loop is determined by what is put in and by the impulse response of the loop *)
Theorem C120_one_signal : forall h x : nat -> R, (exists u, ring_solves h x u) /\ forall u v, ring_solves h x u -> ring_solves h x v -> forall n, u n = v n.
Proof. exact ring_one. Qed.
(** blocks in a row, the last feeding the first, in any order of adding and connecting: each round costs one sample more than the
    blocks themselves take, and the blocks up to the one that feeds the output make the output of what goes round *)
Theorem C120_flow : forall (m : libm) (ps : list lpart) (L : list nat) (t : nat) (h : heap kit) (gi go : f64) (pre : list cop) (e : cop) (s : complex) (hp : heap kit)
    (xs ys : list f32) (hp' : heap kit), let ops := pre ++ [e] in
  reaches_state kit kit_prime (kit_process m) h gi go ops s -> edits_order e = true ->
  ring (blocks ops) L t -> (forall a b, connected ops a b <-> ring_link L t a b) ->
  cs_paused s = false -> cs_muted s = false -> NoDup (node_handles h ops) ->
  map (get_mut kit hp) (node_handles h ops) = map Some (Gainer kit (gain_block (to32 gi)) :: Gainer kit (gain_block (to32 go)) :: map (chain_block m) ps) -> xs <> [] ->
  run_res (cs_process kit kit_prime (kit_process m) s) hp xs = Ok (ys, hp') ->
  let zs := map (fun x => fmul (fadd f0 x) (to32 gi)) xs in let parts := path_parts ps L in
  (forall x, In x L -> nth_error ps (x - 2) = Some (nth (x - 2) ps LPass)) /\
  exists us vs ts, length us = length zs /\
    pipeline (b_prime kit kit_prime) (b_process kit (kit_process m)) (map (chain_block m) parts) us = Ok vs /\
    pipeline (b_prime kit kit_prime) (b_process kit (kit_process m)) (map (chain_block m) (firstn (S t) parts)) us = Ok ts /\
    (forall k, (k < length zs)%nat -> nth k us f0 = match k with O => fadd f0 (nth 0 zs f0) | S j => fadd (fadd f0 (nth j vs f0)) (nth k zs f0) end) /\
    ys = map (fun y => fmul (fadd f0 y) (to32 go)) ts.
Proof. exact ring_flow. Qed.
(** if the gains of the parts leave room, any signal: the rounding errors of all rounds together stay within a bound that does
    not depend on the length of the signal, and no sample overflows *)
Theorem C120_tracks : forall (m : libm) (ps : list lpart) (L : list nat) (t : nat) (gi go : f64) (h : heap kit) (pre : list cop) (e : cop) (s : complex) (hp : heap kit),
  let ops := pre ++ [e] in let parts := path_parts ps L in let fs := firstn (S t) parts in
  reaches_state kit kit_prime (kit_process m) h gi go ops s -> edits_order e = true ->
  ring (blocks ops) L t -> (forall a b, connected ops a b <-> ring_link L t a b) ->
  cs_paused s = false -> cs_muted s = false -> NoDup (node_handles h ops) ->
  map (get_mut kit hp) (node_handles h ops) = map Some (Gainer kit (gain_block (to32 gi)) :: Gainer kit (gain_block (to32 go)) :: map (chain_block m) ps) ->
  cos_accurate m -> pow_int_accurate m -> tan_accurate m -> (forall p, In p ps -> l_ok m p) ->
  forall U X, bpow radix2 (-100) <= U -> chain_amp m parts U <= bpow radix2 90 -> 0 <= X ->
  (1 + bpow radix2 (-24)) * (X + ring_gain m parts * U + chain_err m parts 0 U) <= U ->
  forall (xs ys : list f32) (hp' : heap kit) (u : nat -> R), let ins := map (fun x => fmul (fadd f0 x) (to32 gi)) xs in
  (forall x, In x xs -> is_finite (fmul (fadd f0 x) (to32 gi)) = true /\ Rabs (B2R (fmul (fadd f0 x) (to32 gi))) <= X) ->
  run_res (cs_process kit kit_prime (kit_process m) s) hp xs = Ok (ys, hp') ->
  ring_solves (chain_h m parts) (fun k => B2R (nth k ins f0)) u ->
  exists zs, ys = map (fun z => fmul z (to32 go)) zs /\ length zs = length xs /\
    near_signal (conv (chain_h m fs) u) (chain_err m fs (ring_noise m parts U / (1 - ring_gain m parts)) U) (chain_amp m fs U) zs.
Proof. exact ring_tracks. Qed.
(** a tone comes out as a tone, its complex amplitude divided by one less the response of a round *)
Theorem C120_tone : forall (m : libm) (ps : list lpart) (L : list nat) (t : nat) (gi go : f64) (h : heap kit) (pre : list cop) (e : cop) (s : complex) (hp : heap kit)
    (om : R) (w : C) (K rho X U : R), let ops := pre ++ [e] in let parts := path_parts ps L in let fs := firstn (S t) parts in
  let g := LGain (to32 gi) in let X1 := (1 + l_gain m g + l_drift m g) * X in
  cos_accurate m -> pow_int_accurate m -> tan_accurate m -> (forall p, In p ps -> l_ok m p) -> l_ok m g ->
  0 <= K -> 0 <= rho < 1 -> bpow radix2 (-100) <= X -> X1 <= bpow radix2 90 -> bpow radix2 (-100) <= U -> chain_amp m parts U <= bpow radix2 90 ->
  (1 + bpow radix2 (-24)) * (X1 + ring_gain m parts * U + chain_err m parts 0 U) <= U ->
  reaches_state kit kit_prime (kit_process m) h gi go ops s -> edits_order e = true ->
  ring (blocks ops) L t -> (forall a b, connected ops a b <-> ring_link L t a b) ->
  cs_paused s = false -> cs_muted s = false -> NoDup (node_handles h ops) ->
  map (get_mut kit hp) (node_handles h ops) = map Some (Gainer kit (gain_block (to32 gi)) :: Gainer kit (gain_block (to32 go)) :: map (chain_block m) ps) ->
  exists K' rho', 0 <= K' /\ 0 <= rho' < 1 /\ forall (eps : R) (xs ys : list f32) (hp' : heap kit), 0 <= eps -> near_tone om w eps K rho X xs ->
    run_res (cs_process kit kit_prime (kit_process m) s) hp xs = Ok (ys, hp') ->
    exists zs, ys = map (fun z => fmul z (to32 go)) zs /\ length zs = length xs /\
      near_tone om (chain_w m fs om (ring_w m parts om (cmul (l_H m g om) w)))
        (chain_err m fs ((l_drift m g * X + l_gain m g * eps + ring_noise m parts U) / (1 - ring_gain m parts)) U) K' rho' (chain_amp m fs U) zs.
Proof. exact ring_sounds. Qed.
(** a delay of D samples at gain [a] in a loop resonates at multiples of 1/(D+1) of the sample rate, not 1/D *)
Theorem C120_resonance : forall (m : libm) (d : duration) (a : f32) (om : R) (w : C), Rabs (B2R a) < 1 ->
  cn2 (ring_w m [LDelay d; LGain a] om w) * (1 - 2 * B2R a * cos (om * INR (S (length (delay_new d)))) + B2R a * B2R a) = cn2 w.
Proof. exact ring_delay. Qed.
(** the room is needed: a loop of gain 1 adds up its input, ones become 1, 2, 3, ... *)
Theorem C120_gain_one_piles_up : forall (m : libm) (ps : list lpart) (L : list nat) (t : nat) (h : heap kit) (pre : list cop) (e : cop) (s : complex) (hp : heap kit)
    (n : nat) (ys : list f32) (hp' : heap kit), let ops := pre ++ [e] in
  reaches_state kit kit_prime (kit_process m) h (of_Z 1) (of_Z 1) ops s -> edits_order e = true ->
  ring (blocks ops) L t -> (forall a b, connected ops a b <-> ring_link L t a b) ->
  cs_paused s = false -> cs_muted s = false -> NoDup (node_handles h ops) ->
  map (get_mut kit hp) (node_handles h ops) = map Some (Gainer kit (gain_block (to32 (of_Z 1))) :: Gainer kit (gain_block (to32 (of_Z 1))) :: map (chain_block m) ps) ->
  (forall p, In p ps -> p = LPass) -> run_res (cs_process kit kit_prime (kit_process m) s) hp (repeat (of_Z 1) n) = Ok (ys, hp') ->
  forall k, (k < n)%nat -> (Z.of_nat k < 2 ^ 24)%Z -> nth_error ys k = Some (of_Z (Z.of_nat k + 1)).
Proof. exact ring_piles. Qed.

(** a delay of one sample, then a half, round and round, heard after the delay: an 8 comes out as 8, 4, 2, 1 on every other sample *)
Definition loop_parts : list lpart := [LGain (lit 1 (-1)); LDelay (mkDur 0 20833)].
Definition loop_heap : heap kit := map (fun p => mkCell kit 1 (chain_block ideal_libm p)) loop_parts.
Definition loop_row : list nat := [3; 2]%nat.
Definition loop_ops : list cop := (map CAddBlock [0; 1] ++ [CConnect 3 1; CConnect 2 3; CConnect 0 3] ++ [CConnect 3 2])%nat.
Example C120_ex : ring (blocks loop_ops) loop_row 0 /\ (forall a b, connected loop_ops a b <-> ring_link loop_row 0 a b) /\
  (forall p, In p loop_parts -> l_ok ideal_libm p) /\ ring_gain ideal_libm (path_parts loop_parts loop_row) = / 2 /\
  (1 + bpow radix2 (-24)) * (24 + ring_gain ideal_libm (path_parts loop_parts loop_row) * 64 + chain_err ideal_libm (path_parts loop_parts loop_row) 0 64) <= 64 /\
  chain_amp ideal_libm (path_parts loop_parts loop_row) 64 <= bpow radix2 90 /\
  (let '(s, h) := cs_new kit loop_heap (of_Z 1) (of_Z 1) in
   match run_res (cs_step kit kit_prime (kit_process ideal_libm)) (s, h) (loop_ops ++ map (fun z => CProcess (of_Z z)) [8; 0; 0; 0; 0; 0; 0; 0]%Z) with
   | Ok (ys, _) => skipn 6 (map (option_map B2SF) ys) = map (fun z => Some (B2SF (of_Z z : f32))) [0; 8; 0; 4; 0; 2; 0; 1]%Z | Panic => False end).
Proof.
  assert (A : B2R (lit 1 (-1) : f32) = / 2) by (destruct (B2R_of_SF (lit 1 (-1) : f32) false 8388608 (-24)) as [_ ->]; [vm_compute; reflexivity|cbn; lra]).
  split; [|split; [|split; [|split; [|split; [|split]]]]].
  - split; [|split; [|split]]; [repeat constructor; cbn; intuition discriminate|intro x; cbn; lia|cbn; lia|cbn; lia].
  - assert (RL : forall a b, ring_link loop_row 0 a b <-> In (a, b) [(3, 1); (2, 3); (0, 3); (3, 2)]%nat).
    { intros a b. unfold ring_link, loop_row. cbn [length nth_error Nat.sub In]. split.
      - intros [[-> E]|[(i & E1 & E2)|[[E ->]|[E1 E2]]]]; [injection E as <-; tauto| |injection E as <-; tauto|injection E1 as <-; injection E2 as <-; tauto].
        destruct i as [|[|i]]; cbn in E1, E2; [injection E1 as <-; injection E2 as <-; tauto|discriminate|destruct i; discriminate].
      - intros [E|[E|[E|[E|[]]]]]; injection E as <- <-; [right; right; left; auto|right; right; right; auto|left; auto|right; left; exists 0%nat; auto]. }
    intros a b. rewrite RL. split.
    + intro H. apply connected_In in H. cbn in H |- *. repeat (destruct H as [H|H]; [try discriminate; injection H as <- <-; tauto|]). destruct H.
    + intro H. apply connected_by.
      * cbn in H |- *. repeat (destruct H as [H|H]; [injection H as <- <-; tauto|]). destruct H.
      * cbn. intro D. repeat (destruct D as [D|D]; [discriminate|]). destruct D.
  - intros p [<-|[<-|[]]]; [|exact I]. split; [vm_compute; reflexivity|]. rewrite A, Rabs_pos_eq by lra. apply Rle_trans with (bpow radix2 0); [cbn; lra|apply bpow_le; lia].
  - unfold ring_gain, path_parts, loop_parts, loop_row. cbn [map nth Nat.sub fold_right l_gain]. rewrite A, Rabs_pos_eq by lra. lra.
  - unfold ring_gain, path_parts, loop_parts, loop_row. cbn [map nth Nat.sub fold_right l_gain chain_err l_drift]. rewrite A, Rabs_pos_eq by lra. change (bpow radix2 (-24)) with (/ 16777216). lra.
  - unfold path_parts, loop_parts, loop_row. cbn [map nth Nat.sub chain_amp l_gain l_drift]. rewrite A, Rabs_pos_eq by lra. apply Rle_trans with (bpow radix2 10); [|apply bpow_le; lia].
    change (bpow radix2 (-24)) with (/ 16777216). change (bpow radix2 10) with 1024. lra.
  - vm_compute. reflexivity.
Qed.
