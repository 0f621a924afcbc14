(** * Levelled ComplexSounds: order and dataflow *)
From Coq Require Import ZArith List Bool Arith Lia.
From Verif Require Import Model.Floats Model.Modifiers Model.Sounds Spec.SoundSpec Spec.Parts Spec.Flow Spec.Branches Proof.OrderP Proof.SoundsP Proof.SoundsP2 Proof.SoundsP3 Proof.PartsP Proof.FlowP Proof.FlowP2 Proof.LevelP.
Import ListNotations.

Section Sound.
Variable U : Type. Variable up : U -> f32 -> U. Variable uo : U -> res (f32 * U).
Local Notation heap := (heap U). Local Notation block := (block U).
Local Notation bprime := (b_prime U up). Local Notation bproc := (b_process U uo).

Lemma levelled_order h gi go pre e s : let ops := pre ++ [e] in reaches_state U up uo h gi go ops s -> edits_order e = true ->
  levelled (blocks ops) (connected ops) ->
  (forall x, x < blocks ops -> In x (cs_order s)) /\ (forall a b, connected ops a b -> b <> 0 -> precedes (cs_order s) a b).
Proof.
  intros ops RS He (T & N1 & dep & D & p & H0 & HS & HD & HO).
  pose proof (order_wf U up uo h gi go pre e s RS He) as (mid & OQ & _).
  destruct RS as (ys0 & h0 & R0). destruct (history_ginv U up uo _ _ _ _ _ _ _ R0) as [G O]. specialize (O _ _ eq_refl He).
  pose proof G as (_ & _ & LN & W & NE & CE). fold ops in LN, CE.
  assert (T' : forall a a' b, b <> 1 -> In (a, b) (g_edges (cs_graph s)) -> In (a', b) (g_edges (cs_graph s)) -> a = a') by (intros a a' b Nb A B; apply (T a a' b Nb); apply CE; assumption).
  assert (N1' : forall b, ~ In (1, b) (g_edges (cs_graph s))) by (intros b A; apply (N1 b), CE, A).
  assert (H0' : forall x, In x (externals_in (cs_graph s)) -> x <> 1 -> dep x = 0).
  { intros x Hx. apply externals_In in Hx. rewrite LN in Hx. apply H0. split; [apply Hx|]. intros a Ha. apply (proj2 Hx a), CE, Ha. }
  assert (HS' : forall a b, In (a, b) (g_edges (cs_graph s)) -> b <> 1 -> dep b = S (dep a)) by (intros a b A; apply HS, CE, A).
  assert (SB : forall x, sourced (cs_graph s) x -> x < blocks ops).
  { intros x (z & Hz & K). rewrite <- LN. destruct K as [a|a b c _ K]; [apply externals_In in Hz; apply Hz|apply (W _ _ K)]. }
  assert (HD' : forall x, sourced (cs_graph s) x -> x <> 1 -> dep x <= D) by (intros x Hx; apply HD, SB, Hx).
  assert (HO' : forall a, In (a, 1) (g_edges (cs_graph s)) -> a = p \/ D <= S (dep a)) by (intros a A; apply HO, CE, A).
  assert (ALL : forall x, x <> 1 -> x < length (g_nodes (cs_graph s)) -> sourced (cs_graph s) x).
  { intros x. apply (level_sourced (cs_graph s) W N1' dep HS' (S (dep x)) x). lia. }
  split.
  - intros x Hx. destruct (Nat.eq_dec x 1) as [->|Nx]; [rewrite OQ; right; apply in_or_app; right; left; reflexivity|].
    apply (level_complete (cs_graph s) W NE T' N1' dep D p H0' HS' HD' HO' _ O). apply ALL; [exact Nx|rewrite LN; exact Hx].
  - intros a b Hab Nb. assert (A : In (a, b) (g_edges (cs_graph s))) by (apply CE, Hab).
    apply (level_topo (cs_graph s) W NE T' N1' dep D p H0' HS' HD' HO' _ O a b A); [|exact Nb]. apply ALL; [intros ->; exact (N1' b A)|apply (W _ _ A)].
Qed.

(** a complete order in which inputs come first leaves no delays *)
Lemma sync_flow h gi go pre e s hp bs xs ys hp' : let ops := pre ++ [e] in reaches_state U up uo h gi go ops s -> edits_order e = true ->
  (forall x, x < blocks ops -> In x (cs_order s)) -> (forall a b, connected ops a b -> precedes (cs_order s) a b) -> (forall a, ~ connected ops a 0) ->
  cs_paused s = false -> cs_muted s = false -> NoDup (node_handles h ops) ->
  map (get_mut U hp) (node_handles h ops) = map Some bs -> xs <> [] ->
  run_res (cs_process U up uo s) hp xs = Ok (ys, hp') ->
  exists (P : nat -> list nat) (out : nat -> nat -> f32), (forall m, NoDup (P m) /\ forall a, In a (P m) <-> connected ops a m) /\
    ys = map (out 1) (seq 0 (length xs)) /\
    forall m b, nth_error bs m = Some b ->
      outputs (run_res (cycle bprime bproc) b (map (in_step P xs out m) (seq 0 (length xs)))) = Ok (map (out m) (seq 0 (length xs))).
Proof.
  intros ops RS He CPL TOP N0 Pa Mu ND GM NX R.
  pose proof RS as (ys0 & h0 & R0). destruct (proj1 (history_ginv U up uo _ _ _ _ _ _ _ R0)) as (_ & _ & LN & W & _ & CE). fold ops in LN, CE.
  set (E := fun a b => g_find_edge (cs_graph s) a b).
  assert (HE : forall a b, E a b = true <-> connected ops a b) by (intros; unfold E; rewrite find_edge_In; apply CE).
  destruct (dataflow U up uo h gi go ops s E hp bs xs ys hp' RS) as (out & Y & F); try assumption.
  { exists e. split; [apply in_or_app; right; left; reflexivity|exact He]. }
  destruct (order_wf U up uo h gi go pre e s RS He) as (mid & OQ & ON & _).
  assert (BL : forall a b, connected ops a b -> a < blocks ops) by (intros a b H; apply CE in H; rewrite <- LN; apply (W _ _ H)).
  exists (fun m => filter (fun a => E a m) (cs_order s)), out. split; [|split].
  - intro m. split; [apply NoDup_filter, ON|]. intro a. rewrite filter_In, HE. split; [tauto|]. intro H. split; [apply CPL, (BL a m H)|exact H].
  - exact Y.
  - intros m b Hb. assert (Lm : m < blocks ops).
    { rewrite <- LN, (nodes_of U up uo _ _ _ _ _ _ _ R0). pose proof (f_equal (@length _) GM) as K. rewrite !map_length in K. rewrite K. apply nth_error_Some. congruence. }
    destruct (split_at _ _ (CPL m Lm)) as (la & lb & Q). destruct (F la m lb Q NX) as (b' & B & K). assert (b' = b) as -> by congruence. rewrite <- K. f_equal. f_equal. apply map_ext. intro k.
    assert (Z : filter (fun a => E a m) (m :: lb) = []).
    { apply filter_none. intros c Hc. apply not_true_is_false. rewrite HE. intro H. exact (not_late _ la m lb c ON Q (TOP c m H) Hc). }
    assert (QF : filter (fun a => E a m) (cs_order s) = filter (fun a => E a m) la) by (rewrite Q, filter_app, Z; apply app_nil_r).
    unfold arrivals, in_step. rewrite Z, QF. destruct k; reflexivity.
Qed.
Lemma levelled_flow h gi go pre e s hp bs xs ys hp' : let ops := pre ++ [e] in reaches_state U up uo h gi go ops s -> edits_order e = true ->
  levelled (blocks ops) (connected ops) -> (forall a, ~ connected ops a 0) ->
  cs_paused s = false -> cs_muted s = false -> NoDup (node_handles h ops) ->
  map (get_mut U hp) (node_handles h ops) = map Some bs -> xs <> [] ->
  run_res (cs_process U up uo s) hp xs = Ok (ys, hp') ->
  exists (P : nat -> list nat) (out : nat -> nat -> f32), (forall m, NoDup (P m) /\ forall a, In a (P m) <-> connected ops a m) /\
    ys = map (out 1) (seq 0 (length xs)) /\
    forall m b, nth_error bs m = Some b ->
      outputs (run_res (cycle bprime bproc) b (map (in_step P xs out m) (seq 0 (length xs)))) = Ok (map (out m) (seq 0 (length xs))).
Proof.
  intros ops RS He LV N0. destruct (levelled_order h gi go pre e s RS He LV) as [A B]. apply (sync_flow h gi go pre e s); try assumption.
  intros a b H. apply B; [exact H|]. intros ->. exact (N0 a H).
Qed.
End Sound.
