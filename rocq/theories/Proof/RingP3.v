(** * A feedback loop in a ComplexSound: order and dataflow *)
From Coq Require Import ZArith List Bool Arith Reals Lra Lia.
From Flocq Require Import Core.Core IEEE754.BinarySingleNaN.
From Verif Require Import Model.Floats Model.Utils Model.Generators Model.Modifiers Model.Filters Model.Sounds Model.Parts
  Spec.SoundSpec Spec.Libm Spec.Response Spec.Track Spec.Parts Spec.Flow Spec.Chain Spec.Convolve Spec.Branches Spec.Feedback Spec.Ring
  Proof.FloatFacts Proof.SoundsP Proof.SoundsP2 Proof.SoundsP3 Proof.OrderP Proof.PartsP Proof.FlowP Proof.FlowP2 Proof.ChainP3 Proof.ChainP4 Proof.ConvolveP Proof.ConvolveP2 Proof.ConvolveP3
  Proof.RackP Proof.BranchP Proof.FeedbackP2 Proof.FeedbackP3 Proof.RingP Proof.RingP2.
Import ListNotations.
Local Open Scope nat_scope.

Section Graph.
Variables (n : nat) (L : list nat) (t : nat) (E : nat -> nat -> Prop).
Hypothesis RG : ring n L t.
Hypothesis HE : forall a b, E a b <-> ring_link L t a b.
Definition ring_back (L : list nat) (a b : nat) : bool := (a =? nth (length L - 1) L 0) && (b =? nth 0 L 0).
Lemma at_nth i x : nth_error L i = Some x -> nth i L 0 = x /\ i < length L /\ 2 <= x < n.
Proof.
  intro H. split; [apply nth_error_nth, H|]. split; [apply nth_error_Some; congruence|]. apply RG. apply (nth_error_In _ _ H).
Qed.
Lemma same_place i j x : nth_error L i = Some x -> nth_error L j = Some x -> i = j.
Proof. intros A B. pose proof (proj1 RG) as ND. rewrite NoDup_nth_error in ND. apply ND; [apply (at_nth i x A)|congruence]. Qed.
Lemma some_nth i : i < length L -> nth_error L i = Some (nth i L 0).
Proof. intro H. apply nth_error_nth', H. Qed.
Lemma ring_fwd a b : forward E (ring_back L) a b <->
  (a = 0 /\ nth_error L 0 = Some b) \/ (exists i, nth_error L i = Some a /\ nth_error L (S i) = Some b) \/ (nth_error L t = Some a /\ b = 1).
Proof.
  destruct RG as (_ & _ & L2 & _). unfold forward, ring_back. rewrite HE. split.
  - intros [[H|[H|[H|[H1 H2]]]] B]; [left; exact H|right; left; exact H|right; right; exact H|].
    exfalso. rewrite (proj1 (at_nth _ _ H1)), (proj1 (at_nth _ _ H2)), !Nat.eqb_refl in B. discriminate.
  - intro H. split; [unfold ring_link; tauto|]. apply andb_false_iff. destruct H as [[-> H]|[(i & H1 & H2)|[H1 ->]]].
    + left. apply Nat.eqb_neq. pose proof (at_nth _ _ (some_nth (length L - 1) ltac:(lia))). lia.
    + right. apply Nat.eqb_neq. intros ->. pose proof (same_place _ _ _ H2 (some_nth 0 ltac:(lia))). discriminate.
    + right. apply Nat.eqb_neq. pose proof (at_nth _ _ (some_nth 0 ltac:(lia))). lia.
Qed.
Lemma ring_source s : source n (forward E (ring_back L)) s -> s = 0.
Proof.
  intros [Ls Ns]. pose proof RG as (_ & CV & L2 & LT). destruct (Nat.eq_dec s 0); [assumption|]. exfalso. destruct (Nat.eq_dec s 1) as [->|N1].
  - apply (Ns (nth t L 0)), ring_fwd. right. right. split; [apply some_nth, LT|reflexivity].
  - assert (I : In s L) by (apply CV; lia). apply In_nth_error in I. destruct I as [[|i] I].
    + apply (Ns 0), ring_fwd. left. auto.
    + apply (Ns (nth i L 0)), ring_fwd. right. left. exists i. split; [apply some_nth; pose proof (at_nth _ _ I); lia|exact I].
Qed.
Lemma ring_feedback : with_feedback n E (ring_back L).
Proof.
  intros a b H B. pose proof RG as (ND & CV & L2 & LT). unfold ring_back in B. apply andb_true_iff in B. destruct B as [B1 B2]. apply Nat.eqb_eq in B1, B2.
  pose proof (some_nth (length L - 1) ltac:(lia)) as SA. pose proof (some_nth 0 ltac:(lia)) as SB. rewrite <- B1 in SA. rewrite <- B2 in SB. split; [|split].
  - intros ->. pose proof (same_place _ _ _ SA SB). lia.
  - exists 0. apply ring_fwd. left. auto.
  - intros s Hs K. apply ring_source in Hs. subst s.
    assert (Z : forall x y, leads (fun x y => forward E (ring_back L) x y /\ y <> b) x y -> x = 0 -> y = 0).
    { intros x y Q. induction Q as [x|x y z _ IH [F N]]; intro X0; [exact X0|]. specialize (IH X0). subst y. apply ring_fwd in F.
      destruct F as [[_ F]|[(i & F & _)|[F _]]]; [congruence|pose proof (at_nth _ _ F); lia|pose proof (at_nth _ _ F); lia]. }
    specialize (Z _ _ K eq_refl). pose proof (at_nth _ _ SA). lia.
Qed.
Definition ring_depth (x : nat) : nat := if x =? 0 then 0 else S (idx x L).
Lemma ring_depth_at i x : nth_error L i = Some x -> ring_depth x = S i.
Proof.
  intro H. destruct (at_nth _ _ H) as (_ & _ & R). unfold ring_depth. destruct (Nat.eqb_spec x 0); [lia|]. f_equal.
  apply (same_place _ _ x); [apply idx_nth, (nth_error_In _ _ H)|exact H].
Qed.
Lemma ring_levelled : levelled n (forward E (ring_back L)).
Proof.
  pose proof RG as (ND & CV & L2 & LT). split; [|split].
  - intros a a' b Nb H1 H2. apply ring_fwd in H1, H2.
    destruct H1 as [[-> H1]|[(i & H1 & H1')|[_ H1]]]; [| |congruence]; (destruct H2 as [[-> H2]|[(j & H2 & H2')|[_ H2]]]; [| |congruence]).
    + reflexivity.
    + pose proof (same_place _ _ _ H1 H2'). discriminate.
    + pose proof (same_place _ _ _ H1' H2). discriminate.
    + pose proof (same_place _ _ _ H1' H2') as Q. injection Q as ->. congruence.
  - intros b H. apply ring_fwd in H. destruct H as [[H _]|[(i & H & _)|[H _]]]; [discriminate|pose proof (at_nth _ _ H); lia|pose proof (at_nth _ _ H); lia].
  - exists ring_depth, (length L), (nth t L 0). split; [|split; [|split]].
    + intros x Hx _. apply ring_source in Hx. subst x. reflexivity.
    + intros a b H Nb. apply ring_fwd in H. destruct H as [[-> H]|[(i & H & H')|[_ H]]]; [| |congruence].
      * rewrite (ring_depth_at _ _ H). reflexivity.
      * rewrite (ring_depth_at _ _ H), (ring_depth_at _ _ H'). reflexivity.
    + intros x Lx Nx. destruct (Nat.eq_dec x 0) as [->|N0]; [cbn; lia|]. assert (I : In x L) by (apply CV; lia). apply In_nth_error in I. destruct I as [i I].
      rewrite (ring_depth_at _ _ I). pose proof (at_nth _ _ I). lia.
    + intros a H. apply ring_fwd in H. left. destruct H as [[_ H]|[(i & _ & H)|[H _]]]; [pose proof (at_nth _ _ H); lia|pose proof (at_nth _ _ H); lia|symmetry; apply (at_nth _ _ H)].
Qed.
Lemma ring_no_0 a : ~ E a 0.
Proof. intro H. apply HE in H. destruct H as [[_ H]|[(i & _ & H)|[[_ H]|[_ H]]]]; try discriminate; pose proof (at_nth _ _ H); lia. Qed.
End Graph.

Lemma firstn_more {A} (l : list A) i x : nth_error l i = Some x -> firstn (S i) l = firstn i l ++ [x].
Proof. revert i. induction l as [|y l IH]; intros [|i] H; try discriminate; cbn in H; [injection H as ->; reflexivity|]. cbn [firstn app]. f_equal. apply IH, H. Qed.
Lemma ring_flow m ps L t h gi go pre e s hp xs ys hp' : let ops := pre ++ [e] in
  reaches_state kit kit_prime (kit_process m) h gi go ops s -> edits_order e = true ->
  ring (blocks ops) L t -> (forall a b, connected ops a b <-> ring_link L t a b) ->
  cs_paused s = false -> cs_muted s = false -> NoDup (node_handles h ops) ->
  map (get_mut kit hp) (node_handles h ops) = map Some (Gainer kit (gain_block (to32 gi)) :: Gainer kit (gain_block (to32 go)) :: map (chain_block m) ps) -> xs <> [] ->
  run_res (cs_process kit kit_prime (kit_process m) s) hp xs = Ok (ys, hp') ->
  let zs := map (fun x => fmul (fadd f0 x) (to32 gi)) xs in let parts := path_parts ps L in
  (forall x, In x L -> nth_error ps (x - 2) = Some (nth (x - 2) ps LPass)) /\
  exists us vs ts, length us = length zs /\
    pipeline (b_prime kit kit_prime) (b_process kit (kit_process m)) (map (chain_block m) parts) us = Ok vs /\
    pipeline (b_prime kit kit_prime) (b_process kit (kit_process m)) (map (chain_block m) (firstn (S t) parts)) us = Ok ts /\
    (forall k, k < length zs -> nth k us f0 = match k with O => fadd f0 (nth 0 zs f0) | S j => fadd (fadd f0 (nth j vs f0)) (nth k zs f0) end) /\
    ys = map (fun y => fmul (fadd f0 y) (to32 go)) ts.
Proof.
  intros ops RS He RG CO Pa Mu ND GM NX R zs parts. set (bs := Gainer kit (gain_block (to32 gi)) :: Gainer kit (gain_block (to32 go)) :: map (chain_block m) ps) in *.
  pose proof RG as (NL & CV & L2 & LT).
  assert (LP : blocks ops = 2 + length ps).
  { pose proof RS as (ys0 & h0 & R0). destruct (proj1 (history_ginv kit kit_prime (kit_process m) _ _ _ _ _ _ _ R0)) as (_ & _ & LN & _).
    fold ops in LN. rewrite <- LN, (nodes_of kit kit_prime (kit_process m) _ _ _ _ _ _ _ R0). pose proof (f_equal (@length _) GM) as Q. rewrite !map_length in Q. cbn [length bs] in Q. rewrite map_length in Q. exact Q. }
  assert (IX : forall x, In x L -> nth_error ps (x - 2) = Some (nth (x - 2) ps LPass)).
  { intros x Hx. apply nth_error_nth'. apply CV in Hx. lia. }
  split; [exact IX|].
  destruct (feedback_flow kit kit_prime (kit_process m) h gi go pre e s hp bs xs ys hp' (ring_back L) RS He (ring_feedback _ L t _ RG CO) (ring_levelled _ L t _ RG CO)
    (ring_no_0 _ L t _ RG CO) Pa Mu ND GM NX R) as (P & Q & out & HP & HQ & Y & F). fold ops in HP, HQ. set (n := length xs) in *.
  assert (HP' : forall b, NoDup (P b) /\ forall x, In x (P b) <-> (x = 0 /\ nth_error L 0 = Some b) \/ (exists i, nth_error L i = Some x /\ nth_error L (S i) = Some b) \/ (nth_error L t = Some x /\ b = 1)).
  { intro b. split; [apply HP|]. intro x. rewrite (proj2 (HP b) x). apply (ring_fwd _ L t _ RG CO). }
  set (node := fun i => nth i L 0). set (lst := length L - 1).
  assert (SN : forall i, i < length L -> nth_error L i = Some (node i)) by (intros; apply nth_error_nth'; assumption).
  assert (AN : forall i x, nth_error L i = Some x -> node i = x /\ i < length L /\ 2 <= x < blocks ops) by (apply (at_nth _ L t RG)).
  assert (SP : forall i j x, nth_error L i = Some x -> nth_error L j = Some x -> i = j) by (apply (same_place _ L t RG)).
  assert (R2 : forall i, i < length L -> 2 <= node i < blocks ops) by (intros i Hi; apply (AN i), SN, Hi).
  assert (HQ' : forall b, NoDup (Q b) /\ forall x, In x (Q b) <-> x = node lst /\ b = node 0).
  { intro b. split; [apply HQ|]. intro x. rewrite (proj2 (HQ b) x), CO. unfold ring_back. rewrite andb_true_iff, !Nat.eqb_eq. fold lst. fold (node lst). fold (node 0). split; [tauto|]. intros [-> ->]. split; [|auto].
    right. right. right. split; apply SN; unfold lst; lia. }
  assert (P0 : P 0 = []) by (apply no_one; intros x Hx; apply HP' in Hx; destruct Hx as [[_ Hx]|[(i & _ & Hx)|[_ Hx]]]; [pose proof (AN _ _ Hx); lia|pose proof (AN _ _ Hx); lia|discriminate]).
  assert (P1 : P 1 = [node t]).
  { apply only_one; [apply HP'|]. intro x. rewrite (proj2 (HP' 1)). split.
    - intros [[_ Hx]|[(i & _ & Hx)|[Hx _]]]; [pose proof (AN _ _ Hx); lia|pose proof (AN _ _ Hx); lia|symmetry; apply (AN _ _ Hx)].
    - intros ->. right. right. split; [apply SN, LT|reflexivity]. }
  assert (PF : P (node 0) = [0]).
  { apply only_one; [apply HP'|]. intro x. rewrite (proj2 (HP' (node 0))). pose proof (R2 0 ltac:(lia)). split.
    - intros [[Hx _]|[(i & _ & Hx)|[_ Hx]]]; [exact Hx| |lia]. pose proof (SP _ _ _ Hx (SN 0 ltac:(lia))). discriminate.
    - intros ->. left. split; [reflexivity|apply SN; lia]. }
  assert (PS : forall i, S i < length L -> P (node (S i)) = [node i]).
  { intros i Hi. apply only_one; [apply HP'|]. intro x. rewrite (proj2 (HP' (node (S i)))). pose proof (R2 (S i) Hi). split.
    - intros [[_ Hx]|[(j & Hx & Hx')|[_ Hx]]]; [|symmetry|lia].
      + pose proof (SP _ _ _ Hx (SN (S i) Hi)). discriminate.
      + pose proof (SP _ _ _ Hx' (SN (S i) Hi)) as Z. injection Z as ->. apply (AN _ _ Hx).
    - intros ->. right. left. exists i. split; apply SN; lia. }
  assert (QF : Q (node 0) = [node lst]) by (apply only_one; [apply HQ'|]; intro x; rewrite (proj2 (HQ' (node 0))); tauto).
  assert (QN : forall b, b <> node 0 -> Q b = []) by (intros b Nb; apply no_one; intros x Hx; apply HQ' in Hx; tauto).
  assert (FB : forall b k, fed_back P Q xs out b k = match k with O => [] | S j => map (fun x => out x j) (Q b) end ++ (if b =? 0 then [nth k xs f0] else []) ++ map (fun x => out x k) (P b)) by reflexivity.
  assert (N00 : node 0 <> 0) by (pose proof (R2 0 ltac:(lia)); lia).
  assert (E0 : map (out 0) (seq 0 n) = zs).
  { pose proof (F 0 _ eq_refl) as K. rewrite gain_cycles, map_map in K. unfold zs, n. rewrite <- (nth_seq_map (fun x => fmul (fadd f0 x) (to32 gi)) f0 xs). fold n.
    assert (K' := f_equal (fun r => match r with Ok l => l | Panic => [] end) K). cbn beta iota in K'. rewrite <- K'. apply map_ext. intro k.
    rewrite FB, P0, QN by auto. destruct k; reflexivity. }
  set (us := map (fun k => sum_in (fed_back P Q xs out (node 0) k)) (seq 0 n)).
  assert (BL : forall i x, nth_error L i = Some x -> nth_error bs x = Some (chain_block m (nth (x - 2) ps LPass))).
  { intros i x Hx. destruct (AN _ _ Hx) as (_ & _ & R'). unfold bs. destruct x as [|[|x]]; [lia|lia|]. cbn [nth_error]. rewrite nth_error_map. replace (S (S x) - 2) with x by lia.
    pose proof (IX (S (S x)) (nth_error_In _ _ Hx)) as Z. replace (S (S x) - 2) with x in Z by lia. rewrite Z. reflexivity. }
  assert (PIP : forall i, i < length L -> pipeline (b_prime kit kit_prime) (b_process kit (kit_process m)) (map (chain_block m) (firstn (S i) parts)) us = Ok (map (out (node i)) (seq 0 n))).
  { assert (NP : forall i, i < length L -> nth_error parts i = Some (nth (node i - 2) ps LPass)).
    { intros i Hi. unfold parts, path_parts. rewrite nth_error_map, (SN i Hi). reflexivity. }
    induction i as [|i IH]; intro Hi; rewrite (firstn_more parts _ _ (NP _ Hi)), map_app; cbn [map].
    - cbn [firstn map app]. rewrite pipeline_cons. cbn [pipeline]. rewrite <- (F (node 0) _ (BL 0 _ (SN 0 Hi))). unfold chain_block. rewrite !mod_cycles. unfold us. rewrite !map_map.
      replace (map (fun k => sum_in [sum_in (fed_back P Q xs out (node 0) k)]) (seq 0 n)) with (map (fun k => sum_in (fed_back P Q xs out (node 0) k)) (seq 0 n)).
      + destruct (outputs _); reflexivity.
      + apply map_ext. intro k. symmetry. apply sum_in_same.
    - rewrite pipeline_snoc, IH by lia. cbn [bind]. rewrite <- (F (node (S i)) _ (BL (S i) _ (SN (S i) Hi))). do 2 f_equal. rewrite map_map. apply map_ext. intro k.
      rewrite FB, PS by exact Hi. pose proof (R2 (S i) Hi). rewrite QN; [|intro Z; pose proof (SP (S i) 0 (node 0)) as Z2; rewrite <- Z in Z2 at 1; specialize (Z2 (SN _ Hi) (SN 0 ltac:(lia))); discriminate].
      destruct (Nat.eqb_spec (node (S i)) 0); [lia|]. destruct k; reflexivity. }
  exists us, (map (out (node lst)) (seq 0 n)), (map (out (node t)) (seq 0 n)).
  assert (Lz : length zs = n) by (unfold zs; apply map_length).
  split; [unfold us; rewrite map_length, seq_length; auto|]. split; [|split; [|split]].
  - rewrite <- (PIP lst) by (unfold lst; lia). do 2 f_equal. symmetry. apply firstn_all2. unfold parts, path_parts, lst. rewrite map_length. lia.
  - apply PIP, LT.
  - intros k Hk. rewrite Lz in Hk.
    assert (NM : forall (f : nat -> f32) j, j < n -> nth j (map f (seq 0 n)) f0 = f j).
    { intros f j Hj. rewrite (nth_indep _ f0 (f 0)) by (rewrite map_length, seq_length; exact Hj). rewrite map_nth, seq_nth by exact Hj. reflexivity. }
    unfold us. rewrite NM by exact Hk. rewrite FB, PF, QF. rewrite <- E0. destruct (Nat.eqb_spec (node 0) 0); [contradiction|]. destruct k as [|j].
    + rewrite NM by exact Hk. reflexivity.
    + rewrite !NM by lia. reflexivity.
  - rewrite Y. pose proof (F 1 _ eq_refl) as K. rewrite gain_cycles, map_map in K. assert (K' := f_equal (fun r => match r with Ok l => l | Panic => [] end) K). cbn beta iota in K'.
    rewrite <- K', map_map. apply map_ext. intro k. rewrite FB, P1, QN by (pose proof (R2 0 ltac:(lia)); lia). destruct k; reflexivity.
Qed.
