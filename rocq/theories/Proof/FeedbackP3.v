(** * A feedback loop around a Delay and a Gain *)
From Coq Require Import ZArith List Bool Arith Lia Wf_nat.
From Flocq Require Import IEEE754.BinarySingleNaN.
From Verif Require Import Model.Floats Model.Modifiers Model.Sounds Model.Parts Spec.SoundSpec Spec.Parts Spec.Flow Spec.Branches Spec.Feedback Spec.Convolve
  Proof.FloatFacts Proof.OrderP Proof.ModifiersP Proof.SoundsP Proof.SoundsP2 Proof.SoundsP3 Proof.PartsP Proof.FlowP Proof.FlowP2 Proof.ChainP4 Proof.ConvolveP3 Proof.FeedbackP2.
Import ListNotations.
Local Open Scope nat_scope.

Definition loop_edges : list (nat * nat) := [(0, 2); (2, 1); (2, 3); (3, 4); (4, 2)].
Definition loop_back (a b : nat) : bool := (a =? 4) && (b =? 2).
Ltac edges H := cbn in H; repeat (destruct H as [H|H]; [first [discriminate H|injection H; clear H; intros; subst]|]); [..|destruct H].
Section Loop.
Variable E : nat -> nat -> Prop.
Hypothesis HE : forall a b, E a b <-> In (a, b) loop_edges.
Lemma loop_fwd a b : forward E loop_back a b <-> In (a, b) [(0, 2); (2, 1); (2, 3); (3, 4)].
Proof.
  unfold forward. rewrite HE. split.
  - intros [H B]. edges H; try discriminate; cbn; tauto.
  - intro H. edges H; (split; [cbn; tauto|reflexivity]).
Qed.
Lemma loop_feedback : with_feedback 5 E loop_back.
Proof.
  intros a t H B. apply HE in H. edges H; try discriminate. clear B. split; [discriminate|]. split; [exists 0; apply loop_fwd; cbn; tauto|].
  intros s (Ls & Ns) K.
  assert (I : s = 0). { destruct (Nat.eq_dec s 0); [assumption|]. exfalso. assert (C : s = 1 \/ s = 2 \/ s = 3 \/ s = 4) by lia.
    destruct C as [->|[->|[->| ->]]]; [apply (Ns 2)|apply (Ns 0)|apply (Ns 2)|apply (Ns 3)]; apply loop_fwd; cbn; tauto. }
  subst s. assert (Z : forall x y, leads (fun x y => forward E loop_back x y /\ y <> 2) x y -> x = 0 -> y = 0).
  { intros x y L. induction L as [x|x y z _ IH [F N]]; intro Q; [exact Q|]. specialize (IH Q). subst y. apply loop_fwd in F. edges F. congruence. }
  specialize (Z _ _ K eq_refl). discriminate.
Qed.
Lemma loop_levelled : levelled 5 (forward E loop_back).
Proof.
  split; [|split].
  - intros a a' b Nb H1 H2. apply loop_fwd in H1, H2. edges H1; try congruence; edges H2; try congruence; try discriminate.
  - intros b H. apply loop_fwd in H. cbn in H. repeat (destruct H as [H|H]; [discriminate|]). destruct H.
  - exists (fun x => x - 1), 3, 2. split; [|split; [|split]].
    + intros x (Lx & Nx) N1. destruct (Nat.eq_dec x 0) as [->|N0]; [reflexivity|]. exfalso. assert (C : x = 2 \/ x = 3 \/ x = 4) by lia.
      destruct C as [->|[->| ->]]; [apply (Nx 0)|apply (Nx 2)|apply (Nx 3)]; apply loop_fwd; cbn; tauto.
    + intros a b H Nb. apply loop_fwd in H. edges H; try congruence; reflexivity.
    + intros x Lx Nx. lia.
    + intros a H. apply loop_fwd in H. cbn in H. repeat (destruct H as [H|H]; [try discriminate; injection H as <-; left; reflexivity|]). destruct H.
Qed.
End Loop.

Lemma only_one (l : list nat) c : NoDup l -> (forall a, In a l <-> a = c) -> l = [c].
Proof.
  intros ND H. destruct l as [|a [|b l]].
  - exfalso. apply (proj2 (H c) eq_refl).
  - f_equal. apply H. left. reflexivity.
  - exfalso. assert (a = c) by (apply H; left; reflexivity). assert (b = c) by (apply H; right; left; reflexivity). subst. inversion ND as [|? ? N _]. apply N. left. reflexivity.
Qed.
Lemma no_one (l : list nat) : (forall a, ~ In a l) -> l = [].
Proof. destruct l as [|a l]; intro H; [reflexivity|]. destruct (H a). left. reflexivity. Qed.
Lemma map_seq_nth {A} (f g : nat -> A) n : map f (seq 0 n) = map g (seq 0 n) -> forall k, k < n -> f k = g k.
Proof.
  intros H k L. assert (K : forall f : nat -> A, nth_error (map f (seq 0 n)) k = Some (f k)).
  { intro f1. rewrite nth_error_map, (nth_error_nth' (seq 0 n) 0), seq_nth by (rewrite ?seq_length; lia). reflexivity. }
  pose proof (K f) as A1. rewrite H, (K g) in A1. congruence.
Qed.
Lemma mod_cycles m p ls : outputs (run_res (cycle (b_prime kit kit_prime) (b_process kit (kit_process m))) (User kit (kit_modifier p)) ls) = outputs (run_res (m_step m) p (map sum_in ls)).
Proof.
  rewrite user_cycle, kit_modifier_filters. f_equal. revert p. induction ls as [|l r IH]; intro p; [reflexivity|]. cbn [map run_res].
  change (mod_alone (m_step m) p l) with (m_step m p (sum_in l)). destruct (m_step m p (sum_in l)) as [[y p']|]; [|reflexivity]. cbn [bind]. rewrite IH. reflexivity.
Qed.
Lemma pass_run m xs : outputs (run_res (m_step m) MPass xs) = Ok xs.
Proof. induction xs as [|x r IH]; [reflexivity|]. rewrite outputs_cons. cbn [m_step passthrough_process fst bind]. rewrite IH. reflexivity. Qed.
Lemma gain_run m a xs : outputs (run_res (m_step m) (MGain a) xs) = Ok (map (fun x => fmul x a) xs).
Proof. induction xs as [|x r IH]; [reflexivity|]. rewrite outputs_cons. cbn [m_step gain_process bind]. rewrite IH. reflexivity. Qed.
Lemma delay_m m q xs : outputs (run_res (m_step m) (MDelay q) xs) = outputs (run_res delay_process q xs).
Proof.
  revert q. induction xs as [|x r IH]; intro q; [reflexivity|]. rewrite !outputs_cons. cbn [m_step]. destruct (delay_process q x) as [[y q']|]; [|reflexivity]. cbn [bind]. rewrite IH. reflexivity.
Qed.
Lemma same_trans {p e} (x y z : binary_float p e) : same x y -> same y z -> same x z.
Proof. intros [->|[A B]] [->|[C D]]; [left; reflexivity|right; tauto|right; tauto|right; tauto]. Qed.
Lemma same_zero_add (x : f32) : same (fadd f0 x) x.
Proof. destruct x as [s|s| |s k e H]; try (left; reflexivity). right. destruct s; split; eexists; reflexivity. Qed.

Lemma loop_is_echo m d a h gi go pre e s hp xs ys hp' : let ops := pre ++ [e] in
  reaches_state kit kit_prime (kit_process m) h gi go ops s -> edits_order e = true ->
  blocks ops = 5 -> (forall x y, connected ops x y <-> In (x, y) [(0, 2); (2, 1); (2, 3); (3, 4); (4, 2)]) ->
  cs_paused s = false -> cs_muted s = false -> NoDup (node_handles h ops) ->
  map (get_mut kit hp) (node_handles h ops) = map Some [Gainer kit (gain_block (to32 gi)); Gainer kit (gain_block (to32 go));
    User kit (kit_modifier MPass); User kit (kit_modifier (MDelay (repeat f0 d))); User kit (kit_modifier (MGain a))] ->
  is_finite a = true -> run_res (cs_process kit kit_prime (kit_process m) s) hp xs = Ok (ys, hp') ->
  exists es q, run_res echo_process (mkEcho (repeat f0 (S d)) a) (map (fun x => fmul (fadd f0 x) (to32 gi)) xs) = Ok (es, q) /\
    Forall2 same_sample ys (map (fun y => fmul y (to32 go)) es).
Proof.
  intros ops RS He BL CE Pa Mu ND GM Fa R. set (zs := map (fun x => fmul (fadd f0 x) (to32 gi)) xs).
  destruct (echo_recurrence (S d) a zs (Nat.lt_0_succ d)) as (es & q' & ER & LE & _ & REC). exists es, (mkEcho q' a). split; [exact ER|].
  assert (Lz : length zs = length xs) by apply map_length.
  assert (NX : xs = [] \/ xs <> []) by (destruct xs; [left; reflexivity|right; discriminate]). destruct NX as [EX|NX].
  { rewrite EX in R, Lz. cbn in R. assert (ys = []) as -> by congruence. rewrite Lz in LE. destruct es; [constructor|discriminate LE]. }
  set (bs := [Gainer kit (gain_block (to32 gi)); Gainer kit (gain_block (to32 go)); User kit (kit_modifier MPass); User kit (kit_modifier (MDelay (repeat f0 d))); User kit (kit_modifier (MGain a))]) in GM.
  destruct (feedback_flow kit kit_prime (kit_process m) h gi go pre e s hp bs xs ys hp' loop_back RS He) as (P & Q & out & HP & HQ & Y & F); try assumption.
  { fold ops. rewrite BL. apply loop_feedback, CE. }
  { fold ops. rewrite BL. apply loop_levelled, CE. }
  { intros x Hx. apply CE in Hx. edges Hx. }
  fold ops in HP, HQ. set (n := length xs) in *.
  assert (HP' : forall b, NoDup (P b) /\ forall x, In x (P b) <-> In (x, b) [(0, 2); (2, 1); (2, 3); (3, 4)]).
  { intro b. split; [apply HP|]. intro x. rewrite (proj2 (HP b) x). apply (loop_fwd _ CE). }
  assert (HQ' : forall b, NoDup (Q b) /\ forall x, In x (Q b) <-> x = 4 /\ b = 2).
  { intro b. split; [apply HQ|]. intro x. rewrite (proj2 (HQ b) x), CE. unfold loop_back. rewrite andb_true_iff, !Nat.eqb_eq. split; [tauto|]. intros [-> ->]. cbn. tauto. }
  assert (P0 : P 0 = []) by (apply no_one; intros x Hx; apply HP' in Hx; edges Hx).
  assert (P1 : P 1 = [2]) by (apply only_one; [apply HP'|]; intro x; rewrite (proj2 (HP' 1)); split; [intro Hx; cbn in Hx; repeat (destruct Hx as [Hx|Hx]; [try discriminate; injection Hx as <-; reflexivity|]); destruct Hx|intros ->; cbn; tauto]).
  assert (P2 : P 2 = [0]) by (apply only_one; [apply HP'|]; intro x; rewrite (proj2 (HP' 2)); split; [intro Hx; cbn in Hx; repeat (destruct Hx as [Hx|Hx]; [try discriminate; injection Hx as <-; reflexivity|]); destruct Hx|intros ->; cbn; tauto]).
  assert (P3 : P 3 = [2]) by (apply only_one; [apply HP'|]; intro x; rewrite (proj2 (HP' 3)); split; [intro Hx; cbn in Hx; repeat (destruct Hx as [Hx|Hx]; [try discriminate; injection Hx as <-; reflexivity|]); destruct Hx|intros ->; cbn; tauto]).
  assert (P4 : P 4 = [3]) by (apply only_one; [apply HP'|]; intro x; rewrite (proj2 (HP' 4)); split; [intro Hx; cbn in Hx; repeat (destruct Hx as [Hx|Hx]; [try discriminate; injection Hx as <-; reflexivity|]); destruct Hx|intros ->; cbn; tauto]).
  assert (Q2 : Q 2 = [4]) by (apply only_one; [apply HQ'|]; intro x; rewrite (proj2 (HQ' 2)); tauto).
  assert (QN : forall b, b <> 2 -> Q b = []) by (intros b Nb; apply no_one; intros x Hx; apply HQ' in Hx; tauto).
  assert (FB : forall b k, fed_back P Q xs out b k = match k with O => [] | S j => map (fun x => out x j) (Q b) end ++ (if b =? 0 then [nth k xs f0] else []) ++ map (fun x => out x k) (P b)) by reflexivity.
  (* the blocks, one by one *)
  assert (O0 : forall k, k < n -> out 0 k = nth k zs f0).
  { pose proof (F 0 _ eq_refl) as K. rewrite gain_cycles, map_map in K. assert (K' := f_equal (fun r => match r with Ok l => l | Panic => [] end) K). cbn beta iota in K'.
    intros k L. rewrite <- (map_seq_nth _ _ _ K' k L), FB, P0, QN by discriminate. unfold zs.
    rewrite (nth_indep (map _ xs) f0 (fmul (fadd f0 f0) (to32 gi))) by (rewrite map_length; exact L). rewrite (map_nth (fun x => fmul (fadd f0 x) (to32 gi))). destruct k; reflexivity. }
  assert (O1 : forall k, k < n -> out 1 k = fmul (fadd f0 (out 2 k)) (to32 go)).
  { pose proof (F 1 _ eq_refl) as K. rewrite gain_cycles, map_map in K. assert (K' := f_equal (fun r => match r with Ok l => l | Panic => [] end) K). cbn beta iota in K'.
    intros k L. rewrite <- (map_seq_nth _ _ _ K' k L), FB, P1, QN by discriminate. destruct k; reflexivity. }
  assert (O2 : forall k, k < n -> out 2 k = match k with O => fadd f0 (out 0 0) | S j => fadd (fadd f0 (out 4 j)) (out 0 k) end).
  { pose proof (F 2 _ eq_refl) as K. rewrite mod_cycles, pass_run, map_map in K. assert (K' := f_equal (fun r => match r with Ok l => l | Panic => [] end) K). cbn beta iota in K'.
    intros k L. rewrite <- (map_seq_nth _ _ _ K' k L), FB, P2, Q2. destruct k; reflexivity. }
  assert (O3 : forall k, k < n -> out 3 k = if k <? d then f0 else fadd f0 (out 2 (k - d))).
  { pose proof (F 3 _ eq_refl) as K. rewrite mod_cycles, delay_m, map_map in K.
    destruct (delay_exact d (map (fun x => sum_in (fed_back P Q xs out 3 x)) (seq 0 n))) as (ds & dq & DR & DL & _ & DN). rewrite DR in K. cbn [outputs] in K.
    assert (K' : ds = map (out 3) (seq 0 n)) by (injection K; auto). rewrite map_length, seq_length in DN.
    intros k L. specialize (DN k L). rewrite K', nth_error_map, (nth_error_nth' (seq 0 n) 0), seq_nth in DN by (rewrite ?seq_length; lia). cbn [option_map] in DN.
    destruct (Nat.ltb_spec k d) as [Lk|Lk]; [cbn in DN; congruence|].
    rewrite nth_error_map, (nth_error_nth' (seq 0 n) 0), seq_nth in DN by (rewrite ?seq_length; lia). cbn [option_map] in DN.
    rewrite FB, P3, QN in DN by discriminate. cbn [Nat.add] in DN. destruct (k - d); cbn [map app Nat.eqb] in DN; unfold sum_in in DN; cbn [fold_left] in DN; congruence. }
  assert (O4 : forall k, k < n -> out 4 k = fmul (fadd f0 (out 3 k)) a).
  { pose proof (F 4 _ eq_refl) as K. rewrite mod_cycles, gain_run, !map_map in K. assert (K' := f_equal (fun r => match r with Ok l => l | Panic => [] end) K). cbn beta iota in K'.
    intros k L. rewrite <- (map_seq_nth _ _ _ K' k L), FB, P4, QN by discriminate. destruct k; reflexivity. }
  clear F FB HP HQ HP' HQ' P0 P1 P2 P3 P4 Q2 QN.
  assert (Za : zero (fmul f0 a)) by (apply zero_mul'; [exact zero_f0|exact Fa]).
  (* the echo *)
  assert (EK : forall k, k < n -> same (out 2 k) (nth k es f0)).
  { intro k. induction (lt_wf k) as [k _ IH]. intro L.
    assert (Zk : nth_error zs k = Some (nth k zs f0)) by (apply nth_error_nth'; rewrite Lz; exact L).
    destruct (REC k _ Zk) as (o & Ho & Hk). rewrite (nth_error_nth es k f0 Hk). rewrite (O2 k L). destruct k as [|k].
    - cbn in Ho. subst o. rewrite (O0 0 L). apply same_add; [|apply same_refl]. apply zero_same; [exact zero_f0|exact Za].
    - rewrite (O0 (S k) L). apply same_add; [|apply same_refl]. eapply same_trans; [apply same_zero_add|]. rewrite (O4 k) by lia. apply same_mul; [|apply same_refl].
      eapply same_trans; [apply same_zero_add|]. rewrite (O3 k) by lia. change (S k <? S d) with (k <? d) in Ho. destruct (Nat.ltb_spec k d) as [Lk|Lk]; [subst o; apply same_refl|].
      eapply same_trans; [apply same_zero_add|]. change (S k - S d) with (k - d) in Ho. rewrite <- (nth_error_nth es (k - d) f0 Ho). apply IH; lia. }
  rewrite Y. clear -EK O1 LE Lz.
  assert (G : forall l (f : nat -> f32), length l = n -> (forall k, k < n -> same (f k) (nth k l f0)) -> Forall2 same_sample (map f (seq 0 n)) l).
  { generalize n. clear. intros n l. revert n. induction l as [|y l IH]; intros n f L H; cbn in L; subst n; [constructor|]. cbn [seq map length]. constructor.
    - apply same_iff. apply (H 0). lia.
    - rewrite <- seq_shift, map_map. apply (IH (length l) (fun k => f (S k)) eq_refl). intros k Lk. apply (H (S k)). lia. }
  apply G; [rewrite map_length, LE; exact Lz|]. intros k L. rewrite (O1 k L).
  rewrite (nth_indep _ f0 (fmul f0 (to32 go))) by (rewrite map_length, LE, Lz; exact L). rewrite (map_nth (fun y => fmul y (to32 go))).
  apply same_mul; [|apply same_refl]. eapply same_trans; [apply same_zero_add|]. apply EK, L.
Qed.
