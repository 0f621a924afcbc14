(** * Dataflow of a ComplexSound: every block one input; parallel branches *)
From Coq Require Import ZArith List Bool Arith Lia Permutation.
From Verif Require Import Model.Floats Model.Modifiers Model.Sounds Spec.SoundSpec Spec.Parts Spec.Flow Proof.OrderP Proof.SoundsP Proof.SoundsP2 Proof.SoundsP3 Proof.PartsP Proof.FlowP.
Import ListNotations.

Lemma filter_none {A} (f : A -> bool) l : (forall a, In a l -> f a = false) -> filter f l = [].
Proof. induction l as [|a l IH]; intro H; [reflexivity|]. cbn. rewrite (H a (or_introl eq_refl)). apply IH. intros; apply H; right; assumption. Qed.
Lemma filter_all {A} (f : A -> bool) l : (forall a, In a l -> f a = true) -> filter f l = l.
Proof. induction l as [|a l IH]; intro H; [reflexivity|]. cbn. rewrite (H a (or_introl eq_refl)). f_equal. apply IH. intros; apply H; right; assumption. Qed.
Lemma filter_one (f : nat -> bool) l a : NoDup l -> In a l -> (forall b, In b l -> f b = true <-> b = a) -> filter f l = [a].
Proof.
  induction 1 as [|c l Hc NL IH]; intros I H; [destruct I|]. cbn [filter]. destruct (f c) eqn:F.
  - apply H in F; [|left; reflexivity]. subst c. f_equal. apply filter_none. intros b Hb. destruct (f b) eqn:Fb; [|reflexivity]. apply H in Fb; [subst; contradiction|right; exact Hb].
  - destruct I as [->|I]; [rewrite (proj2 (H a (or_introl eq_refl)) eq_refl) in F; discriminate|]. apply IH; [exact I|]. intros b Hb. apply H. right. exact Hb.
Qed.
Lemma nth_seq_map {A B} (f : A -> B) d l : map (fun k => f (nth k l d)) (seq 0 (length l)) = map f l.
Proof. induction l as [|a l IH]; [reflexivity|]. cbn [length seq map nth]. f_equal. rewrite <- seq_shift, map_map. exact IH. Qed.
Lemma firstn_repeat_min {A} (x : A) n k : firstn n (repeat x k) = repeat x (min n k).
Proof. revert k. induction n as [|n IH]; intros [|k]; try reflexivity. cbn. f_equal. apply IH. Qed.

(** ** the order of parallel branches *)
Lemma par_dups P k w : NoDup P -> ~ In 1 P -> exists k', remove_dups (P ++ repeat 1 k) w = P ++ repeat 1 k'.
Proof.
  intros NP N1. unfold remove_dups. destruct (nth_error (P ++ repeat 1 k) w) as [x|] eqn:X; [|exists k; reflexivity].
  destruct (Nat.lt_ge_cases w (length P)) as [L|L].
  - rewrite nth_error_app1 in X by exact L. destruct (nth_error_split P w X) as (l1 & l2 & -> & Lw). exists k.
    rewrite filter_all; [apply firstn_skipn|]. intros a Ha. apply negb_true_iff, Nat.eqb_neq. intros ->.
    rewrite <- app_assoc in Ha. change (S w) with (1 + w) in Ha. rewrite <- Lw in Ha. replace (1 + length l1) with (length (l1 ++ [x])) in Ha by (rewrite app_length; cbn; lia).
    change (l1 ++ (x :: l2) ++ repeat 1 k) with (l1 ++ [x] ++ l2 ++ repeat 1 k) in Ha. rewrite app_assoc, skipn_app, skipn_all, Nat.sub_diag in Ha. cbn [skipn app] in Ha.
    apply NoDup_remove_2 in NP. apply in_app_or in Ha. destruct Ha as [Ha|Ha]; [apply NP, in_or_app; right; exact Ha|].
    apply repeat_spec in Ha. subst x. apply N1, in_or_app. right. left. reflexivity.
  - assert (x = 1) as -> by (rewrite nth_error_app2 in X by exact L; apply nth_error_In, repeat_spec in X; exact X).
    rewrite firstn_app, firstn_all2 by lia. rewrite skipn_app, skipn_all2 by lia. cbn [app]. rewrite firstn_repeat_min.
    rewrite filter_none; [rewrite app_nil_r; eexists; reflexivity|]. intros a Ha. apply negb_false_iff, Nat.eqb_eq. apply (repeat_spec k 1 a).
    clear -Ha. revert Ha. generalize (S w - length P). intros n H. rewrite <- (firstn_skipn n (repeat 1 k)). apply in_or_app. right. exact H.
Qed.
Lemma par_dedup P k i : NoDup P -> ~ In 1 P -> exists k', dedup_below (P ++ repeat 1 k) i = P ++ repeat 1 k'.
Proof.
  intros NP N1. induction i as [|i [k' IH]]; [exists k; reflexivity|]. rewrite dedup_S, IH. apply par_dups; assumption.
Qed.
Lemma par_loop g P : NoDup P -> ~ In 1 P -> (forall x, In x (tl P) -> neighbors g x = [1]) -> neighbors g 1 = [] ->
  forall fuel i k r, 1 <= i -> order_loop fuel g i (P ++ repeat 1 k) = Some r -> exists k', r = P ++ repeat 1 k'.
Proof.
  intros NP N1 HP H1. induction fuel as [|fuel IH]; intros i k r Hi R; [discriminate|]. cbn [order_loop] in R.
  destruct (nth_error (P ++ repeat 1 k) i) as [x|] eqn:X; [|injection R as <-; exists k; reflexivity].
  assert (exists k2, (P ++ repeat 1 k) ++ neighbors g x = P ++ repeat 1 k2) as [k2 K2].
  { destruct (Nat.lt_ge_cases i (length P)) as [L|L].
    - exists (k + 1). rewrite HP. { rewrite repeat_app, app_assoc. reflexivity. }
      rewrite nth_error_app1 in X by exact L. destruct P as [|a P]; [cbn in L; lia|]. destruct i as [|i]; [lia|]. cbn in X |- *. exact (nth_error_In _ _ X).
    - exists k. assert (x = 1) as -> by (rewrite nth_error_app2 in X by exact L; apply nth_error_In, repeat_spec in X; exact X). rewrite H1. apply app_nil_r. }
  rewrite K2 in R. destruct (par_dedup P k2 i NP N1) as [k3 K3]. rewrite K3 in R. apply (IH (S i) k3 r ltac:(lia) R).
Qed.
Lemma loop_S k g i v : order_loop (S k) g i v = match nth_error v i with None => Some v | Some x => order_loop k g (S i) (dedup_below (v ++ neighbors g x) i) end.
Proof. reflexivity. Qed.
Lemma par_order g n : length (g_nodes g) = 2 + n -> NoDup (g_edges g) ->
  (forall a b, In (a, b) (g_edges g) <-> (a = 0 /\ 2 <= b < 2 + n) \/ (b = 1 /\ 2 <= a < 2 + n)) ->
  forall o, process_order g 0 1 = Some o -> exists M, o = 0 :: M ++ [1] /\ Permutation M (seq 2 n).
Proof.
  intros LN NE HE o O. set (M := neighbors g 0).
  assert (NM : NoDup M) by (apply neighbors_NoDup; exact NE).
  assert (HM : forall x, In x M <-> 2 <= x < 2 + n) by (intro x; unfold M; rewrite neighbors_In, HE; lia).
  assert (PM : Permutation M (seq 2 n)) by (apply NoDup_Permutation; [exact NM|apply seq_NoDup|intro x; rewrite HM, in_seq; lia]).
  assert (ND : NoDup (0 :: M)) by (constructor; [rewrite HM; lia|exact NM]).
  assert (N1 : ~ In 1 (0 :: M)) by (intros [?|K]; [discriminate|apply HM in K; lia]).
  assert (HP : forall x, In x M -> neighbors g x = [1]).
  { intros x Hx. apply HM in Hx. pose proof (neighbors_NoDup g NE x) as NX. assert (K : forall y, In y (neighbors g x) <-> y = 1) by (intro y; rewrite neighbors_In, HE; lia).
    destruct (neighbors g x) as [|a [|b l]]; [exfalso; apply (proj2 (K 1) eq_refl)| |].
    - f_equal. apply K. left. reflexivity.
    - exfalso. inversion NX as [|? ? A B]; subst. apply A. rewrite (proj1 (K a) (or_introl eq_refl)). left. apply K. right. left. reflexivity. }
  assert (H1 : neighbors g 1 = []).
  { destruct (neighbors g 1) as [|a l] eqn:Q; [reflexivity|]. exfalso. assert (I : In a (neighbors g 1)) by (rewrite Q; left; reflexivity). rewrite neighbors_In, HE in I. lia. }
  unfold process_order in O. destruct (order_loop (order_fuel g) g 0 (externals_in g)) as [v|] eqn:V; [|discriminate]. injection O as <-.
  assert (R : exists k, v = (0 :: M) ++ repeat 1 k).
  { unfold order_fuel in V. replace (length (g_nodes g) + 3) with (S (length (g_nodes g) + 2)) in V by lia. rewrite loop_S in V. destruct (Nat.eq_dec n 0) as [->|Nn].
    - assert (EX : externals_in g = [0; 1]).
      { unfold externals_in. rewrite LN. apply filter_all. intros a Ha. apply negb_true_iff, not_true_is_false. intro X. apply existsb_exists in X. destruct X as ((c, d) & X & _). apply HE in X. lia. }
      rewrite EX in V. cbn [nth_error] in V. fold M in V. destruct M as [|m M'] eqn:QM; [|exfalso; pose proof (proj1 (HM m) (or_introl eq_refl)); lia].
      cbn [app dedup_below fold_left seq] in V. apply (par_loop g [0] ND N1) with (k := 1) (i := 1) in V; auto.
    - assert (EX : externals_in g = [0]).
      { unfold externals_in. rewrite LN. cbn [Nat.add seq]. rewrite <- (app_nil_r [0]). change (0 :: 1 :: seq 2 n) with ([0] ++ (1 :: seq 2 n)). rewrite filter_app. f_equal.
        - apply filter_all. intros a [<-|[]]. apply negb_true_iff, not_true_is_false. intro X. apply existsb_exists in X. destruct X as ((c, d) & X & Y). apply Nat.eqb_eq in Y. cbn in Y. apply HE in X. lia.
        - apply filter_none. intros a Ha. apply negb_false_iff, existsb_exists. destruct Ha as [<-|Ha].
          + exists (2, 1). split; [apply HE; lia|reflexivity].
          + apply in_seq in Ha. exists (0, a). split; [apply HE; lia|apply Nat.eqb_refl]. }
      rewrite EX in V. cbn [nth_error] in V. fold M in V. unfold dedup_below in V. cbn [fold_left seq] in V.
      change ([0] ++ M) with (0 :: M) in V. rewrite <- (app_nil_r (0 :: M)) in V. apply (par_loop g (0 :: M) ND N1) with (k := 0) (i := 1) in V; auto. }
  destruct R as [k ->]. exists M. split; [|exact PM]. do 2 f_equal. cbn [app filter]. cbn [Nat.eqb negb andb]. rewrite filter_app.
  rewrite filter_all. 2:{ intros a Ha. apply HM in Ha. destruct (Nat.eqb_spec a 0); [lia|]. destruct (Nat.eqb_spec a 1); [lia|reflexivity]. }
  rewrite filter_none; [apply app_nil_r|]. intros a Ha. apply repeat_spec in Ha. subst a. reflexivity.
Qed.

Section Sound.
Variable U : Type. Variable up : U -> f32 -> U. Variable uo : U -> res (f32 * U).
Local Notation heap := (heap U). Local Notation block := (block U).
Local Notation bprime := (b_prime U up). Local Notation bproc := (b_process U uo).

Lemma gain_cycle a l : cycle bprime bproc (Gainer U (gain_block a)) l = Ok (fmul (sum_in l) a, Gainer U (gain_block a)).
Proof.
  assert (K : forall l z, fold_left bprime l (Gainer U (mkSB tt 1%Z a 1%Z tt 1%Z z)) = Gainer U (mkSB tt 1%Z a 1%Z tt 1%Z (fold_left fadd l z))) by (induction l0 as [|x l0 IH]; intro z; [reflexivity|]; exact (IH (fadd z x))).
  unfold cycle. change (Gainer U (gain_block a)) with (Gainer U (mkSB tt 1%Z a 1%Z tt 1%Z f0)). rewrite K. reflexivity.
Qed.
Lemma gain_cycles a ls : outputs (run_res (cycle bprime bproc) (Gainer U (gain_block a)) ls) = Ok (map (fun l => fmul (sum_in l) a) ls).
Proof. induction ls as [|l ls IH]; [reflexivity|]. rewrite outputs_cons, gain_cycle. cbn [bind]. rewrite IH. reflexivity. Qed.

Lemma split_at (l : list nat) m : In m l -> exists la lb, l = la ++ m :: lb.
Proof. apply in_split. Qed.
Lemma not_late L la m lb a : NoDup L -> L = la ++ m :: lb -> precedes L a m -> ~ In a (m :: lb).
Proof.
  intros NL Q (l1 & l2 & l3 & Q2) I. subst L.
  assert (la = l1 ++ a :: l2 /\ lb = l3) as [-> ->].
  { assert (Q3 : la ++ m :: lb = (l1 ++ a :: l2) ++ m :: l3) by (rewrite Q2, <- app_assoc; reflexivity). clear -Q3 NL. revert Q3 NL. generalize (l1 ++ a :: l2). intro w. revert la.
    induction w as [|c w IH]; intros [|d la] Q N; cbn in *.
    - injection Q as ->. auto.
    - exfalso. injection Q as -> <-. inversion N as [|? ? X _]; subst. apply X, in_or_app. right. left. reflexivity.
    - exfalso. injection Q as -> ->. inversion N as [|? ? X _]; subst. apply X, in_or_app. right. left. reflexivity.
    - injection Q as -> Q. inversion N; subst. destruct (IH la Q) as [-> ->]; auto. }
  rewrite <- app_assoc in NL. cbn [app] in NL. apply NoDup_remove_2 in NL. apply NL. rewrite app_assoc. apply in_or_app. right. exact I.
Qed.

Lemma tree_flow h gi go pre e s hp bs xs ys hp' : let ops := pre ++ [e] in reaches_state U up uo h gi go ops s -> edits_order e = true ->
  one_input (connected ops) -> (forall a, ~ connected ops a 0) -> (forall b, ~ connected ops 1 b) ->
  cs_paused s = false -> cs_muted s = false -> NoDup (node_handles h ops) ->
  map (get_mut U hp) (node_handles h ops) = map Some bs -> xs <> [] ->
  run_res (cs_process U up uo s) hp xs = Ok (ys, hp') ->
  exists out : nat -> nat -> f32, ys = map (out 1) (seq 0 (length xs)) /\
    (exists b, nth_error bs 0 = Some b /\ outputs (run_res (cycle bprime bproc) b (map (fun x => [x]) xs)) = Ok (map (out 0) (seq 0 (length xs)))) /\
    (forall a m, connected ops a m -> fed (blocks ops) (connected ops) a -> exists b, nth_error bs m = Some b /\
       outputs (run_res (cycle bprime bproc) b (map (fun k => [out a k]) (seq 0 (length xs)))) = Ok (map (out m) (seq 0 (length xs)))).
Proof.
  intros ops RS He OI N0 N1 Pa Mu ND GM NX R.
  pose proof RS as (ys0 & h0 & R0). destruct (proj1 (history_ginv U up uo _ _ _ _ _ _ _ R0)) as (_ & _ & LN & _ & _ & CE).
  set (E := fun a b => g_find_edge (cs_graph s) a b).
  assert (HE : forall a b, E a b = true <-> connected ops a b) by (intros; unfold E; rewrite find_edge_In; apply CE).
  destruct (dataflow U up uo h gi go ops s E hp bs xs ys hp' RS) as (out & Y & F); try assumption.
  { exists e. split; [apply in_or_app; right; left; reflexivity|exact He]. }
  destruct (order_wf U up uo h gi go pre e s RS He) as (mid & OQ & ON & _).
  pose proof (order_topological U up uo h gi go pre e s RS He OI) as TOP. pose proof (order_complete U up uo h gi go pre e s RS He OI) as CPL. fold ops in TOP, CPL.
  exists out. split; [exact Y|]. split.
  - destruct (F [] 0 (mid ++ [1]) OQ NX) as (b & B & K). exists b. split; [exact B|]. rewrite <- K. f_equal. f_equal. rewrite <- (nth_seq_map (fun x => [x]) f0 xs). apply map_ext. intro k.
    unfold arrivals. cbn [Nat.eqb].
    assert (Z : filter (fun a => E a 0) (0 :: mid ++ [1]) = []) by (apply filter_none; intros a _; apply not_true_is_false; rewrite HE; apply N0).
    destruct k; [reflexivity|]. rewrite Z. reflexivity.
  - intros a m Cam Fa. assert (Na : a <> 1) by (intros ->; exact (N1 m Cam)). assert (Nm : m <> 0) by (intros ->; exact (N0 a Cam)).
    assert (Fm : fed (blocks ops) (connected ops) m) by (destruct Fa as (s0 & S1 & S2); exists s0; split; [exact S1|apply (leads_step _ _ a m S2 Cam)]).
    destruct (split_at _ _ (CPL m Fm)) as (la & lb & Q). destruct (F la m lb Q NX) as (b & B & K). exists b. split; [exact B|]. rewrite <- K. f_equal. f_equal. apply map_ext. intro k.
    pose proof (not_late _ la m lb a ON Q (TOP a m Cam Fa Nm Na)) as NL.
    assert (Ia : In a la) by (pose proof (CPL a Fa) as I; rewrite Q in I; apply in_app_or in I; destruct I as [I|I]; [exact I|contradiction]).
    assert (NDl : NoDup la) by (rewrite Q in ON; apply NoDup_app_remove_r in ON; exact ON).
    unfold arrivals. destruct (Nat.eqb_spec m 0) as [|_]; [contradiction|]. cbn [app].
    rewrite (filter_one _ la a NDl Ia). 2:{ intros c _. rewrite HE. split; [intro H; apply (OI c a m H Cam)|intros ->; exact Cam]. }
    assert (Z : filter (fun a => E a m) (m :: lb) = []).
    { apply filter_none. intros c Hc. apply not_true_is_false. rewrite HE. intro H. rewrite (OI c a m H Cam) in Hc. contradiction. }
    rewrite Z. destruct k; reflexivity.
Qed.

Lemma parallel_flow h gi go pre e s hp us xs ys hp' : let ops := pre ++ [e] in reaches_state U up uo h gi go ops s -> edits_order e = true ->
  (forall a b, connected ops a b <-> (a = 0 /\ 2 <= b < blocks ops) \/ (b = 1 /\ 2 <= a < blocks ops)) ->
  cs_paused s = false -> cs_muted s = false -> NoDup (node_handles h ops) ->
  map (get_mut U hp) (node_handles h ops) = map Some (Gainer U (gain_block (to32 gi)) :: Gainer U (gain_block (to32 go)) :: us) -> xs <> [] ->
  run_res (cs_process U up uo s) hp xs = Ok (ys, hp') ->
  exists (M : list nat) (out : nat -> nat -> f32), Permutation M (seq 0 (length us)) /\
    (forall i b, nth_error us i = Some b ->
       outputs (run_res (cycle bprime bproc) b (map (fun x => [fmul (fadd f0 x) (to32 gi)]) xs)) = Ok (map (out i) (seq 0 (length xs)))) /\
    ys = map (fun k => fmul (sum_in (map (fun i => out i k) M)) (to32 go)) (seq 0 (length xs)).
Proof.
  intros ops RS He HC Pa Mu ND GM NX R. pose proof RS as (ys0 & h0 & R0). destruct (history_ginv U up uo _ _ _ _ _ _ _ R0) as [G O].
  specialize (O _ _ eq_refl He). destruct G as (_ & _ & LN & _ & NE & CE). fold ops in LN, CE.
  assert (LU : blocks ops = 2 + length us).
  { rewrite <- LN, (nodes_of U up uo _ _ _ _ _ _ _ R0). pose proof (f_equal (@length _) GM) as K. rewrite !map_length in K. exact K. }
  destruct (par_order (cs_graph s) (length us)) with (o := cs_order s) as (M & OQ & PM); try assumption.
  { rewrite LN. exact LU. } { intros a b. rewrite CE, HC, LU. reflexivity. }
  set (E := fun a b => g_find_edge (cs_graph s) a b).
  assert (HE : forall a b, E a b = true <-> connected ops a b) by (intros; unfold E; rewrite find_edge_In; apply CE).
  set (bs := Gainer U (gain_block (to32 gi)) :: Gainer U (gain_block (to32 go)) :: us) in *.
  destruct (dataflow U up uo h gi go ops s E hp bs xs ys hp' RS) as (out & Y & F); try assumption.
  { exists e. split; [apply in_or_app; right; left; reflexivity|exact He]. }
  assert (HM : forall x, In x M <-> 2 <= x < 2 + length us).
  { intro x. split; intro H; [apply (Permutation_in _ PM), in_seq in H; lia|apply (Permutation_in _ (Permutation_sym PM)), in_seq; lia]. }
  assert (O0 : forall k, k < length xs -> out 0 k = fmul (fadd f0 (nth k xs f0)) (to32 gi)).
  { destruct (F [] 0 (M ++ [1]) OQ NX) as (b & B & K). cbn in B. injection B as <-. rewrite gain_cycles, map_map in K. injection K as K. intros k Hk.
    apply (f_equal (fun l => nth_error l k)) in K. rewrite !nth_error_map in K. rewrite (nth_error_nth' _ 0) in K by (rewrite seq_length; exact Hk). rewrite seq_nth in K by exact Hk.
    cbn [option_map Nat.add] in K. injection K as <-. f_equal. unfold arrivals. cbn [Nat.eqb].
    assert (Z : filter (fun a => E a 0) (0 :: M ++ [1]) = []) by (apply filter_none; intros a _; apply not_true_is_false; rewrite HE, HC; lia).
    destruct k; [reflexivity|]. rewrite Z. reflexivity. }
  exists (map (fun m => m - 2) M), (fun i => out (2 + i)). split; [|split].
  - replace (seq 0 (length us)) with (map (fun m => m - 2) (seq 2 (length us))); [apply Permutation_map, PM|].
    generalize (length us). intro n. rewrite <- !seq_shift, !map_map. rewrite <- (map_id (seq 0 n)) at 2. apply map_ext. intro q. lia.
  - intros i b Hi. assert (Li : i < length us) by (apply nth_error_Some; congruence).
    assert (Im : In (2 + i) M) by (apply HM; lia). destruct (split_at _ _ Im) as (la & lb & Q).
    destruct (F (0 :: la) (2 + i) (lb ++ [1])) as (b' & B & K); [rewrite OQ, Q, <- app_assoc; reflexivity|exact NX|]. cbn in B. assert (b' = b) as -> by congruence. rewrite <- K. f_equal. f_equal.
    rewrite <- (nth_seq_map (fun x => [fmul (fadd f0 x) (to32 gi)]) f0 xs). apply map_ext_in. intros k Hk. apply in_seq in Hk.
    unfold arrivals. cbn [Nat.add Nat.eqb app].
    assert (Z1 : filter (fun a => E a (S (S i))) (S (S i) :: lb ++ [1]) = []).
    { apply filter_none. intros a Ha. apply not_true_is_false. rewrite HE, HC. intros [[-> _]|[? _]]; [|lia].
      destruct Ha as [?|Ha]; [lia|]. apply in_app_or in Ha. destruct Ha as [Ha|[?|[]]]; [|lia]. assert (I : In 0 M) by (rewrite Q; apply in_or_app; right; right; exact Ha). apply HM in I. lia. }
    rewrite Z1. assert (Z2 : filter (fun a => E a (S (S i))) (0 :: la) = [0]).
    { cbn [filter]. rewrite (proj2 (HE 0 (S (S i)))) by (apply HC; lia). f_equal. apply filter_none. intros a Ha. apply not_true_is_false. rewrite HE, HC.
      assert (I : In a M) by (rewrite Q; apply in_or_app; left; exact Ha). apply HM in I. lia. }
    rewrite Z2. cbn [map]. rewrite O0 by lia. destruct k; reflexivity.
  - rewrite Y. destruct (F (0 :: M) 1 []) as (b & B & K); [exact OQ|exact NX|]. cbn in B. injection B as <-. rewrite gain_cycles, map_map in K. injection K as K. rewrite <- K.
    apply map_ext. intro k. f_equal. f_equal. rewrite map_map. unfold arrivals. cbn [Nat.eqb app].
    assert (Z1 : filter (fun a => E a 1) [1] = []) by (apply filter_none; intros a [<-|[]]; apply not_true_is_false; rewrite HE, HC; lia).
    assert (Z2 : filter (fun a => E a 1) (0 :: M) = M).
    { cbn [filter]. destruct (E 0 1) eqn:Q; [exfalso; apply HE, HC in Q; lia|]. apply filter_all. intros a Ha. apply HE, HC. right. apply HM in Ha. lia. }
    rewrite Z1, Z2. replace (match k with O => [] | S j => map (fun a => out a j) [] end) with (@nil f32) by (destruct k; reflexivity). cbn [app].
    apply map_ext_in. intros a Ha. apply HM in Ha. do 2 f_equal. lia.
Qed.
End Sound.
