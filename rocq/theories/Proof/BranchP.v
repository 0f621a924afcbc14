(** * Branches of equal length *)
From Coq Require Import ZArith List Bool Arith Lia Permutation.
From Verif Require Import Model.Floats Model.Modifiers Model.Sounds Spec.SoundSpec Spec.Parts Spec.Flow Spec.Chain Spec.Branches
  Proof.SoundsP Proof.SoundsP2 Proof.SoundsP3 Proof.PartsP Proof.FlowP Proof.FlowP2 Proof.LevelP Proof.LevelP2 Proof.ChainP4.
Import ListNotations.

Lemma linked_nth Ls a b : path_link Ls a b <-> exists L i, In L Ls /\ nth_error (0 :: L ++ [1]) i = Some a /\ nth_error (0 :: L ++ [1]) (S i) = Some b.
Proof.
  split.
  - intros (L & l1 & l2 & H & E). exists L, (length l1). split; [exact H|]. rewrite E. split; [rewrite nth_error_app2, Nat.sub_diag by lia; reflexivity|].
    rewrite nth_error_app2 by lia. replace (S (length l1) - length l1) with 1 by lia. reflexivity.
  - intros (L & i & H & A & B). exists L. destruct (nth_error_split _ _ A) as (l1 & l2 & E & Li). exists l1. rewrite E in B. rewrite nth_error_app2 in B by lia.
    replace (S i - length l1) with 1 in B by lia. cbn in B. destruct l2 as [|c l2]; [discriminate|]. injection B as ->. exists l2. split; [exact H|exact E].
Qed.
Lemma path_nth L i x : nth_error (0 :: L) i = Some x -> nth_error (0 :: L ++ [1]) i = Some x.
Proof. intro H. change (0 :: L ++ [1]) with ((0 :: L) ++ [1]). rewrite nth_error_app1; [exact H|]. apply nth_error_Some. congruence. Qed.
Lemma path_step Ls L i a b : In L Ls -> nth_error (0 :: L) i = Some a -> nth_error (0 :: L) (S i) = Some b -> path_link Ls a b.
Proof. intros H A B. apply linked_nth. exists L, i. split; [exact H|]. split; apply path_nth; assumption. Qed.

(** for checking examples *)
Fixpoint pairs (l : list nat) : list (nat * nat) := match l with a :: r => match r with b :: _ => (a, b) :: pairs r | [] => [] end | [] => [] end.
Lemma path_link_In Ls a b : path_link Ls a b <-> In (a, b) (flat_map (fun L => pairs (0 :: L ++ [1])) Ls).
Proof.
  assert (K : forall l, In (a, b) (pairs l) <-> exists l1 l2, l = l1 ++ a :: b :: l2).
  { induction l as [|c [|d l] IH].
    - split; [intros []|intros ([|] & l2 & E); discriminate].
    - split; [intros []|intros ([|? [|]] & l2 & E); discriminate].
    - change (In (a, b) (pairs (c :: d :: l))) with ((c, d) = (a, b) \/ In (a, b) (pairs (d :: l))). rewrite IH. split.
      + intros [E|(l1 & l2 & E)]; [injection E as -> ->; exists [], l; reflexivity|exists (c :: l1), l2; rewrite E; reflexivity].
      + intros ([|x l1] & l2 & E); [injection E as -> -> _; left; reflexivity|right; exists l1, l2; injection E as _ E; exact E]. }
  rewrite in_flat_map. split.
  - intros (L & l1 & l2 & H & E). exists L. split; [exact H|]. apply K. exists l1, l2. exact E.
  - intros (L & H & E). apply K in E. destruct E as (l1 & l2 & E). exists L, l1, l2. auto.
Qed.

Section Paths.
Variable n : nat. Variable Ls : list (list nat). Hypothesis BR : branches n Ls.
Lemma br_range L x : In L Ls -> In x L -> 2 <= x < n. Proof. apply BR. Qed.
Lemma at_0 L i : In L Ls -> nth_error (0 :: L) i = Some 0 -> i = 0.
Proof. intros H E. destruct i as [|i]; [reflexivity|]. cbn in E. apply nth_error_In in E. pose proof (br_range L 0 H E). lia. Qed.
Lemma not_1 L i x : In L Ls -> nth_error (0 :: L) i = Some x -> x <> 1.
Proof. intros H E. destruct i as [|i]; cbn in E; [injection E as <-; lia|]. apply nth_error_In in E. pose proof (br_range L x H E). lia. Qed.
Lemma pos : forall i j L L' x, In L Ls -> In L' Ls -> nth_error (0 :: L) i = Some x -> nth_error (0 :: L') j = Some x -> i = j /\ firstn (S i) (0 :: L) = firstn (S i) (0 :: L').
Proof.
  induction i as [|i IH]; intros j L L' x H H' A B.
  - cbn in A. injection A as <-. rewrite (at_0 L' j H' B). split; reflexivity.
  - destruct j as [|j]; [cbn in B; injection B as <-; pose proof (at_0 L _ H A); lia|].
    assert (exists a, nth_error (0 :: L) i = Some a) as [a Ha].
    { destruct (nth_error (0 :: L) i) as [a|] eqn:E; [exists a; reflexivity|]. apply nth_error_None in E. assert (S i < length (0 :: L)) by (apply nth_error_Some; congruence). lia. }
    assert (exists a, nth_error (0 :: L') j = Some a) as [a' Ha'].
    { destruct (nth_error (0 :: L') j) as [a'|] eqn:E; [exists a'; reflexivity|]. apply nth_error_None in E. assert (S j < length (0 :: L')) by (apply nth_error_Some; congruence). lia. }
    assert (a = a') as <-.
    { destruct BR as (_ & _ & _ & U & _). apply (U a a' x (not_1 L _ x H A)); [apply (path_step Ls L i a x H Ha A)|apply (path_step Ls L' j a' x H' Ha' B)]. }
    destruct (IH j L L' a H H' Ha Ha') as [<- Q]. split; [reflexivity|].
    assert (Z : forall l : list nat, nth_error l (S i) = Some x -> firstn (S (S i)) l = firstn (S i) l ++ [x]).
    { clear. generalize (S i). intros k l. revert k. induction l as [|c l IH]; intros [|k] E; try discriminate; [injection E as ->; destruct l; reflexivity|].
      cbn [firstn app]. f_equal. apply IH. exact E. }
    rewrite (Z _ A), (Z _ B), Q. reflexivity.
Qed.
Definition bend (L : list nat) : nat := last L 0.
Lemma last_nth (L : list nat) : nth_error (0 :: L) (length L) = Some (bend L).
Proof.
  unfold bend. induction L as [|a L IH] using rev_ind; [reflexivity|]. rewrite last_last, app_length. cbn [length]. rewrite Nat.add_1_r. cbn [nth_error]. rewrite nth_error_app2, Nat.sub_diag by lia. reflexivity.
Qed.
Lemma bend_inj L L' : In L Ls -> In L' Ls -> bend L = bend L' -> L = L'.
Proof.
  intros H H' E. pose proof (last_nth L) as A. pose proof (last_nth L') as B. rewrite <- E in B. destruct (pos _ _ L L' _ H H' A B) as [Q1 Q2].
  rewrite Q1 in Q2 at 2. change (S (length L)) with (length (0 :: L)) in Q2. change (S (length L')) with (length (0 :: L')) in Q2. rewrite !firstn_all in Q2. congruence.
Qed.
Lemma linked_1 a : path_link Ls a 1 <-> exists L, In L Ls /\ a = bend L.
Proof.
  rewrite linked_nth. split.
  - intros (L & i & H & A & B). exists L. split; [exact H|]. assert (i = length L).
    { cbn in B. destruct (lt_eq_lt_dec i (length L)) as [[K|K]|K]; [|exact K|].
      - rewrite nth_error_app1 in B by exact K. apply nth_error_In in B. pose proof (br_range L 1 H B). lia.
      - exfalso. assert (i < length (L ++ [1])) by (apply nth_error_Some; congruence). rewrite app_length in H0. cbn in H0. lia. }
    subst i. pose proof (path_nth L _ _ (last_nth L)) as Q. congruence.
  - intros (L & H & ->). exists L, (length L). split; [exact H|]. split; [apply path_nth, last_nth|]. cbn. rewrite nth_error_app2, Nat.sub_diag by lia. reflexivity.
Qed.
Lemma linked_other a b : b <> 1 -> path_link Ls a b -> exists L i, In L Ls /\ nth_error (0 :: L) i = Some a /\ nth_error (0 :: L) (S i) = Some b.
Proof.
  intros Nb H. apply linked_nth in H. destruct H as (L & i & H & A & B). exists L, i. split; [exact H|].
  assert (i < length L).
  { cbn in B. destruct (lt_dec i (length L)) as [K|K]; [exact K|]. rewrite nth_error_app2 in B by lia. destruct (i - length L) as [|[|]]; cbn in B; congruence. }
  change (0 :: L ++ [1]) with ((0 :: L) ++ [1]) in A, B. rewrite nth_error_app1 in A, B by (cbn; lia). auto.
Qed.
Lemma no_linked_1 b : ~ path_link Ls 1 b.
Proof.
  intro H. destruct (Nat.eq_dec b 1) as [->|Nb].
  - apply linked_1 in H. destruct H as (L & H & E). pose proof (not_1 L _ _ H (last_nth L)). congruence.
  - destruct (linked_other 1 b Nb H) as (L & i & HL & A & _). exact (not_1 L i 1 HL A eq_refl).
Qed.
Lemma no_linked_0 a : ~ path_link Ls a 0.
Proof. intro H. destruct (linked_other a 0 ltac:(lia) H) as (L & i & HL & _ & B). pose proof (at_0 L _ HL B). lia. Qed.

(** the depth of a block *)
Fixpoint idx (x : nat) (l : list nat) : nat := match l with [] => 0 | a :: r => if a =? x then 0 else S (idx x r) end.
Lemma idx_nth x l : In x l -> nth_error l (idx x l) = Some x.
Proof. induction l as [|a l IH]; intro H; [destruct H|]. cbn [idx]. destruct (Nat.eqb_spec a x) as [->|N]; [reflexivity|]. cbn. apply IH. destruct H; [contradiction|assumption]. Qed.
Definition bdepth (x : nat) : nat := match find (fun L => existsb (Nat.eqb x) (0 :: L)) Ls with Some L => idx x (0 :: L) | None => 0 end.
Lemma depth_at L i x : In L Ls -> nth_error (0 :: L) i = Some x -> bdepth x = i.
Proof.
  intros H E. unfold bdepth. destruct (find _ Ls) as [L'|] eqn:F.
  - apply find_some in F. destruct F as [H' X]. apply existsb_exists in X. destruct X as (y & Y & Z). apply Nat.eqb_eq in Z. subst y. symmetry. apply (pos i _ L L' x H H' E). apply idx_nth, Y.
  - exfalso. pose proof (find_none _ _ F L H) as X. cbn beta in X. apply not_true_iff_false in X. apply X. apply existsb_exists. exists x. split; [exact (nth_error_In _ _ E)|apply Nat.eqb_refl].
Qed.
Lemma branches_levelled : levelled n (path_link Ls).
Proof.
  pose proof BR as (ND & RG & CV & U & D & L0 & HL). split; [exact U|]. split; [exact no_linked_1|].
  exists bdepth, D, (bend L0). split; [|split; [|split]].
  - intros x [Lx Sx] Nx. destruct (Nat.eq_dec x 0) as [->|N0].
    + unfold bdepth. destruct (find _ Ls); reflexivity.
    + exfalso. destruct (CV x ltac:(lia)) as (L & H & I). apply In_nth_error in I. destruct I as [i I].
      destruct (nth_error (0 :: L) i) as [a|] eqn:A.
      * apply (Sx a). apply (path_step Ls L i a x H A I).
      * apply nth_error_None in A. assert (i < length L) by (apply nth_error_Some; congruence). cbn in A. lia.
  - intros a b H Nb. destruct (linked_other a b Nb H) as (L & i & HL' & A & B). rewrite (depth_at L _ _ HL' A), (depth_at L _ _ HL' B). reflexivity.
  - intros x Lx Nx. destruct (Nat.eq_dec x 0) as [->|N0].
    + unfold bdepth. destruct (find _ Ls); cbn; lia.
    + destruct (CV x ltac:(lia)) as (L & H & I). apply In_nth_error in I. destruct I as [i I]. rewrite (depth_at L (S i) x H I).
      assert (i < length L) by (apply nth_error_Some; congruence). destruct (HL L H); lia.
  - intros a H. apply linked_1 in H. destruct H as (L & H & ->). destruct (HL L H) as [_ [->|E]]; [left; reflexivity|right]. rewrite (depth_at L _ _ H (last_nth L)). exact E.
Qed.
End Paths.
Lemma levelled_ext n E E' : (forall a b, E a b <-> E' a b) -> levelled n E -> levelled n E'.
Proof.
  intros Q (A & B & d & D & p & H0 & HS & HD & HO). split; [intros a a' b Nb X Y; apply (A a a' b Nb); apply Q; assumption|]. split; [intros b X; apply (B b), Q, X|].
  exists d, D, p. split; [|split; [|split]].
  - intros x [X Y]. apply H0. split; [exact X|]. intros a Ha. apply (Y a), Q, Ha.
  - intros a b X. apply HS, Q, X.
  - exact HD.
  - intros a X. apply HO, Q, X.
Qed.

Section Sound.
Variable U : Type. Variable up : U -> f32 -> U. Variable uo : U -> res (f32 * U).
Local Notation heap := (heap U). Local Notation block := (block U).
Local Notation bprime := (b_prime U up). Local Notation bproc := (b_process U uo).
Lemma pipeline_snoc bs b xs : pipeline bprime bproc (bs ++ [b]) xs = do ys <- pipeline bprime bproc bs xs; outputs (run_res (cycle bprime bproc) b (map (fun x => [x]) ys)).
Proof.
  revert xs. induction bs as [|c bs IH]; intro xs.
  - cbn [app]. rewrite pipeline_cons. cbn [pipeline bind]. destruct (outputs _); reflexivity.
  - cbn [app]. rewrite !pipeline_cons. destruct (outputs (run_res (cycle bprime bproc) c (map (fun x => [x]) xs))) as [ys|]; [|reflexivity]. cbn [bind]. apply IH.
Qed.
Lemma one_of (l : list nat) a : NoDup l -> (forall x, In x l <-> x = a) -> l = [a].
Proof.
  intros N H. destruct l as [|b [|c l]]; [exfalso; apply (proj2 (H a) eq_refl)| |].
  - f_equal. apply H. left. reflexivity.
  - exfalso. inversion N as [|? ? X _]; subst. apply X. rewrite (proj1 (H b) (or_introl eq_refl)). left. apply H. right. left. reflexivity.
Qed.
Lemma branches_flow h gi go pre e s hp us xs ys hp' Ls : let ops := pre ++ [e] in reaches_state U up uo h gi go ops s -> edits_order e = true ->
  branches (blocks ops) Ls -> (forall a b, connected ops a b <-> path_link Ls a b) ->
  cs_paused s = false -> cs_muted s = false -> NoDup (node_handles h ops) ->
  map (get_mut U hp) (node_handles h ops) = map Some (Gainer U (gain_block (to32 gi)) :: Gainer U (gain_block (to32 go)) :: us) -> xs <> [] ->
  run_res (cs_process U up uo s) hp xs = Ok (ys, hp') ->
  exists (M : list (list nat)) (out : list nat -> nat -> f32), Permutation M Ls /\
    (forall L vs, In L Ls -> map (fun x => nth_error us (x - 2)) L = map Some vs ->
       pipeline bprime bproc vs (map (fun x => fmul (fadd f0 x) (to32 gi)) xs) = Ok (map (out L) (seq 0 (length xs)))) /\
    ys = map (fun k => fmul (sum_in (map (fun L => out L k) M)) (to32 go)) (seq 0 (length xs)).
Proof.
  intros ops RS He BR CO Pa Mu ND GM NX R. set (bs := Gainer U (gain_block (to32 gi)) :: Gainer U (gain_block (to32 go)) :: us) in *.
  assert (LV : levelled (blocks ops) (connected ops)).
  { apply (levelled_ext _ (path_link Ls)); [intros; symmetry; apply CO|apply branches_levelled, BR]. }
  assert (N0 : forall a, ~ connected ops a 0) by (intros a H; apply CO in H; exact (no_linked_0 _ Ls BR a H)).
  destruct (levelled_flow U up uo h gi go pre e s hp bs xs ys hp' RS He LV N0 Pa Mu ND GM NX R) as (P & out & HP & Y & F). fold ops in HP.
  assert (P0 : P 0 = []).
  { destruct (P 0) as [|a l] eqn:Q; [reflexivity|]. exfalso. apply (N0 a). apply (HP 0). rewrite Q. left. reflexivity. }
  assert (E0 : map (out 0) (seq 0 (length xs)) = map (fun x => fmul (fadd f0 x) (to32 gi)) xs).
  { pose proof (F 0 _ eq_refl) as K. rewrite gain_cycles, map_map in K. injection K as K. rewrite <- K, <- (nth_seq_map (fun x => fmul (fadd f0 x) (to32 gi)) f0 xs). apply map_ext. intro k.
    unfold in_step. rewrite P0. reflexivity. }
  assert (PIP : forall L, In L Ls -> forall l1 l2 vs, L = l1 ++ l2 -> map (fun x => nth_error us (x - 2)) l1 = map Some vs ->
     pipeline bprime bproc vs (map (fun x => fmul (fadd f0 x) (to32 gi)) xs) = Ok (map (out (bend l1)) (seq 0 (length xs)))).
  { intros L HL. induction l1 as [|x l1 IH] using rev_ind; intros l2 vs Q V.
    - destruct vs; [|discriminate]. cbn [pipeline]. rewrite <- E0. reflexivity.
    - rewrite map_app in V. cbn [map] in V. destruct (exists_last (l := vs)) as (ws & b & ->).
      { intros ->. destruct (map (fun x => nth_error us (x - 2)) l1); discriminate. }
      rewrite map_app in V. cbn [map] in V. apply app_inj_tail in V. destruct V as [V1 V2].
      rewrite <- app_assoc in Q. rewrite pipeline_snoc, (IH _ ws Q V1). cbn [bind]. unfold bend at 2. rewrite last_last.
      assert (Ix : In x L) by (rewrite Q; apply in_or_app; right; left; reflexivity). pose proof (br_range _ Ls BR L x HL Ix) as Rx.
      rewrite <- (F x b). 2:{ unfold bs. destruct x as [|[|x]]; [lia|lia|]. cbn [nth_error]. rewrite <- V2. f_equal. lia. }
      do 2 f_equal. rewrite map_map. apply map_ext. intro k. unfold in_step. destruct (Nat.eqb_spec x 0); [lia|]. cbn [app].
      rewrite (one_of (P x) (bend l1)); [reflexivity|apply HP|]. intro a. rewrite (proj2 (HP x)), CO.
      assert (LK : path_link Ls (bend l1) x).
      { apply (path_step Ls L (length l1)); [exact HL| |].
        - rewrite Q. change (0 :: l1 ++ [x] ++ l2) with ((0 :: l1) ++ [x] ++ l2). rewrite nth_error_app1 by (cbn; lia). apply last_nth.
        - rewrite Q. cbn [nth_error]. rewrite nth_error_app2, Nat.sub_diag by lia. reflexivity. }
      split; [|intros ->; exact LK]. intro H. destruct BR as (_ & _ & _ & UQ & _). apply (UQ a (bend l1) x ltac:(lia) H LK). }
  assert (PM : Permutation (P 1) (map bend Ls)).
  { apply NoDup_Permutation; [apply HP| |].
    - destruct BR as (NL & BRr). pose proof (conj NL BRr) as BR'. clear -NL BR'. assert (Z : forall l, incl l Ls -> NoDup l -> NoDup (map bend l)).
      { induction l as [|a l IH]; intros I N; [constructor|]. inversion N as [|? ? X N']; subst. cbn [map]. constructor; [|apply IH; [intros z Hz; apply I; right; exact Hz|exact N']].
        intro K. apply in_map_iff in K. destruct K as (b & E & Hb). apply X. rewrite <- (bend_inj _ Ls BR' b a (I b (or_intror Hb)) (I a (or_introl eq_refl)) E). exact Hb. }
      apply Z; [apply incl_refl|exact NL].
    - intro a. rewrite (proj2 (HP 1)), CO, (linked_1 _ Ls BR), in_map_iff. split; intros (L & A & B); exists L; auto. }
  apply Permutation_map_inv in PM. destruct PM as (M & PQ & PM). exists M, (fun L => out (bend L)). split; [symmetry; exact PM|]. split.
  - intros L vs HL V. apply (PIP L HL L []); [rewrite app_nil_r; reflexivity|exact V].
  - rewrite Y. pose proof (F 1 _ eq_refl) as K. rewrite gain_cycles, map_map in K. injection K as K. rewrite <- K. apply map_ext. intro k. unfold in_step. cbn [Nat.eqb app]. rewrite PQ, map_map. reflexivity.
Qed.
End Sound.
