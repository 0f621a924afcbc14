(** * ComplexSound::process_order: termination, shape, completeness and topological order *)
From Coq Require Import ZArith List Bool Lia Arith.
From Verif Require Import Model.Floats Model.Sounds.
Import ListNotations.
Local Open Scope nat_scope.

Lemma NoDup_app_intro {A} (l1 l2 : list A) : NoDup l1 -> NoDup l2 -> (forall x, In x l1 -> ~ In x l2) -> NoDup (l1 ++ l2).
Proof.
  induction l1 as [|a l1 IH]; intros N1 N2 D; [exact N2|]. cbn. inversion N1 as [|? ? Na N1']; subst. constructor.
  - rewrite in_app_iff. intros [H|H]; [exact (Na H)|exact (D a (or_introl eq_refl) H)].
  - apply IH; auto. intros x Hx. apply D. right. exact Hx.
Qed.
(** ** well-formed graphs *)
Definition gwf (g : graph) : Prop := forall a b, In (a, b) (g_edges g) -> a < length (g_nodes g) /\ b < length (g_nodes g).
Lemma neighbors_In g a b : In b (neighbors g a) <-> In (a, b) (g_edges g).
Proof.
  unfold neighbors. rewrite in_map_iff. split.
  - intros ((a', b') & E & H). apply filter_In in H. destruct H as [H K]. cbn in *. apply Nat.eqb_eq in K. subst. exact H.
  - intro H. exists (a, b). split; [reflexivity|]. apply filter_In. split; [exact H|]. cbn. apply Nat.eqb_refl.
Qed.
Lemma externals_In g n : In n (externals_in g) <-> n < length (g_nodes g) /\ forall a, ~ In (a, n) (g_edges g).
Proof.
  unfold externals_in. rewrite filter_In, in_seq. split.
  - intros [H K]. split; [lia|]. intros a Ha. apply negb_true_iff in K.
    assert (existsb (fun e => snd e =? n) (g_edges g) = true) by (apply existsb_exists; exists (a, n); split; [exact Ha|cbn; apply Nat.eqb_refl]).
    congruence.
  - intros [H K]. split; [lia|]. apply negb_true_iff. apply not_true_is_false. intro E. apply existsb_exists in E.
    destruct E as ((a, b) & Ha & Hb). cbn in Hb. apply Nat.eqb_eq in Hb. subst. exact (K a Ha).
Qed.
Lemma externals_NoDup g : NoDup (externals_in g).
Proof. apply NoDup_filter, seq_NoDup. Qed.

(** ** remove_dups *)
(** the first [k] entries occur only once *)
Definition pre (k : nat) (v : list nat) : Prop :=
  forall a b x, a < k -> a < b -> nth_error v a = Some x -> nth_error v b <> Some x.

Lemma remove_dups_In v w x : In x (remove_dups v w) <-> In x v.
Proof.
  unfold remove_dups. destruct (nth_error v w) as [y|] eqn:E; [|reflexivity].
  rewrite <- (firstn_skipn (S w) v) at 3. rewrite !in_app_iff, filter_In.
  split; [tauto|]. intros [H|H]; [left; exact H|].
  destruct (Nat.eq_dec x y) as [->|N]; [|right; split; [exact H|apply negb_true_iff, Nat.eqb_neq; exact N]].
  left. clear H. revert v E. induction w as [|w IH]; intros [|a v] E; try discriminate; cbn in *.
  - injection E as ->. auto.
  - right. apply IH, E.
Qed.
Lemma remove_dups_firstn v w : firstn (S w) (remove_dups v w) = firstn (S w) v.
Proof.
  unfold remove_dups. destruct (nth_error v w) as [y|] eqn:E; [|reflexivity].
  assert (L : w < length v) by (apply nth_error_Some; congruence).
  rewrite firstn_app, firstn_firstn, Nat.min_id, firstn_length_le by lia. rewrite Nat.sub_diag. cbn. apply app_nil_r.
Qed.
Lemma nth_firstn {A} (l : list A) n k : k < n -> nth_error (firstn n l) k = nth_error l k.
Proof.
  revert n k. induction l as [|a l IH]; intros [|n] [|k] H; cbn; try lia; try reflexivity. apply IH. lia.
Qed.
Lemma remove_dups_nth v w a : a <= w -> nth_error (remove_dups v w) a = nth_error v a.
Proof. intro H. rewrite <- (nth_firstn (remove_dups v w) (S w) a), remove_dups_firstn by lia. apply nth_firstn. lia. Qed.
Lemma nth_error_skip {A} (l : list A) n k : nth_error (skipn n l) k = nth_error l (n + k).
Proof. revert n. induction l as [|a l IH]; intros [|n]; cbn; try reflexivity; [destruct k; reflexivity|apply IH]. Qed.
Lemma remove_dups_late v w b x : w < b -> nth_error (remove_dups v w) b = Some x ->
  (exists b', w < b' /\ nth_error v b' = Some x) /\ nth_error v w <> Some x.
Proof.
  intros H. unfold remove_dups. destruct (nth_error v w) as [y|] eqn:E.
  2:{ apply nth_error_None in E. intro K. assert (b < length v) by (apply nth_error_Some; congruence). lia. }
  assert (L : w < length v) by (apply nth_error_Some; congruence).
  intro K. rewrite nth_error_app2 in K by (rewrite firstn_length_le; lia). apply nth_error_In in K. apply filter_In in K. destruct K as [K N].
  apply negb_true_iff, Nat.eqb_neq in N. split; [|congruence].
  apply In_nth_error in K. destruct K as [k K]. rewrite nth_error_skip in K. exists (S w + k). split; [lia|exact K].
Qed.
Lemma remove_dups_pre v w : pre w v -> pre (S w) (remove_dups v w).
Proof.
  intros P a b x Ha Hb E K. rewrite remove_dups_nth in E by lia.
  destruct (le_lt_dec b w) as [L|L].
  - rewrite remove_dups_nth in K by lia. exact (P a b x ltac:(lia) Hb E K).
  - destruct (remove_dups_late v w b x L K) as [(b' & Hb' & K') N].
    destruct (Nat.eq_dec a w) as [->|Na]; [congruence|]. exact (P a b' x ltac:(lia) ltac:(lia) E K').
Qed.
Lemma dedup_S v i : dedup_below v (S i) = remove_dups (dedup_below v i) i.
Proof. unfold dedup_below. rewrite seq_S, fold_left_app. reflexivity. Qed.
Lemma dedup_pre v i : pre i (dedup_below v i).
Proof.
  induction i as [|i IH]; [intros a b x H; lia|]. rewrite dedup_S. apply remove_dups_pre, IH.
Qed.
Lemma dedup_In v i x : In x (dedup_below v i) <-> In x v.
Proof. induction i as [|i IH]; [reflexivity|]. rewrite dedup_S, remove_dups_In. exact IH. Qed.

Lemma pre_NoDup k v : pre k v -> NoDup (firstn k v).
Proof.
  intro P. apply NoDup_nth_error. intros a b Ha E. rewrite firstn_length in Ha.
  destruct (nth_error (firstn k v) a) as [x|] eqn:X; [|apply nth_error_None in X; rewrite firstn_length in X; lia].
  assert (Hb : b < k /\ b < length v).
  { assert (b < length (firstn k v)) by (apply nth_error_Some; congruence). rewrite firstn_length in H. lia. }
  symmetry in E. rewrite nth_firstn in E by lia. rewrite nth_firstn in X by lia.
  destruct (Nat.lt_trichotomy a b) as [L|[L|L]]; [exfalso|exact L|exfalso].
  - exact (P a b x ltac:(lia) L X E).
  - exact (P b a x ltac:(lia) L E X).
Qed.
Lemma pre_all v : pre (length v - 1) v -> NoDup v.
Proof.
  intro P. apply NoDup_nth_error. intros a b Ha E.
  destruct (nth_error v a) as [x|] eqn:X; [|apply nth_error_None in X; lia].
  assert (Hb : b < length v) by (apply nth_error_Some; congruence).
  destruct (Nat.lt_trichotomy a b) as [L|[L|L]]; [exfalso|exact L|exfalso].
  - exact (P a b x ltac:(lia) L X (eq_sym E)).
  - exact (P b a x ltac:(lia) L (eq_sym E) X).
Qed.
Lemma pre_le k k' v : k' <= k -> pre k v -> pre k' v.
Proof. intros H P a b x Ha. apply P. lia. Qed.

(** ** termination and shape *)
Inductive reach (g : graph) : nat -> nat -> Prop :=
| reach_refl a : reach g a a
| reach_step a b c : reach g a b -> In (b, c) (g_edges g) -> reach g a c.

Definition sourced (g : graph) (x : nat) : Prop := exists s, In s (externals_in g) /\ reach g s x.
Lemma order_loop_ok g : gwf g -> forall fuel i v, length (g_nodes g) + 3 <= fuel + i -> i <= length (g_nodes g) + 2 -> pre (i - 1) v ->
  (forall x, In x v -> x < length (g_nodes g) /\ sourced g x) ->
  exists r, order_loop fuel g i v = Some r /\ NoDup r /\ (forall x, In x v -> In x r) /\
    (forall x, In x r -> x < length (g_nodes g) /\ sourced g x).
Proof.
  intro W. set (n := length (g_nodes g)). induction fuel as [|fuel IH]; intros i v F Hi P V; [lia|].
  cbn [order_loop]. destruct (nth_error v i) as [x|] eqn:E.
  - assert (Li : i < length v) by (apply nth_error_Some; congruence).
    assert (L : i - 1 <= n).
    { assert (I : incl (firstn (i - 1) v) (seq 0 n)).
      { intros y Hy. apply in_seq. assert (In y v) by (rewrite <- (firstn_skipn (i - 1) v); apply in_or_app; auto). destruct (V y H). lia. }
      pose proof (NoDup_incl_length (pre_NoDup _ _ P) I) as L. rewrite seq_length, firstn_length in L. lia. }
    destruct (IH (S i) (dedup_below (v ++ neighbors g x) i)) as (r & R & N & I & K); [lia|lia| | |].
    + replace (S i - 1) with i by lia. apply dedup_pre.
    + intros y Hy. apply dedup_In, in_app_or in Hy. destruct Hy as [Hy|Hy]; [apply V, Hy|].
      apply neighbors_In in Hy. split; [apply (W _ _ Hy)|].
      destruct (V x (nth_error_In _ _ E)) as [_ (s & Hs & R)]. exists s. split; [exact Hs|]. eapply reach_step; eassumption.
    + exists r. repeat split; auto; try apply K; auto. intros y Hy. apply I. apply dedup_In, in_or_app. auto.
  - exists v. apply nth_error_None in E. repeat split; auto; try (apply V; assumption).
    apply pre_all. apply (pre_le (i - 1)); [lia|exact P].
Qed.
Lemma order_shape g ig og : gwf g -> ig <> og ->
  exists mid, process_order g ig og = Some (ig :: mid ++ [og]) /\ NoDup (ig :: mid ++ [og]) /\
    (forall x, In x mid -> x < length (g_nodes g) /\ sourced g x /\ x <> ig /\ x <> og).
Proof.
  intros W N. unfold process_order, order_fuel.
  destruct (order_loop_ok g W (length (g_nodes g) + 3) 0 (externals_in g)) as (r & R & ND & _ & K); [lia|lia| | |].
  - intros a b x H. lia.
  - intros x Hx. split; [apply externals_In in Hx; apply Hx|]. exists x. split; [exact Hx|constructor].
  - rewrite R. eexists. split; [reflexivity|]. split.
    + constructor.
      * rewrite in_app_iff, filter_In. intros [[_ H]|[H|[]]]; [|congruence]. rewrite Nat.eqb_refl in H. discriminate.
      * apply (NoDup_app_intro) .
        -- apply NoDup_filter, ND.
        -- constructor; [intros []|constructor].
        -- intros x Hx [<-|[]]. apply filter_In in Hx. destruct Hx as [_ H]. rewrite Nat.eqb_refl, andb_false_r in H. discriminate.
    + intros x Hx. apply filter_In in Hx. destruct Hx as [Hx H]. destruct (K x Hx) as [K1 K2]. apply andb_true_iff in H. destruct H as [H1 H2].
      apply negb_true_iff, Nat.eqb_neq in H1. apply negb_true_iff, Nat.eqb_neq in H2. auto.
Qed.

(** ** trees: every node has at most one incoming edge *)
Definition tree_like (g : graph) : Prop := NoDup (map snd (g_edges g)).
Lemma tree_parent g a a' b : tree_like g -> In (a, b) (g_edges g) -> In (a', b) (g_edges g) -> a = a'.
Proof.
  unfold tree_like. induction (g_edges g) as [|[c d] l IH]; intros T H K; [destruct H|]. cbn in T. inversion T as [|? ? N T']; subst.
  destruct H as [H|H], K as [K|K].
  - congruence.
  - exfalso. apply N. injection H as -> ->. change b with (snd (a', b)). apply in_map, K.
  - exfalso. apply N. injection K as -> ->. change b with (snd (a, b)). apply in_map, H.
  - apply IH; assumption.
Qed.
Lemma tree_neighbors_NoDup g a : tree_like g -> NoDup (neighbors g a).
Proof.
  unfold tree_like, neighbors. induction (g_edges g) as [|[c d] l IH]; intro T; [constructor|]. cbn in *. inversion T as [|? ? N T']; subst.
  destruct (c =? a); [|apply IH, T']. cbn. constructor; [|apply IH, T'].
  intro H. apply N. apply in_map_iff in H. destruct H as (e & E & H). apply filter_In in H. rewrite <- E. apply in_map, H.
Qed.
Lemma remove_dups_id v w : NoDup v -> remove_dups v w = v.
Proof.
  intro N. unfold remove_dups. destruct (nth_error v w) as [x|] eqn:E; [|reflexivity].
  assert (F : forall l, ~ In x l -> filter (fun y => negb (y =? x)) l = l).
  { induction l as [|y l IH]; intro H; [reflexivity|]. cbn. destruct (Nat.eqb_spec y x) as [->|Ny]; [exfalso; apply H; left; reflexivity|].
    cbn. f_equal. apply IH. intro K. apply H. right. exact K. }
  rewrite F; [apply firstn_skipn|]. intro H. apply In_nth_error in H. destruct H as [k H]. rewrite nth_error_skip in H.
  rewrite NoDup_nth_error in N. assert (L : w < length v) by (apply nth_error_Some; congruence).
  specialize (N w (S w + k) L). rewrite E, H in N. specialize (N eq_refl). lia.
Qed.
Lemma dedup_id v i : NoDup v -> dedup_below v i = v.
Proof. intro N. induction i as [|i IH]; [reflexivity|]. rewrite dedup_S, IH. apply remove_dups_id, N. Qed.

(** [x] occurs before [y] *)
Definition before (l : list nat) (x y : nat) : Prop := exists l1 l2 l3, l = l1 ++ x :: l2 ++ y :: l3.
Lemma before_nth l x y : (exists a b, a < b /\ nth_error l a = Some x /\ nth_error l b = Some y) -> before l x y.
Proof.
  intros (a & b & Hab & Ha & Hb). apply nth_error_split in Ha. destruct Ha as (l1 & l2 & -> & L1). subst a.
  rewrite nth_error_app2 in Hb by lia. replace (b - length l1) with (S (b - length l1 - 1)) in Hb by lia. cbn in Hb.
  apply nth_error_split in Hb. destruct Hb as (m1 & m2 & -> & _). exists l1, m1, m2. reflexivity.
Qed.
Lemma tree_loop g : gwf g -> tree_like g -> forall fuel i v, NoDup v ->
  (forall x, In x (externals_in g) -> In x v) ->
  (forall a x, a < i -> nth_error v a = Some x -> forall y, In (x, y) (g_edges g) -> In y v) ->
  (forall q y, nth_error v q = Some y -> In y (externals_in g) \/ exists p x, p < q /\ p < i /\ nth_error v p = Some x /\ In (x, y) (g_edges g)) ->
  forall r, order_loop fuel g i v = Some r ->
  NoDup r /\ (forall x, In x (externals_in g) -> In x r) /\ (forall x y, In x r -> In (x, y) (g_edges g) -> In y r) /\
  (forall q y, nth_error r q = Some y -> In y (externals_in g) \/ exists p x, p < q /\ nth_error r p = Some x /\ In (x, y) (g_edges g)).
Proof.
  intros W T. induction fuel as [|fuel IH]; intros i v N X C P r R; [discriminate|].
  cbn [order_loop] in R. destruct (nth_error v i) as [x|] eqn:E.
  - assert (D : forall y, In y v -> ~ In y (neighbors g x)).
    { intros y Hy K. apply neighbors_In in K. apply In_nth_error in Hy. destruct Hy as [q Hq].
      destruct (P q y Hq) as [H|(p & x' & H1 & H2 & H3 & H4)].
      - apply externals_In in H. exact (proj2 H x K).
      - assert (x = x') by (eapply tree_parent; eassumption). subst x'.
        rewrite NoDup_nth_error in N. assert (p < length v) by (apply nth_error_Some; congruence).
        assert (p = i) by (apply N; congruence). lia. }
    assert (ND : NoDup (v ++ neighbors g x)) by (apply NoDup_app_intro; [exact N|apply tree_neighbors_NoDup, T|exact D]).
    rewrite dedup_id in R by exact ND. apply (IH (S i) (v ++ neighbors g x)) in R; [exact R|exact ND| | |].
    + intros y Hy. apply in_or_app. auto.
    + intros a y Ha Hn z Hz. destruct (Nat.eq_dec a i) as [->|Na].
      * assert (y = x).
        { rewrite nth_error_app1 in Hn by (apply nth_error_Some; congruence). congruence. }
        subst y. apply in_or_app. right. apply neighbors_In, Hz.
      * assert (a < length v) by (assert (i < length v) by (apply nth_error_Some; congruence); lia).
        rewrite nth_error_app1 in Hn by assumption. apply in_or_app. left. exact (C a y ltac:(lia) Hn z Hz).
    + intros q y Hq. assert (Li : i < length v) by (apply nth_error_Some; congruence).
      destruct (lt_dec q (length v)) as [L|L].
      * rewrite nth_error_app1 in Hq by exact L. destruct (P q y Hq) as [H|(p & x' & H1 & H2 & H3 & H4)]; [auto|].
        right. exists p, x'. rewrite nth_error_app1 by lia. repeat split; auto; lia.
      * rewrite nth_error_app2 in Hq by lia. right. exists i, x. rewrite nth_error_app1 by lia. repeat split; auto; try lia.
        apply neighbors_In. eapply nth_error_In, Hq.
  - injection R as <-. apply nth_error_None in E. split; [exact N|]. split; [exact X|]. split.
    + intros x y Hx. apply In_nth_error in Hx. destruct Hx as [a Ha]. apply (C a x); [|exact Ha].
      assert (a < length v) by (apply nth_error_Some; congruence). lia.
    + intros q y Hq. destruct (P q y Hq) as [H|(p & x & H1 & H2 & H3 & H4)]; [auto|]. right. exists p, x. auto.
Qed.
Lemma tree_order g : gwf g -> tree_like g -> exists r, order_loop (order_fuel g) g 0 (externals_in g) = Some r /\ NoDup r /\
  (forall x, In x r <-> sourced g x) /\ (forall a b, In a r -> In (a, b) (g_edges g) -> before r a b).
Proof.
  intros W T. unfold order_fuel.
  destruct (order_loop_ok g W (length (g_nodes g) + 3) 0 (externals_in g)) as (r & R & _ & _ & K); [lia|lia| | |].
  - intros a b x H. lia.
  - intros x Hx. split; [apply externals_In in Hx; apply Hx|]. exists x. split; [exact Hx|constructor].
  - exists r. split; [exact R|].
    assert (Q1 : forall a x, a < 0 -> nth_error (externals_in g) a = Some x -> forall y, In (x, y) (g_edges g) -> In y (externals_in g))
      by (intros a x H; lia).
    assert (Q2 : forall q y, nth_error (externals_in g) q = Some y -> In y (externals_in g) \/
      exists p x, p < q /\ p < 0 /\ nth_error (externals_in g) p = Some x /\ In (x, y) (g_edges g))
      by (intros q y Hq; left; eapply nth_error_In, Hq).
    destruct (tree_loop g W T _ 0 _ (externals_NoDup g) (fun x H => H) Q1 Q2 r R) as (N & X & C & P).
    split; [exact N|]. split.
      * intro x. split; [apply K|]. intros (s & Hs & H). induction H as [a|a b c H IH E]; [apply X, Hs|]. apply (C b c); auto.
      * intros a b Ha E. pose proof (C a b Ha E) as Hb. apply In_nth_error in Hb. destruct Hb as [q Hq].
        destruct (P q b Hq) as [H|(p & x & H1 & H2 & H3)].
        -- apply externals_In in H. destruct (proj2 H a E).
        -- assert (a = x) by (eapply tree_parent; eassumption). subst x. apply before_nth. exists p, q. auto.
Qed.

(** the final order *)
Lemma before_filter f l x y : before l x y -> f x = true -> f y = true -> before (filter f l) x y.
Proof.
  intros (l1 & l2 & l3 & ->) Hx Hy. rewrite filter_app. cbn [filter]. rewrite Hx, filter_app. cbn [filter]. rewrite Hy.
  do 3 eexists. reflexivity.
Qed.
Lemma tree_complete g ig og : gwf g -> tree_like g -> ig <> og ->
  forall o, process_order g ig og = Some o -> forall x, sourced g x -> In x o.
Proof.
  intros W T N o H x Hx. unfold process_order in H. destruct (tree_order g W T) as (r & R & _ & K & _). rewrite R in H. injection H as <-.
  destruct (Nat.eq_dec x ig) as [->|Ni]; [left; reflexivity|]. right. apply in_or_app.
  destruct (Nat.eq_dec x og) as [->|No]; [right; left; reflexivity|]. left. apply filter_In. split; [apply K, Hx|].
  apply Nat.eqb_neq in Ni, No. rewrite Ni, No. reflexivity.
Qed.
Lemma tree_topo g ig og : gwf g -> tree_like g -> ig <> og ->
  forall o, process_order g ig og = Some o -> forall a b, In (a, b) (g_edges g) -> sourced g a -> b <> ig -> a <> og -> before o a b.
Proof.
  intros W T N o H a b E Ha Nb Na. pose proof H as H0. unfold process_order in H. destruct (tree_order g W T) as (r & R & _ & K & B). rewrite R in H. injection H as <-.
  set (f := fun e => negb (e =? ig) && negb (e =? og)) in *.
  assert (Ib : In b (filter f r) \/ b = og).
  { destruct (Nat.eq_dec b og) as [->|No]; [auto|]. left. apply filter_In. split.
    - apply K. destruct Ha as (s & Hs & Ha). exists s. split; [exact Hs|]. eapply reach_step; eassumption.
    - unfold f. apply Nat.eqb_neq in Nb, No. rewrite Nb, No. reflexivity. }
  destruct (Nat.eq_dec a ig) as [->|Ni].
  - destruct Ib as [Ib| ->].
    + apply in_split in Ib. destruct Ib as (l1 & l2 & Q). rewrite Q. exists [], l1, (l2 ++ [og]). rewrite <- app_assoc. reflexivity.
    + exists [], (filter f r), []. reflexivity.
  - assert (Fa : f a = true) by (unfold f; apply Nat.eqb_neq in Ni, Na; rewrite Ni, Na; reflexivity).
    destruct (Nat.eq_dec b og) as [->|No].
    + assert (Ia : In a (filter f r)) by (apply filter_In; split; [apply K, Ha|exact Fa]).
      apply in_split in Ia. destruct Ia as (l1 & l2 & Q). rewrite Q. exists (ig :: l1), l2, []. rewrite <- app_assoc. reflexivity.
    + assert (Fb : f b = true) by (unfold f; apply Nat.eqb_neq in Nb, No; rewrite Nb, No; reflexivity).
      destruct (before_filter f r a b (B a b (proj2 (K a) Ha) E) Fa Fb) as (l1 & l2 & l3 & Q). rewrite Q.
      exists (ig :: l1), l2, (l3 ++ [og]). rewrite <- !app_assoc. cbn. rewrite <- !app_assoc. reflexivity.
Qed.

(** no node without inputs *)
Lemma no_source_order g ig og : (forall n, n < length (g_nodes g) -> exists a, In (a, n) (g_edges g)) ->
  process_order g ig og = Some [ig; og].
Proof.
  intro H. assert (E : externals_in g = []).
  { destruct (externals_in g) as [|x l] eqn:E; [reflexivity|]. exfalso.
    assert (K : In x (externals_in g)) by (rewrite E; left; reflexivity). apply externals_In in K. destruct K as [K1 K2].
    destruct (H x K1) as [a Ha]. exact (K2 a Ha). }
  unfold process_order, order_fuel. rewrite E. rewrite Nat.add_comm. reflexivity.
Qed.
