(** * process_order does not see feedback connections *)
From Coq Require Import ZArith List Bool Lia Arith.
From Verif Require Import Model.Floats Model.Modifiers Model.Sounds Spec.SoundSpec Spec.Feedback Proof.OrderP Proof.SoundsP Proof.SoundsP3 Proof.FlowP Proof.FlowP2.
Import ListNotations.
Local Open Scope nat_scope.

Definition notin (u : list nat) (y : nat) : bool := negb (existsb (Nat.eqb y) u).
Lemma notin_true u y : notin u y = true <-> ~ In y u.
Proof.
  unfold notin. rewrite negb_true_iff, <- not_true_iff_false, existsb_exists. split.
  - intros H I. apply H. exists y. split; [exact I|apply Nat.eqb_refl].
  - intros H (z & I & Q). apply Nat.eqb_eq in Q. subst z. exact (H I).
Qed.
Lemma filter_ext_in' {A} (f g : A -> bool) l : (forall a, In a l -> f a = g a) -> filter f l = filter g l.
Proof. apply filter_ext_in. Qed.
Lemma filter_twice {A} (f g : A -> bool) l : filter f (filter g l) = filter (fun a => g a && f a) l.
Proof. induction l as [|a l IH]; [reflexivity|]. cbn. destruct (g a); cbn; [destruct (f a); rewrite IH; reflexivity|exact IH]. Qed.
(** what dedup_below does to a list that starts with distinct elements *)
Lemma dedup_app u w : NoDup u -> forall k, k <= length u -> dedup_below (u ++ w) k = u ++ filter (notin (firstn k u)) w.
Proof.
  intros ND. induction k as [|k IH]; intro L.
  - cbn [firstn]. rewrite (filter_all (notin [])) by reflexivity. reflexivity.
  - rewrite dedup_S, IH by lia. clear IH. destruct (nth_error u k) as [y|] eqn:Y; [|apply nth_error_None in Y; lia].
    unfold remove_dups. rewrite nth_error_app1 by lia. rewrite Y.
    rewrite firstn_app, skipn_app. replace (S k - length u) with 0 by lia. rewrite firstn_O, app_nil_r, skipn_O.
    rewrite filter_app, filter_twice. rewrite (filter_all _ (skipn (S k) u)).
    + rewrite app_assoc, firstn_skipn. f_equal. apply filter_ext_in. intros a _.
      destruct (nth_error_split u k Y) as (d1 & d2 & -> & <-).
      assert (F1 : firstn (length d1) (d1 ++ y :: d2) = d1) by (rewrite firstn_app, firstn_all, Nat.sub_diag, firstn_O, app_nil_r; reflexivity).
      assert (F2 : firstn (S (length d1)) (d1 ++ y :: d2) = d1 ++ [y]).
      { rewrite firstn_app, firstn_all2 by lia. f_equal. replace (S (length d1) - length d1) with 1 by lia. reflexivity. }
      rewrite F1, F2. unfold notin. rewrite existsb_app. cbn [existsb]. rewrite orb_false_r, negb_orb. reflexivity.
    + intros a Ha. apply negb_true_iff, Nat.eqb_neq. intros ->.
      destruct (nth_error_split u k Y) as (d1 & d2 & -> & <-). apply NoDup_remove_2 in ND. apply ND. apply in_or_app. right.
      replace (S (length d1)) with (length (d1 ++ [y])) in Ha by (rewrite app_length; cbn; lia).
      change (y :: d2) with ([y] ++ d2) in Ha. rewrite app_assoc, skipn_app, skipn_all, Nat.sub_diag in Ha. exact Ha.
Qed.
Lemma filter_split {A} (f : A -> bool) l l1 a l2 : filter f l = l1 ++ a :: l2 -> exists m1 m2, l = m1 ++ a :: m2 /\ filter f m1 = l1.
Proof.
  revert l1. induction l as [|x l IH]; intros l1 H; [destruct l1; discriminate|]. cbn in H. destruct (f x) eqn:F.
  - destruct l1 as [|y l1]; injection H as -> H.
    + exists [], l. split; reflexivity.
    + destruct (IH _ H) as (m1 & m2 & -> & <-). exists (y :: m1), m2. split; [reflexivity|]. cbn. rewrite F. reflexivity.
  - destruct (IH _ H) as (m1 & m2 & -> & <-). exists (x :: m1), m2. split; [reflexivity|]. cbn. rewrite F. reflexivity.
Qed.

Section Feedback.
Variable g : graph. Variable back : nat -> nat -> bool.
Let g' : graph := mkGraph (g_nodes g) (filter (fun e => negb (back (fst e) (snd e))) (g_edges g)).
Let F (a b : nat) : Prop := In (a, b) (g_edges g').
Hypothesis HB : forall a t, In (a, t) (g_edges g) -> back a t = true ->
  t <> a /\ (exists p, F p t) /\ forall s, (s < length (g_nodes g) /\ forall x, ~ F x s) -> ~ leads (fun x y => F x y /\ y <> t) s a.
Hypothesis W : gwf g.

Lemma F_In a b : F a b <-> In (a, b) (g_edges g) /\ back a b = false.
Proof. unfold F, g'. cbn [g_edges]. rewrite filter_In. cbn [fst snd]. rewrite negb_true_iff. reflexivity. Qed.
Lemma same_externals : externals_in g = externals_in g'.
Proof.
  unfold externals_in. apply filter_ext_in. intros n _. f_equal. apply eq_true_iff_eq. rewrite !existsb_exists. split.
  - intros ([a b] & I & Q). cbn in Q. apply Nat.eqb_eq in Q. subst b. destruct (back a n) eqn:B.
    + destruct (HB _ _ I B) as (_ & (p & P) & _). exists (p, n). split; [exact P|]. apply Nat.eqb_refl.
    + exists (a, n). split; [apply F_In; split; assumption|]. apply Nat.eqb_refl.
  - intros ([a b] & I & Q). exists (a, b). split; [apply F_In in I; apply I|exact Q].
Qed.
(** every block in the list is a source or stands behind one that feeds it *)
Let Inv (v : list nat) : Prop := forall l1 a l2, v = l1 ++ a :: l2 -> (a < length (g_nodes g) /\ forall x, ~ F x a) \/ exists p, F p a /\ In p l1.
Lemma Inv_ext : Inv (externals_in g').
Proof.
  intros l1 a l2 Q. left. assert (I : In a (externals_in g')) by (rewrite Q; apply in_or_app; right; left; reflexivity).
  apply externals_In in I. exact I.
Qed.
Lemma Inv_app v x : Inv v -> In x v -> Inv (v ++ neighbors g' x).
Proof.
  intros I Hx l1 a l2 Q. destruct (app_eq_app _ _ _ _ Q) as (l & [[A B]|[A B]]).
  - destruct l as [|b l].
    + cbn [app] in B. rewrite app_nil_r in A. subst v. right. exists x. split; [|exact Hx]. apply (proj1 (neighbors_In g' x a)). rewrite <- B. left. reflexivity.
    + cbn [app] in B. injection B as <- B. apply (I l1 a l). exact A.
  - right. exists x. split; [|rewrite A; apply in_or_app; left; exact Hx]. apply (proj1 (neighbors_In g' x a)). rewrite B. apply in_or_app. right. left. reflexivity.
Qed.
Lemma Inv_filter u w f : Inv (u ++ w) -> (forall a, In a w -> f a = false -> In a u) -> Inv (u ++ filter f w).
Proof.
  intros I Hf l1 a l2 Q. destruct (app_eq_app _ _ _ _ Q) as (l & [[A B]|[A B]]).
  - destruct l as [|b l].
    + cbn [app] in B. rewrite app_nil_r in A. subst u. symmetry in B. destruct (filter_split f w [] a l2 B) as (m1 & m2 & -> & Z).
      destruct (I (l1 ++ m1) a m2) as [K|(p & P & K)]; [rewrite <- app_assoc; reflexivity|left; exact K|]. right. exists p. split; [exact P|].
      apply in_app_or in K. destruct K as [K|K]; [exact K|]. apply Hf; [apply in_or_app; left; exact K|].
      destruct (f p) eqn:E; [|reflexivity]. exfalso. assert (X : In p (filter f m1)) by (apply filter_In; split; assumption). rewrite Z in X. exact X.
    + cbn [app] in B. injection B as <- B. apply (I l1 a (l ++ w)). rewrite A, <- app_assoc. reflexivity.
  - destruct (filter_split f w l a l2 B) as (m1 & m2 & -> & Z). subst l1.
    destruct (I (u ++ m1) a m2) as [K|(p & P & K)]; [rewrite <- app_assoc; reflexivity|left; exact K|]. right. exists p. split; [exact P|].
    apply in_app_or in K. apply in_or_app. destruct K as [K|K]; [left; exact K|]. destruct (f p) eqn:E.
    + right. rewrite <- Z. apply filter_In. split; assumption.
    + left. apply Hf; [apply in_or_app; left; exact K|exact E].
Qed.
(** so a block that can only be reached through [t] stands behind [t] *)
Lemma Inv_path v t : Inv v -> forall n l1 a l2, length l1 < n -> v = l1 ++ a :: l2 -> ~ In t l1 -> t <> a ->
  exists s, (s < length (g_nodes g) /\ forall x, ~ F x s) /\ leads (fun x y => F x y /\ y <> t) s a.
Proof.
  intro I. induction n as [|n IH]; intros l1 a l2 L Q NI Nt; [lia|]. destruct (I _ _ _ Q) as [K|(p & P & K)].
  - exists a. split; [exact K|constructor].
  - destruct (in_split _ _ K) as (m1 & m2 & ->). rewrite app_length in L. cbn in L.
    destruct (IH m1 p (m2 ++ a :: l2)) as (s & S1 & S2).
    + lia.
    + rewrite Q, <- app_assoc. reflexivity.
    + intro X. apply NI. apply in_or_app. left. exact X.
    + intros ->. exact (NI K).
    + exists s. split; [exact S1|]. apply (leads_step _ s p a); [exact S2|]. split; [exact P|congruence].
Qed.
Lemma back_above v l1 a l2 t : Inv v -> v = l1 ++ a :: l2 -> In (a, t) (g_edges g) -> back a t = true -> In t l1.
Proof.
  intros I Q E B. destruct (HB _ _ E B) as (N & _ & D). destruct (in_dec Nat.eq_dec t l1) as [K|K]; [exact K|].
  destruct (Inv_path v t I (S (length l1)) l1 a l2 (Nat.lt_succ_diag_r _) Q K N) as (s & S1 & S2). destruct (D s S1 S2).
Qed.
Lemma neighbors_fwd x : neighbors g' x = filter (fun b => negb (back x b)) (neighbors g x).
Proof.
  unfold neighbors, g'. cbn [g_edges]. generalize (g_edges g). intro l. induction l as [|[a b] l IH]; [reflexivity|]. cbn [filter fst snd].
  destruct (Nat.eqb_spec a x) as [->|N].
  - rewrite ?Nat.eqb_refl. cbn [map filter snd]. destruct (back x b) eqn:B; cbn [negb filter fst]; rewrite ?Nat.eqb_refl; cbn [map snd]; rewrite IH; reflexivity.
  - destruct (back a b); cbn [negb filter fst snd]; [exact IH|]. destruct (Nat.eqb_spec a x); [contradiction|exact IH].
Qed.
Lemma loop_same : forall fuel i v, NoDup (firstn i v) -> Inv v -> order_loop fuel g i v = order_loop fuel g' i v.
Proof.
  induction fuel as [|fuel IH]; intros i v ND I; [reflexivity|]. rewrite !loop_S. destruct (nth_error v i) as [x|] eqn:X; [|reflexivity].
  destruct (nth_error_split v i X) as (u & w & -> & <-).
  rewrite firstn_app, firstn_all, Nat.sub_diag, firstn_O, app_nil_r in ND.
  assert (Q : dedup_below ((u ++ x :: w) ++ neighbors g x) (length u) = dedup_below ((u ++ x :: w) ++ neighbors g' x) (length u)).
  { rewrite <- !app_assoc. rewrite !dedup_app by (auto; lia). rewrite firstn_all. f_equal. rewrite !filter_app. f_equal.
    rewrite neighbors_fwd, filter_twice. apply filter_ext_in. intros t Ht. destruct (notin u t) eqn:Nt; [|rewrite andb_false_r; reflexivity].
    destruct (back x t) eqn:B; [|reflexivity]. exfalso. apply notin_true in Nt. apply Nt.
    apply (back_above _ u x w t I eq_refl); [apply neighbors_In; exact Ht|exact B]. }
  rewrite Q. apply IH.
  - rewrite <- app_assoc, dedup_app by (auto; lia). rewrite firstn_all. set (l := filter _ _).
    rewrite firstn_app, firstn_all2 by lia. replace (S (length u) - length u) with 1 by lia.
    apply NoDup_app_intro; [exact ND| |].
    + destruct l; repeat constructor. intros [].
    + intros y Hy K. assert (In y l) as K2 by (rewrite <- (firstn_skipn 1 l); apply in_or_app; left; exact K). apply filter_In in K2. destruct K2 as [_ K2]. apply notin_true in K2. exact (K2 Hy).
  - assert (I2 : Inv ((u ++ x :: w) ++ neighbors g' x)) by (apply Inv_app; [exact I|apply in_or_app; right; left; reflexivity]).
    rewrite <- app_assoc in I2 |- *. rewrite dedup_app by (auto; lia). rewrite firstn_all. apply Inv_filter; [exact I2|].
    intros a _ Ha. destruct (in_dec Nat.eq_dec a u) as [K|K]; [exact K|]. apply notin_true in K. congruence.
Qed.
Lemma feedback_order ig og : process_order g ig og = process_order g' ig og.
Proof.
  unfold process_order. rewrite same_externals, loop_same; [reflexivity|constructor|apply Inv_ext].
Qed.
End Feedback.
