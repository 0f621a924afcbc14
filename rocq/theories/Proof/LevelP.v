(** * ComplexSound::process_order on levelled graphs *)
From Coq Require Import ZArith List Bool Lia Arith Sorted.
From Verif Require Import Model.Floats Model.Sounds Proof.OrderP Proof.FlowP Proof.FlowP2.
Import ListNotations.
Local Open Scope nat_scope.

Definition n1 (x : nat) : bool := negb (x =? 1).
Lemma n1_true x : n1 x = true <-> x <> 1.
Proof. unfold n1. destruct (Nat.eqb_spec x 1); cbn; split; congruence. Qed.
Lemma In_n1 x l : In x (filter n1 l) <-> In x l /\ x <> 1.
Proof. rewrite filter_In, n1_true. reflexivity. Qed.
Lemma n1_one l : count_occ Nat.eq_dec (filter n1 l) 1 = 0.
Proof. apply count_occ_not_In. rewrite In_n1. intros [_ H]. congruence. Qed.
Lemma n1_n1 l : filter n1 (filter n1 l) = filter n1 l.
Proof. apply filter_all. intros a Ha. apply n1_true. apply In_n1 in Ha. apply Ha. Qed.

(** what dedup_below does when only block 1 occurs several times *)
Lemma dedup_one dn w : NoDup dn -> NoDup (filter n1 (dn ++ w)) -> forall k, k <= length dn ->
  dedup_below (dn ++ w) k = dn ++ (if in_dec Nat.eq_dec 1 (firstn k dn) then filter n1 w else w).
Proof.
  intros ND NF. induction k as [|k IH]; intro L; [reflexivity|]. rewrite dedup_S, IH by lia. clear IH.
  destruct (nth_error dn k) as [y|] eqn:Y; [|apply nth_error_None in Y; lia].
  destruct (nth_error_split dn k Y) as (d1 & d2 & -> & <-).
  set (w' := if in_dec Nat.eq_dec 1 (firstn (length d1) (d1 ++ y :: d2)) then filter n1 w else w).
  assert (F1 : firstn (length d1) (d1 ++ y :: d2) = d1) by (rewrite firstn_app, firstn_all, Nat.sub_diag, firstn_O, app_nil_r; reflexivity).
  assert (F2 : firstn (S (length d1)) (d1 ++ y :: d2) = d1 ++ [y]).
  { rewrite firstn_app, firstn_all2 by lia. f_equal. replace (S (length d1) - length d1) with 1 by lia. reflexivity. }
  assert (F3 : forall z, firstn (S (length d1)) (d1 ++ y :: z) = d1 ++ [y]).
  { intro z. rewrite firstn_app, firstn_all2 by lia. f_equal. replace (S (length d1) - length d1) with 1 by lia. reflexivity. }
  assert (F4 : forall z, skipn (S (length d1)) (d1 ++ y :: z) = z).
  { intro z. rewrite skipn_app, skipn_all2 by lia. replace (S (length d1) - length d1) with 1 by lia. reflexivity. }
  rewrite F2. rewrite <- app_assoc. cbn [app]. unfold remove_dups.
  rewrite nth_error_app2, Nat.sub_diag by lia. cbn [nth_error]. rewrite F3, F4, filter_app.
  apply NoDup_remove in ND. destruct ND as [ND NY].
  rewrite (filter_all (fun x => negb (x =? y)) d2).
  2:{ intros a Ha. apply negb_true_iff, Nat.eqb_neq. intros ->. apply NY, in_or_app. right. exact Ha. }
  rewrite <- !app_assoc. cbn [app]. do 2 f_equal. f_equal. unfold w'. rewrite F1. clear w'.
  destruct (Nat.eq_dec y 1) as [->|Ny].
  - destruct (in_dec Nat.eq_dec 1 (d1 ++ [1])) as [_|H]; [|exfalso; apply H, in_or_app; right; left; reflexivity].
    destruct (in_dec Nat.eq_dec 1 d1) as [_|_]; [exact (n1_n1 w)|reflexivity].
  - assert (Yw : ~ In y w).
    { intro H. rewrite !filter_app in NF. cbn [filter] in NF. rewrite (proj2 (n1_true y) Ny) in NF. rewrite <- app_assoc in NF. cbn [app] in NF.
      apply NoDup_remove_2 in NF. apply NF. apply in_or_app. right. apply in_or_app. right. apply In_n1. auto. }
    assert (G : (if in_dec Nat.eq_dec 1 (d1 ++ [y]) then filter n1 w else w) = (if in_dec Nat.eq_dec 1 d1 then filter n1 w else w)).
    { destruct (in_dec Nat.eq_dec 1 (d1 ++ [y])) as [I|I], (in_dec Nat.eq_dec 1 d1) as [J|J]; try reflexivity; exfalso.
      - apply in_app_or in I. destruct I as [I|[I|[]]]; contradiction.
      - apply I, in_or_app. left. exact J. }
    rewrite G. apply filter_all. intros a Ha. apply negb_true_iff, Nat.eqb_neq. intros ->. apply Yw. destruct (in_dec Nat.eq_dec 1 d1); [apply In_n1 in Ha; apply Ha|exact Ha].
Qed.

Lemma SS_app {A} (R : A -> A -> Prop) l m : StronglySorted R l -> StronglySorted R m -> (forall a b, In a l -> In b m -> R a b) -> StronglySorted R (l ++ m).
Proof.
  induction 1 as [|a l Sl IH F]; intros Sm H; [exact Sm|]. cbn. constructor.
  - apply IH; [exact Sm|]. intros; apply H; [right|]; assumption.
  - apply Forall_app. split; [exact F|]. apply Forall_forall. intros b Hb. apply H; [left; reflexivity|exact Hb].
Qed.
Lemma SS_before {A} (R : A -> A -> Prop) l m a b : StronglySorted R (l ++ m) -> In a l -> In b m -> R a b.
Proof.
  induction l as [|c l IH]; intros H Ha Hb; [destruct Ha|]. cbn in H. inversion H as [|? ? Q1 Q2]; subst. destruct Ha as [->|Ha]; [|apply IH; assumption].
  rewrite Forall_forall in Q2. apply Q2, in_or_app. right. exact Hb.
Qed.
Lemma SS_const {A} (R : A -> A -> Prop) l : (forall a b, In a l -> In b l -> R a b) -> StronglySorted R l.
Proof.
  induction l as [|a l IH]; intro H; constructor.
  - apply IH. intros; apply H; right; assumption.
  - apply Forall_forall. intros b Hb. apply H; [left; reflexivity|right; exact Hb].
Qed.
Lemma before_app l m x y : before l x y -> before (l ++ m) x y.
Proof. intros (l1 & l2 & l3 & ->). exists l1, l2, (l3 ++ m). rewrite <- !app_assoc. cbn. rewrite <- !app_assoc. reflexivity. Qed.
Lemma before_cat l m x y : In x l -> In y m -> before (l ++ m) x y.
Proof.
  intros Hx Hy. apply in_split in Hx, Hy. destruct Hx as (l1 & l2 & ->), Hy as (m1 & m2 & ->). exists l1, (l2 ++ m1), m2. rewrite <- !app_assoc. reflexivity.
Qed.

Section Level.
Variable g : graph.
Hypothesis W : gwf g. Hypothesis NE : NoDup (g_edges g).
Hypothesis T : forall a a' b, b <> 1 -> In (a, b) (g_edges g) -> In (a', b) (g_edges g) -> a = a'.
Hypothesis N1 : forall b, ~ In (1, b) (g_edges g).
Variable dep : nat -> nat. Variables D p : nat.
Hypothesis H0 : forall x, In x (externals_in g) -> x <> 1 -> dep x = 0.
Hypothesis HS : forall a b, In (a, b) (g_edges g) -> b <> 1 -> dep b = S (dep a).
Hypothesis HD : forall x, sourced g x -> x <> 1 -> dep x <= D.
Hypothesis HO : forall a, In (a, 1) (g_edges g) -> a = p \/ D <= S (dep a).

Local Notation R := (fun a b => dep a <= dep b).
Record inv (dn td : list nat) : Prop := mkinv {
  i1 : NoDup (filter n1 (dn ++ td));
  i2 : forall x, In x (externals_in g) -> x <> 1 -> In x (dn ++ td);
  i3 : forall x y, In x dn -> In (x, y) (g_edges g) -> y <> 1 -> In y (dn ++ td);
  i4 : forall y, In y (dn ++ td) -> y <> 1 -> In y (externals_in g) \/ exists x, In x dn /\ In (x, y) (g_edges g) /\ before (filter n1 (dn ++ td)) x y;
  i5 : NoDup dn;
  i6 : StronglySorted R (filter n1 (dn ++ td));
  i7 : (exists x, In x dn /\ x <> 1 /\ D <= S (dep x)) \/
       (count_occ Nat.eq_dec (dn ++ td) 1 <= 1 /\ (In 1 (dn ++ td) -> In 1 (externals_in g) \/ In p dn));
  i8 : forall x, In x (dn ++ td) -> sourced g x;
  i9 : forall l1 l2, dn ++ td = l1 ++ 1 :: l2 -> In 1 l1 -> forall z, In z l2 -> z <> 1 -> dep z = D }.
Lemma cut_app (v N : list nat) c l2 : forall l1, v ++ N = l1 ++ c :: l2 -> (exists l2', v = l1 ++ c :: l2' /\ l2 = l2' ++ N) \/ (exists c1, l1 = v ++ c1 /\ N = c1 ++ c :: l2).
Proof.
  induction v as [|a v IH]; intros l1 E; [right; exists l1; auto|]. destruct l1 as [|b l1]; cbn in E.
  - injection E as -> <-. left. exists v. auto.
  - injection E as -> E. destruct (IH l1 E) as [(l2' & -> & ->)|(c1 & -> & ->)]; [left; exists l2'|right; exists c1]; auto.
Qed.
Lemma two_ones l1 l2 : In 1 l1 -> 2 <= count_occ Nat.eq_dec (l1 ++ 1 :: l2) 1.
Proof. intro H. rewrite count_occ_app, count_occ_cons_eq by reflexivity. apply (count_occ_In Nat.eq_dec) in H. lia. Qed.

Lemma sourced_step a b : sourced g a -> In (a, b) (g_edges g) -> sourced g b.
Proof. intros (s & Hs & H) E. exists s. split; [exact Hs|]. eapply reach_step; eassumption. Qed.
Lemma no_deep a b : sourced g a -> dep a = D -> In (a, b) (g_edges g) -> b = 1.
Proof.
  intros Sa Da E. destruct (Nat.eq_dec b 1) as [->|N]; [reflexivity|]. exfalso. pose proof (HD b (sourced_step _ _ Sa E) N). pose proof (HS _ _ E N). lia.
Qed.
Lemma neighbors_one : neighbors g 1 = [].
Proof. destruct (neighbors g 1) as [|a l] eqn:Q; [reflexivity|]. exfalso. apply (N1 a). apply neighbors_In. rewrite Q. left. reflexivity. Qed.
Lemma head_new dn x rest : inv dn (x :: rest) -> x <> 1 -> ~ In x dn.
Proof.
  intros I Nx H. pose proof (i1 _ _ I) as N. rewrite filter_app in N. cbn [filter] in N. rewrite (proj2 (n1_true x) Nx) in N.
  apply NoDup_remove_2 in N. apply N, in_or_app. left. apply In_n1. auto.
Qed.
(** expanding block [x] *)
Lemma step_block dn x rest td' : inv dn (x :: rest) -> x <> 1 ->
  (~ In 1 dn /\ td' = rest ++ neighbors g x \/ In 1 dn /\ td' = filter n1 (rest ++ neighbors g x)) -> inv (dn ++ [x]) td'.
Proof.
  intros I Nx Htd. pose proof (head_new _ _ _ I Nx) as Xn. destruct I as [J1 J2 J3 J4 J5 J6 J7 J8 J9].
  assert (Sx : sourced g x) by (apply J8, in_or_app; right; left; reflexivity).
  set (F := filter n1 (dn ++ x :: rest)) in *. set (C := filter n1 (neighbors g x)).
  assert (QF : filter n1 ((dn ++ [x]) ++ td') = F ++ C).
  { unfold F, C. rewrite <- app_assoc, <- filter_app, <- app_assoc. cbn [app]. rewrite !filter_app. f_equal. cbn [filter]. rewrite (proj2 (n1_true x) Nx). f_equal.
    destruct Htd as [[_ ->]|[_ ->]]; [reflexivity|apply n1_n1]. }
  assert (HC : forall c, In c C -> In (x, c) (g_edges g) /\ c <> 1) by (intros c Hc; apply In_n1 in Hc; rewrite neighbors_In in Hc; exact Hc).
  assert (In1 : forall y, y <> 1 -> (In y ((dn ++ [x]) ++ td') <-> In y (dn ++ x :: rest) \/ In y C)).
  { intros y Ny. pose proof (In_n1 y ((dn ++ [x]) ++ td')) as K. rewrite QF, in_app_iff in K. unfold F in K. rewrite In_n1 in K. tauto. }
  assert (Sub : forall y, In y ((dn ++ [x]) ++ td') -> In y (dn ++ x :: rest) \/ In (x, y) (g_edges g)).
  { intros y Hy. rewrite <- neighbors_In. assert (Hy' : In y ((dn ++ [x]) ++ rest ++ neighbors g x)).
    { apply in_app_or in Hy. apply in_or_app. destruct Hy as [Hy|Hy]; [left; exact Hy|right]. destruct Htd as [[_ Q]|[_ Q]]; rewrite Q in Hy; [exact Hy|]. apply In_n1 in Hy. apply Hy. }
    rewrite <- app_assoc in Hy'. cbn [app] in Hy'. change (In y (dn ++ (x :: rest) ++ neighbors g x)) in Hy'. rewrite app_assoc in Hy'. apply in_app_or in Hy'. exact Hy'. }
  assert (XF : In x F) by (apply In_n1; split; [apply in_or_app; right; left; reflexivity|exact Nx]).
  assert (DF : forall y, In y F -> dep y <= S (dep x)).
  { intros y Hy. apply In_n1 in Hy. destruct Hy as [Hy Ny]. destruct (J4 y Hy Ny) as [E|(q & Q1 & Q2 & _)]; [rewrite (H0 y E Ny); lia|].
    rewrite (HS _ _ Q2 Ny). apply le_n_S. unfold F in J6. rewrite filter_app in J6. apply (SS_before R _ _ q x J6).
    - apply In_n1. split; [exact Q1|]. intros ->. exact (N1 _ Q2).
    - apply In_n1. split; [left; reflexivity|exact Nx]. }
  constructor.
  - rewrite QF. apply NoDup_app_intro; [exact J1|apply NoDup_filter, neighbors_NoDup, NE|]. intros y Hy Hc. apply In_n1 in Hy. destruct Hy as [Hy Ny]. destruct (HC y Hc) as [E _].
    destruct (J4 y Hy Ny) as [X|(q & Q1 & Q2 & _)]; [apply externals_In in X; exact (proj2 X x E)|]. rewrite (T x q y Ny E Q2) in Xn. contradiction.
  - intros y Hy Ny. apply In1; [exact Ny|]. left. apply J2; assumption.
  - intros a b Ha E Nb. apply In1; [exact Nb|]. apply in_app_or in Ha. destruct Ha as [Ha|[<-|[]]]; [left; apply (J3 a b Ha E Nb)|]. right. apply In_n1. rewrite neighbors_In. auto.
  - intros y Hy Ny. apply In1 in Hy; [|exact Ny]. rewrite QF. destruct Hy as [Hy|Hy].
    + destruct (J4 y Hy Ny) as [X|(q & Q1 & Q2 & Q3)]; [left; exact X|]. right. exists q. split; [apply in_or_app; left; exact Q1|]. split; [exact Q2|apply before_app, Q3].
    + right. exists x. split; [apply in_or_app; right; left; reflexivity|]. split; [apply HC, Hy|]. apply before_cat; assumption.
  - apply NoDup_app_intro; [exact J5|constructor; [intros []|constructor]|]. intros y Hy [<-|[]]. contradiction.
  - rewrite QF. apply SS_app; [exact J6| |].
    + apply SS_const. intros a b Ha Hb. destruct (HC a Ha) as [A1 A2], (HC b Hb) as [B1 B2]. rewrite (HS _ _ A1 A2), (HS _ _ B1 B2). lia.
    + intros a b Ha Hb. destruct (HC b Hb) as [B1 B2]. rewrite (HS _ _ B1 B2). apply DF, Ha.
  - destruct J7 as [(q & Q1 & Q2 & Q3)|[K1 K2]]; [left; exists q; split; [apply in_or_app; left; exact Q1|auto]|].
    destruct (le_dec D (S (dep x))) as [DX|DX]; [left; exists x; split; [apply in_or_app; right; left; reflexivity|auto]|]. right.
    assert (CT : count_occ Nat.eq_dec ((dn ++ [x]) ++ td') 1 <= count_occ Nat.eq_dec (dn ++ x :: rest) 1 + count_occ Nat.eq_dec (neighbors g x) 1).
    { rewrite <- app_assoc, !count_occ_app. cbn [app count_occ]. destruct (Nat.eq_dec x 1); [contradiction|]. destruct Htd as [[_ ->]|[_ ->]]; [rewrite count_occ_app; lia|rewrite n1_one; lia]. }
    destruct (in_dec Nat.eq_dec 1 (neighbors g x)) as [E|E].
    + apply neighbors_In in E. destruct (HO x E) as [->|?]; [|contradiction].
      assert (Z : ~ In 1 (dn ++ p :: rest)) by (intro Z; destruct (K2 Z) as [X|X]; [apply externals_In in X; exact (proj2 X p E)|contradiction]).
      apply (count_occ_not_In Nat.eq_dec) in Z. rewrite Z in CT. pose proof (proj1 (NoDup_count_occ Nat.eq_dec _) (neighbors_NoDup g NE p) 1) as Q. split; [lia|].
      intros _. right. apply in_or_app. right. left. reflexivity.
    + pose proof (proj1 (count_occ_not_In Nat.eq_dec _ _) E) as Z. rewrite Z in CT. split; [lia|]. intro Q. destruct (Sub 1 Q) as [Q2|Q2]; [|rewrite <- neighbors_In in Q2; contradiction].
      destruct (K2 Q2) as [X|X]; [left; exact X|right; apply in_or_app; left; exact X].
  - intros y Hy. destruct (Sub y Hy) as [K|K]; [apply J8, K|apply (sourced_step x y Sx K)].
  - intros l1 l2 E H1 z Hz Nz. destruct (in_dec Nat.eq_dec 1 dn) as [I1|I1].
    { exfalso. destruct Htd as [[K _]|[_ Q]]; [exact (K I1)|]. pose proof (two_ones l1 l2 H1) as C2; rewrite <- E, Q, !count_occ_app, n1_one in C2; cbn [count_occ] in C2; destruct (Nat.eq_dec x 1); [contradiction|].
      pose proof (proj1 (NoDup_count_occ Nat.eq_dec _) J5 1). lia. }
    assert (td' = rest ++ neighbors g x) as Q by (destruct Htd as [[_ Q]|[? _]]; [exact Q|contradiction]).
    assert (E' : (dn ++ x :: rest) ++ neighbors g x = l1 ++ 1 :: l2) by (rewrite <- E, Q, <- !app_assoc; reflexivity).
    assert (DZ : D <= S (dep x) -> In z (neighbors g x) -> dep z = D).
    { intros DX K. apply neighbors_In in K. pose proof (HS _ _ K Nz). pose proof (HD z (sourced_step _ _ Sx K) Nz). lia. }
    assert (DP : (exists y, In y dn /\ y <> 1 /\ D <= S (dep y)) -> D <= S (dep x)).
    { intros (y & Y1 & Y2 & Y3). unfold F in J6. rewrite filter_app in J6. assert (dep y <= dep x); [|lia]. apply (SS_before R _ _ y x J6); apply In_n1; split; auto. left. reflexivity. }
    destruct (cut_app _ _ _ _ _ E') as [(l2' & V & ->)|(c1 & -> & V)].
    + apply in_app_or in Hz. destruct Hz as [Hz|Hz]; [apply (J9 l1 l2' V H1 z Hz Nz)|]. apply DZ; [|exact Hz]. apply DP.
      destruct J7 as [K|[K _]]; [exact K|]. exfalso. rewrite V in K. pose proof (two_ones l1 l2' H1). lia.
    + assert (EX : In (x, 1) (g_edges g)) by (apply neighbors_In; rewrite V; apply in_or_app; right; left; reflexivity).
      apply DZ; [|rewrite V; apply in_or_app; right; right; exact Hz].
      destruct J7 as [K|[_ K]]; [apply DP, K|]. destruct (HO x EX) as [->|K2]; [|exact K2]. exfalso.
      assert (I : In 1 (dn ++ p :: rest)).
      { apply in_app_or in H1. destruct H1 as [H1|H1]; [exact H1|]. exfalso. pose proof (neighbors_NoDup g NE p) as NN. rewrite V in NN. apply NoDup_remove_2 in NN. apply NN, in_or_app. left. exact H1. }
      destruct (K I) as [X|X]; [apply externals_In in X; exact (proj2 X p EX)|contradiction].
Qed.
(** the output gain met for the first time *)
Lemma step_one dn rest : inv dn (1 :: rest) -> ~ In 1 dn -> inv (dn ++ [1]) rest.
Proof.
  intros [J1 J2 J3 J4 J5 J6 J7 J8 J9] N. assert (Q : (dn ++ [1]) ++ rest = dn ++ 1 :: rest) by (rewrite <- app_assoc; reflexivity).
  constructor; rewrite ?Q; try assumption.
  - intros a b Ha E Nb. apply in_app_or in Ha. destruct Ha as [Ha|[<-|[]]]; [apply (J3 a b Ha E Nb)|destruct (N1 b E)].
  - intros y Hy Ny. destruct (J4 y Hy Ny) as [X|(q & Q1 & Q2)]; [left; exact X|right; exists q; split; [apply in_or_app; left; exact Q1|exact Q2]].
  - apply NoDup_app_intro; [exact J5|constructor; [intros []|constructor]|]. intros y Hy [<-|[]]. contradiction.
  - destruct J7 as [(q & Q1 & Q2)|[K1 K2]]; [left; exists q; split; [apply in_or_app; left; exact Q1|exact Q2]|right]. split; [exact K1|]. intro H. destruct (K2 H) as [X|X]; [left; exact X|right; apply in_or_app; left; exact X].
Qed.
(** the output gain met again: the entry after it is skipped *)
Lemma step_skip dn rest : inv dn (1 :: rest) -> In 1 dn -> inv dn (filter n1 rest) /\ (forall z l, filter n1 rest = z :: l -> inv (dn ++ [z]) l).
Proof.
  intros [J1 J2 J3 J4 J5 J6 J7 J8 J9] I1.
  assert (DD : exists x, In x dn /\ x <> 1 /\ D <= S (dep x)).
  { destruct J7 as [K|[K _]]; [exact K|]. exfalso. pose proof (two_ones dn rest I1). lia. }
  assert (DR : forall z, In z rest -> z <> 1 -> dep z = D) by (apply (J9 dn rest eq_refl I1)).
  assert (ONE : forall t l1 l2, dn ++ filter n1 t = l1 ++ 1 :: l2 -> In 1 l1 -> False).
  { intros t l1 l2 E H. pose proof (two_ones l1 l2 H) as C2. rewrite <- E, count_occ_app, n1_one in C2. pose proof (proj1 (NoDup_count_occ Nat.eq_dec _) J5 1). lia. }
  assert (QF : filter n1 (dn ++ filter n1 rest) = filter n1 (dn ++ 1 :: rest)) by (rewrite !filter_app, n1_n1; reflexivity).
  assert (IN : forall y, y <> 1 -> (In y (dn ++ filter n1 rest) <-> In y (dn ++ 1 :: rest))).
  { intros y Ny. pose proof (In_n1 y (dn ++ filter n1 rest)) as K. rewrite QF, In_n1 in K. tauto. }
  assert (SB : forall y, In y (dn ++ filter n1 rest) -> In y (dn ++ 1 :: rest)).
  { intros y Hy. apply in_app_or in Hy. apply in_or_app. destruct Hy as [Hy|Hy]; [auto|]. right. right. apply In_n1 in Hy. apply Hy. }
  assert (IV : inv dn (filter n1 rest)).
  { constructor; rewrite ?QF; try assumption.
    - intros y Hy Ny. apply IN; auto.
    - intros a b Ha E Nb. apply IN; [exact Nb|]. apply (J3 a b Ha E Nb).
    - intros y Hy Ny. apply J4; auto.
    - left. exact DD.
    - auto.
    - intros l1 l2 E H. destruct (ONE _ _ _ E H). }
  split; [exact IV|]. intros z l Hz. rewrite Hz in IV. clear QF IN SB J1 J2 J3 J4 J5 J6 J7 J8 J9.
  assert (Nz : z <> 1) by (assert (K : In z (filter n1 rest)) by (rewrite Hz; left; reflexivity); apply In_n1 in K; apply K).
  pose proof (head_new _ _ _ IV Nz) as Zn. destruct IV as [J1 J2 J3 J4 J5 J6 J7 J8 J9].
  assert (Q : (dn ++ [z]) ++ l = dn ++ z :: l) by (rewrite <- app_assoc; reflexivity).
  assert (Sz : sourced g z) by (apply J8, in_or_app; right; left; reflexivity).
  assert (Dz : dep z = D).
  { apply DR; [|exact Nz]. assert (K : In z (filter n1 rest)) by (rewrite Hz; left; reflexivity). apply In_n1 in K. apply K. }
  constructor; rewrite ?Q; try assumption.
  - intros a b Ha E Nb. apply in_app_or in Ha. destruct Ha as [Ha|[<-|[]]]; [apply (J3 a b Ha E Nb)|]. rewrite (no_deep z b Sz Dz E) in Nb. contradiction.
  - intros y Hy Ny. destruct (J4 y Hy Ny) as [X|(q & Q1 & Q2)]; [left; exact X|right; exists q; split; [apply in_or_app; left; exact Q1|exact Q2]].
  - apply NoDup_app_intro; [exact J5|constructor; [intros []|constructor]|]. intros y Hy [<-|[]]. contradiction.
  - left. destruct DD as (x & X1 & X2). exists x. split; [apply in_or_app; left; exact X1|exact X2].
Qed.
Lemma level_loop : forall fuel dn td r, inv dn td -> order_loop fuel g (length dn) (dn ++ td) = Some r -> inv r [].
Proof.
  induction fuel as [|fuel IH]; intros dn td r I K; [discriminate|]. rewrite loop_S in K.
  destruct td as [|x rest].
  - rewrite app_nil_r in K. rewrite (proj2 (nth_error_None dn (length dn)) (le_n _)) in K. injection K as <-. exact I.
  - rewrite nth_error_app2, Nat.sub_diag in K by lia. cbn [nth_error] in K.
    rewrite <- app_assoc in K. cbn [app] in K.
    assert (NF : NoDup (filter n1 (dn ++ x :: rest ++ neighbors g x))).
    { destruct (Nat.eq_dec x 1) as [->|Nx]; [rewrite neighbors_one, app_nil_r; apply I|].
      destruct (in_dec Nat.eq_dec 1 dn) as [I1|I1].
      - pose proof (i1 _ _ (step_block dn x rest _ I Nx (or_intror (conj I1 eq_refl)))) as N. rewrite <- app_assoc in N. cbn [app] in N.
        rewrite filter_app in N |- *. cbn [filter] in N |- *. rewrite n1_n1 in N. exact N.
      - pose proof (i1 _ _ (step_block dn x rest _ I Nx (or_introl (conj I1 eq_refl)))) as N. rewrite <- app_assoc in N. exact N. }
    rewrite (dedup_one dn _ (i5 _ _ I) NF (length dn) (le_n _)), firstn_all in K.
    assert (SL : forall z, length (dn ++ [z]) = S (length dn)) by (intro z; rewrite app_length; cbn; lia).
    destruct (Nat.eq_dec x 1) as [->|Nx].
    + rewrite neighbors_one, app_nil_r in K. destruct (in_dec Nat.eq_dec 1 dn) as [I1|I1].
      * destruct (step_skip dn rest I I1) as [A B]. cbn [filter] in K. change (n1 1) with false in K. cbv iota in K. destruct (filter n1 rest) as [|z l] eqn:Fr.
        -- rewrite app_nil_r in K. destruct fuel as [|fuel]; [discriminate|]. rewrite loop_S, (proj2 (nth_error_None dn (S (length dn))) ltac:(lia)) in K. injection K as <-. exact A.
        -- apply (IH (dn ++ [z]) l r (B z l eq_refl)). rewrite SL, <- app_assoc. exact K.
      * apply (IH (dn ++ [1]) rest r (step_one dn rest I I1)). rewrite SL, <- app_assoc. exact K.
    + destruct (in_dec Nat.eq_dec 1 dn) as [I1|I1].
      * cbn [filter] in K. rewrite (proj2 (n1_true x) Nx) in K. eapply (IH (dn ++ [x])); [|rewrite SL, <- app_assoc; exact K]. apply (step_block dn x rest _ I Nx). right. auto.
      * eapply (IH (dn ++ [x])); [|rewrite SL, <- app_assoc; exact K]. apply (step_block dn x rest _ I Nx). left. auto.
Qed.
Lemma inv_start : inv [] (externals_in g).
Proof.
  constructor; cbn [app]; auto.
  - apply NoDup_filter, externals_NoDup.
  - intros x y [].
  - constructor.
  - apply SS_const. intros a b Ha Hb. apply In_n1 in Ha, Hb. rewrite (H0 a), (H0 b) by apply Ha || apply Hb. lia.
  - right. split; [|auto]. apply (proj1 (NoDup_count_occ Nat.eq_dec _) (externals_NoDup g)).
  - intros x Hx. exists x. split; [exact Hx|constructor].
  - intros l1 l2 E H. exfalso. pose proof (two_ones l1 l2 H) as C2. rewrite <- E in C2. pose proof (proj1 (NoDup_count_occ Nat.eq_dec _) (externals_NoDup g) 1). lia.
Qed.
Lemma level_order : exists r, order_loop (order_fuel g) g 0 (externals_in g) = Some r /\
  (forall x, sourced g x -> x <> 1 -> In x r) /\ (forall a b, In a r -> In (a, b) (g_edges g) -> b <> 1 -> before (filter n1 r) a b).
Proof.
  unfold order_fuel.
  destruct (order_loop_ok g W (length (g_nodes g) + 3) 0 (externals_in g)) as (r & K & _); [lia|lia| | |].
  - intros a b x H. lia.
  - intros x Hx. split; [apply externals_In in Hx; apply Hx|]. exists x. split; [exact Hx|constructor].
  - exists r. split; [exact K|]. destruct (level_loop _ [] _ r inv_start K) as [J1 J2 J3 J4 J5 J6 J7 J8 J9]. rewrite app_nil_r in *. split.
    + intros x (s & Hs & H). induction H as [a|a b c H IH E]; intro N; [apply J2; assumption|]. apply (J3 b c); auto. apply IH; [exact Hs|]. intros ->. exact (N1 c E).
    + intros a b Ha E Nb. destruct (J4 b (J3 a b Ha E Nb) Nb) as [X|(q & Q1 & Q2 & Q3)]; [apply externals_In in X; destruct (proj2 X a E)|].
      rewrite (T a q b Nb E Q2). exact Q3.
Qed.
Lemma level_complete o : process_order g 0 1 = Some o -> forall x, sourced g x -> In x o.
Proof.
  intros H x Hx. unfold process_order in H. destruct level_order as (r & Q & K & _). rewrite Q in H. injection H as <-.
  destruct (Nat.eq_dec x 0) as [->|Ni]; [left; reflexivity|]. right. apply in_or_app.
  destruct (Nat.eq_dec x 1) as [->|No]; [right; left; reflexivity|]. left. apply filter_In. split; [apply K; assumption|].
  apply Nat.eqb_neq in Ni, No. rewrite Ni, No. reflexivity.
Qed.
Lemma level_topo o : process_order g 0 1 = Some o -> forall a b, In (a, b) (g_edges g) -> sourced g a -> b <> 0 -> before o a b.
Proof.
  intros H a b E Ha Nb. unfold process_order in H. destruct level_order as (r & Q & K & B). rewrite Q in H. injection H as <-. clear Q.
  assert (Na : a <> 1) by (intros ->; exact (N1 b E)).
  set (f := fun e => negb (e =? 0) && negb (e =? 1)) in *.
  assert (Ff : filter f r = filter f (filter n1 r)).
  { clear. induction r as [|x l IH]; [reflexivity|]. cbn [filter]. destruct (n1 x) eqn:X.
    - cbn [filter]. destruct (f x); rewrite IH; reflexivity.
    - assert (Fx : f x = false) by (unfold f; change (negb (x =? 1)) with (n1 x); rewrite X; apply andb_false_r). rewrite Fx. exact IH. }
  destruct (Nat.eq_dec b 1) as [->|Nb1].
  - destruct (Nat.eq_dec a 0) as [->|Ni]; [exists [], (filter f r), []; reflexivity|].
    assert (Ia : In a (filter f r)) by (apply filter_In; split; [apply K; assumption|unfold f; apply Nat.eqb_neq in Ni, Na; rewrite Ni, Na; reflexivity]).
    apply in_split in Ia. destruct Ia as (l1 & l2 & Q). rewrite Q. exists (0 :: l1), l2, []. rewrite <- app_assoc. reflexivity.
  - assert (Fb : f b = true) by (unfold f; apply Nat.eqb_neq in Nb, Nb1; rewrite Nb, Nb1; reflexivity).
    destruct (Nat.eq_dec a 0) as [->|Ni].
    + assert (Ib : In b (filter f r)) by (apply filter_In; split; [apply K; [apply (sourced_step 0 b Ha E)|exact Nb1]|exact Fb]).
      apply in_split in Ib. destruct Ib as (l1 & l2 & Q). rewrite Q. exists [], l1, (l2 ++ [1]). rewrite <- app_assoc. reflexivity.
    + assert (Fa : f a = true) by (unfold f; apply Nat.eqb_neq in Ni, Na; rewrite Ni, Na; reflexivity).
      destruct (before_filter f _ a b (B a b (K a Ha Na) E Nb1) Fa Fb) as (l1 & l2 & l3 & Q). rewrite Ff, Q.
      exists (0 :: l1), l2, (l3 ++ [1]). rewrite <- !app_assoc. cbn. rewrite <- !app_assoc. reflexivity.
Qed.
(** every block is fed *)
Lemma level_sourced : forall n x, dep x < n -> x <> 1 -> x < length (g_nodes g) -> sourced g x.
Proof.
  induction n as [|n IH]; intros x L N B; [lia|].
  destruct (in_dec Nat.eq_dec x (externals_in g)) as [I|I]; [exists x; split; [exact I|constructor]|].
  assert (exists a, In (a, x) (g_edges g)) as [a E].
  { destruct (existsb (fun e => snd e =? x) (g_edges g)) eqn:X.
    - apply existsb_exists in X. destruct X as ((a, b) & X & Y). apply Nat.eqb_eq in Y. cbn in Y. subst b. exists a. exact X.
    - exfalso. apply I. apply externals_In. split; [exact B|]. intros a E. apply not_true_iff_false in X. apply X. apply existsb_exists. exists (a, x). split; [exact E|apply Nat.eqb_refl]. }
  apply (sourced_step a x); [|exact E]. apply IH; [rewrite (HS _ _ E N) in L; lia| |apply (W _ _ E)]. intros ->. exact (N1 x E).
Qed.
End Level.
