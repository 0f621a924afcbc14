(** * A fresh chain of linear modifiers after a rest plays as it would have at once; absolute sums *)
From Coq Require Import ZArith List Bool Reals Lra Lia Psatz.
From Flocq Require Import Core.Core IEEE754.BinarySingleNaN.
From Verif Require Import Model.Floats Model.Utils Model.Generators Model.Modifiers Model.Filters Model.Sounds Model.Parts Spec.Libm Spec.Response Spec.Track Spec.Comb Spec.SoundSpec Spec.Parts Spec.Taps Spec.Chain Spec.Convolve
  Proof.FloatFacts Proof.SampleFormatP Proof.FormatsP Proof.ModifiersP Proof.FilterNanP Proof.CombP Proof.GenericP Proof.FiltersP2 Proof.BandPassP Proof.BandPassF32P
  Proof.FilterF32P Proof.FilterF32P2 Proof.ResponseP Proof.ResponseP2 Proof.ResponseP3 Proof.CornersP Proof.TrackP Proof.TrackP2 Proof.TrackP3
  Proof.SoundsP Proof.SoundsP2 Proof.SoundsP3 Proof.PartsP Proof.ChainP Proof.ChainP2 Proof.ChainP3 Proof.ChainP4 Proof.ConvolveP Proof.TapsP Proof.TapsP2 Proof.TapsP3 Proof.ConvolveP2.
Import ListNotations.
Local Open Scope R_scope.

(** ** zeros of either sign *)
Definition zero {p e} (x : binary_float p e) : Prop := exists s, x = B754_zero s.
Definition same {p e} (x y : binary_float p e) : Prop := x = y \/ (zero x /\ zero y).
Lemma same_refl {p e} (x : binary_float p e) : same x x. Proof. left. reflexivity. Qed.
Lemma zero_same {p e} (x y : binary_float p e) : zero x -> zero y -> same x y. Proof. intros A B. right. exact (conj A B). Qed.
Lemma zero_iff (x : f32) : zero x <-> fin x /\ B2R x = 0.
Proof.
  split; [intros [s ->]; split; reflexivity|]. intros [F E]. destruct x as [s|s| |s k e H]; try discriminate; [exists s; reflexivity|].
  cbn [B2R] in E. apply eq_0_F2R in E. cbn [Fnum] in E. destruct s; discriminate E.
Qed.
Lemma same_iff (x y : f32) : same x y <-> same_sample x y.
Proof.
  unfold same, same_sample. split; (intros [E|E]; [left; exact E|right]).
  - destruct E as [A B]. apply zero_iff in A, B. tauto.
  - split; apply zero_iff; tauto.
Qed.
Lemma same_add {p e} (Hp : Prec_gt_0 p) (He : Prec_lt_emax p e) (x x' y y' : binary_float p e) : same x x' -> same y y' -> same (fadd x y) (fadd x' y').
Proof.
  assert (A : forall a a' b : binary_float p e, zero a -> zero a' -> same (fadd a b) (fadd a' b)).
  { intros a a' b [s ->] [s' ->]. destruct b as [t|t| |t k ex H]; try (left; reflexivity). destruct s, s', t; first [left; reflexivity | right; split; eexists; reflexivity]. }
  assert (B : forall a b b' : binary_float p e, zero b -> zero b' -> same (fadd a b) (fadd a b')).
  { intros a b b' [s ->] [s' ->]. destruct a as [t|t| |t k ex H]; try (left; reflexivity). destruct s, s', t; first [left; reflexivity | right; split; eexists; reflexivity]. }
  intros [->|[X X']] [->|[Y Y']]; [left; reflexivity|apply B; assumption|apply A; assumption|].
  destruct X as [s ->], X' as [s' ->], Y as [t ->], Y' as [t' ->]. right. split; destruct s, s', t, t'; eexists; reflexivity.
Qed.
Lemma same_sub {p e} (Hp : Prec_gt_0 p) (He : Prec_lt_emax p e) (x x' y y' : binary_float p e) : same x x' -> same y y' -> same (fsub x y) (fsub x' y').
Proof.
  assert (A : forall a a' b : binary_float p e, zero a -> zero a' -> same (fsub a b) (fsub a' b)).
  { intros a a' b [s ->] [s' ->]. destruct b as [t|t| |t k ex H]; try (left; reflexivity). destruct s, s', t; first [left; reflexivity | right; split; eexists; reflexivity]. }
  assert (B : forall a b b' : binary_float p e, zero b -> zero b' -> same (fsub a b) (fsub a b')).
  { intros a b b' [s ->] [s' ->]. destruct a as [t|t| |t k ex H]; try (left; reflexivity). destruct s, s', t; first [left; reflexivity | right; split; eexists; reflexivity]. }
  intros [->|[X X']] [->|[Y Y']]; [left; reflexivity|apply B; assumption|apply A; assumption|].
  destruct X as [s ->], X' as [s' ->], Y as [t ->], Y' as [t' ->]. right. split; destruct s, s', t, t'; eexists; reflexivity.
Qed.
Lemma same_mul {p e} (Hp : Prec_gt_0 p) (He : Prec_lt_emax p e) (x x' y y' : binary_float p e) : same x x' -> same y y' -> same (fmul x y) (fmul x' y').
Proof.
  assert (A : forall a a' b : binary_float p e, zero a -> zero a' -> same (fmul a b) (fmul a' b)).
  { intros a a' b [s ->] [s' ->]. destruct b as [t|t| |t k ex H]; first [left; reflexivity | right; split; eexists; reflexivity]. }
  assert (B : forall a b b' : binary_float p e, zero b -> zero b' -> same (fmul a b) (fmul a b')).
  { intros a b b' [s ->] [s' ->]. destruct a as [t|t| |t k ex H]; first [left; reflexivity | right; split; eexists; reflexivity]. }
  intros [->|[X X']] [->|[Y Y']]; [left; reflexivity|apply B; assumption|apply A; assumption|].
  destruct X as [s ->], X' as [s' ->], Y as [t ->], Y' as [t' ->]. right. split; eexists; reflexivity.
Qed.
Lemma same_to64 x y : same x y -> same (to64 x) (to64 y).
Proof. intros [->|[[s ->] [t ->]]]; [left; reflexivity|right]. split; eexists; reflexivity. Qed.
Lemma same_to32 x y : same x y -> same (to32 x) (to32 y).
Proof. intros [->|[[s ->] [t ->]]]; [left; reflexivity|right]. split; eexists; reflexivity. Qed.
Lemma zero_add {p e} (Hp : Prec_gt_0 p) (He : Prec_lt_emax p e) (x y : binary_float p e) : zero x -> zero y -> zero (fadd x y).
Proof. intros [[] ->] [[] ->]; eexists; reflexivity. Qed.
Lemma zero_sub {p e} (Hp : Prec_gt_0 p) (He : Prec_lt_emax p e) (x y : binary_float p e) : zero x -> zero y -> zero (fsub x y).
Proof. intros [[] ->] [[] ->]; eexists; reflexivity. Qed.
Lemma zero_mul {p e} (Hp : Prec_gt_0 p) (He : Prec_lt_emax p e) (x y : binary_float p e) : is_finite x = true -> zero y -> zero (fmul x y).
Proof. intros F [s ->]. destruct x; try discriminate F; eexists; reflexivity. Qed.
Lemma zero_mul' {p e} (Hp : Prec_gt_0 p) (He : Prec_lt_emax p e) (x y : binary_float p e) : zero x -> is_finite y = true -> zero (fmul x y).
Proof. intros [s ->] F. destruct y; try discriminate F; eexists; reflexivity. Qed.
Lemma zero_to64 x : zero x -> zero (to64 x). Proof. intros [s ->]. eexists. reflexivity. Qed.
Lemma zero_to32 x : zero x -> zero (to32 x). Proof. intros [s ->]. eexists. reflexivity. Qed.
Lemma zero_f0 : zero (f0 : f32). Proof. exists false. reflexivity. Qed.

(** ** states that differ in signs of zeros *)
Definition hsame (a b : hist f32) : Prop := same (h0 a) (h0 b) /\ same (h1 a) (h1 b) /\ same (h2 a) (h2 b).
Definition bsame (a b : bph f32) : Prop := same (bh_x1 a) (bh_x1 b) /\ same (bh_x2 a) (bh_x2 b) /\ same (bh_y1 a) (bh_y1 b) /\ same (bh_y2 a) (bh_y2 b).
Definition hzero (a : hist f32) : Prop := zero (h0 a) /\ zero (h1 a) /\ zero (h2 a).
Definition bzero (a : bph f32) : Prop := zero (bh_x1 a) /\ zero (bh_x2 a) /\ zero (bh_y1 a) /\ zero (bh_y2 a).
Definition cfin (c : coeffs f32) : Prop := fin (c0 c) /\ fin (c1 c) /\ fin (Filters.c2 c) /\ fin (c3 c).
Definition psim (p q : mpart) : Prop :=
  match p, q with
  | MPass, MPass => True
  | MGain a, MGain b => a = b
  | MDelay u, MDelay v => Forall2 same u v
  | MEcho a, MEcho b => e_gain a = e_gain b /\ Forall2 same (e_delay a) (e_delay b)
  | MLow a, MLow b => lp_coeff a = lp_coeff b /\ hsame (lp_outs a) (lp_outs b)
  | MHigh a, MHigh b => hp_coeff a = hp_coeff b /\ hsame (fst (hp_hist a)) (fst (hp_hist b)) /\ hsame (snd (hp_hist a)) (snd (hp_hist b))
  | MBand a, MBand b => bp_coeff a = bp_coeff b /\ bsame (bp_hist a) (bp_hist b)
  | MGeneric a, MGeneric b => gn_zeros a = gn_zeros b /\ gn_poles a = gn_poles b /\ Forall2 same (gn_in a) (gn_in b) /\ Forall2 same (gn_out a) (gn_out b)
  | _, _ => False
  end.
Definition rest (p : mpart) : Prop :=
  match p with
  | MPass => True
  | MGain a => fin a
  | MDelay u => Forall zero u
  | MEcho a => fin (e_gain a) /\ e_delay a <> [] /\ Forall zero (e_delay a)
  | MLow a => cfin (lp_coeff a) /\ hzero (lp_outs a)
  | MHigh a => (cfin (hc_a (hp_coeff a)) /\ fin (hc_b1 (hp_coeff a)) /\ fin (hc_b2 (hp_coeff a)) /\ fin (hc_b3 (hp_coeff a))) /\ hzero (fst (hp_hist a)) /\ hzero (snd (hp_hist a))
  | MBand a => (is_finite (bc_a0 (bp_coeff a)) = true /\ is_finite (bc_b1 (bp_coeff a)) = true /\ is_finite (bc_b2 (bp_coeff a)) = true) /\ bzero (bp_hist a)
  | MGeneric a => (forall c, In c (gn_zeros a) -> (0 <= fst c < Z.of_nat (length (gn_in a)))%Z /\ fin (snd c)) /\
      (forall c, In c (gn_poles a) -> (0 <= fst c < Z.of_nat (length (gn_out a)))%Z /\ fin (snd c)) /\ Forall zero (gn_in a) /\ Forall zero (gn_out a)
  | _ => False
  end.
Lemma Forall2_snoc {A} (R : A -> A -> Prop) u v x y : Forall2 R u v -> R x y -> Forall2 R (u ++ [x]) (v ++ [y]).
Proof. intros H E. induction H; cbn [app]; constructor; auto. Qed.
Lemma lp_same c a b x y : hsame a b -> same x y -> let u := lp_step fadd fmul c a x in let v := lp_step fadd fmul c b y in same (fst u) (fst v) /\ hsame (snd u) (snd v).
Proof.
  intros (A & B & D) E. cbv zeta. unfold lp_step, lp_out. cbn [fst snd].
  assert (S : same (fadd (fadd (fadd (fmul (c0 c) x) (fmul (c1 c) (h0 a))) (fmul (Filters.c2 c) (h1 a))) (fmul (c3 c) (h2 a)))
                   (fadd (fadd (fadd (fmul (c0 c) y) (fmul (c1 c) (h0 b))) (fmul (Filters.c2 c) (h1 b))) (fmul (c3 c) (h2 b)))).
  { repeat apply same_add; apply same_mul; try apply same_refl; assumption. }
  split; [exact S|]. unfold hsame. cbn [h0 h1 h2]. auto.
Qed.
Lemma hp_same c a b x y : hsame (fst a) (fst b) -> hsame (snd a) (snd b) -> same x y -> let u := hp_step fadd fmul c a x in let v := hp_step fadd fmul c b y in
  same (fst u) (fst v) /\ hsame (fst (snd u)) (fst (snd v)) /\ hsame (snd (snd u)) (snd (snd v)).
Proof.
  destruct a as [ax ay], b as [bx by']. cbn [fst snd]. intros (A & B & D) (A' & B' & D') E. cbv zeta. unfold hp_step, hp_out. cbn [fst snd].
  match goal with |- same ?u ?v /\ _ => assert (S : same u v) end.
  { repeat apply same_add; apply same_mul; try apply same_refl; assumption. }
  split; [exact S|]. unfold hsame. cbn [h0 h1 h2]. auto 10.
Qed.
Lemma bp_same m c a b x y : bsame a b -> same x y -> let u := bp_step (A64 m) fsub to64 to32 c a x in let v := bp_step (A64 m) fsub to64 to32 c b y in same (fst u) (fst v) /\ bsame (snd u) (snd v).
Proof.
  intros (A & B & D & F) E. cbv zeta. unfold bp_step. cbn [fst snd a_add a_sub a_mul A64].
  match goal with |- same ?u ?v /\ _ => assert (S : same u v) end.
  { apply same_to32, same_sub; [apply same_add|]; apply same_mul; try apply same_refl; apply same_to64; try apply same_sub; assumption. }
  split; [exact S|]. unfold bsame. cbn [bh_x1 bh_x2 bh_y1 bh_y2]. auto.
Qed.
Lemma same_removelast (u v : list f32) : Forall2 same u v -> Forall2 same (removelast u) (removelast v).
Proof. intro H. induction H as [|x y u v E H IH]; [constructor|]. destruct H; [constructor|]. change (Forall2 same (x :: removelast (x0 :: l)) (y :: removelast (y0 :: l'))). constructor; [exact E|exact IH]. Qed.
Lemma zero_removelast (u : list f32) : Forall zero u -> Forall zero (removelast u).
Proof. intro H. induction H as [|x u E H IH]; [constructor|]. destruct u as [|f u]; [constructor|]. change (Forall zero (x :: removelast (f :: u))). constructor; assumption. Qed.
Lemma index_same (u v : list f32) i : Forall2 same u v -> match index u i, index v i with Ok a, Ok b => same a b | Panic, Panic => True | _, _ => False end.
Proof.
  intro H. unfold index. assert (L : length u = length v) by (clear -H; induction H; cbn [length]; congruence). rewrite L. destruct (_ && _)%bool; [|exact I].
  revert v H L. generalize (Z.to_nat i). induction u as [|x u IH]; intros n v H L; inversion H; subst; [destruct n; exact I|]. destruct n as [|n]; [assumption|]. cbn [nth_error]. apply IH; [assumption|]. injection L as L. exact L.
Qed.
Lemma taps_same cs : forall u v a b, Forall2 same u v -> same a b -> match taps cs u a, taps cs v b with Ok x, Ok y => same x y | Panic, Panic => True | _, _ => False end.
Proof.
  induction cs as [|c r IH]; intros u v a b H E; cbn [taps]; [exact E|]. pose proof (index_same u v (fst c) H) as Q.
  destruct (index u (fst c)), (index v (fst c)); try contradiction; cbn [bind]; [|exact I]. apply IH; [exact H|]. apply same_add; [exact E|]. apply same_mul; [exact Q|apply same_refl].
Qed.
Lemma taps_zero cs u a : Forall zero u -> zero a -> (forall c, In c cs -> (0 <= fst c < Z.of_nat (length u))%Z /\ fin (snd c)) -> exists y, taps cs u a = Ok y /\ zero y.
Proof.
  intros H. revert a. induction cs as [|c r IH]; intros a E OK; cbn [taps]; [exists a; split; [reflexivity|exact E]|]. destruct (OK c (or_introl eq_refl)) as [R F].
  rewrite (index_nth u (fst c) R). cbn [bind]. apply IH; [|intros d Hd; apply OK; right; exact Hd]. apply zero_add; [exact E|]. apply zero_mul'; [|exact F].
  apply (proj1 (Forall_forall _ _) H). apply nth_In. lia.
Qed.
Lemma step_sim m p q x y : psim p q -> same x y -> forall u p', m_step m p x = Ok (u, p') -> exists v q', m_step m q y = Ok (v, q') /\ same u v /\ psim p' q'.
Proof.
  intros S E u p' H. destruct p as [|a|w|e|s|s|s|e|e|s], q as [|b|w'|e'|s'|s'|s'|e'|e'|s']; try contradiction; cbn [psim m_step] in *.
  - injection H as <- <-. do 2 eexists. split; [reflexivity|]. split; [exact E|exact I].
  - subst b. unfold gain_process in *. injection H as <- <-. do 2 eexists. split; [reflexivity|]. split; [apply same_mul; [exact E|apply same_refl]|reflexivity].
  - unfold delay_process in *. pose proof (Forall2_snoc _ _ _ _ _ S E) as Q. destruct (w ++ [x]) as [|z r]; [discriminate|]. inversion Q as [|? z' ? r' Hz Hr]; subst. cbn [bind] in *.
    injection H as <- <-. do 2 eexists. split; [reflexivity|]. split; assumption.
  - unfold echo_process in *. destruct e as [d g], e' as [d' g']. cbn [e_delay e_gain] in *. destruct S as [<- S]. destruct d as [|z r]; [discriminate|]. inversion S as [|? z' ? r' Hz Hr]; subst. cbn [bind] in *.
    injection H as <- <-. do 2 eexists. split; [reflexivity|]. cbn [e_delay e_gain]. assert (W : same (fadd (fmul z g) x) (fadd (fmul z' g) y)) by (apply same_add; [apply same_mul; [exact Hz|apply same_refl]|exact E]).
    split; [exact W|]. split; [reflexivity|]. apply Forall2_snoc; assumption.
  - destruct S as [C S]. unfold lp_process in *. rewrite <- C. pose proof (lp_same (lp_coeff s) _ _ x y S E) as Q. cbv zeta in Q.
    destruct (lp_step fadd fmul (lp_coeff s) (lp_outs s) x) as [z o], (lp_step fadd fmul (lp_coeff s) (lp_outs s') y) as [z' o']. cbn [fst snd] in Q. injection H as <- <-. do 2 eexists. split; [reflexivity|].
    cbn [psim lp_coeff lp_outs]. intuition auto.
  - destruct S as [C [S1 S2]]. unfold hp_process in *. rewrite <- C. pose proof (hp_same (hp_coeff s) _ _ x y S1 S2 E) as Q. cbv zeta in Q.
    destruct (hp_step fadd fmul (hp_coeff s) (hp_hist s) x) as [z o], (hp_step fadd fmul (hp_coeff s) (hp_hist s') y) as [z' o']. cbn [fst snd] in Q. injection H as <- <-. do 2 eexists. split; [reflexivity|].
    cbn [psim hp_coeff hp_hist]. intuition auto.
  - destruct S as [C S]. unfold bp_process in *. rewrite <- C. pose proof (bp_same m (bp_coeff s) _ _ x y S E) as Q. cbv zeta in Q.
    destruct (bp_step (A64 m) fsub to64 to32 (bp_coeff s) (bp_hist s) x) as [z o], (bp_step (A64 m) fsub to64 to32 (bp_coeff s) (bp_hist s') y) as [z' o']. cbn [fst snd] in Q. injection H as <- <-. do 2 eexists. split; [reflexivity|].
    cbn [psim bp_coeff bp_hist]. intuition auto.
  - destruct S as (S1 & S2 & S3 & S4). unfold generic_process in *. rewrite <- S1, <- S2.
    assert (H1 : Forall2 same (shift_in (gn_in s) x) (shift_in (gn_in s') y)) by (apply same_removelast; constructor; assumption).
    pose proof (taps_same (gn_zeros s) _ _ f0 f0 H1 (same_refl f0)) as Q1. destruct (taps (gn_zeros s) (shift_in (gn_in s) x) f0) as [a|]; [|discriminate]. destruct (taps (gn_zeros s) (shift_in (gn_in s') y) f0) as [a'|]; [|contradiction].
    cbn [bind] in *. pose proof (taps_same (gn_poles s) _ _ a a' S4 Q1) as Q2. destruct (taps (gn_poles s) (gn_out s) a) as [b|]; [|discriminate]. destruct (taps (gn_poles s) (gn_out s') a') as [b'|]; [|contradiction].
    cbn [bind] in *. injection H as <- <-. do 2 eexists. split; [reflexivity|]. split; [exact Q2|]. cbn [psim gn_zeros gn_poles gn_in gn_out]. split; [reflexivity|]. split; [reflexivity|]. split; [exact H1|].
    apply same_removelast. constructor; assumption.
Qed.
Lemma psim_trans p q r : psim p q -> psim q r -> psim p r.
Proof.
  assert (ST : forall x y z : f32, same x y -> same y z -> same x z).
  { intros x y z [->|[A B]] [->|[C D]]; unfold same; auto. }
  assert (LT : forall a b c : list f32, Forall2 same a b -> Forall2 same b c -> Forall2 same a c).
  { intros a b c H. revert c. induction H as [|x y a b E H IH]; intros c K; inversion K; subst; constructor; eauto. }
  assert (HT : forall a b c, hsame a b -> hsame b c -> hsame a c).
  { intros a b c (A & B & D) (A' & B' & D'). unfold hsame. eauto 10. }
  assert (BT : forall a b c, bsame a b -> bsame b c -> bsame a c).
  { intros a b c (A & B & D & E) (A' & B' & D' & E'). unfold bsame. eauto 10. }
  destruct p as [|a|w|e|s|s|s|e|e|s], q as [|b|w'|e'|s'|s'|s'|e'|e'|s']; try contradiction; destruct r as [|c|w2|e2|s2|s2|s2|e2|e2|s2]; try contradiction; cbn [psim]; intros P Q.
  - exact I. - congruence. - eauto. - destruct P, Q. split; [congruence|eauto]. - destruct P, Q. split; [congruence|eauto]. - destruct P as (? & ? & ?), Q as (? & ? & ?). split; [congruence|eauto]. - destruct P, Q. split; [congruence|eauto].
  - destruct P as (? & ? & ? & ?), Q as (? & ? & ? & ?). split; [congruence|]. split; [congruence|]. split; eauto.
Qed.
Lemma zero_forall2 (u v : list f32) : Forall zero u -> Forall zero v -> length u = length v -> Forall2 same u v.
Proof. intro H. revert v. induction H as [|x u Z H IH]; intros [|y v] K L; try discriminate L; constructor; inversion K; subst; [apply zero_same; assumption|apply IH; [assumption|injection L as L; exact L]]. Qed.
Lemma hzero_same a b : hzero a -> hzero b -> hsame a b.
Proof. intros (A & B & C) (A' & B' & C'). unfold hsame. auto using zero_same. Qed.
Lemma bzero_same a b : bzero a -> bzero b -> bsame a b.
Proof. intros (A & B & C & D) (A' & B' & C' & D'). unfold bsame. auto using zero_same. Qed.
Lemma rest_step m p x : rest p -> zero x -> exists u p', m_step m p x = Ok (u, p') /\ zero u /\ rest p' /\ psim p' p.
Proof.
  intros H Z. destruct p as [|a|w|e|s|s|s|e|e|s]; try contradiction; cbn [rest m_step] in *.
  - do 2 eexists. split; [reflexivity|]. cbn. auto.
  - unfold gain_process. do 2 eexists. split; [reflexivity|]. split; [apply zero_mul'; assumption|]. split; [exact H|reflexivity].
  - unfold delay_process. assert (A : Forall zero (w ++ [x])) by (apply Forall_app; auto). assert (L : length (w ++ [x]) = S (length w)) by (rewrite app_length; cbn; lia).
    destruct (w ++ [x]) as [|z r]; [discriminate|]. cbn [bind]. inversion A; subst. do 2 eexists. split; [reflexivity|]. split; [assumption|]. split; [assumption|]. cbn [psim]. apply zero_forall2; [assumption|assumption|]. cbn in L. lia.
  - destruct e as [d g]. unfold echo_process. cbn [e_delay e_gain] in *. destruct H as (F & NE & A). destruct d as [|z r]; [congruence|]. inversion A; subst. cbn [bind].
    assert (W : zero (fadd (fmul z g) x)) by (apply zero_add; [apply zero_mul'; assumption|exact Z]).
    do 2 eexists. split; [reflexivity|]. split; [exact W|]. cbn [e_delay e_gain]. split.
    + split; [exact F|]. split; [destruct r; discriminate|]. apply Forall_app; auto.
    + cbn [psim e_delay e_gain]. split; [reflexivity|]. apply zero_forall2; [apply Forall_app; auto|assumption|]. rewrite app_length. cbn. lia.
  - destruct H as ((F0 & F1 & F2 & F3) & (A & B & C)). unfold lp_process, lp_step, lp_out. do 2 eexists. split; [reflexivity|]. cbn [lp_coeff lp_outs].
    match goal with |- zero ?u /\ _ => assert (W : zero u) end.
    { repeat apply zero_add; apply zero_mul; assumption. }
    split; [exact W|]. split; [split; [unfold cfin; auto|unfold hzero; cbn [h0 h1 h2]; auto]|]. split; [reflexivity|]. apply hzero_same; unfold hzero; cbn [h0 h1 h2]; auto.
  - destruct H as (((F0 & F1 & F2 & F3) & G1 & G2 & G3) & (A & B & C) & (A' & B' & C')). unfold hp_process, hp_step, hp_out. destruct (hp_hist s) as [hx hy] eqn:EH. cbn [fst snd] in *. do 2 eexists. split; [reflexivity|]. cbn [hp_coeff hp_hist].
    match goal with |- zero ?u /\ _ => assert (W : zero u) end.
    { repeat apply zero_add; apply zero_mul; assumption. }
    split; [exact W|]. split; [split; [unfold cfin; auto 10|unfold hzero; cbn [fst snd h0 h1 h2]; auto 10]|]. split; [reflexivity|]. rewrite EH. cbn [fst snd]. split; apply hzero_same; unfold hzero; cbn [h0 h1 h2]; auto.
  - destruct H as ((F0 & F1 & F2) & (A & B & C & D)). unfold bp_process, bp_step. cbn [a_add a_sub a_mul A64]. do 2 eexists. split; [reflexivity|]. cbn [bp_coeff bp_hist].
    match goal with |- zero ?u /\ _ => assert (W : zero u) end.
    { apply zero_to32, zero_sub; [apply zero_add|]; apply zero_mul; try assumption; apply zero_to64; try apply zero_sub; assumption. }
    split; [exact W|]. split; [split; [auto|unfold bzero; cbn [bh_x1 bh_x2 bh_y1 bh_y2]; auto]|]. split; [reflexivity|]. apply bzero_same; unfold bzero; cbn [bh_x1 bh_x2 bh_y1 bh_y2]; auto.
  - destruct H as (Hz & Hp & Z1 & Z2). unfold generic_process.
    assert (W1 : Forall zero (shift_in (gn_in s) x)) by (apply zero_removelast; constructor; assumption).
    destruct (taps_zero (gn_zeros s) (shift_in (gn_in s) x) f0 W1 zero_f0) as (a & -> & Q1); [intros c Hc; rewrite shift_in_length; apply Hz, Hc|]. cbn [bind].
    destruct (taps_zero (gn_poles s) (gn_out s) a Z2 Q1 Hp) as (b & -> & Q2). cbn [bind].
    assert (W2 : Forall zero (shift_in (gn_out s) b)) by (apply zero_removelast; constructor; assumption).
    do 2 eexists. split; [reflexivity|]. split; [exact Q2|]. cbn [rest gn_zeros gn_poles gn_in gn_out psim]. rewrite !shift_in_length. split; [auto|].
    split; [reflexivity|]. split; [reflexivity|]. split; apply zero_forall2; try assumption; apply shift_in_length.
Qed.
Lemma psim_refl p : rest p -> psim p p.
Proof.
  assert (LR : forall l : list f32, Forall2 same l l) by (induction l; constructor; auto using same_refl).
  destruct p; cbn [rest psim]; intro H; try contradiction; auto; unfold hsame, bsame; auto 10 using same_refl.
Qed.
Lemma run_sim m xs : forall ys p q us p', psim p q -> Forall2 same xs ys -> run_res (m_step m) p xs = Ok (us, p') ->
  exists vs q', run_res (m_step m) q ys = Ok (vs, q') /\ Forall2 same us vs.
Proof.
  induction xs as [|x xs IH]; intros ys p q us p' S F H; inversion F as [|? y ? r E F']; subst; cbn [run_res] in *.
  - injection H as <- _. do 2 eexists. split; [reflexivity|constructor].
  - destruct (m_step m p x) as [[u p1]|] eqn:E1; [|discriminate]. cbn [bind] in H. destruct (run_res (m_step m) p1 xs) as [[us1 p2]|] eqn:E2; [|discriminate]. cbn [bind] in H. injection H as <- _.
    destruct (step_sim m p q x y S E u p1 E1) as (v & q1 & E3 & V & S1). destruct (IH r p1 q1 us1 p2 S1 F' E2) as (vs & q2 & E4 & W). rewrite E3. cbn [bind]. rewrite E4. cbn [bind].
    do 2 eexists. split; [reflexivity|]. constructor; assumption.
Qed.
(** after k zeros *)
Lemma run_rest m k : forall p q xs ys us p', rest q -> psim p q -> Forall2 same ys (repeat f0 k ++ xs) -> run_res (m_step m) p xs = Ok (us, p') ->
  exists vs q', run_res (m_step m) q ys = Ok (vs, q') /\ Forall2 same vs (repeat f0 k ++ us).
Proof.
  induction k as [|k IH]; intros p q xs ys us p' R S F H; cbn [repeat app] in *.
  - assert (F' : Forall2 same xs ys) by (clear -F; induction F as [|? ? ? ? [->|[A B]] _ IH]; constructor; auto; unfold same; auto).
    destruct (run_sim m xs ys p q us p' S F' H) as (vs & q' & E & W). exists vs, q'. split; [exact E|]. clear -W. induction W as [|? ? ? ? [->|[A B]] _ IH]; constructor; auto; unfold same; auto.
  - inversion F as [|y ? r ? E F']; subst. assert (Z : zero y) by (destruct E as [->|[A _]]; [apply zero_f0|exact A]).
    destruct (rest_step m q y R Z) as (v & q1 & E1 & V & R1 & S1). cbn [run_res]. rewrite E1. cbn [bind].
    assert (S2 : psim p q1).
    { eapply psim_trans; [exact S|]. clear -S1. assert (SY : forall x y : f32, same x y -> same y x) by (intros x y [->|[A B]]; unfold same; auto).
      assert (LS : forall a b : list f32, Forall2 same a b -> Forall2 same b a) by (intros a b H; induction H; constructor; auto).
      destruct q1, q; try contradiction; cbn [psim] in *; unfold hsame, bsame in *; intuition (auto; congruence). }
    destruct (IH p q1 xs r us p' R1 S2 F' H) as (vs & q' & E2 & W). rewrite E2. cbn [bind]. do 2 eexists. split; [reflexivity|]. constructor; [apply zero_same; [exact V|apply zero_f0]|exact W].
Qed.
Lemma part_rests m p : cos_accurate m -> pow_int_accurate m -> tan_accurate m -> l_ok m p -> rest (l_part m p).
Proof.
  intros HC HP HT OK. assert (ZR : forall n, Forall zero (repeat (f0 : f32) n)) by (intro n; apply Forall_forall; intros x Hx; apply repeat_spec in Hx; subst x; apply zero_f0).
  destruct p as [|a|d|d g|fc r|fc r|f q|z p]; cbn [l_part rest].
  - exact I.
  - apply OK.
  - unfold delay_new, zeros. apply ZR.
  - destruct OK as (NE & F & _). split; [exact F|]. split; [exact NE|]. unfold echo_new, zeros. cbn [e_delay]. apply ZR.
  - destruct (params_ok fc r OK) as ((Ff & Bf) & (Fr & Br)). destruct (lp_coeffs_acc m _ _ HC HP Ff Bf Fr Br) as (c0F & b1F & b2F & b3F & EC & [A0 _] & [A1 _] & [A2 _] & [A3 _]).
    change (lp_coeff (lp_new m fc r)) with (lp_coeffs (A64 m) to32 (clamp_fc fc) (clamp_r r)). rewrite EC. split; [unfold cfin; cbn; auto|]. unfold hzero. cbn [lp_new lp_reset lp_outs hist0 h0 h1 h2]. auto using zero_f0.
  - destruct (params_ok fc r OK) as ((Ff & Bf) & (Fr & Br)). destruct (hp_coeffs_acc m _ _ HC HP Ff Bf Fr Br) as (a0F & a1F & a2F & a3F & b1F & b2F & b3F & EC & ([A1 _] & [A2 _] & [A3 _]) & [C0 _] & [C1 _] & [C2 _] & [C3 _]).
    change (hp_coeff (hp_new m fc r)) with (hp_coeffs (A64 m) to32 (clamp_fc fc) (clamp_r r)). rewrite EC. split; [unfold cfin; cbn; auto 10|]. unfold hzero. cbn [hp_new hp_reset hp_hist hist0 fst snd h0 h1 h2]. auto 10 using zero_f0.
  - destruct OK as [HL HH]. change (bp_coeff (bp_new m f q)) with (bp_coeffs (A64 m) f q). change (bp_get_corners m (bp_new m f q)) with (bp_corners (A64 m) f q) in *. unfold bp_coeffs.
    destruct (bp_corners (A64 m) f q) as [lo hi]. cbn [fst snd] in *. destruct (audible_R _ HL) as [FL RL]. destruct (audible_R _ HH) as [FH RH].
    destruct (theta_range m lo HT FL RL) as [Fl Tl]. destruct (theta_range m hi HT FH RH) as [Fh Th].
    destruct (coeff_ok m lo hi _ _ eq_refl eq_refl Fl Fh ltac:(lra) ltac:(lra)) as (FA & _ & FP & _ & FQ & _). cbn [bc_a0 bc_b1 bc_b2]. split; [auto|]. unfold bzero. cbn [bp_new bp_reset bp_hist bph0 bh_x1 bh_x2 bh_y1 bh_y2]. auto using zero_f0.
  - destruct OK as (Oz & Op & _). unfold generic_new, zeros. cbn [gn_zeros gn_poles gn_in gn_out]. rewrite !repeat_length.
    split; [intros c Hc; destruct (Oz c Hc); split; [lia|assumption]|]. split; [intros c Hc; destruct (Op c Hc); split; [lia|assumption]|]. split; apply ZR.
Qed.
Lemma chain_rests m ps k : cos_accurate m -> pow_int_accurate m -> tan_accurate m -> (forall p, In p ps -> l_ok m p) ->
  forall xs ys us, Forall2 same ys (repeat f0 k ++ xs) -> pipeline (b_prime kit kit_prime) (b_process kit (kit_process m)) (map (chain_block m) ps) xs = Ok us ->
  exists vs, pipeline (b_prime kit kit_prime) (b_process kit (kit_process m)) (map (chain_block m) ps) ys = Ok vs /\ Forall2 same vs (repeat f0 k ++ us).
Proof.
  intros HC HP HT. induction ps as [|p r IH]; intros OK xs ys us F H.
  - injection H as <-. exists ys. split; [reflexivity|exact F].
  - cbn [map] in *. rewrite pipeline_cons in *. unfold chain_block at 1 in H. unfold chain_block at 1. rewrite user_cycle, kit_modifier_filters, mod_fed in *.
    destruct (run_res (m_step m) (l_part m p) (map (fadd f0) xs)) as [[zs p']|] eqn:E; [|discriminate]. cbn [outputs bind] in H.
    assert (R := part_rests m p HC HP HT (OK p (or_introl eq_refl))).
    destruct (run_rest m k (l_part m p) (l_part m p) (map (fadd f0) xs) (map (fadd f0) ys) zs p' R (psim_refl _ R)) as (vs & q' & E1 & W).
    { assert (G : Forall2 same (map (fadd f0) ys) (map (fadd f0) (repeat f0 k ++ xs))) by (clear -F; induction F; cbn [map]; constructor; auto; apply same_add; [apply same_refl|assumption]).
      rewrite map_app in G. replace (map (fadd f0) (repeat (f0 : f32) k)) with (repeat (f0 : f32) k) in G; [exact G|]. clear. induction k as [|k IH]; [reflexivity|]. cbn [repeat map]. rewrite <- IH. reflexivity. }
    { exact E. }
    rewrite E1. cbn [outputs bind]. apply (IH (fun q Hq => OK q (or_intror Hq)) zs vs us W H).
Qed.
Lemma chain_waits m ps k xs us : cos_accurate m -> pow_int_accurate m -> tan_accurate m -> (forall p, In p ps -> l_ok m p) ->
  pipeline (b_prime kit kit_prime) (b_process kit (kit_process m)) (map (chain_block m) ps) xs = Ok us ->
  exists vs, pipeline (b_prime kit kit_prime) (b_process kit (kit_process m)) (map (chain_block m) ps) (repeat f0 k ++ xs) = Ok vs /\ Forall2 same_sample vs (repeat f0 k ++ us).
Proof.
  intros HC HP HT OK H. destruct (chain_rests m ps k HC HP HT OK xs (repeat f0 k ++ xs) us) as (vs & E & W); [|exact H|].
  - generalize (repeat (f0 : f32) k ++ xs). induction l; constructor; auto using same_refl.
  - exists vs. split; [exact E|]. clear -W. induction W; constructor; [apply same_iff; assumption|assumption].
Qed.

(** ** absolute sums *)
Definition op_bound (h : nat -> R) (G : R) : Prop := forall x E n, 0 <= E -> (forall i, Rabs (x i) <= E) -> Rabs (conv h x n) <= G * E.
Lemma abs_sum h G n : op_bound h G -> sum_f_R0 (fun k => Rabs (h k)) n <= G.
Proof.
  intro B. set (x := fun i => if Rle_dec 0 (h (n - i)%nat) then 1 else -1).
  assert (E : conv h x n = sum_f_R0 (fun k => Rabs (h k)) n).
  { unfold conv. apply sum_eq. intros k Hk. unfold x. replace (n - (n - k))%nat with k by lia. destruct (Rle_dec 0 (h k)); [rewrite Rabs_pos_eq by assumption|rewrite Rabs_left by lra]; ring. }
  assert (Q := B x 1 n ltac:(lra)). rewrite Rmult_1_r, E in Q. eapply Rle_trans; [apply Rle_abs|]. apply Q. intro i. unfold x. destruct (Rle_dec 0 (h (n - i)%nat)); apply Rabs_le; lra.
Qed.
Lemma conv_prefix h x n : conv h x n = conv h (fun i => if (i <=? n)%nat then x i else 0) n.
Proof. apply conv_ext; [reflexivity|]. intros k Hk. destruct (Nat.leb_spec k n); [reflexivity|lia]. Qed.
Lemma part_bound m p : l_ok m p -> op_bound (l_h m p) (l_gain m p).
Proof.
  intros OK x E n HE HX. destruct p as [|a|d|d g|fc r|fc r|f q|z p]; cbn [l_gain].
  - cbn [l_h]. rewrite impulse_conv. specialize (HX n). lra.
  - cbn [l_h]. rewrite conv_gain, Rabs_mult. apply Rmult_le_compat_l; [apply Rabs_pos|apply HX].
  - cbn [l_h]. rewrite conv_late. destruct (n <? _)%nat; [rewrite Rabs_R0; lra|]. rewrite Rmult_1_l. apply HX.
  - destruct OK as (NE & _ & G1). set (D := length (e_delay (echo_new d g))). assert (HD : (0 < D)%nat) by (unfold D; destruct (e_delay (echo_new d g)); [congruence|cbn; lia]).
    cbn [l_h]. fold D. set (G := B2R (to32 g)) in *. set (a := Rabs G) in *. change (fun n0 => if (n0 mod D =? 0)%nat then G ^ (n0 / D) else 0) with (echo_h D G). rewrite conv_echo by exact HD.
    set (B := / (1 - a) * E). assert (EB : B = E + a * B) by (unfold B; field; lra). assert (B0 : 0 <= B) by (unfold B; apply Rmult_le_pos; [left; apply Rinv_0_lt_compat; lra|exact HE]).
    assert (a0 : 0 <= a) by apply Rabs_pos. clearbody B.
    induction n as [k IH] using lt_wf_ind. destruct (Nat.lt_ge_cases k D) as [C|C].
    + rewrite comb_small by exact C. specialize (HX k). assert (0 <= a * B) by (apply Rmult_le_pos; assumption). lra.
    + rewrite comb_rec by lia. specialize (IH (k - D)%nat ltac:(lia)). specialize (HX k). eapply Rle_trans; [apply Rabs_triang|]. rewrite Rabs_mult. fold a. assert (a * Rabs (comb D G x (k - D)) <= a * B) by (apply Rmult_le_compat_l; assumption). lra.
  - destruct (params_ok fc r OK) as ((_ & Bf) & (_ & Br)). set (s := lp_new m fc r). change (clamp_fc fc) with (lp_fc s) in Bf. change (clamp_r r) with (lp_r s) in Br.
    change (l_h m (LLow fc r)) with (response (lpR (B2R (lp_fc s)) (B2R (lp_r s))) (hist0 0) impulse).
    rewrite <- (machine_conv (lpR (B2R (lp_fc s)) (B2R (lp_r s))) hadd hsc (hist0 0) ltac:(intros; apply lp_lin) hadd0 (lpR_0 _ _)).
    apply (lowpass_stable (B2R (lp_fc s)) (B2R (lp_r s)) E (map x (seq 0 (S n))) ltac:(lra) Br HE); [|apply out_in]. intros z Hz. apply in_map_iff in Hz. destruct Hz as (i & <- & _). apply HX.
  - destruct (params_ok fc r OK) as ((_ & Bf) & (_ & Br)). set (s := hp_new m fc r). change (clamp_fc fc) with (hp_fc s) in Bf. change (clamp_r r) with (hp_r s) in Br.
    change (l_h m (LHigh fc r)) with (response (hpR (B2R (hp_fc s)) (B2R (hp_r s))) (hist0 0, hist0 0) impulse).
    rewrite <- (machine_conv (hpR (B2R (hp_fc s)) (B2R (hp_r s))) hadd2 hsc2 (hist0 0, hist0 0) ltac:(intros; apply hp_lin) hadd20 (hpR_0 _ _)).
    assert (HXL : forall z, In z (map x (seq 0 (S n))) -> Rabs z <= E) by (intros z Hz; apply in_map_iff in Hz; destruct Hz as (i & <- & _); apply HX).
    pose proof (highpass_stable (B2R (hp_fc s)) (B2R (hp_r s)) E (map x (seq 0 (S n))) ltac:(lra) Br HE HXL _ (out_in (hpR (B2R (hp_fc s)) (B2R (hp_r s))) (hist0 0, hist0 0) x n)) as BB. unfold rad. unfold Rdiv in *. lra.
  - destruct OK as [HL HH]. destruct (audible_R _ HL) as [_ RL]. destruct (audible_R _ HH) as [_ RH]. cbv zeta.
    set (lo := B2R (fst (bp_get_corners m (bp_new m f q)))) in *. set (hi := B2R (snd (bp_get_corners m (bp_new m f q)))) in *.
    change (l_h m (LBand f q)) with (response (bp_stepR (bp_at lo hi)) (mkBPH 0 0 0 0) impulse).
    rewrite <- (machine_conv (bp_stepR (bp_at lo hi)) badd bsc (mkBPH 0 0 0 0) ltac:(intros; apply bp_lin) badd0 (bpR_0 _)).
    apply (bp_at_bound lo hi E (map x (seq 0 (S n))) ltac:(lra) ltac:(lra) HE); [|apply out_in]. intros z Hz. apply in_map_iff in Hz. destruct Hz as (i & <- & _). apply HX.
  - cbn [l_h]. rewrite <- sol_conv. destruct OK as (_ & _ & _ & Wp & _). apply (sol_bound z p x E Wp HE n); [intros; apply HX|lia].
Qed.
Lemma chain_bound m ps : (forall p, In p ps -> l_ok m p) -> op_bound (chain_h m ps) (fold_right (fun p a => l_gain m p * a) 1 ps).
Proof.
  induction ps as [|p r IH]; intros OK x E n HE HX; cbn [chain_h fold_right]; [rewrite impulse_conv; specialize (HX n); lra|].
  rewrite conv_assoc. assert (B := part_bound m p (OK p (or_introl eq_refl)) x E). destruct (part_grows m p (OK p (or_introl eq_refl))) as [G _].
  replace (l_gain m p * fold_right (fun p0 a => l_gain m p0 * a) 1 r * E) with (fold_right (fun p0 a => l_gain m p0 * a) 1 r * (l_gain m p * E)) by ring.
  apply (IH (fun q Hq => OK q (or_intror Hq))); [apply Rmult_le_pos; assumption|]. intro i. apply B; assumption.
Qed.
Lemma chain_abs_sum m ps n : (forall p, In p ps -> l_ok m p) -> sum_f_R0 (fun k => Rabs (chain_h m ps k)) n <= fold_right (fun p a => l_gain m p * a) 1 ps.
Proof. intro OK. apply abs_sum, chain_bound, OK. Qed.
