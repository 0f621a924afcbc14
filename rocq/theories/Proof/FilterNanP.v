(** * LowPass and HighPass at 20 Hz in f32: the rounded coefficients make the filters diverge *)
From Coq Require Import ZArith NArith List Bool Reals Lra Lia Psatz Floats.SpecFloat.
From Flocq Require Import Core.Core IEEE754.BinarySingleNaN.
From Verif Require Import Model.Floats Model.Modifiers Model.Filters Spec.Libm Proof.FloatFacts Proof.SampleFormatP Proof.FormatsP
  Proof.GenericP Proof.GeneratorsP4 Proof.SpecFloatP Proof.FiltersP Proof.FiltersP2.
Import ListNotations.
Local Open Scope R_scope.

(** ** intervals of floats *)
Section BW.
Context {p e : Z} {Hp : Prec_gt_0 p} {He : Prec_lt_emax p e}.
Notation fl := (binary_float p e).
Notation rnd := (round radix2 (SpecFloat.fexp p e) ZnearestE).
Definition bw (l h x : fl) : Prop := fin l /\ fin h /\ fin x /\ B2R l <= B2R x <= B2R h.
Lemma bw_point x : fin x -> bw x x x.
Proof. unfold bw. intuition lra. Qed.

Lemma ovf_fin (x : fl) m s : B2SF x = binary_overflow p e m s -> m = mode_NE -> ~ fin x.
Proof. intros H -> F. unfold binary_overflow, overflow_to_inf in H. destruct x; discriminate. Qed.
Lemma fadd_inv (x y : fl) : fin x -> fin y -> fin (fadd x y) ->
  B2R (fadd x y) = rnd (B2R x + B2R y) /\ Rabs (rnd (B2R x + B2R y)) < bpow radix2 e.
Proof.
  intros Fx Fy F. pose proof (Bplus_correct p e Hp He mode_NE x y Fx Fy) as H. cbn [round_mode] in H.
  destruct (Rlt_bool_spec (Rabs (rnd (B2R x + B2R y))) (bpow radix2 e)) as [L|L].
  - destruct H as [H _]. split; assumption.
  - destruct H as [H _]. elim (ovf_fin _ _ _ H eq_refl F).
Qed.
Lemma fsub_inv (x y : fl) : fin x -> fin y -> fin (fsub x y) ->
  B2R (fsub x y) = rnd (B2R x - B2R y) /\ Rabs (rnd (B2R x - B2R y)) < bpow radix2 e.
Proof.
  intros Fx Fy F. pose proof (Bminus_correct p e Hp He mode_NE x y Fx Fy) as H. cbn [round_mode] in H.
  destruct (Rlt_bool_spec (Rabs (rnd (B2R x - B2R y))) (bpow radix2 e)) as [L|L].
  - destruct H as [H _]. split; assumption.
  - destruct H as [H _]. elim (ovf_fin _ _ _ H eq_refl F).
Qed.
Lemma fmul_inv (x y : fl) : fin (fmul x y) ->
  B2R (fmul x y) = rnd (B2R x * B2R y) /\ Rabs (rnd (B2R x * B2R y)) < bpow radix2 e.
Proof.
  intro F. pose proof (Bmult_correct p e Hp He mode_NE x y) as H. cbn [round_mode] in H.
  destruct (Rlt_bool_spec (Rabs (rnd (B2R x * B2R y))) (bpow radix2 e)) as [L|L].
  - destruct H as [H _]. split; assumption.
  - elim (ovf_fin _ _ _ H eq_refl F).
Qed.
Lemma fdiv_inv (x y : fl) : B2R y <> 0 -> fin (fdiv x y) ->
  B2R (fdiv x y) = rnd (B2R x / B2R y) /\ Rabs (rnd (B2R x / B2R y)) < bpow radix2 e.
Proof.
  intros N F. pose proof (Bdiv_correct p e Hp He mode_NE x y N) as H. cbn [round_mode] in H.
  destruct (Rlt_bool_spec (Rabs (rnd (B2R x / B2R y))) (bpow radix2 e)) as [L|L].
  - destruct H as [H _]. split; assumption.
  - elim (ovf_fin _ _ _ H eq_refl F).
Qed.
Lemma between a b c : Rabs (rnd a) < bpow radix2 e -> Rabs (rnd c) < bpow radix2 e -> a <= b <= c ->
  rnd a <= rnd b <= rnd c /\ Rabs (rnd b) < bpow radix2 e.
Proof.
  intros A C [H1 H2]. pose proof (rnd_le (prec:=p) (emax:=e) a b H1). pose proof (rnd_le (prec:=p) (emax:=e) b c H2). split; [lra|].
  apply Rabs_def2 in A. apply Rabs_def2 in C. apply Rabs_def1; lra.
Qed.
Lemma bw_add l1 h1 x l2 h2 y : bw l1 h1 x -> bw l2 h2 y -> fin (fadd l1 l2) -> fin (fadd h1 h2) ->
  bw (fadd l1 l2) (fadd h1 h2) (fadd x y).
Proof.
  intros (A & B & C & D) (A' & B' & C' & D') FL FH.
  destruct (fadd_inv _ _ A A' FL) as [EL BL]. destruct (fadd_inv _ _ B B' FH) as [EH BH].
  destruct (between _ (B2R x + B2R y) _ BL BH ltac:(lra)) as [O BB].
  destruct (fadd_ok x y C C' BB) as [F E]. unfold bw. rewrite EL, EH, E. auto.
Qed.
Lemma bw_sub l1 h1 x l2 h2 y : bw l1 h1 x -> bw l2 h2 y -> fin (fsub l1 h2) -> fin (fsub h1 l2) ->
  bw (fsub l1 h2) (fsub h1 l2) (fsub x y).
Proof.
  intros (A & B & C & D) (A' & B' & C' & D') FL FH.
  destruct (fsub_inv _ _ A B' FL) as [EL BL]. destruct (fsub_inv _ _ B A' FH) as [EH BH].
  destruct (between _ (B2R x - B2R y) _ BL BH ltac:(lra)) as [O BB].
  destruct (fsub_ok x y C C' BB) as [F E]. unfold bw. rewrite EL, EH, E. auto.
Qed.
Lemma bw_neg l h x : bw l h x -> bw (fneg h) (fneg l) (fneg x).
Proof. intros (A & B & C & D). unfold bw. rewrite !fneg_fin, !fneg_R. repeat split; auto; lra. Qed.
Lemma f0_le (x : fl) : fin x -> fle f0 x = true -> 0 <= B2R x.
Proof. intros F H. apply (fle_true f0 x eq_refl F) in H. exact H. Qed.
Lemma le_f0 (x : fl) : fin x -> fle x f0 = true -> B2R x <= 0.
Proof. intros F H. apply (fle_true x f0 F eq_refl) in H. exact H. Qed.
Lemma f0_lt (x : fl) : fin x -> flt f0 x = true -> 0 < B2R x.
Proof. intros F H. apply (flt_true f0 x eq_refl F) in H. exact H. Qed.
(** nonnegative times nonnegative *)
Lemma bw_mul l1 h1 x l2 h2 y : bw l1 h1 x -> bw l2 h2 y -> fle f0 l1 = true -> fle f0 l2 = true ->
  fin (fmul l1 l2) -> fin (fmul h1 h2) -> bw (fmul l1 l2) (fmul h1 h2) (fmul x y).
Proof.
  intros (A & B & C & D) (A' & B' & C' & D') P1 P2 FL FH. apply (f0_le _ A) in P1. apply (f0_le _ A') in P2.
  destruct (fmul_inv _ _ FL) as [EL BL]. destruct (fmul_inv _ _ FH) as [EH BH].
  destruct (between _ (B2R x * B2R y) _ BL BH) as [O BB]; [split; apply Rmult_le_compat; lra|].
  destruct (fmul_ok x y C C' BB) as [F E]. unfold bw. rewrite EL, EH, E. auto.
Qed.
(** a nonnegative constant times anything *)
Lemma bw_mulc c l h x : fin c -> fle f0 c = true -> bw l h x -> fin (fmul c l) -> fin (fmul c h) -> bw (fmul c l) (fmul c h) (fmul c x).
Proof.
  intros Fc P (A & B & C & D) FL FH. apply (f0_le _ Fc) in P.
  destruct (fmul_inv _ _ FL) as [EL BL]. destruct (fmul_inv _ _ FH) as [EH BH].
  destruct (between _ (B2R c * B2R x) _ BL BH) as [O BB]; [split; apply Rmult_le_compat_l; lra|].
  destruct (fmul_ok c x Fc C BB) as [F E]. unfold bw. rewrite EL, EH, E. auto.
Qed.
(** nonpositive times nonnegative *)
Lemma bw_mul_np l1 h1 x l2 h2 y : bw l1 h1 x -> bw l2 h2 y -> fle h1 f0 = true -> fle f0 l2 = true ->
  fin (fmul l1 h2) -> fin (fmul h1 l2) -> bw (fmul l1 h2) (fmul h1 l2) (fmul x y).
Proof.
  intros (A & B & C & D) (A' & B' & C' & D') P1 P2 FL FH. apply (le_f0 _ B) in P1. apply (f0_le _ A') in P2.
  destruct (fmul_inv _ _ FL) as [EL BL]. destruct (fmul_inv _ _ FH) as [EH BH].
  destruct (between _ (B2R x * B2R y) _ BL BH) as [O BB].
  { split; [|].
    - assert (0 <= (- B2R l1) * B2R h2 - (- B2R x) * B2R y); [|lra]. apply Rle_0_minus. apply Rmult_le_compat; lra.
    - assert (0 <= (- B2R x) * B2R y - (- B2R h1) * B2R l2); [|lra]. apply Rle_0_minus. apply Rmult_le_compat; lra. }
  destruct (fmul_ok x y C C' BB) as [F E]. unfold bw. rewrite EL, EH, E. auto.
Qed.
Lemma bw_div l1 h1 x l2 h2 y : bw l1 h1 x -> bw l2 h2 y -> fle f0 l1 = true -> flt f0 l2 = true ->
  fin (fdiv l1 h2) -> fin (fdiv h1 l2) -> bw (fdiv l1 h2) (fdiv h1 l2) (fdiv x y).
Proof.
  intros (A & B & C & D) (A' & B' & C' & D') P1 P2 FL FH. apply (f0_le _ A) in P1. apply (f0_lt _ A') in P2.
  destruct (fdiv_inv l1 h2 ltac:(lra) FL) as [EL BL]. destruct (fdiv_inv h1 l2 ltac:(lra) FH) as [EH BH].
  destruct (between _ (B2R x / B2R y) _ BL BH) as [O BB].
  { unfold Rdiv. split; apply Rmult_le_compat; try lra; try (left; apply Rinv_0_lt_compat; lra); apply Rinv_le; lra. }
  destruct (fdiv_ok x y C ltac:(lra) BB) as [F E]. unfold bw. rewrite EL, EH, E. auto.
Qed.
Lemma bw_div_np l1 h1 x l2 h2 y : bw l1 h1 x -> bw l2 h2 y -> fle h1 f0 = true -> flt f0 l2 = true ->
  fin (fdiv l1 l2) -> fin (fdiv h1 h2) -> bw (fdiv l1 l2) (fdiv h1 h2) (fdiv x y).
Proof.
  intros (A & B & C & D) (A' & B' & C' & D') P1 P2 FL FH. apply (le_f0 _ B) in P1. apply (f0_lt _ A') in P2.
  destruct (fdiv_inv l1 l2 ltac:(lra) FL) as [EL BL]. destruct (fdiv_inv h1 h2 ltac:(lra) FH) as [EH BH].
  destruct (between _ (B2R x / B2R y) _ BL BH) as [O BB].
  { assert (I1 : / B2R y <= / B2R l2) by (apply Rinv_le; lra). assert (I2 : / B2R h2 <= / B2R y) by (apply Rinv_le; lra).
    assert (I3 : 0 < / B2R h2) by (apply Rinv_0_lt_compat; lra). unfold Rdiv. split.
    - assert (0 <= (- B2R l1) * / B2R l2 - (- B2R x) * / B2R y); [|lra]. apply Rle_0_minus. apply Rmult_le_compat; lra.
    - assert (0 <= (- B2R x) * / B2R y - (- B2R h1) * / B2R h2); [|lra]. apply Rle_0_minus. apply Rmult_le_compat; lra. }
  destruct (fdiv_ok x y C ltac:(lra) BB) as [F E]. unfold bw. rewrite EL, EH, E. auto.
Qed.
End BW.

Lemma fcast_inv (x : f64) : fin x -> fin (to32 x) ->
  B2R (to32 x) = round radix2 (SpecFloat.fexp 24 128) ZnearestE (B2R x) /\ Rabs (round radix2 (SpecFloat.fexp 24 128) ZnearestE (B2R x)) < bpow radix2 128.
Proof.
  intros F F32. assert (H : Rabs (round radix2 (SpecFloat.fexp 24 128) ZnearestE (B2R x)) < bpow radix2 128).
  { destruct x as [s|s| |s m ex Hb]; try discriminate F.
    - cbn [B2R]. rewrite rnd_0. rewrite Rabs_R0. apply bpow_gt_0.
    - unfold to32, fcast in F32. pose proof (binary_normalize_correct 24 128 _ _ mode_NE (cond_Zopp s (Z.pos m)) ex s) as H. cbn [round_mode] in H.
      change (B2R (B754_finite s m ex Hb)) with (F2R (Float radix2 (cond_Zopp s (Z.pos m)) ex)).
      destruct (Rlt_bool_spec (Rabs (round radix2 (SpecFloat.fexp 24 128) ZnearestE (F2R (Float radix2 (cond_Zopp s (Z.pos m)) ex)))) (bpow radix2 128)) as [L|L]; [exact L|].
      elim (ovf_fin (p:=24) (e:=128) _ _ _ H eq_refl F32). }
  split; [|exact H]. exact (proj2 (fcast_ok (p2:=24) (e2:=128) x F H)).
Qed.
(** both ends of the interval are cast to the same nonzero f32 *)
Lemma bw_cast l h x : bw l h x -> fin (to32 l) -> fin (to32 h) -> feq (to32 l) (to32 h) = true -> feq (to32 l) f0 = false ->
  to32 x = to32 l.
Proof.
  intros (A & B & C & D) FL FH E NZ.
  destruct (fcast_inv l A FL) as [EL BL]. destruct (fcast_inv h B FH) as [EH BH].
  destruct (between (p:=24) (e:=128) _ (B2R x) _ BL BH D) as [O BB].
  destruct (fcast_ok (p2:=24) (e2:=128) x C BB) as [F EX].
  assert (EQ : B2R (to32 l) = B2R (to32 h)).
  { unfold feq in E. rewrite (Beqb_correct _ _ _ _ FL FH) in E. apply Req_bool_true_iff in E || (destruct (Req_bool_spec (B2R (to32 l)) (B2R (to32 h))); [assumption|discriminate]). }
  assert (N0 : B2R (to32 l) <> 0).
  { unfold feq in NZ. rewrite (Beqb_correct _ _ (to32 l) f0 FL eq_refl) in NZ. change (B2R (f0 : f32)) with 0 in NZ.
    destruct (Req_bool_spec (B2R (to32 l)) 0); [discriminate|assumption]. }
  assert (V : B2R (to32 x) = B2R (to32 l)).
  { rewrite EL, EH in EQ. unfold to32 at 1. rewrite EX, EL. lra. }
  apply fin_eq; [exact F|exact FL|exact V|]. rewrite V. exact N0.
Qed.

(** ** the coefficients at 20 Hz, resonance 1 *)
Local Notation t20 := (lit 6036682881730935 (-61) : f64).
Local Notation th1 := (lit 7074237752028440 (-52) : f64).
Definition cl : f64 := lit (-1) (-32).
Definition ch : f64 := lit 1 (-32).
Definition q2l : f64 := lit 8091647399806781 (-70).
Definition q2h : f64 := lit 8091647399806799 (-70).
Definition q3l : f64 := lit 5423074139023343 (-78).
Definition q3h : f64 := lit 5423074139023361 (-78).
Definition kl : f64 := fsub (of_Z 1) (fmul (of_Z 2) ch).
Definition kh : f64 := fsub (of_Z 1) (fmul (of_Z 2) cl).
Definition gl : f64 := fadd (fadd (fadd q3l (fmul kl q2l)) (fmul kl t20)) (of_Z 1).
Definition gh : f64 := fadd (fadd (fadd q3h (fmul kh q2h)) (fmul kh t20)) (of_Z 1).
Definition n1l : f64 := fadd (fadd (fmul kl q2l) (fmul (fmul (of_Z 2) kl) t20)) (of_Z 3).
Definition n1h : f64 := fadd (fadd (fmul kh q2h) (fmul (fmul (of_Z 2) kh) t20)) (of_Z 3).
Definition n2l : f64 := fsub (fmul (fneg kh) t20) (of_Z 3).
Definition n2h : f64 := fsub (fmul (fneg kl) t20) (of_Z 3).

Ltac vmr := vm_compute; reflexivity.
Lemma lit64_R (x : f64) m ex : B2SF x = SpecFloat.S754_finite false m ex -> fin x /\ B2R x = IZR (Zpos m) * bpow radix2 ex.
Proof. destruct x as [| | |s m' e' H]; try discriminate. intro E. injection E as -> -> ->. split; reflexivity. Qed.
Lemma lit64_Rn (x : f64) m ex : B2SF x = SpecFloat.S754_finite true m ex -> fin x /\ B2R x = - (IZR (Zpos m) * bpow radix2 ex).
Proof.
  destruct x as [| | |s m' e' H]; try discriminate. intro E. injection E as -> -> ->. split; [reflexivity|].
  cbn [B2R]. unfold F2R. cbn [Fnum Fexp cond_Zopp]. rewrite opp_IZR. ring.
Qed.

Section Pin.
Variable m : libm.
Hypothesis HC : cos_accurate m.
Hypothesis HP : pow_int_accurate m.
Let A := A64 m.
Lemma t20_eq : bw_t A (of_Z 20) = t20.
Proof. unfold A, bw_t. cbn [a_mul a_Z a_pi a_inv A64]. apply B2SF_inj. vmr. Qed.
Lemma th_lp_eq : lp_theta A (of_Z 1) = th1.
Proof. unfold A, lp_theta. cbn [a_mul a_div a_sub a_Z a_pi a_inv A64]. apply B2SF_inj. vmr. Qed.
Lemma th_hp_eq : hp_theta A (of_Z 1) = th1.
Proof. unfold A, hp_theta. cbn [a_mul a_div a_sub a_Z a_pi a_inv A64]. apply B2SF_inj. vmr. Qed.
Lemma t20_R : fin t20 /\ B2R t20 = 6036682881730935 * bpow radix2 (-61).
Proof. apply lit64_R. vmr. Qed.
Lemma cos_bw : bw cl ch (cos64 m th1).
Proof.
  assert (T : fin th1 /\ B2R th1 = 7074237752028440 * bpow radix2 (-52)) by (apply lit64_R; vmr).
  destruct T as [FT RT]. change (bpow radix2 (-52)) with (/ 4503599627370496) in RT.
  pose proof PI_bounds as PB.
  destruct (HC th1 FT) as [FC EC]; [rewrite RT; apply Rabs_le; lra|].
  assert (L : Rabs (cos (B2R th1)) <= / 5000000000).
  { replace (cos (B2R th1)) with (cos (B2R th1) - cos (PI / 2)) by (rewrite cos_PI2; ring).
    eapply Rle_trans; [apply cos_lip|]. rewrite RT. apply Rabs_le. lra. }
  assert (VL : fin cl /\ B2R cl = - (4503599627370496 * bpow radix2 (-84))) by (apply lit64_Rn; vmr).
  assert (VH : fin ch /\ B2R ch = 4503599627370496 * bpow radix2 (-84)) by (apply lit64_R; vmr).
  replace (4503599627370496 * bpow radix2 (-84)) with (/ 4294967296) in VL, VH by (change (bpow radix2 (-84)) with (/ 19342813113834066795298816); lra).
  destruct VL as [FL VL]. destruct VH as [FH VH]. change (bpow radix2 (-50)) with (/ 1125899906842624) in EC.
  apply Rabs_le_inv in EC. apply Rabs_le_inv in L. unfold bw. rewrite VL, VH. repeat split; try assumption; lra.
Qed.
Lemma k_bw : bw kl kh (bw_k A th1).
Proof.
  unfold bw_k, A. cbn [a_sub a_mul a_cos a_Z A64]. unfold kl, kh.
  apply bw_sub; [apply bw_point; vmr| |vmr|vmr]. apply bw_mulc; [vmr|vmr|apply cos_bw|vmr|vmr].
Qed.
Lemma pow_bw (n : Z) (l h : f64) (a b : positive) (ex : Z) : (2 <= n <= 3)%Z ->
  B2SF l = SpecFloat.S754_finite false a ex -> B2SF h = SpecFloat.S754_finite false b ex ->
  IZR (Zpos a) * bpow radix2 ex <= B2R t20 ^ Z.to_nat n * (1 - bpow radix2 (-50)) ->
  B2R t20 ^ Z.to_nat n * (1 + bpow radix2 (-50)) <= IZR (Zpos b) * bpow radix2 ex ->
  bw l h (pow64 m t20 (of_Z n)).
Proof.
  intros Hn EL EH IL IH. destruct (lit64_R _ _ _ EL) as [FL VL]. destruct (lit64_R _ _ _ EH) as [FH VH].
  destruct t20_R as [FT RT]. destruct (HP t20 n FT) as [FP EP]; [|exact Hn|].
  { rewrite RT. change (bpow radix2 (-61)) with (/ 2305843009213693952). split; [|lra].
    apply Rle_trans with (bpow radix2 (-10)); [apply bpow_le; lia|]. change (bpow radix2 (-10)) with (/ 1024). lra. }
  apply Rabs_le_inv in EP. unfold bw. rewrite VL, VH. repeat split; try assumption; lra.
Qed.
Lemma p2_bw : bw q2l q2h (pow64 m t20 (of_Z 2)).
Proof.
  destruct t20_R as [_ RT].
  apply (pow_bw 2 q2l q2h 8091647399806781 8091647399806799 (-70)); [lia|vmr|vmr| |]; rewrite RT; change (Z.to_nat 2) with 2%nat;
    change (bpow radix2 (-61)) with (/ 2305843009213693952); change (bpow radix2 (-70)) with (/ 1180591620717411303424);
    change (bpow radix2 (-50)) with (/ 1125899906842624); lra.
Qed.
Lemma p3_bw : bw q3l q3h (pow64 m t20 (of_Z 3)).
Proof.
  destruct t20_R as [_ RT].
  apply (pow_bw 3 q3l q3h 5423074139023343 5423074139023361 (-78)); [lia|vmr|vmr| |]; rewrite RT; change (Z.to_nat 3) with 3%nat;
    change (bpow radix2 (-61)) with (/ 2305843009213693952); change (bpow radix2 (-78)) with (/ 302231454903657293676544);
    change (bpow radix2 (-50)) with (/ 1125899906842624); lra.
Qed.
Lemma t20_bw : bw t20 t20 t20.
Proof. apply bw_point. vmr. Qed.
Lemma g_bw : bw gl gh (bw_g A (bw_k A th1) t20).
Proof.
  unfold bw_g. set (k := bw_k A th1). unfold A. cbn [a_add a_mul a_pow a_Z A64]. unfold gl, gh.
  apply bw_add; [|apply bw_point; vmr|vmr|vmr]. apply bw_add; [| |vmr|vmr].
  - apply bw_add; [exact p3_bw| |vmr|vmr]. apply bw_mul; [exact k_bw|exact p2_bw|vmr..].
  - apply bw_mul; [exact k_bw|exact t20_bw|vmr..].
Qed.
Lemma n1_bw : let k := bw_k A th1 in bw n1l n1h (a_add A (a_add A (a_mul A k (a_pow A t20 2)) (a_mul A (a_mul A (a_Z A 2) k) t20)) (a_Z A 3)).
Proof.
  intro k. unfold A. cbn [a_add a_mul a_pow a_Z A64]. unfold n1l, n1h.
  apply bw_add; [|apply bw_point; vmr|vmr|vmr]. apply bw_add; [| |vmr|vmr].
  - apply bw_mul; [exact k_bw|exact p2_bw|vmr..].
  - apply bw_mul; [|exact t20_bw|vmr..]. apply bw_mulc; [vmr|vmr|exact k_bw|vmr|vmr].
Qed.
Lemma n2_bw : let k := bw_k A th1 in bw n2l n2h (a_sub A (a_mul A (a_neg A k) t20) (a_Z A 3)).
Proof.
  intro k. unfold A. cbn [a_sub a_mul a_neg a_Z A64]. unfold n2l, n2h.
  apply bw_sub; [|apply bw_point; vmr|vmr|vmr]. apply bw_mul_np; [apply bw_neg; exact k_bw|exact t20_bw|vmr..].
Qed.
Definition c0F : f32 := lit 10074818 (-49).
Definition b1F : f32 := lit 12571903 (-22).
Definition b2F : f32 := lit (-12560922) (-22).
Definition b3F : f32 := lit 16733293 (-24).
Definition a2F : f32 := lit 12549970 (-22).
Lemma c0_pin : to32 (lp_c0 A (bw_k A th1) t20) = c0F.
Proof.
  transitivity (to32 (fdiv q3l gh)); [|apply B2SF_inj; vmr].
  apply (bw_cast _ (fdiv q3h gl)); [|vmr..]. unfold lp_c0. apply bw_div; [exact p3_bw|exact g_bw|vmr..].
Qed.
Lemma b1_pin : to32 (bw_b1 A (bw_k A th1) t20) = b1F.
Proof.
  transitivity (to32 (fdiv n1l gh)); [|apply B2SF_inj; vmr].
  apply (bw_cast _ (fdiv n1h gl)); [|vmr..]. unfold bw_b1. apply bw_div; [exact n1_bw|exact g_bw|vmr..].
Qed.
Lemma b2_pin : to32 (bw_b2 A (bw_k A th1) t20) = b2F.
Proof.
  transitivity (to32 (fdiv n2l gl)); [|apply B2SF_inj; vmr].
  apply (bw_cast _ (fdiv n2h gh)); [|vmr..]. unfold bw_b2. apply bw_div_np; [exact n2_bw|exact g_bw|vmr..].
Qed.
Lemma b3_pin : to32 (bw_b3 A (bw_k A th1) t20) = b3F.
Proof.
  transitivity (to32 (fdiv (of_Z 1) gh)); [|apply B2SF_inj; vmr].
  apply (bw_cast _ (fdiv (of_Z 1) gl)); [|vmr..]. unfold bw_b3. apply bw_div; [apply bw_point; vmr|exact g_bw|vmr..].
Qed.
Lemma a1_pin : to32 (hp_a1 A (bw_k A th1) t20) = fneg a2F.
Proof.
  transitivity (to32 (fdiv (fneg (of_Z 3)) gl)); [|apply B2SF_inj; vmr].
  apply (bw_cast _ (fdiv (fneg (of_Z 3)) gh)); [|vmr..]. unfold hp_a1. apply bw_div_np; [apply bw_point; vmr|exact g_bw|vmr..].
Qed.
Lemma a2_pin : to32 (hp_a2 A (bw_k A th1) t20) = a2F.
Proof.
  transitivity (to32 (fdiv (of_Z 3) gh)); [|apply B2SF_inj; vmr].
  apply (bw_cast _ (fdiv (of_Z 3) gl)); [|vmr..]. unfold hp_a2. apply bw_div; [apply bw_point; vmr|exact g_bw|vmr..].
Qed.
Lemma a3_pin : to32 (hp_a3 A (bw_k A th1) t20) = fneg b3F.
Proof.
  transitivity (to32 (fdiv (fneg (of_Z 1)) gl)); [|apply B2SF_inj; vmr].
  apply (bw_cast _ (fdiv (fneg (of_Z 1)) gh)); [|vmr..]. unfold hp_a3. apply bw_div_np; [apply bw_point; vmr|exact g_bw|vmr..].
Qed.
Lemma lp_pin : lp_new m (of_Z 20) (of_Z 1) = mkLP (of_Z 20) (of_Z 1) (mkC c0F b1F b2F b3F) (hist0 f0).
Proof.
  assert (E1 : clamp_fc (of_Z 20) = of_Z 20) by (apply B2SF_inj; vmr).
  assert (E2 : clamp_r (of_Z 1) = of_Z 1) by (apply B2SF_inj; vmr).
  unfold lp_new, lp_reset. cbn [lp_fc lp_r lp_outs]. rewrite E1, E2. f_equal.
  unfold lp_coeffs. cbv zeta. fold A. rewrite t20_eq, th_lp_eq, c0_pin, b1_pin, b2_pin, b3_pin. reflexivity.
Qed.
Lemma hp_pin : hp_coeffs A to32 (of_Z 20) (of_Z 1) = mkHPC (mkC b3F (fneg a2F) a2F (fneg b3F)) b1F b2F b3F.
Proof.
  unfold hp_coeffs. cbv zeta. rewrite t20_eq, th_hp_eq, b1_pin, b2_pin, b3_pin, a1_pin, a2_pin, a3_pin.
  replace (hp_a0 A (bw_k A th1) t20) with (bw_b3 A (bw_k A th1) t20) by reflexivity. rewrite b3_pin. reflexivity.
Qed.
End Pin.

(** ** simulation *)
Definition hmap {S T} (f : S -> T) (h : hist S) : hist T := mkH (f (h0 h)) (f (h1 h)) (f (h2 h)).
Definition cmap {S T} (f : S -> T) (c : coeffs S) : coeffs T := mkC (f (c0 c)) (f (c1 c)) (f (c2 c)) (f (c3 c)).
Definition hcmap {S T} (f : S -> T) (c : hpc S) : hpc T := mkHPC (cmap f (hc_a c)) (f (hc_b1 c)) (f (hc_b2 c)) (f (hc_b3 c)).
Notation SFa := (SFadd 24 128).
Notation SFm := (SFmul 24 128).
Lemma lp_step_SF (c : coeffs f32) h x :
  hmap B2SF (snd (lp_step fadd fmul c h x)) = snd (lp_step SFa SFm (cmap B2SF c) (hmap B2SF h) (B2SF x)).
Proof. unfold lp_step, lp_out, hmap, cmap. cbn [snd h0 h1 h2 c0 c1 c2 c3]. rewrite !sf_add, !sf_mul. reflexivity. Qed.
Lemma hp_step_SF (c : hpc f32) h x :
  (fun s => (hmap B2SF (fst s), hmap B2SF (snd s))) (snd (hp_step fadd fmul c h x)) =
  snd (hp_step SFa SFm (hcmap B2SF c) (hmap B2SF (fst h), hmap B2SF (snd h)) (B2SF x)).
Proof.
  destruct h as [xs ys]. unfold hp_step, hp_out, hmap, hcmap, cmap.
  cbn [fst snd h0 h1 h2 c0 c1 c2 c3 hc_a hc_b1 hc_b2 hc_b3]. rewrite !sf_add, !sf_mul. reflexivity.
Qed.
Lemma Nat_iter_succ_r' {A} (f : A -> A) x n : Nat.iter (S n) f x = Nat.iter n f (f x).
Proof. induction n as [|n IH]; [reflexivity|]. change (f (Nat.iter (S n) f x) = f (Nat.iter n f (f x))). rewrite IH. reflexivity. Qed.
Lemma run_repeat_state {St X Y} (step : St -> X -> Y * St) x n : forall s,
  snd (run step s (repeat x n)) = Nat.iter n (fun s => snd (step s x)) s.
Proof.
  induction n as [|n IH]; intro s; [reflexivity|].
  cbn [repeat run]. destruct (step s x) as [y s1] eqn:E. specialize (IH s1).
  destruct (run step s1 (repeat x n)) as [ys s2]. cbn [snd] in *. rewrite IH.
  clear IH. change (Nat.iter n (fun s => snd (step s x)) s1 = Nat.iter (S n) (fun s => snd (step s x)) s).
  replace s1 with (snd (step s x)) by (rewrite E; reflexivity).
  symmetry. apply (Nat_iter_succ_r' (fun s => snd (step s x))).
Qed.
Lemma N_iter_nat {A} (f : A -> A) x n : N.iter n f x = Nat.iter (N.to_nat n) f x.
Proof. induction n as [|n IH] using N.peano_ind; [reflexivity|]. rewrite N2Nat.inj_succ, N.iter_succ, IH. reflexivity. Qed.

(** ** LowPass *)
Definition lpSF : coeffs spec_float := mkC (S754_finite false 10074818 (-49)) (S754_finite false 12571903 (-22)) (S754_finite true 12560922 (-22)) (S754_finite false 16733293 (-24)).
Definition oneSF : spec_float := S754_finite false 8388608 (-23).
Definition lp_sim (n : N) : hist spec_float := N.iter n (fun h => snd (lp_step SFa SFm lpSF h oneSF)) (hist0 (S754_zero false)).
Definition is_nanSF (x : spec_float) : bool := match x with S754_nan => true | _ => false end.
Definition hp_sim (n : N) : hist spec_float * hist spec_float :=
  N.iter n (fun h => snd (hp_step SFa SFm
    (mkHPC (mkC (S754_finite false 16733293 (-24)) (S754_finite true 12549970 (-22)) (S754_finite false 12549970 (-22)) (S754_finite true 16733293 (-24)))
       (S754_finite false 12571903 (-22)) (S754_finite true 12560922 (-22)) (S754_finite false 16733293 (-24))) h oneSF))
    (hist0 (S754_zero false), hist0 (S754_zero false)).
Lemma lp_sim_nan : is_nanSF (h0 (lp_sim 32500)) = true.
Proof. vm_cast_no_check (eq_refl true). Qed.
Lemma hp_sim_nan : is_nanSF (h0 (snd (hp_sim 32818))) = true.
Proof. vm_cast_no_check (eq_refl true). Qed.

Lemma SF_nan {p e} (x : binary_float p e) : is_nanSF (B2SF x) = true -> x = B754_nan.
Proof. destruct x; try discriminate. reflexivity. Qed.
Lemma fadd_nan_l {p e} {Hp : Prec_gt_0 p} {He : Prec_lt_emax p e} (x : binary_float p e) : fadd B754_nan x = B754_nan.
Proof. destruct x; reflexivity. Qed.
Lemma fadd_nan_r {p e} {Hp : Prec_gt_0 p} {He : Prec_lt_emax p e} (x : binary_float p e) : fadd x B754_nan = B754_nan.
Proof. destruct x; reflexivity. Qed.
Lemma fmul_nan_r {p e} {Hp : Prec_gt_0 p} {He : Prec_lt_emax p e} (x : binary_float p e) : fmul x B754_nan = B754_nan.
Proof. destruct x; reflexivity. Qed.

Lemma lp_nan_stays (s : lowpass) xs : h0 (lp_outs s) = B754_nan -> forall y, In y (fst (run lp_process s xs)) -> y = B754_nan.
Proof.
  revert s. induction xs as [|x xs IH]; intros s H y Hy; [destruct Hy|].
  assert (E : fst (lp_process s x) = B754_nan).
  { unfold lp_process, lp_step, lp_out. cbn [fst]. rewrite H, fmul_nan_r, fadd_nan_r, !fadd_nan_l. reflexivity. }
  assert (E2 : h0 (lp_outs (snd (lp_process s x))) = fst (lp_process s x)) by reflexivity.
  cbn [run] in Hy. destruct (lp_process s x) as [y0 s1]. cbn [fst snd] in E, E2.
  specialize (IH s1 ltac:(congruence)). destruct (run lp_process s1 xs) as [ys s2]. cbn [fst] in *. destruct Hy as [<-|Hy]; [exact E|apply IH, Hy].
Qed.
Lemma hp_nan_stays (s : highpass) xs : h0 (snd (hp_hist s)) = B754_nan -> forall y, In y (fst (run hp_process s xs)) -> y = B754_nan.
Proof.
  revert s. induction xs as [|x xs IH]; intros s H y Hy; [destruct Hy|].
  assert (E : fst (hp_process s x) = B754_nan /\ h0 (snd (hp_hist (snd (hp_process s x)))) = fst (hp_process s x)).
  { destruct s as [fc r c [hx hy]]. unfold hp_process, hp_step, hp_out. cbn [fst snd hp_hist hp_coeff h0] in *.
    rewrite H, fmul_nan_r, fadd_nan_r, !fadd_nan_l. auto. }
  destruct E as [E E2].
  cbn [run] in Hy. destruct (hp_process s x) as [y0 s1]. cbn [fst snd] in E, E2.
  specialize (IH s1 ltac:(congruence)). destruct (run hp_process s1 xs) as [ys s2]. cbn [fst] in *. destruct Hy as [<-|Hy]; [exact E|apply IH, Hy].
Qed.

Lemma lp_iter_SF fc r (c : coeffs f32) h n :
  let s := Nat.iter n (fun s => snd (lp_process s (f1 : f32))) (mkLP fc r c h) in
  lp_coeff s = c /\ hmap B2SF (lp_outs s) = Nat.iter n (fun h => snd (lp_step SFa SFm (cmap B2SF c) h (B2SF (f1 : f32)))) (hmap B2SF h).
Proof.
  induction n as [|n IH]; [cbn; auto|]. cbv zeta in *. change (Nat.iter (S n) ?f ?x) with (f (Nat.iter n f x)). cbv beta.
  destruct IH as [IC IH]. set (s := Nat.iter n _ (mkLP fc r c h)) in *.
  split.
  - unfold lp_process. destruct lp_step. exact IC.
  - rewrite <- IH, <- lp_step_SF, <- IC at 1. unfold lp_process. rewrite IC. destruct (lp_step fadd fmul c (lp_outs s) f1). reflexivity.
Qed.
Lemma hp_iter_SF fc r (c : hpc f32) h n :
  let s := Nat.iter n (fun s => snd (hp_process s (f1 : f32))) (mkHP fc r c h) in
  hp_coeff s = c /\ (hmap B2SF (fst (hp_hist s)), hmap B2SF (snd (hp_hist s)))
    = Nat.iter n (fun h => snd (hp_step SFa SFm (hcmap B2SF c) h (B2SF (f1 : f32)))) (hmap B2SF (fst h), hmap B2SF (snd h)).
Proof.
  induction n as [|n IH]; [cbn; auto|]. cbv zeta in *. change (Nat.iter (S n) ?f ?x) with (f (Nat.iter n f x)). cbv beta.
  destruct IH as [IC IH]. set (s := Nat.iter n _ (mkHP fc r c h)) in *.
  split.
  - unfold hp_process. destruct hp_step. exact IC.
  - rewrite <- IH, <- hp_step_SF. unfold hp_process. rewrite IC. destruct (hp_step fadd fmul c (hp_hist s) f1). reflexivity.
Qed.

Lemma lp_diverges_n m (n : N) : cos_accurate m -> pow_int_accurate m -> is_nanSF (h0 (lp_sim n)) = true -> forall (xs : list f32) (y : f32),
  In y (fst (run lp_process (snd (run lp_process (lp_new m (of_Z 20) (of_Z 1)) (repeat f1 (N.to_nat n)))) xs)) -> y = B754_nan.
Proof.
  intros HC HP HN xs y. apply lp_nan_stays. rewrite run_repeat_state, (lp_pin m HC HP).
  destruct (lp_iter_SF (of_Z 20) (of_Z 1) (mkC c0F b1F b2F b3F) (hist0 f0) (N.to_nat n)) as [_ E]. cbv zeta in E.
  apply SF_nan. match goal with |- is_nanSF (B2SF (h0 ?h)) = true => change (is_nanSF (h0 (hmap B2SF h)) = true) end.
  rewrite E, <- N_iter_nat.
  replace (cmap B2SF (mkC c0F b1F b2F b3F)) with lpSF by (unfold lpSF, cmap; cbn [c0 c1 c2 c3]; f_equal; symmetry; vmr).
  replace (B2SF (f1 : f32)) with oneSF by (symmetry; vmr). exact HN.
Qed.
Lemma hp_diverges_n m (n : N) : cos_accurate m -> pow_int_accurate m -> is_nanSF (h0 (snd (hp_sim n))) = true -> forall (xs : list f32) (y : f32),
  In y (fst (run hp_process (snd (run hp_process (hp_new m (of_Z 20) (of_Z 1)) (repeat f1 (N.to_nat n)))) xs)) -> y = B754_nan.
Proof.
  intros HC HP HN xs y. apply hp_nan_stays. rewrite run_repeat_state.
  assert (E1 : clamp_fc (of_Z 20) = of_Z 20) by (apply B2SF_inj; vmr).
  assert (E2 : clamp_r (of_Z 1) = of_Z 1) by (apply B2SF_inj; vmr).
  unfold hp_new, hp_reset. cbn [hp_fc hp_r hp_hist]. rewrite E1, E2, (hp_pin m HC HP).
  match goal with |- context [mkHP ?a ?b ?c ?h] => destruct (hp_iter_SF a b c h (N.to_nat n)) as [_ E] end. cbv zeta in E.
  apply SF_nan. match goal with |- is_nanSF (B2SF (h0 (snd ?h))) = true => change (is_nanSF (h0 (snd (hmap B2SF (fst h), hmap B2SF (snd h)))) = true) end.
  rewrite E, <- N_iter_nat. cbn [fst snd].
  match goal with |- context [hcmap B2SF ?c] => replace (hcmap B2SF c) with
    (mkHPC (mkC (S754_finite false 16733293 (-24)) (S754_finite true 12549970 (-22)) (S754_finite false 12549970 (-22)) (S754_finite true 16733293 (-24)))
       (S754_finite false 12571903 (-22)) (S754_finite true 12560922 (-22)) (S754_finite false 16733293 (-24)))
    by (vm_compute; reflexivity) end.
  replace (B2SF (f1 : f32)) with oneSF by (symmetry; vmr). exact HN.
Qed.
Lemma lp_diverges m : cos_accurate m -> pow_int_accurate m -> exists n : nat, forall (xs : list f32) (y : f32),
  In y (fst (run lp_process (snd (run lp_process (lp_new m (of_Z 20) (of_Z 1)) (repeat f1 n))) xs)) -> y = B754_nan.
Proof. intros HC HP. exists (N.to_nat 32500). exact (lp_diverges_n m 32500 HC HP lp_sim_nan). Qed.
Lemma hp_diverges m : cos_accurate m -> pow_int_accurate m -> exists n : nat, forall (xs : list f32) (y : f32),
  In y (fst (run hp_process (snd (run hp_process (hp_new m (of_Z 20) (of_Z 1)) (repeat f1 n))) xs)) -> y = B754_nan.
Proof. intros HC HP. exists (N.to_nat 32818). exact (hp_diverges_n m 32818 HC HP hp_sim_nan). Qed.
