(** * The order in which a channel mixes its sounds *)
From Coq Require Import ZArith List Bool Reals Lra Lia Permutation.
From Flocq Require Import Core.Core IEEE754.BinarySingleNaN.
From Verif Require Import Model.Floats Model.SampleFormat Model.Mono Model.Stereo Model.Utils Model.Generators Model.Modifiers Model.Sounds Model.Channel
  Spec.Rack Spec.MixOrder Proof.FloatFacts Proof.SampleFormatP Proof.FormatsP Proof.GenericP Proof.SoundsP2 Proof.ChannelP Proof.MixP Proof.RackP.
Import ListNotations.
Local Open Scope R_scope.

Lemma rsum_abs_pos (xs : list f32) : 0 <= rsum (map (fun x => Rabs (B2R x)) xs).
Proof. induction xs as [|x xs IH]; cbn [map rsum fold_right]; [lra|]. unfold rsum in IH. pose proof (Rabs_pos (B2R x)). lra. Qed.
Lemma fold_err (b : f32) xs : fin b -> Forall (fun x => fin x) xs -> adding (length xs) * (Rabs (B2R b) + rsum (map (fun x => Rabs (B2R x)) xs)) <= bpow radix2 120 ->
  fin (fold_left fadd xs b) /\ Rabs (B2R (fold_left fadd xs b) - (B2R b + rsum (map B2R xs))) <= (adding (length xs) - 1) * (Rabs (B2R b) + rsum (map (fun x => Rabs (B2R x)) xs)).
Proof.
  intro Fb. induction xs as [|x xs IH] using rev_ind; intros HF HB.
  - split; [exact Fb|]. cbn [map length fold_left]. rewrite !rsum_nil. replace (B2R b - (B2R b + 0)) with 0 by ring. rewrite Rabs_R0. unfold adding. cbn [pow]. lra.
  - rewrite Forall_app in HF. destruct HF as [HF Hx]. apply Forall_inv in Hx. rename Hx into Fx.
    rewrite app_length in *. cbn [length] in *. rewrite Nat.add_1_r in *. rewrite !map_app, !rsum_app in *. cbn [map] in *. rewrite !rsum_cons, !rsum_nil, !Rplus_0_r in *.
    pose proof (rsum_abs_pos xs) as A1. assert (BT' : Rabs (rsum (map B2R xs)) <= rsum (map (fun x => Rabs (B2R x)) xs)) by (apply rsum_abs; intros; lra). pose proof (Rabs_pos (B2R b)) as b0.
    assert (BT : Rabs (B2R b + rsum (map B2R xs)) <= Rabs (B2R b) + rsum (map (fun x => Rabs (B2R x)) xs)) by (eapply Rle_trans; [apply Rabs_triang|lra]).
    rewrite <- !Rplus_assoc in HB |- *. set (A := Rabs (B2R b) + rsum (map (fun x => Rabs (B2R x)) xs)) in *. set (T := B2R b + rsum (map B2R xs)) in *. rewrite adding_S in *. set (u := bpow radix2 (-24)) in *.
    assert (u0 : 0 < u) by apply bpow_gt_0. pose proof (adding_ge (length xs)) as G1. set (g := adding (length xs)) in *.
    assert (A0 : 0 <= A) by (unfold A; lra). assert (x0 := Rabs_pos (B2R x)). set (a := Rabs (B2R x)) in *.
    assert (P1 : 0 <= u * (g * A)) by (apply Rmult_le_pos; [lra|apply Rmult_le_pos; lra]). assert (P2 : 0 <= u * (g * a)) by (apply Rmult_le_pos; [lra|apply Rmult_le_pos; lra]).
    assert (P3 : 0 <= (g - 1) * a) by (apply Rmult_le_pos; lra). assert (P4 : 0 <= (g - 1) * A) by (apply Rmult_le_pos; lra).
    destruct IH as [IF IE]; [exact HF|lra|].
    assert (BS : Rabs (B2R (fold_left fadd xs b) + B2R x) <= g * A + a).
    { eapply Rle_trans; [apply Rabs_triang|]. fold a. assert (Rabs (B2R (fold_left fadd xs b)) <= g * A); [|lra]. apply Rabs_le. apply Rabs_le_inv in IE, BT. lra. }
    rewrite fold_left_app. cbn [fold_left]. destruct (add_err (fold_left fadd xs b) x (g * A + a) IF Fx BS) as [F E]; [lra|].
    split; [exact F|]. fold u in E. replace (Rabs (B2R b) + (rsum (map (fun x1 : f32 => Rabs (B2R x1)) xs) + a)) with (A + a) by (unfold A; ring). assert (P5 : 0 <= u * ((g - 1) * a)) by (apply Rmult_le_pos; lra). apply Rabs_le. apply Rabs_le_inv in E, IE. lra.
Qed.
(** mixed and multiplied by the gain *)
Lemma mixed_err (b g : f32) xs : fin b -> fin g -> Forall (fun x => fin x) xs -> let A := Rabs (B2R b) + rsum (map (fun x => Rabs (B2R x)) xs) in
  adding (length xs) * A <= bpow radix2 120 -> adding (length xs) * A * Rabs (B2R g) <= bpow radix2 127 ->
  fin (fmul (fold_left fadd xs b) g) /\
  Rabs (B2R (fmul (fold_left fadd xs b) g) - B2R g * (B2R b + rsum (map B2R xs))) <= (adding (S (length xs)) - 1) * A * Rabs (B2R g) + bpow radix2 (-150).
Proof.
  intros Fb Fg HF A HA HG. destruct (fold_err b xs Fb HF HA) as [F E]. fold A in E. set (s := fold_left fadd xs b) in *. set (T := B2R b + rsum (map B2R xs)) in *.
  assert (BT : Rabs T <= A). { unfold T, A. eapply Rle_trans; [apply Rabs_triang|]. apply Rplus_le_compat_l. apply rsum_abs. intros; lra. }
  pose proof (adding_ge (length xs)) as G1. assert (A0 : 0 <= A) by (pose proof (Rabs_pos T); lra). pose proof (Rabs_pos (B2R g)) as g0.
  set (q := adding (length xs)) in *. assert (BS : Rabs (B2R s) <= q * A) by (apply Rabs_le; apply Rabs_le_inv in E, BT; lra).
  assert (BP : Rabs (B2R s * B2R g) <= q * A * Rabs (B2R g)) by (rewrite Rabs_mult; apply Rmult_le_compat_r; assumption).
  destruct (fmul_le s g (bpow radix2 127) F Fg) as (FM & V & _); [apply fmt32_b; lia|apply bpow_lt; lia|lra|]. split; [exact FM|]. rewrite V.
  destruct (rnd_err_gen (prec:=24) (emax:=128) (B2R s * B2R g)) as (d & e & Hd & He & ->). change (SpecFloat.emin 24 128 - 1)%Z with (-150)%Z in He. change (- (24))%Z with (-24)%Z in Hd.
  replace (B2R s * B2R g * (1 + d) + e - B2R g * T) with ((B2R s - T) * B2R g + d * (B2R s * B2R g) + e) by ring.
  eapply Rle_trans; [apply Rabs_triang|]. apply Rplus_le_compat; [|exact He]. eapply Rle_trans; [apply Rabs_triang|]. rewrite (Rabs_mult (B2R s - T)), (Rabs_mult d).
  rewrite adding_S. fold q. set (u := bpow radix2 (-24)) in *. assert (u0 : 0 < u) by apply bpow_gt_0. pose proof (Rabs_pos d).
  assert (X1 : Rabs (B2R s - T) * Rabs (B2R g) <= (q - 1) * A * Rabs (B2R g)) by (apply Rmult_le_compat_r; assumption).
  assert (X2 : Rabs d * Rabs (B2R s * B2R g) <= u * (q * A * Rabs (B2R g))) by (apply Rmult_le_compat; try apply Rabs_pos; assumption). lra.
Qed.

Section Order.
Variable SF : Type. Variable sf_default : SF. Variable sf_from_sample : f32 -> SF. Variable sf_add : SF -> SF -> SF. Variable sf_mul_s : SF -> f32 -> SF.
Variable S : Type. Variable s_process : S -> f32 -> res (f32 * S).
Local Notation process := (ch_process SF sf_default sf_from_sample sf_add sf_mul_s S s_process).
Variable side : SF -> f32. Variable into : f32 -> f32.
Hypothesis side_add : forall a b, side (sf_add a b) = fadd (side a) (side b).
Hypothesis side_mul : forall a g, side (sf_mul_s a g) = fmul (side a) g.
Hypothesis side_from : forall y, side (sf_from_sample y) = into y.
Lemma side_mix (ys : handle -> f32) l x : side (fold_left (fun x p => sf_add x (sf_from_sample (ys p))) l x) = fold_left fadd (map (fun p => into (ys p)) l) (side x).
Proof. revert x. induction l as [|p l IH]; intro x; [reflexivity|]. cbn [fold_left map]. rewrite IH, side_add, side_from. reflexivity. Qed.
Lemma order_mix (c : channel SF) (h : sheap S) (s0 s1 : handle -> S) (ys : handle -> list f32) (l : list (Z * handle)) :
  NoDup (map snd (ch_sounds SF c)) -> Permutation (ch_sounds SF c) l ->
  (forall p, In p (map snd (ch_sounds SF c)) -> nth_error h p = Some (mkS S 1 (s0 p)) /\ run_res s_process (s0 p) (repeat f0 (length (ch_output SF c))) = Ok (ys p, s1 p)) ->
  exists o o' h', process c h = Ok (mkChannel SF o (ch_sounds SF c) (ch_gain SF c) (ch_counter SF c), h') /\
    process (reordered c l) h = Ok (mkChannel SF o' l (ch_gain SF c) (ch_counter SF c), h') /\ length o = length (ch_output SF c) /\ length o' = length (ch_output SF c) /\
    (forall p, nth_error h' p = if in_dec Nat.eq_dec p (map snd (ch_sounds SF c)) then Some (mkS S 1 (s1 p)) else nth_error h p) /\
    (forall i d, (i < length (ch_output SF c))%nat -> 
       nth i o d = sf_mul_s (fold_left (fun x p => sf_add x (sf_from_sample (nth i (ys p) f0))) (map snd (ch_sounds SF c)) (nth i (ch_output SF c) d)) (ch_gain SF c) /\
       nth i o' d = sf_mul_s (fold_left (fun x p => sf_add x (sf_from_sample (nth i (ys p) f0))) (map snd l) (nth i (ch_output SF c) d)) (ch_gain SF c)).
Proof.
  intros ND PM H. assert (PS : Permutation (map snd (ch_sounds SF c)) (map snd l)) by (apply Permutation_map, PM).
  destruct (process_mix SF sf_default sf_from_sample sf_add sf_mul_s S s_process c h s0 s1 ys ND H) as (o & h1 & E1 & L1 & V1 & W1).
  assert (ND' : NoDup (map snd l)) by (apply (Permutation_NoDup PS ND)). set (c' := reordered c l).
  assert (H' : forall p, In p (map snd (ch_sounds SF c')) -> nth_error h p = Some (mkS S 1 (s0 p)) /\ run_res s_process (s0 p) (repeat f0 (length (ch_output SF c'))) = Ok (ys p, s1 p)).
  { intros p Hp. apply H. apply (Permutation_in _ (Permutation_sym PS)). exact Hp. }
  destruct (process_mix SF sf_default sf_from_sample sf_add sf_mul_s S s_process c' h s0 s1 ys ND' H') as (o' & h2 & E2 & L2 & V2 & W2).
  assert (h2 = h1) as ->.
  { apply nth_error_ext. intro p. rewrite W1, W2. destruct (in_dec Nat.eq_dec p (map snd (ch_sounds SF c'))) as [I|I]; destruct (in_dec Nat.eq_dec p (map snd (ch_sounds SF c))) as [J|J]; try reflexivity.
    - elim J. apply (Permutation_in _ (Permutation_sym PS)). exact I.
    - elim I. apply (Permutation_in _ PS). exact J. }
  exists o, o', h1. split; [exact E1|]. split; [exact E2|]. split; [exact L1|]. split; [exact L2|]. split; [exact W1|].
  intros i d Hi. split; [exact (V1 i d Hi)|exact (V2 i d Hi)].
Qed.
Lemma side_near (g : f32) (b : SF) (ys : handle -> f32) (ps qs : list handle) : Permutation ps qs -> let vs := map (fun p => into (ys p)) ps in mix_room g (side b) vs ->
  near_mix g (side b) vs (side (sf_mul_s (fold_left (fun x p => sf_add x (sf_from_sample (ys p))) qs b) g)).
Proof.
  intros PS vs (Fg & Fb & HF & HA & HG). rewrite side_mul, side_mix. set (vs' := map (fun p => into (ys p)) qs).
  assert (PV : Permutation vs vs') by (apply Permutation_map, PS).
  assert (RP : forall f, rsum (map f vs) = rsum (map f vs')) by (intro f; apply rsum_perm, Permutation_map, PV).
  unfold near_mix, exact_mix, mix_err, mix_weight in *. rewrite (RP B2R), (RP (fun x => Rabs (B2R x))), (Permutation_length PV) in *.
  apply mixed_err; try assumption. apply (Permutation_Forall PV HF).
Qed.
End Order.

(** ** addition of f32 is commutative, on all values *)
Lemma fadd_commutes (a b : f32) : fadd a b = fadd b a.
Proof.
  destruct (is_finite a) eqn:Fa; destruct (is_finite b) eqn:Fb;
    try (destruct a as [[]|[]| |[]]; destruct b as [[]|[]| |[]]; try discriminate; reflexivity).
  unfold fadd. pose proof (Bplus_correct _ _ _ _ mode_NE a b Fa Fb) as H1. pose proof (Bplus_correct _ _ _ _ mode_NE b a Fb Fa) as H2.
  rewrite (Rplus_comm (B2R b) (B2R a)) in H2. destruct (Rlt_bool _ _) in H1, H2.
  - destruct H1 as (R1 & F1 & S1). destruct H2 as (R2 & F2 & S2). apply B2R_Bsign_inj; [exact F1|exact F2|congruence|]. rewrite S1, S2. destruct (Rcompare _ _); try reflexivity. apply andb_comm.
  - destruct H1 as (E1 & S1). destruct H2 as (E2 & S2). apply B2SF_inj. congruence.
Qed.
Lemma two_commute (a b : f32) : fadd (fadd f0 a) b = fadd (fadd f0 b) a.
Proof.
  destruct a as [[]|[]| |[] ma ea Ha]; destruct b as [[]|[]| |[] mb eb Hb]; try reflexivity; exact (fadd_commutes _ _).
Qed.

(** ** samples on a common grid: the sum is exact, so no order of adding matters *)
Lemma sign_le (x : f32) : Bsign x = true -> B2R x <= 0.
Proof. destruct x as [s|s| |s m e H]; cbn [Bsign B2R]; try lra. intros ->. cbn [cond_Zopp]. apply Rlt_le, F2R_lt_0. reflexivity. Qed.
Lemma zero_only (x : f32) : fin x -> B2R x = 0 -> Bsign x = true -> x = B754_zero true.
Proof. intros F V B. destruct x as [s|s| |s m e H]; try discriminate F. - cbn in B. subst. reflexivity. - exfalso. cbn [B2R] in V. apply eq_0_F2R in V. destruct s; discriminate V. Qed.
Lemma add_not_minus (b x : f32) : fin b -> fin x -> B2R (fadd b x) = B2R b + B2R x -> b <> B754_zero true -> fadd b x <> B754_zero true.
Proof.
  intros Fb Fx V Nb E. apply Nb. rewrite E in V. cbn [B2R] in V. pose proof (Bplus_correct _ _ _ _ mode_NE b x Fb Fx) as H. rewrite <- V in H.
  rewrite round_0, Rabs_R0, Rlt_bool_true in H by (try typeclasses eauto; apply bpow_gt_0). destruct H as (_ & _ & H). rewrite Rcompare_Eq in H by reflexivity.
  unfold fadd in E. rewrite E in H. cbn [Bsign] in H. symmetry in H. apply andb_prop in H. destruct H as [H1 H2]. apply zero_only; [exact Fb| |exact H1]. pose proof (sign_le b H1). pose proof (sign_le x H2). lra.
Qed.
Lemma same_value (x y : f32) : fin x -> fin y -> B2R x = B2R y -> x <> B754_zero true -> y <> B754_zero true -> x = y.
Proof.
  intros Fx Fy V Nx Ny. destruct x as [sx|sx| |sx mx ex Hx]; try discriminate Fx; destruct y as [sy|sy| |sy my ey Hy]; try discriminate Fy.
  - destruct sx, sy; congruence.
  - exfalso. cbn [B2R] in V. symmetry in V. apply eq_0_F2R in V. destruct sy; discriminate V.
  - exfalso. cbn [B2R] in V. apply eq_0_F2R in V. destruct sx; discriminate V.
  - apply B2R_inj; [reflexivity|reflexivity|exact V].
Qed.
Lemma fold_grid (e : Z) (ms : list Z) (xs : list f32) (b : f32) (mb : Z) : (-149 <= e <= 103)%Z -> fin b -> B2R b = IZR mb * bpow radix2 e ->
  Forall2 (fun x m => fin x /\ B2R x = IZR m * bpow radix2 e) xs ms -> (Z.abs mb + fold_right (fun m a => Z.abs m + a) 0 ms < 2 ^ 24)%Z ->
  (fin (fold_left fadd xs b) /\ B2R (fold_left fadd xs b) = IZR (mb + fold_right Z.add 0%Z ms) * bpow radix2 e) /\ (b <> B754_zero true -> fold_left fadd xs b <> B754_zero true).
Proof.
  intros He Fb Vb HF. revert b mb Fb Vb. induction HF as [|x m xs ms [Fx Vx] HF IH]; intros b mb Fb Vb HB.
  - cbn [fold_left fold_right]. rewrite Z.add_0_r. split; [split; assumption|tauto].
  - cbn [fold_left fold_right] in *. assert (P : forall l, (0 <= fold_right (fun m a => Z.abs m + a) 0 l)%Z) by (induction l; cbn; lia). specialize (P ms).
    assert (SV : B2R b + B2R x = IZR (mb + m) * bpow radix2 e) by (rewrite Vb, Vx, plus_IZR; ring).
    assert (FS : generic_format radix2 (SpecFloat.fexp 24 128) (B2R b + B2R x)) by (rewrite SV; apply fmt_FLT; [lia|unfold SpecFloat.emin; lia]).
    assert (BM : Rabs (B2R b + B2R x) <= bpow radix2 127).
    { rewrite SV, Rabs_mult, (Rabs_pos_eq (bpow radix2 e)) by apply bpow_ge_0. replace 127%Z with (24 + 103)%Z by lia. rewrite bpow_plus. apply Rmult_le_compat; [apply Rabs_pos|apply bpow_ge_0| |apply bpow_le; lia].
      rewrite <- abs_IZR. change (bpow radix2 24) with (IZR (2 ^ 24)). apply IZR_le. lia. }
    destruct (fadd_le b x (bpow radix2 127) Fb Fx) as (F & V & _); [apply fmt32_b; lia|apply bpow_lt; lia|exact BM|].
    rewrite (rnd_fmt (prec:=24) (emax:=128) _ FS), SV in V.
    destruct (IH (fadd b x) (mb + m)%Z F V) as [[F' V'] N]; [lia|]. split; [split; [exact F'|]; rewrite V'; f_equal; f_equal; lia|]. intro Nb. apply N. rewrite <- SV in V. exact (add_not_minus b x Fb Fx V Nb).
Qed.
Lemma zsum_perm a b : Permutation a b -> fold_right Z.add 0%Z a = fold_right Z.add 0%Z b /\ fold_right (fun m t => Z.abs m + t)%Z 0%Z a = fold_right (fun m t => Z.abs m + t)%Z 0%Z b.
Proof. induction 1 as [|x a b P IH|x y a|a b c P IH P' IH']; cbn [fold_right]; lia. Qed.
(** any two orders, bit for bit *)
Lemma grid_any_order (e : Z) (b : f32) (mb : Z) (z : handle -> Z) (ys : handle -> f32) (ps qs : list handle) : (-149 <= e <= 103)%Z -> fin b -> b <> B754_zero true -> B2R b = IZR mb * bpow radix2 e ->
  (forall p, In p ps -> fin (ys p) /\ B2R (ys p) = IZR (z p) * bpow radix2 e) -> (Z.abs mb + fold_right (fun m a => Z.abs m + a) 0 (map z ps) < 2 ^ 24)%Z -> Permutation ps qs ->
  fold_left fadd (map ys ps) b = fold_left fadd (map ys qs) b.
Proof.
  intros He Fb Nb Vb HV HB P. destruct (zsum_perm _ _ (Permutation_map z P)) as [E1 E2].
  assert (FA : forall l, (forall p, In p l -> In p ps) -> Forall2 (fun x m => fin x /\ B2R x = IZR m * bpow radix2 e) (map ys l) (map z l)).
  { induction l as [|p l IH]; intro I; cbn [map]; constructor; [apply HV, I; left; reflexivity|apply IH; intros q Hq; apply I; right; exact Hq]. }
  destruct (fold_grid e (map z ps) (map ys ps) b mb He Fb Vb (FA ps (fun p H => H)) HB) as [[F1 V1] N1].
  rewrite E2 in HB. destruct (fold_grid e (map z qs) (map ys qs) b mb He Fb Vb) as [[F2 V2] N2]; [apply FA; intros p H; apply (Permutation_in _ (Permutation_sym P)), H|exact HB|].
  apply same_value; [exact F1|exact F2|rewrite V1, V2, E1; reflexivity|apply N1, Nb|apply N2, Nb].
Qed.
