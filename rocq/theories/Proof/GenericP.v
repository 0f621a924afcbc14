(** The generic difference-equation filter, the stateless modifiers. *)
From Coq Require Import ZArith List Bool Lia.
From Flocq Require Import IEEE754.BinarySingleNaN.
From Verif Require Import Model.Floats Model.Modifiers Proof.ResamplerP.
Import ListNotations.

Lemma run_app {St X Y} (step : St -> X -> Y * St) (a b : list X) : forall s,
  run step s (a ++ b) =
  (fst (run step s a) ++ fst (run step (snd (run step s a)) b), snd (run step (snd (run step s a)) b)).
Proof.
  induction a as [|x a IH]; intro s.
  - cbn. destruct (run step s b); reflexivity.
  - cbn. destruct (step s x) as [y s1]. rewrite IH. destruct (run step s1 a) as [ys s2]. cbn. reflexivity.
Qed.
Lemma run_length {St X Y} (step : St -> X -> Y * St) (a : list X) : forall s, length (fst (run step s a)) = length a.
Proof.
  induction a as [|x a IH]; intro s; [reflexivity|]. cbn. destruct (step s x) as [y s1].
  specialize (IH s1). destruct (run step s1 a). cbn in *. lia.
Qed.
Lemma run_res_app {St X Y} (step : St -> X -> res (Y * St)) (a b : list X) : forall s ys s1,
  run_res step s a = Ok (ys, s1) ->
  run_res step s (a ++ b) = do (zs, s2) <- run_res step s1 b; Ok (ys ++ zs, s2).
Proof.
  induction a as [|x a IH]; intros s ys s1 E.
  - cbn in E. injection E as <- <-. cbn. destruct (run_res step s b) as [[zs s2]|]; reflexivity.
  - cbn [app run_res] in *. destruct (step s x) as [[y s']|]; cbn [bind] in *; [|discriminate].
    destruct (run_res step s' a) as [[ys' s1']|] eqn:E'; cbn [bind] in *; [|discriminate].
    injection E as <- <-. rewrite (IH _ _ _ E'). destruct (run_res step s1' b) as [[zs s2]|]; reflexivity.
Qed.

(** ** C55 *)
(** sample number [k] of a sequence, silence before the start *)
Definition past (l : list f32) (k : Z) : f32 := if (k <? 0)%Z then f0 else nth (Z.to_nat k) l f0.
Definition dot (cs : list (Z * f32)) (at_delay : Z -> f32) (y : f32) : f32 :=
  fold_left (fun acc c => fadd acc (fmul (at_delay (fst c)) (snd c))) cs y.

Lemma taps_dot cs h y (v : Z -> f32) :
  (forall c, In c cs -> index h (fst c) = Ok (v (fst c))) -> taps cs h y = Ok (dot cs v y).
Proof.
  revert y. induction cs as [|c cs IH]; intros y H; [reflexivity|].
  cbn [taps]. rewrite (H c (or_introl eq_refl)). cbn [bind]. apply IH. intros d Hd. apply H. right. exact Hd.
Qed.

Lemma shift_in_length h x : length (shift_in h x) = length h.
Proof.
  unfold shift_in. destruct h as [|a h]; [reflexivity|].
  assert (E : x :: a :: h <> []) by discriminate.
  pose proof (app_removelast_last f0 E) as H. apply (f_equal (@length f32)) in H. rewrite app_length in H. cbn [length] in *. lia.
Qed.
Lemma removelast_nth {A} (l : list A) k d : (S k < length l)%nat -> nth k (removelast l) d = nth k l d.
Proof.
  revert k. induction l as [|a l IH]; intros k H; [cbn in H; lia|].
  destruct l as [|b l]; [cbn in H; lia|]. cbn [removelast].
  destruct k as [|k]; [reflexivity|]. cbn [nth]. apply IH. cbn [length] in *. lia.
Qed.
Lemma shift_in_nth h x k : (k < length h)%nat ->
  nth k (shift_in h x) f0 = match k with O => x | S k' => nth k' h f0 end.
Proof.
  intro H. unfold shift_in. rewrite removelast_nth by (cbn; lia). destruct k; reflexivity.
Qed.

(** the history after the samples [l]: newest first *)
Definition is_hist (h : list f32) (len : Z) (l : list f32) : Prop :=
  Z.of_nat (length h) = len /\
  forall i, (0 <= i < len)%Z -> nth (Z.to_nat i) h f0 = past l (Z.of_nat (length l) - 1 - i).

Lemma past_app l x k : past (l ++ [x]) k = if (k =? Z.of_nat (length l))%Z then x else past l k.
Proof.
  unfold past. destruct (Z.ltb_spec k 0) as [H|H].
  - destruct (Z.eqb_spec k (Z.of_nat (length l))); [lia|reflexivity].
  - destruct (Z.eqb_spec k (Z.of_nat (length l))) as [->|E].
    + rewrite Nat2Z.id, app_nth2, Nat.sub_diag by lia. reflexivity.
    + destruct (Nat.lt_ge_cases (Z.to_nat k) (length l)) as [L|L].
      * apply app_nth1, L.
      * rewrite !nth_overflow; [reflexivity|lia|rewrite app_length; cbn; lia].
Qed.

Lemma is_hist_zeros n : (0 <= n)%Z -> is_hist (zeros n) n [].
Proof.
  intro H. split; [unfold zeros; rewrite repeat_length; lia|]. intros i Hi.
  unfold zeros, past. cbn [length]. destruct (Z.ltb_spec (Z.of_nat 0 - 1 - i) 0); [|lia].
  apply nth_repeat.
Qed.
Lemma is_hist_shift h len l x : is_hist h len l -> is_hist (shift_in h x) len (l ++ [x]).
Proof.
  intros [L H]. split; [rewrite shift_in_length; exact L|]. intros i Hi.
  rewrite shift_in_nth by lia. rewrite app_length. cbn [length]. rewrite past_app.
  destruct (Z.to_nat i) as [|k] eqn:E.
  - destruct (Z.eqb_spec (Z.of_nat (length l + 1) - 1 - i) (Z.of_nat (length l))); [reflexivity|lia].
  - destruct (Z.eqb_spec (Z.of_nat (length l + 1) - 1 - i) (Z.of_nat (length l))); [lia|].
    replace (Z.of_nat (length l + 1) - 1 - i)%Z with (Z.of_nat (length l) - 1 - (i - 1))%Z by lia.
    rewrite <- H by lia. f_equal. lia.
Qed.

Lemma index_nth (h : list f32) i : (0 <= i < Z.of_nat (length h))%Z -> index h i = Ok (nth (Z.to_nat i) h f0).
Proof.
  intro H. unfold index. destruct (Z.leb_spec 0 i); [|lia]. destruct (Z.ltb_spec i (Z.of_nat (length h))); [|lia].
  cbn [andb]. rewrite (nth_error_nth' h f0) by lia. reflexivity.
Qed.
Lemma index_hist h len l i : is_hist h len l -> (0 <= i < len)%Z ->
  index h i = Ok (past l (Z.of_nat (length l) - 1 - i)).
Proof. intros [L H] Hi. rewrite index_nth by lia. rewrite H by exact Hi. reflexivity. Qed.

Lemma back_len_nonneg c : (forall d, In d c -> (0 <= fst d)%Z) -> (0 <= back_len c)%Z.
Proof.
  intro H. unfold back_len. destruct (rev c) as [|d r] eqn:E; [lia|].
  assert (In d c) by (apply in_rev; rewrite E; left; reflexivity). specialize (H d H0). lia.
Qed.

Section Diff.
Variables z p : list (Z * f32).
Hypothesis Hz : forall c, In c z -> (0 <= fst c < back_len z)%Z.
Hypothesis Hp : forall c, In c p -> (0 <= fst c < back_len p)%Z.

Definition diff_eq (xs ys : list f32) (n : Z) : f32 :=
  dot p (fun j => past ys (n - 1 - j)) (dot z (fun i => past xs (n - i)) f0).

Lemma dot_ext cs v w y : (forall c, In c cs -> v (fst c) = w (fst c)) -> dot cs v y = dot cs w y.
Proof.
  revert y. induction cs as [|c cs IH]; intros y H; [reflexivity|]. cbn. rewrite (H c (or_introl eq_refl)).
  apply IH. intros d Hd. apply H. right. exact Hd.
Qed.

Lemma generic_run xs : exists ys s, run_res generic_process (generic_new z p) xs = Ok (ys, s) /\
  gn_zeros s = z /\ gn_poles s = p /\ length ys = length xs /\
  is_hist (gn_in s) (back_len z) xs /\ is_hist (gn_out s) (back_len p) ys /\
  forall n, (n < length xs)%nat -> nth_error ys n = Some (diff_eq xs ys (Z.of_nat n)).
Proof.
  induction xs as [|x xs IH] using rev_ind.
  - exists [], (generic_new z p). split; [reflexivity|]. do 3 (split; [reflexivity|]).
    split; [apply is_hist_zeros, back_len_nonneg; intros d Hd; apply Hz in Hd; lia|].
    split; [apply is_hist_zeros, back_len_nonneg; intros d Hd; apply Hp in Hd; lia|].
    intros n Hn. cbn in Hn. lia.
  - destruct IH as (ys & s & E & Ez & Ep & L & I1 & I2 & H).
    rewrite (run_res_app _ _ _ _ _ _ E). cbn [run_res]. unfold generic_process at 1. rewrite Ez, Ep.
    pose proof (is_hist_shift _ _ _ x I1) as I1'.
    rewrite (taps_dot z _ f0 (fun i => past (xs ++ [x]) (Z.of_nat (length xs) - i))).
    2:{ intros c Hc. rewrite (index_hist _ _ _ _ I1' (Hz c Hc)). rewrite app_length. cbn [length]. f_equal. f_equal. lia. }
    cbn [bind].
    rewrite (taps_dot p _ _ (fun j => past ys (Z.of_nat (length xs) - 1 - j))).
    2:{ intros c Hc. rewrite (index_hist _ _ _ _ I2 (Hp c Hc)), L. reflexivity. }
    cbn [bind]. set (y := dot p _ _).
    eexists _, _. split; [reflexivity|]. cbn [gn_zeros gn_poles gn_in gn_out].
    do 2 (split; [reflexivity|]). split; [rewrite !app_length, L; reflexivity|].
    split; [exact I1'|]. split; [apply is_hist_shift, I2|].
    intros n Hn. rewrite app_length in Hn. cbn [length] in Hn.
    assert (PY : forall k, (k < Z.of_nat (length ys))%Z -> past (ys ++ [y]) k = past ys k).
    { intros k Hk. rewrite past_app. destruct (Z.eqb_spec k (Z.of_nat (length ys))); [lia|reflexivity]. }
    assert (PX : forall k, (k < Z.of_nat (length xs))%Z -> past (xs ++ [x]) k = past xs k).
    { intros k Hk. rewrite past_app. destruct (Z.eqb_spec k (Z.of_nat (length xs))); [lia|reflexivity]. }
    destruct (Nat.eq_dec n (length xs)) as [->|NE].
    + rewrite nth_error_app2 by lia. rewrite L, Nat.sub_diag. cbn [nth_error]. f_equal.
      unfold diff_eq, y. apply dot_ext. intros c Hc. symmetry. apply PY. specialize (Hp c Hc). lia.
    + rewrite nth_error_app1 by lia. rewrite H by lia. f_equal. unfold diff_eq.
      assert (EZ : dot z (fun i => past xs (Z.of_nat n - i)) f0 = dot z (fun i => past (xs ++ [x]) (Z.of_nat n - i)) f0).
      { apply dot_ext. intros c Hc. symmetry. apply PX. specialize (Hz c Hc). lia. }
      rewrite EZ. apply dot_ext. intros c Hc. symmetry. apply PY. specialize (Hp c Hc). lia.
Qed.
End Diff.

Lemma taps_panic cs h : forall y, (exists c, In c cs /\ (Z.of_nat (length h) <= fst c)%Z) -> taps cs h y = Panic.
Proof.
  induction cs as [|c cs IH]; intros y (d & Hd & H); [destruct Hd|].
  cbn [taps]. destruct (index h (fst c)) as [v|] eqn:E; [|reflexivity]. cbn [bind]. apply IH.
  destruct Hd as [->|Hd]; [|exists d; auto]. exfalso.
  unfold index in E. destruct (Z.ltb_spec (fst d) (Z.of_nat (length h))); [lia|].
  rewrite andb_false_r in E. discriminate.
Qed.

Lemma back_len_ge1 c : c <> [] -> (forall d, In d c -> (0 <= fst d)%Z) -> (1 <= back_len c)%Z.
Proof.
  intros N H. unfold back_len. destruct (rev c) as [|d r] eqn:E.
  - exfalso. apply N. rewrite <- (rev_involutive c), E. reflexivity.
  - assert (In d c) by (apply in_rev; rewrite E; left; reflexivity). specialize (H d H0). lia.
Qed.

Lemma generic_panics z p x : (forall c, In c z \/ In c p -> (0 <= fst c)%Z) ->
  (exists c, In c z /\ (back_len z <= fst c)%Z) \/ (exists c, In c p /\ (back_len p <= fst c)%Z) ->
  generic_process (generic_new z p) x = Panic.
Proof.
  intros NN [(c & Hc & H)|(c & Hc & H)]; unfold generic_process, generic_new; cbn [gn_in gn_out gn_zeros gn_poles].
  - rewrite taps_panic; [reflexivity|]. exists c. split; [exact Hc|].
    rewrite shift_in_length. unfold zeros. rewrite repeat_length.
    specialize (NN c (or_introl Hc)).
    lia.
  - destruct (taps z _ f0) as [v|]; [|reflexivity]. cbn [bind].
    rewrite taps_panic; [reflexivity|]. exists c. split; [exact Hc|]. unfold zeros. rewrite repeat_length.
    specialize (NN c (or_intror Hc)). lia.
Qed.

(** ** C57 *)
Lemma gain_run a xs : run gain_process a xs = (map (fun x => fmul x a) xs, a).
Proof. induction xs as [|x xs IH]; [reflexivity|]. cbn. rewrite IH. reflexivity. Qed.
Lemma passthrough_run xs : run passthrough_process tt xs = (xs, tt).
Proof. induction xs as [|x xs IH]; [reflexivity|]. cbn. rewrite IH. reflexivity. Qed.
