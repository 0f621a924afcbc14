(** * C75-C77, C82: VecReader, float_equal, bin2str *)

From Coq Require Import ZArith Bool Lia Arith Ascii String List Reals Lra.
From Flocq Require Import Core.Core IEEE754.BinarySingleNaN.
From Verif Require Import Model.Floats Model.Modifiers Model.Debug Spec.Text Proof.DebugP.
Import ListNotations.
Local Open Scope nat_scope.

(** ** C75 *)
(** for every payload and every sequence of buffers: the counts and buffers are those of the specification
    that splits off min(buffer, rest) bytes; in particular there is no panic *)
Theorem C75_vec_reader : forall (payload : list Z) (bufs : list (list Z)),
  exists ys r rest, run_res vr_step (vr_new payload) bufs = Ok (ys, r) /\ run_res spec_step payload bufs = Ok (ys, rest) /\ rest = skipn (vr_pos r) payload.
Proof.
  intros v bufs. pose proof (vr_history v bufs 0 (Nat.le_0_l _)) as H. cbn [skipn] in H. unfold vr_new.
  destruct (run_res vr_step (mkVR v 0) bufs) as [[ys r]|]; destruct (run_res spec_step v bufs) as [[zs rest]|]; try contradiction.
  destruct H as (-> & _ & -> & _). exists zs, r, (skipn (vr_pos r) v). auto.
Qed.
(** what was delivered, put together, is the beginning of the payload as long as all buffers together *)
Theorem C75_delivers_payload : forall (payload : list Z) (bufs : list (list Z)) ys r,
  run_res vr_step (vr_new payload) bufs = Ok (ys, r) ->
  concat (map (fun y => firstn (fst y) (snd y)) ys) = firstn (list_sum (map (@length Z) bufs)) payload.
Proof.
  intros v bufs ys r E. destruct (C75_vec_reader v bufs) as (zs & r' & rest & E1 & E2 & _). rewrite E in E1. injection E1 as -> ->. eapply spec_delivers, E2.
Qed.
Example C75_ex : run_res vr_step (vr_new [1; 2; 3; 4; 5]%Z) [[9; 9]; []; [9; 9; 9; 9]; [9]]%Z =
  Ok ([(2, [1; 2]%Z); (0, []); (3, [3; 4; 5; 9]%Z); (0, [9]%Z)], mkVR [1; 2; 3; 4; 5]%Z 5).
Proof. reflexivity. Qed.

(** ** C76, for f32 and for f64 *)
Theorem C76_f32_tolerance : forall a b e : f32, is_finite a = true -> is_finite b = true -> is_finite e = true ->
  (float_equal a b e = true <-> (Rabs (round radix2 (SpecFloat.fexp 24 128) ZnearestE (B2R a - B2R b)) < B2R e)%R).
Proof. exact float_equal_spec. Qed.
Theorem C76_f64_tolerance : forall a b e : f64, is_finite a = true -> is_finite b = true -> is_finite e = true ->
  (float_equal a b e = true <-> (Rabs (round radix2 (SpecFloat.fexp 53 1024) ZnearestE (B2R a - B2R b)) < B2R e)%R).
Proof. exact float_equal_spec. Qed.
Theorem C76_nan_is_never_equal : forall a b e : f32, is_nan a = true \/ is_nan b = true \/ is_nan e = true -> float_equal a b e = false.
Proof. exact float_equal_nan. Qed.
Theorem C76_symmetric : (forall a b e : f32, float_equal a b e = float_equal b a e) /\ (forall a b e : f64, float_equal a b e = float_equal b a e).
Proof. split; exact float_equal_sym. Qed.
(** against the exact difference: accepted only if below e, always accepted if at most some float below e *)
Theorem C76_exact_difference : forall a b e : f32, is_finite a = true -> is_finite b = true -> is_finite e = true ->
  (float_equal a b e = true -> (Rabs (B2R a - B2R b) < B2R e)%R) /\
  (forall d : f32, (B2R d < B2R e)%R -> (Rabs (B2R a - B2R b) <= B2R d)%R -> float_equal a b e = true).
Proof. intros a b e Fa Fb Fe. split; [apply float_equal_sound; assumption|]. intros d. apply float_equal_complete; assumption. Qed.
(** equality with oneself needs a positive tolerance and a finite value *)
Theorem C76_reflexive : (forall a e : f32, is_finite a = true -> is_finite e = true -> (float_equal a a e = true <-> (0 < B2R e)%R)) /\
  (forall (e : f32) s, float_equal (B754_infinity s) (B754_infinity s) e = false).
Proof. split; [exact float_equal_refl|]. intros. apply float_equal_inf. Qed.
Example C76_ex : float_equal (of_Z 3 : f32) (of_Z 1) (of_Z 2) = false /\ float_equal (of_Z 1 : f32) (of_Z 3) (lit 5 (-1)) = true
  /\ float_equal (of_Z 1 : f32) B754_nan (of_Z 2) = false.
Proof. repeat split; vm_compute; reflexivity. Qed.

(** ** C77 and C82 *)
Theorem C77_bin2str_preserves_bytes : forall bytes : list Z, Forall (fun b => 0 <= b < 256)%Z bytes ->
  exists text, convert_file bytes = Ok text /\ read_text text = Some bytes.
Proof. intros x F. destruct (bin2str_correct x F) as (s & E & R & _). eauto. Qed.
Theorem C82_bin2str_line_width : forall bytes : list Z, Forall (fun b => 0 <= b < 256)%Z bytes ->
  exists text, convert_file bytes = Ok text /\ Forall (fun l => length l <= 80) (lines text).
Proof. intros x F. destruct (bin2str_correct x F) as (s & E & _ & W). eauto. Qed.
Example C77_ex : convert_file [] = Ok (chars "  ") /\ convert_file [0; 42; 255]%Z = Ok (chars "    0, 42, 255")
  /\ read_text (chars " 1,, 2") = None /\ read_text (chars "1 2") = None /\ read_text (chars "12, 3 ,") = Some [12; 3]%Z.
Proof. repeat split; vm_compute; reflexivity. Qed.
Example C82_ex : match convert_file (repeat 200%Z 40) with
  | Ok s => map (@length ascii) (lines s) = [78; 78; 52] /\ read_text s = Some (repeat 200%Z 40) | Panic => False end.
Proof. vm_compute. split; reflexivity. Qed.
