(** * C100: Echo as a comb filter *)

From Coq Require Import ZArith List Bool Reals Lra Lia.
From Flocq Require Import Core.Core IEEE754.BinarySingleNaN.
From Verif Require Import Model.Floats Model.Modifiers Spec.Comb Proof.FloatFacts Proof.SampleFormatP Proof.CombP.
Import ListNotations.
Local Open Scope R_scope.

(** ** C100 *)
(** the outputs are the sums of the decayed repetitions, with an error that does not grow *)
Theorem C100_echo_is_comb : forall (n : nat) (g : f32) (X : R) (B : f32) (xs : list f32),
  (0 < n)%nat -> is_finite g = true -> is_finite B = true -> bpow radix2 (-125) <= B2R B -> 0 <= X -> Rabs (B2R g) < 1 ->
  Rabs (B2R g) * B2R B + X <= B2R B ->
  (forall x, In x xs -> is_finite x = true /\ Rabs (B2R x) <= X) ->
  exists ys e', run_res echo_process (mkEcho (repeat f0 n) g) xs = Ok (ys, e') /\ length ys = length xs /\
    forall k, (k < length xs)%nat -> is_finite (nth k ys f0) = true /\
      Rabs (B2R (nth k ys f0) - comb n (B2R g) (fun i => B2R (nth i xs f0)) k) <= bpow radix2 (-22) * B2R B / (1 - Rabs (B2R g)).
Proof. exact echo_tracks. Qed.
(** with a gain of at most one half, every echo is over after 277 repetitions *)
Theorem C100_echo_dies : forall (q : list f32) (g : f32) (m : nat), q <> [] -> is_finite g = true -> Rabs (B2R g) <= / 2 ->
  (forall o, In o q -> is_finite o = true) ->
  exists ys e', run_res echo_process (mkEcho q g) (repeat f0 m) = Ok (ys, e') /\
    forall k, (277 * length q <= k < m)%nat -> B2R (nth k ys f0) = 0.
Proof. exact echo_dies. Qed.
(** relied on: an echo with gain below one dies out.  Above one half, none does *)
Theorem C100_echo_dies_refuted : forall (q : list f32) (g : f32) (m r : nat), is_finite g = true -> / 2 < Rabs (B2R g) <= 1 ->
  (forall o, In o q -> is_finite o = true) -> (r < length q)%nat -> B2R (nth r q f0) <> 0 ->
  exists ys e', run_res echo_process (mkEcho q g) (repeat f0 m) = Ok (ys, e') /\
    forall j, (r + j * length q < m)%nat -> B2R (nth (r + j * length q) ys f0) <> 0.
Proof. exact echo_survives. Qed.

Definition shown {S} (x : res (list f32 * S)) : option (list SpecFloat.spec_float) :=
  match x with Ok (ys, _) => Some (map B2SF ys) | Panic => None end.
(** two impulses, 2 samples of delay: 8, 4 and then 4/2 + 8/4 *)
Example C100_ex : comb 2 (/ 2) (fun i => nth i [8; 4; 0; 0; 2] 0) 4 = 4 /\
  shown (run_res echo_process (mkEcho (repeat f0 2) (lit 1 (-1))) [of_Z 8; of_Z 4; of_Z 0; of_Z 0; of_Z 2])
  = Some (map (fun z => B2SF (of_Z z : f32)) [8; 4; 4; 2; 4]%Z).
Proof. split; [|vm_compute; reflexivity]. unfold comb. simpl. lra. Qed.
(** the smallest positive number, fed back with a gain of 3/4 *)
Example C100_ex_stuck : shown (run_res echo_process (mkEcho [lit 1 (-149)] (lit 3 (-2))) (repeat f0 5)) = Some (repeat (B2SF (lit 1 (-149) : f32)) 5).
Proof. vm_compute. reflexivity. Qed.
