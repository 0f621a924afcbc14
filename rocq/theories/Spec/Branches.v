(** * Branches that are in step *)
From Coq Require Import List Arith Reals.
From Verif Require Import Model.Floats Model.Sounds Spec.SoundSpec Spec.Response Spec.Chain Spec.Rack.
Import ListNotations.
Local Open Scope nat_scope.

(** branches that fork but meet only at the output (block 1): each block lies at a depth, one more than the block that
    feeds it; no block lies deeper than [D]; what feeds the output lies at depth [D] or one less, except possibly one
    block [p] *)
Definition levelled (n : nat) (E : nat -> nat -> Prop) : Prop :=
  (forall a a' b, b <> 1 -> E a b -> E a' b -> a = a') /\ (forall b, ~ E 1 b) /\
  exists (depth : nat -> nat) (D p : nat),
    (forall x, source n E x -> x <> 1 -> depth x = 0) /\ (forall a b, E a b -> b <> 1 -> depth b = S (depth a)) /\
    (forall x, x < n -> x <> 1 -> depth x <= D) /\ (forall a, E a 1 -> a = p \/ D <= S (depth a)).
(** what block [m] gets in call [k] if no connection delays anything: the sound's own input (block 0 only) and what the
    blocks of [P m] put out in this call *)
Definition in_step (P : nat -> list nat) (xs : list f32) (out : nat -> nat -> f32) (m k : nat) : list f32 :=
  (if m =? 0 then [nth k xs f0] else []) ++ map (fun a => out a k) (P m).
(** paths from the input gain to the output gain, each given by the blocks on the way *)
Definition path_link (Ls : list (list nat)) (a b : nat) : Prop := exists L l1 l2, In L Ls /\ 0 :: L ++ [1] = l1 ++ a :: b :: l2.
(** the paths may share their first blocks, once apart they do not meet again; their lengths differ by at most one block,
    except that one of them may be shorter *)
Definition branches (n : nat) (Ls : list (list nat)) : Prop :=
  NoDup Ls /\ (forall L x, In L Ls -> In x L -> 2 <= x < n) /\ (forall x, 2 <= x < n -> exists L, In L Ls /\ In x L) /\
  (forall a a' b, b <> 1 -> path_link Ls a b -> path_link Ls a' b -> a = a') /\
  exists (D : nat) (L0 : list nat), forall L, In L Ls -> length L <= D /\ (L = L0 \/ D <= S (length L)).
(** linear modifiers on the paths, block [x] being part [x - 2]: the complex amplitudes multiply along each path and add up
    over the paths; largest sample, error, without the additions *)
Definition path_parts (ps : list lpart) (L : list nat) : list lpart := map (fun x => nth (x - 2) ps LPass) L.
Definition paths_w (m : libm) (ps : list lpart) (Ls : list (list nat)) (om : R) (w : C) : C :=
  fold_right (fun L a => cadd (chain_w m (path_parts ps L) om w) a) (cre 0) Ls.
Definition paths_amp (m : libm) (ps : list lpart) (Ls : list (list nat)) (X : R) : R := rsum (map (fun L => chain_amp m (path_parts ps L) X) Ls).
Definition paths_err (m : libm) (ps : list lpart) (Ls : list (list nat)) (eps X : R) : R := rsum (map (fun L => chain_err m (path_parts ps L) eps X) Ls).
