(** * What flows along the connections of a ComplexSound *)
From Coq Require Import List Arith.
From Verif Require Import Model.Floats Model.Sounds Spec.SoundSpec.
Import ListNotations.

(** the blocks of a ComplexSound made in the heap [h]: the input gain, the output gain, then the blocks moved in *)
Definition moved_in (ops : list cop) : list handle := flat_map (fun o => match o with CAddBlock p => [p] | _ => [] end) ops.
Definition node_handles {U} (h : heap U) (ops : list cop) : list handle := length h :: S (length h) :: moved_in ops.
(** what block [m] is given in call [k], if [la] are processed before it and [lb] from it on (itself included): first what
    the blocks of [lb] put out in the call before, then the sound's own input (block 0 only), then what the blocks of
    [la] put out in this call; [E a m]: [a] is connected to [m]; [out a k]: output of block [a] in call [k] *)
Definition arrivals (E : nat -> nat -> bool) (la lb : list nat) (m : nat) (xs : list f32) (out : nat -> nat -> f32) (k : nat) : list f32 :=
  match k with O => [] | S j => map (fun a => out a j) (filter (fun a => E a m) lb) end ++
  (if m =? 0 then [nth k xs f0] else []) ++
  map (fun a => out a k) (filter (fun a => E a m) la).
