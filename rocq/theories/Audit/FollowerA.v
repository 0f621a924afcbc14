(** Axioms used by the property theorems of Properties/Follower.v (generated by tools/gen.py) *)
From Verif Require Import Properties.Follower.

Definition audited :=
  (@C99_follows,
   @C99_follows_exact,
   @C99_constant_exact,
   @C99_rises_refuted).
Print Assumptions audited.
