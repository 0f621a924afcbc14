(** Axioms used by the property theorems of Properties/AdsrShape.v (generated by tools/gen.py) *)
From Verif Require Import Properties.AdsrShape.

Definition audited :=
  (@C101_attack,
   @C101_decay,
   @C101_release,
   @C101_release_time_refuted).
Print Assumptions audited.
