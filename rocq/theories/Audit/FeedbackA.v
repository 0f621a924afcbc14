(** Axioms used by the property theorems of Properties/Feedback.v (generated by tools/gen.py) *)
From Verif Require Import Properties.Feedback.

Definition audited :=
  (@C116_order_unchanged,
   @C116_order,
   @C116_one_call_late,
   @C116_loop_is_echo,
   @C116_self_loop_refuted).
Print Assumptions audited.
