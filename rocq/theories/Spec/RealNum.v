(** * Exact arithmetic: the polymorphic model read over the real numbers *)
From Coq Require Import Reals.
From Flocq Require Import Core.Core.
From Verif Require Import Model.Floats.
Local Open Scope R_scope.

Definition numR : num :=
  {| carrier := R; nzero := 0; nadd := Rplus; nsub := Rminus; nmul := Rmult; ndiv := Rdiv;
     nneg := Ropp; nabs := Rabs; nlt := Rlt_bool |}.
