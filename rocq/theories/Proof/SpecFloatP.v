(** * Flocq's operators computed by the standard library's [SpecFloat] (no proof terms to carry) *)
From Coq Require Import ZArith Bool Floats.SpecFloat.
From Flocq Require Import Core.Core Calc.Round IEEE754.BinarySingleNaN.
From Verif Require Import Model.Floats.

Section SF.
Context {p e : Z} {Hp : Prec_gt_0 p} {He : Prec_lt_emax p e}.
Lemma sf_round_aux sx mx ex lx : SpecFloat.binary_round_aux p e sx mx ex lx = binary_round_aux p e mode_NE sx mx ex lx.
Proof.
  unfold SpecFloat.binary_round_aux, binary_round_aux. destruct (shr_fexp _ _ _) as [mrs' e']. 
  assert (E : forall m l, round_nearest_even m l = choice_mode mode_NE sx m l).
  { intros m [|c]; [reflexivity|]. destruct c; try reflexivity. cbn. unfold Round.cond_incr. now destruct Z.even. }
  now rewrite E.
Qed.
Lemma sf_round s m ex : SpecFloat.binary_round p e s m ex = binary_round p e mode_NE s m ex.
Proof. unfold SpecFloat.binary_round, binary_round, shl_align_fexp. destruct (shl_align _ _ _). apply sf_round_aux. Qed.
Lemma sf_normalize m ex z : SpecFloat.binary_normalize p e m ex z = B2SF (binary_normalize p e Hp He mode_NE m ex z).
Proof. destruct m; [reflexivity| |]; simpl; rewrite B2SF_SF2B; apply sf_round. Qed.
Lemma sf_add (x y : binary_float p e) : B2SF (fadd x y) = SFadd p e (B2SF x) (B2SF y).
Proof.
  unfold fadd. destruct x as [sx|sx| |sx mx ex Bx]; destruct y as [sy|sy| |sy my ey By]; try reflexivity; try (cbn; now destruct (Bool.eqb sx sy)).
  symmetry. apply sf_normalize.
Qed.
Lemma sf_mul (x y : binary_float p e) : B2SF (fmul x y) = SFmul p e (B2SF x) (B2SF y).
Proof.
  unfold fmul. destruct x as [sx|sx| |sx mx ex Bx]; destruct y as [sy|sy| |sy my ey By]; try reflexivity.
  simpl. rewrite B2SF_SF2B. symmetry. apply sf_round_aux.
Qed.
End SF.
