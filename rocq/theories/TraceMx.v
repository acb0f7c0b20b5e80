(** Support for claim C72: the parameters returned by complex_gaussian_integral_1 for one pair of variables, in closed form. *)
From Coq Require Import Reals Lra.
From Coquelicot Require Import Complex.
From mathcomp Require Import all_ssreflect all_algebra.
From Verif Require Import CMat CExp Base GaussInt Prefactor.
Set Implicit Arguments. Unset Strict Implicit. Unset Printing Implicit Defensive.
Import GRing.Theory.
Local Open Scope ring_scope.

Lemma inv_2 (M : 'M[C]_2) (d : C) : M 0 0 * M 1 1 - M 0 1 * M 1 0 = d -> d != 0 ->
  [/\ invmx M 0 0 = M 1 1 / d, invmx M 0 1 = - M 0 1 / d, invmx M 1 0 = - M 1 0 / d & invmx M 1 1 = M 0 0 / d].
Proof.
move=> E D. pose V : 'M[C]_2 := \matrix_(i, j) (if i == 0 then if j == 0 then M 1 1 / d else - M 0 1 / d else if j == 0 then - M 1 0 / d else M 0 0 / d).
have U : M \in unitmx by rewrite unitmxE det_2 E unitfE.
have MV : M *m V = 1%:M.
  apply/matrixP => i j. rewrite !mxE !big_ord_recl big_ord0 !mxE addr0 /=. have -> : lift (0 : 'I_2) (0 : 'I_1) = 1 by apply: val_inj.
  have I k : k = 0 \/ k = 1 :> 'I_2 by case: k => [[|[|k]] Hk] //; [left|right]; apply: val_inj.
  case: (I i) => ->; case: (I j) => ->; rewrite /= !mulrA -mulrDl.
  - by rewrite mulrN E divff.
  - by rewrite mulrN (mulrC (M 0 0)) addNr mul0r.
  - by rewrite mulrN (mulrC (M 1 1)) subrr mul0r.
  - by rewrite mulrN addrC mulrC (mulrC (M 1 1)) (mulrC (M 1 0)) E mulVf.
have -> : invmx M = V by rewrite -[invmx M]mulmx1 -MV mulKmx.
by rewrite !mxE.
Qed.

Section Algebra.
Local Open Scope C_scope.
Lemma alg_A (x1 x2 y1 y2 a11 a22 u k : C) :
  - (x1 * - (a22 * k) * y1 + x1 * - (u * k) * y2 + (x2 * - (u * k) * y1 + x2 * - (a11 * k) * y2)) = (x1 * (u * y2 + a22 * y1) + x2 * (u * y1 + a11 * y2)) * k.
Proof. ring. Qed.
Lemma alg_e (b1 b2 a11 a22 u k h : C) :
  - h * (b1 * - (a22 * k) * b1 + b1 * - (u * k) * b2 + (b2 * - (u * k) * b1 + b2 * - (a11 * k) * b2)) = h * ((a22 * b1 * b1 + (RtoC 1 + RtoC 1) * b1 * b2 * u + a11 * b2 * b2) * k).
Proof. ring. Qed.
End Algebra.
Section Pair.
Variables (t t' : triple C_fieldType) (c c' : C) (i j : nat).
Hypothesis Sy : symmetric t.
Hypothesis Li : (i < dim t)%N.
Hypothesis Lj : (j < dim t)%N.
Hypothesis I0 : integrate t c [:: i] [:: j] = Ok (Some (t', c')).
Let r := rest (dim t) [:: i; j].
Let A := mat t.
Let b := vec t.
Let u : C := 1 - A i j.
Let d : C := u * u - A i i * A j j.

Lemma pair_ok : [/\ dim t' = size r, d != 0,
  forall a e, mat t' a e = A (nth 0%N r a) (nth 0%N r e) + (A (nth 0%N r a) i * (u * A (nth 0%N r e) j + A j j * A (nth 0%N r e) i) + A (nth 0%N r a) j * (u * A (nth 0%N r e) i + A i i * A (nth 0%N r e) j)) * d^-1,
  forall a, vec t' a = b (nth 0%N r a) + (A (nth 0%N r a) i * (u * b j + A j j * b i) + A (nth 0%N r a) j * (u * b i + A i i * b j)) * d^-1 &
  c' = c * (csqrt (d^-1) * Cexp ((2%:R)^-1 * ((A j j * b i * b i + 2%:R * b i * b j * u + A i i * b j * b j) * d^-1)))].
Proof.
move: I0. rewrite /integrate /integral /=. case: ifP => // _. set M := Mmx t (-1) [:: i] [:: j]. case T: (tiny _) => //= -[<- <-].
have Aji : A j i = A i j by exact: Sy.
have E00 : M 0 0 = A i i by rewrite !mxE /Xent /= mulr0 addr0. have E11 : M 1 1 = A j j by rewrite !mxE /Xent /= mulr0 addr0.
have E01 : M 0 1 = - u by rewrite !mxE /Xent /= mulr1 /u opprB. have E10 : M 1 0 = - u by rewrite !mxE /Xent /= mulr1 /u opprB -Aji.
have Ed : \det M = - d by rewrite (det_2 M) E00 E11 E01 E10 mulrNN /d opprB.
have Dz : d != 0 by apply/negP => /eqP Q; move: T; rewrite Ed Q oppr0 tiny0.
have [V00 V01 V10 V11] := @inv_2 M (- d) (etrans (esym (det_2 M)) Ed) (etrans (congr1 negb (oppr_eq0 d)) Dz).
have {}V00 : invmx M 0 0 = - (A j j / d) by rewrite V00 E11 invrN mulrN. have {}V11 : invmx M 1 1 = - (A i i / d) by rewrite V11 E00 invrN mulrN.
have {}V01 : invmx M 0 1 = - (u / d) by rewrite V01 E01 opprK invrN mulrN. have {}V10 : invmx M 1 0 = - (u / d) by rewrite V10 E10 opprK invrN mulrN.
have S2 (f : 'I_2 -> 'I_2 -> C) : \sum_k \sum_l f k l = f 0 0 + f 0 1 + (f 1 0 + f 1 1).
  rewrite !big_ord_recl !big_ord0 !addr0. have -> : lift (0 : 'I_2) (0 : 'I_1) = 1 by apply: val_inj. by [].
split=> //.
- move=> a e. rewrite /Apost -/r. set x := nth _ _ a. set y := nth _ _ e. rewrite -/A. congr (_ + _).
  apply: etrans (alg_A (A x i) (A x j) (A y i) (A y j) (A i i) (A j j) u d^-1). congr (- _). apply: etrans (S2 _) _. by rewrite /= V00 V01 V10 V11.
- move=> a. rewrite /bpost -/r. set x := nth _ _ a. rewrite -/A -/b. congr (_ + _).
  apply: etrans (alg_A (A x i) (A x j) (b i) (b j) (A i i) (A j j) u d^-1). congr (- _). apply: etrans (S2 _) _. by rewrite /= V00 V01 V10 V11.
- rewrite /prefactor Ed expr1 invrN mulrNN mul1r -mulrA. congr (_ * (_ * Cexp _)).
  rewrite /expo. apply: etrans (alg_e (b i) (b j) (A i i) (A j j) u d^-1 (2%:R)^-1). congr (_ * _). apply: etrans (S2 _) _. by rewrite /= V00 V01 V10 V11.
Qed.
End Pair.
