(** Complex exponential and principal square root, as numpy computes them in exact arithmetic (numpy.exp, numpy.sqrt on complex128; numpy.sqrt also looks at the
    sign of a zero imaginary part, which exact arithmetic does not have: a negative real number gets the root +i). *)
From Coq Require Import Reals Lra Psatz.
From Coquelicot Require Import Complex Rcomplements.
Local Open Scope R_scope.

Definition Cexp (z : C) : C := (exp (fst z) * cos (snd z), exp (fst z) * sin (snd z)).
Definition csqrt (z : C) : C :=
  (sqrt ((Cmod z + fst z) / 2), if Rlt_dec (snd z) 0 then - sqrt ((Cmod z - fst z) / 2) else sqrt ((Cmod z - fst z) / 2)).

Lemma Cexp_0 : Cexp (RtoC 0) = RtoC 1.
Proof. unfold Cexp, RtoC; simpl. rewrite exp_0, cos_0, sin_0. f_equal; ring. Qed.
Lemma Cexp_add a b : Cexp (Cplus a b) = Cmult (Cexp a) (Cexp b).
Proof. unfold Cexp, Cplus, Cmult; simpl. rewrite exp_plus, cos_plus, sin_plus. f_equal; ring. Qed.
Lemma Cexp_R x : Cexp (RtoC x) = RtoC (exp x).
Proof. unfold Cexp, RtoC; simpl. rewrite cos_0, sin_0. f_equal; ring. Qed.
Lemma Cexp_conj z : Cexp (Cconj z) = Cconj (Cexp z).
Proof. unfold Cexp, Cconj; simpl. rewrite cos_neg, sin_neg. f_equal; ring. Qed.
Lemma Cexp_nz z : Cexp z <> RtoC 0.
Proof.
  intro H. assert (E : Cmult (Cexp z) (Cexp (Copp z)) = RtoC 1).
  { rewrite <- Cexp_add. replace (Cplus z (Copp z)) with (RtoC 0) by (unfold Cplus, Copp, RtoC; simpl; f_equal; ring). apply Cexp_0. }
  rewrite H in E. apply (f_equal fst) in E. simpl in E. lra.
Qed.
Lemma Cmod2 z : Cmod z * Cmod z = fst z * fst z + snd z * snd z.
Proof. unfold Cmod. rewrite sqrt_sqrt; [ring|nra]. Qed.
Lemma Cmod_re z : Rabs (fst z) <= Cmod z.
Proof. apply Rsqr_incr_0_var; [|apply Cmod_ge_0]. unfold Rsqr. rewrite <- Rabs_mult, Rabs_right, Cmod2; nra. Qed.
Lemma csqrt_sq z : Cmult (csqrt z) (csqrt z) = z.
Proof.
  destruct z as [x y]. pose proof (Cmod_re (x, y)) as H. pose proof (Cmod2 (x, y)) as H2. unfold csqrt. simpl in *. set (m := Cmod (x, y)) in *.
  assert (Hx : - m <= x <= m) by (apply Rabs_le_between; exact H).
  assert (P : sqrt ((m + x) / 2) * sqrt ((m - x) / 2) = Rabs y / 2).
  { rewrite <- sqrt_mult by lra. replace ((m + x) / 2 * ((m - x) / 2)) with (Rsqr (Rabs y / 2)).
    - apply sqrt_Rsqr. pose proof (Rabs_pos y). lra.
    - unfold Rsqr. replace (Rabs y / 2 * (Rabs y / 2)) with (Rabs y * Rabs y / 4) by field. rewrite <- Rabs_mult, Rabs_right by nra. nra. }
  assert (Q1 : sqrt ((m + x) / 2) * sqrt ((m + x) / 2) = (m + x) / 2) by (apply sqrt_sqrt; lra).
  assert (Q2 : sqrt ((m - x) / 2) * sqrt ((m - x) / 2) = (m - x) / 2) by (apply sqrt_sqrt; lra).
  destruct (Rlt_dec y 0) as [L|L]; unfold Cmult; simpl.
  - rewrite Rabs_left in P by exact L. f_equal; nra.
  - rewrite Rabs_right in P by lra. f_equal; nra.
Qed.
Lemma csqrt_re z : 0 <= fst (csqrt z). Proof. apply sqrt_pos. Qed.
Lemma csqrt_R x : 0 <= x -> csqrt (RtoC x) = RtoC (sqrt x).
Proof.
  intro H. unfold csqrt. rewrite Cmod_R, Rabs_right by lra. unfold RtoC; simpl. destruct (Rlt_dec 0 0); [lra|].
  replace ((x + x) / 2) with x by field. replace ((x - x) / 2) with 0 by field. rewrite sqrt_0. reflexivity.
Qed.
Lemma csqrt_neg x : x < 0 -> csqrt (RtoC x) = (0, sqrt (- x)).
Proof.
  intro H. unfold csqrt. rewrite Cmod_R, Rabs_left by lra. unfold RtoC; simpl. destruct (Rlt_dec 0 0); [lra|].
  replace ((- x + x) / 2) with 0 by field. replace ((- x - x) / 2) with (- x) by field. rewrite sqrt_0. reflexivity.
Qed.
(** positive factors come out of the root *)
Lemma csqrt_pos r z : 0 <= r -> csqrt (Cmult (RtoC r) z) = Cmult (RtoC (sqrt r)) (csqrt z).
Proof.
  intro H. destruct (Req_dec r 0) as [->|Hr].
  - rewrite sqrt_0. replace (Cmult (RtoC 0) z) with (RtoC 0) by (unfold Cmult, RtoC; simpl; f_equal; ring).
    rewrite csqrt_R, sqrt_0 by lra. unfold Cmult, RtoC; simpl; f_equal; ring.
  - destruct z as [x y]. unfold csqrt. rewrite Cmod_mult, Cmod_R, Rabs_right by lra. unfold RtoC, Cmult; simpl. set (m := Cmod (x, y)).
    pose proof (Cmod_re (x, y)) as Hm. simpl in Hm. fold m in Hm. apply Rabs_le_between in Hm.
    replace ((r * m + (r * x - 0 * y)) / 2) with (r * ((m + x) / 2)) by field.
    replace ((r * m - (r * x - 0 * y)) / 2) with (r * ((m - x) / 2)) by field. rewrite !sqrt_mult by lra.
    destruct (Rlt_dec (r * y + 0 * x) 0), (Rlt_dec y 0); try (exfalso; nra); f_equal; ring.
Qed.
Lemma sq_pm (a b : C) : Cmult a a = Cmult b b -> a = b \/ a = Copp b.
Proof.
  destruct a as [p q], b as [u v]. unfold Cmult, Copp; simpl. intro H. injection H as H1 H2.
  assert (E : ((p - u) * (p - u) + (q - v) * (q - v)) * ((p + u) * (p + u) + (q + v) * (q + v)) = 0).
  { assert (A : (p - u) * (p + u) - (q - v) * (q + v) = 0) by lra. assert (B : (p - u) * (q + v) + (q - v) * (p + u) = 0) by lra.
    replace (((p - u) * (p - u) + (q - v) * (q - v)) * ((p + u) * (p + u) + (q + v) * (q + v)))
      with (((p - u) * (p + u) - (q - v) * (q + v)) * ((p - u) * (p + u) - (q - v) * (q + v)) + ((p - u) * (q + v) + (q - v) * (p + u)) * ((p - u) * (q + v) + (q - v) * (p + u))) by ring.
    rewrite A, B. ring. }
  apply Rmult_integral in E. destruct E as [E|E].
  - left. destruct (Rplus_eq_R0 _ _ (Rle_0_sqr (p - u)) (Rle_0_sqr (q - v)) E) as [E1 E2]. apply Rsqr_0_uniq in E1. apply Rsqr_0_uniq in E2. f_equal; lra.
  - right. destruct (Rplus_eq_R0 _ _ (Rle_0_sqr (p + u)) (Rle_0_sqr (q + v)) E) as [E1 E2]. apply Rsqr_0_uniq in E1. apply Rsqr_0_uniq in E2. f_equal; lra.
Qed.
(** the root of a product is the product of the roots up to sign *)
Lemma csqrt_mul a b : csqrt (Cmult a b) = Cmult (csqrt a) (csqrt b) \/ csqrt (Cmult a b) = Copp (Cmult (csqrt a) (csqrt b)).
Proof.
  apply sq_pm. rewrite csqrt_sq. transitivity (Cmult (Cmult (csqrt a) (csqrt a)) (Cmult (csqrt b) (csqrt b))); [now rewrite !csqrt_sq|].
  destruct (csqrt a), (csqrt b). unfold Cmult; simpl. f_equal; ring.
Qed.
(** ... and the sign can be minus *)
Lemma csqrt_mul_refuted : exists a b, csqrt (Cmult a b) <> Cmult (csqrt a) (csqrt b).
Proof.
  exists (RtoC (-1)), (RtoC (-1)). replace (Cmult (RtoC (-1)) (RtoC (-1))) with (RtoC 1) by (unfold Cmult, RtoC; simpl; f_equal; ring).
  rewrite csqrt_R, sqrt_1 by lra. rewrite csqrt_neg by lra. replace (- -1) with 1 by ring. rewrite sqrt_1. unfold Cmult, RtoC; simpl. intro H. injection H as H. lra.
Qed.
(** with both arguments strictly within the right half plane the roots multiply *)
Lemma csqrt_half a b : 0 < fst a -> 0 < fst b -> csqrt (Cmult a b) = Cmult (csqrt a) (csqrt b).
Proof.
  intros Ha Hb. destruct (csqrt_mul a b) as [E|E]; [exact E|exfalso].
  pose proof (csqrt_re (Cmult a b)) as H. rewrite E in H. clear E.
  assert (K : forall z, 0 < fst z -> 0 < fst (csqrt z) /\ Rabs (snd (csqrt z)) < fst (csqrt z)).
  { intros z Hz. pose proof (csqrt_sq z) as Q. pose proof (csqrt_re z) as P. destruct (csqrt z) as [u v]. simpl in *. destruct z as [x y]. simpl in *. injection Q as Q1 Q2.
    assert (0 < u) by nra. split; [exact H0|]. apply Rabs_def1; nra. }
  destruct (K a Ha) as [A1 A2], (K b Hb) as [B1 B2]. destruct (csqrt a) as [p q], (csqrt b) as [u v]. simpl in *.
  apply Rabs_def2 in A2. apply Rabs_def2 in B2. nra.
Qed.
