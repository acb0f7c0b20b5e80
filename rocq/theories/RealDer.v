(** Differentiation of complex functions of a real parameter satisfies the rules of [diff_rules]. *)
From Coq Require Import Reals Lra.
From Coquelicot Require Import Coquelicot.
From Verif Require Import RootField Gradients ComplexRF.
Open Scope R_scope.

(** the complex-valued function f of a real variable has derivative d at r *)
Definition rder (r : R) (f : R -> CF) (d : CF) : Prop :=
  is_derive (fun t => Re (f t)) r (Re d) /\ is_derive (fun t => Im (f t)) r (Im d).
Lemma rder_rules : forall r, diff_rules (K := CF) r (rder r).
Proof.
  intros r. constructor.
  - intros f g d H [D1 D2]. split; (eapply is_derive_ext; [intros t; rewrite <- H; reflexivity|assumption]).
  - intros x. split; cbn; [exact (is_derive_const (K := R_AbsRing) (Re x) r)|exact (is_derive_const (K := R_AbsRing) (Im x) r)].
  - intros f g d e [F1 F2] [G1 G2]. split; cbn; [exact (is_derive_plus _ _ _ _ _ F1 G1)|exact (is_derive_plus _ _ _ _ _ F2 G2)].
  - intros f g d e [F1 F2] [G1 G2]. split.
    + apply (is_derive_ext (fun t => minus (Re (f t) * Re (g t)) (Im (f t) * Im (g t)))); [intros t; reflexivity|].
      refine (eq_ind _ (fun x => is_derive _ r x) (is_derive_minus (K := R_AbsRing) _ _ r _ _ (is_derive_mult (K := R_AbsRing) _ _ r _ _ F1 G1 Rmult_comm) (is_derive_mult (K := R_AbsRing) _ _ r _ _ F2 G2 Rmult_comm)) _ _).
      destruct d, e, (f r), (g r). unfold minus, plus, opp, mult, Re, Im; cbn. ring.
    + apply (is_derive_ext (fun t => plus (Re (f t) * Im (g t)) (Im (f t) * Re (g t)))); [intros t; reflexivity|].
      refine (eq_ind _ (fun x => is_derive _ r x) (is_derive_plus (K := R_AbsRing) _ _ r _ _ (is_derive_mult (K := R_AbsRing) _ _ r _ _ F1 G2 Rmult_comm) (is_derive_mult (K := R_AbsRing) _ _ r _ _ F2 G1 Rmult_comm)) _ _).
      destruct d, e, (f r), (g r). unfold plus, opp, mult, Re, Im; cbn. ring.
Qed.
(** e^{i x} *)
Definition cis (x : R) : C := (cos x, sin x).
Lemma cis_conj : forall x, Cconj (cis x) = cis (- x).
Proof. intros x. unfold Cconj, cis. simpl. now rewrite cos_neg, sin_neg. Qed.
Lemma cis_mul_conj : forall x, Cmult (cis x) (cis (- x)) = RtoC 1.
Proof. intros x. rewrite <- cis_conj. unfold cis, Cconj, Cmult, RtoC. simpl. pose proof (sin2_cos2 x) as H. unfold Rsqr in H. f_equal; lra. Qed.
Lemma rder_cis : forall r, rder r cis (Cmult Ci (cis r)).
Proof. intros r. split; cbn; auto_derive; auto; ring. Qed.
Lemma rder_cis_neg : forall r, rder r (fun t => cis (- t)) (Copp (Cmult Ci (cis (- r)))).
Proof. intros r. split; cbn; auto_derive; auto; ring. Qed.
Lemma rder_real : forall f d r, is_derive f r d -> rder r (fun t => RtoC (f t)) (RtoC d).
Proof. intros f d r H. split; cbn; [exact H|exact (is_derive_const (K := R_AbsRing) 0 r)]. Qed.
