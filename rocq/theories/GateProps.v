(** C27: the dedicated recurrences of the displacement and squeezing gates *)
From Coq Require Import List Arith Bool Lia Field Ring.
From Verif Require Import Base RootField Tensor Series Vanilla VanillaProps Beamsplitter Gradients GateLattice ComplexRF RealDer.
Import ListNotations.
Open Scope nat_scope.

(** a complex conjugation on the numbers: a field involution fixing the square roots of the natural numbers *)
Record conjugation {K : rootfield} (cj : K -> K) : Prop := {
  cj_plus : forall x y, cj (kadd x y) = kadd (cj x) (cj y);
  cj_times : forall x y, cj (kmul x y) = kmul (cj x) (cj y);
  cj_invol : forall x, cj (cj x) = x;
  cj_root : forall n, cj (sq n) = sq n
}.

Section C27.
  Context {K : rootfield}.
  Add Field Kfield : (kft K).
  Open Scope rf_scope.
  Lemma pos2 : forall M N m n, m < M -> n < N -> positive_shape [M; N].
  Proof. intros. split; [simpl; lia|]. repeat constructor; lia. Qed.

  (** squeezing gate: every entry of every rectangular shape, for all values of e^{i phi} tanh r, its conjugate, sech r and the prefactor *)
  Theorem C27_squeezer : forall (t tc s c : K) M N out m n, m < M -> n < N -> fits [M; N] out ->
    squeezer t tc s c M N m n = entry [M; N] (vanilla 2 (A_sq t tc s) (fun _ => k0) [M; N] c out) [m; n].
  Proof.
    intros t tc s c M N out m n Hm Hn F. rewrite squeezer_right by assumption. symmetry. unfold sq_amp, amp.
    apply (C19_taylor [M; N]); [now apply (pos2 M N m n)|exact (A_sq_sym t tc s)|exact F|now repeat constructor].
  Qed.
  (** squeezed vacuum *)
  Theorem C27_squeezed : forall (t c : K) cut out m, m < cut -> fits [cut] out ->
    squeezed t c cut m = entry [cut] (vanilla 1 (fun _ _ => - t) (fun _ => k0) [cut] c out) [m].
  Proof.
    intros t c cut out m Hm F. rewrite squeezed_right by assumption. symmetry. unfold amp.
    apply (C19_taylor [cut]); [split; [simpl; lia|repeat constructor; lia]|intros i j _ _; reflexivity|exact F|now repeat constructor].
  Qed.
  (** displacement gate *)
  Theorem C27_displacement : forall (cj : K -> K), conjugation cj -> forall (c alpha : K), cj c = c -> forall cut0 cut1 out n m,
    n < cut0 -> m < cut1 -> fits [cut0; cut1] out ->
    displacement c cj alpha cut0 cut1 n m = entry [cut0; cut1] (vanilla 2 A_x (b_d alpha (cj alpha)) [cut0; cut1] c out) [n; m].
  Proof.
    intros cj [C1 C2 C3 C4] c alpha Cc cut0 cut1 out n m Hn Hm F. rewrite (displacement_right c cj) by assumption. symmetry. unfold d_amp, amp.
    apply (C19_taylor [cut0; cut1]); [now apply (pos2 cut0 cut1 n m)|exact A_x_sym|exact F|now repeat constructor].
  Qed.
  (** consistency across shapes: the smaller matrix is the corner of the larger *)
  Theorem C27_corner : forall (cj : K -> K), conjugation cj -> forall (c alpha : K), cj c = c -> forall cut0 cut1 cut0' cut1' n m,
    n < cut0 -> m < cut1 -> n < cut0' -> m < cut1' -> displacement c cj alpha cut0 cut1 n m = displacement c cj alpha cut0' cut1' n m.
  Proof. intros cj [C1 C2 C3 C4] c alpha Cc cut0 cut1 cut0' cut1' n m. intros. now rewrite !(displacement_right c cj). Qed.

  (** the Jacobian: if D is the gate matrix at the point, then along any differentiable change of alpha, conj alpha and of the
      prefactor c = exp(-alpha conj(alpha)/2), every entry has derivative d(alpha) * jac_alpha + d(conj alpha) * jac_alphac *)
  Theorem C27_jacobian : forall (T : Type) (t0 : T) (der : (T -> K) -> K -> Prop), diff_rules t0 der ->
    forall (al alc c : T -> K) dal dalc, der al dal -> der alc dalc -> c t0 <> k0 ->
    der c (- half * (dal * alc t0 + al t0 * dalc) * c t0) ->
    forall M N (D : arr2) m n, m < M -> n < N -> (forall i j, i < M -> j < N -> D i j = c t0 * sqf [i; j] * expq 2 A_x (b_d (al t0) (alc t0)) [i; j]) ->
    let '(ja, jc) := jacobian_displacement M N D (al t0) (alc t0) in
    der (fun t => c t * sqf [m; n] * expq 2 A_x (b_d (al t) (alc t)) [m; n]) (dal * ja m n + dalc * jc m n).
  Proof.
    intros T t0 der DR al alc c dal dalc Ha Hac Nc Hc M N D m n Hm Hn HD. cbn [jacobian_displacement].
    eapply der_eq; [|refine (der_amp t0 der DR 2 (fun _ => A_x) (fun t => b_d (al t) (alc t)) (fun _ _ => k0) (fun i => match i with 0 => dal | _ => - dalc end) _ _ c _ Hc Nc [m; n] eq_refl)].
    - cbn [sumn]. unfold dec, at'. cbn [upd nth]. unfold amp. rewrite (HD m n) by assumption.
      assert (E1 : sq m * D (prev M m) n = sq m * (c t0 * sqf [pred m; n] * expq 2 A_x (b_d (al t0) (alc t0)) [pred m; n])).
      { destruct m as [|m]; [rewrite sq_0; ring|]. rewrite prev_S. cbn [pred]. rewrite HD by lia. reflexivity. }
      assert (E2 : sq n * D m (prev N n) = sq n * (c t0 * sqf [m; pred n] * expq 2 A_x (b_d (al t0) (alc t0)) [m; pred n])).
      { destruct n as [|n]; [rewrite sq_0; ring|]. rewrite prev_S. cbn [pred]. rewrite HD by lia. reflexivity. }
      rewrite E1, E2. field. exact Nc.
    - intros i j _ _. apply (der_const t0 der DR).
    - intros i Hi. destruct i as [|[|i]]; [exact Ha| |lia]. cbn [b_d].
      apply (der_ext t0 der DR (fun t => - k1 * alc t)); [intros; ring|]. eapply der_eq; [|apply (der_cmul t0 der DR); exact Hac]. ring.
  Qed.
End C27.

From Coq Require Import Reals Lra.
From Coquelicot Require Import Coquelicot.
Open Scope nat_scope.
Lemma Cconj_conjugation : conjugation (K := CF) Cconj.
Proof.
  constructor.
  - intros [x y] [x' y']. cbn; unfold Cconj, Cplus; cbn; f_equal; ring.
  - intros [x y] [x' y']. cbn; unfold Cconj, Cmult; cbn; f_equal; ring.
  - intros [x y]. cbn; unfold Cconj; cbn; f_equal; ring.
  - intros n. cbn. unfold csq, Cconj, RtoC; cbn. f_equal. ring.
Qed.
(** exp(-|alpha|^2/2) *)
Definition vac (alpha : C) : C := RtoC (exp (- (Cmod alpha) ^ 2 / 2)).
(** backend_numpy.py:452-457 displacement *)
Definition math_displacement (tol : R) (alpha : C) (cut0 cut1 : nat) : nat -> nat -> C :=
  if Rlt_dec tol (Cmod alpha) then displacement (K := CF) (vac alpha) Cconj alpha cut0 cut1
  else fun n m => if Nat.eqb n m then RtoC 1 else RtoC 0.
Lemma vac_conj : forall a, Cconj (vac a) = vac a.
Proof. intros. unfold vac, Cconj, RtoC; cbn. f_equal. ring. Qed.
(** C27 for complex numbers: the displacement matrix is the Bargmann recursion on the displacement gate's triple, whenever |alpha| > tol *)
Theorem C27_displacement_complex : forall tol alpha, (tol < Cmod alpha)%R -> forall cut0 cut1 out n m, n < cut0 -> m < cut1 -> fits [cut0; cut1] out ->
  math_displacement tol alpha cut0 cut1 n m
  = entry (K := CF) [cut0; cut1] (vanilla 2 A_x (b_d (K := CF) alpha (Cconj alpha)) [cut0; cut1] (vac alpha) out) [n; m].
Proof.
  intros tol alpha Ht cut0 cut1 out n m Hn Hm F. unfold math_displacement. destruct (Rlt_dec tol (Cmod alpha)) as [_|C]; [|contradiction].
  apply (C27_displacement (K := CF) Cconj Cconj_conjugation (vac alpha) alpha (vac_conj alpha)); assumption.
Qed.
(** ... and exactly so at alpha = 0; for 0 < |alpha| <= tol the identity is returned instead *)
Theorem C27_displacement_zero : forall tol, (0 <= tol)%R -> forall cut0 cut1 out n m, n < cut0 -> m < cut1 -> fits [cut0; cut1] out ->
  math_displacement tol (RtoC 0) cut0 cut1 n m
  = entry (K := CF) [cut0; cut1] (vanilla 2 A_x (b_d (K := CF) (RtoC 0) (Cconj (RtoC 0))) [cut0; cut1] (vac (RtoC 0)) out) [n; m].
Proof.
  intros tol Ht cut0 cut1 out n m Hn Hm F. unfold math_displacement. destruct (Rlt_dec tol (Cmod (RtoC 0))) as [C|_]; [rewrite Cmod_0 in C; lra|].
  rewrite <- (C27_displacement (K := CF) Cconj Cconj_conjugation (vac (RtoC 0)) (RtoC 0) (vac_conj _)) by assumption.
  rewrite (displacement_right (K := CF) (vac (RtoC 0)) Cconj); try apply Cconj_conjugation; try apply vac_conj; try assumption.
  assert (V : vac (RtoC 0) = RtoC 1) by (unfold vac; rewrite Cmod_0; f_equal; replace (- 0 ^ 2 / 2)%R with 0%R by (simpl; lra); apply exp_0).
  assert (Z : Cconj (RtoC 0) = RtoC 0) by (unfold Cconj, RtoC; cbn; f_equal; ring). rewrite V, Z. clear Hn Hm F.
  assert (R0 : forall n m, d_amp (K := CF) (RtoC 1) (RtoC 0) (RtoC 0) (S n) m = Cmult (csq m) (Cdiv (d_amp (K := CF) (RtoC 1) (RtoC 0) (RtoC 0) n (pred m)) (csq (S n)))).
  { clear. intros n m. unfold d_amp at 1. rewrite (amp_step (K := CF) 2 A_x (b_d (K := CF) (RtoC 0) (RtoC 0)) A_x_sym (RtoC 1) 0) by (try (unfold at'; simpl); lia).
    unfold dec, at', d_amp. cbn [upd nth pred sumn A_x b_d]. cbn. unfold Cdiv. ring. }
  assert (R1 : forall m, d_amp (K := CF) (RtoC 1) (RtoC 0) (RtoC 0) 0 (S m) = RtoC 0).
  { clear. intros m. unfold d_amp at 1. rewrite (amp_step (K := CF) 2 A_x (b_d (K := CF) (RtoC 0) (RtoC 0)) A_x_sym (RtoC 1) 1) by (try (unfold at'; simpl); lia).
    unfold dec, at'. cbn [upd nth pred sumn A_x b_d]. cbn. rewrite csq_0. unfold Cdiv. ring. }
  revert m. induction n as [|n IH]; intros m.
  - destruct m as [|m]; [symmetry; exact (amp_zero (K := CF) 2 A_x _ (RtoC 1))|]. cbn [Nat.eqb]. symmetry. apply R1.
  - rewrite R0, <- IH. destruct m as [|m]; cbn [Nat.eqb pred]; [rewrite csq_0; ring|]. destruct (Nat.eqb_spec n m) as [->|Ne].
    + field. apply (sq_neq (K := CF) (S m)). lia.
    + unfold Cdiv. ring.
Qed.

(** C27 for the squeezing gate as a function of r and phi *)
Definition tanhr (r : R) : R := (sinh r / cosh r)%R.
Definition math_squeezer (r phi : R) (M N : nat) : nat -> nat -> C :=
  squeezer (K := CF) (Cmult (cis phi) (RtoC (tanhr r))) (Cmult (cis (- phi)) (RtoC (tanhr r))) (RtoC (1 / cosh r)) (RtoC (sqrt (1 / cosh r))) M N.
(** triples.py:449-483 squeezing_gate_Abc *)
Definition squeezing_A (r phi : R) (i j : nat) : C :=
  match i, j with
  | 0, 0 => Copp (Cmult (cis phi) (RtoC (tanhr r))) | 0, 1 | 1, 0 => RtoC (1 / cosh r) | 1, 1 => Cmult (cis (- phi)) (RtoC (tanhr r)) | _, _ => RtoC 0
  end.
Theorem C27_squeezer_complex : forall r phi M N out m n, m < M -> n < N -> fits [M; N] out ->
  math_squeezer r phi M N m n = entry (K := CF) [M; N] (vanilla (K := CF) 2 (squeezing_A r phi) (fun _ => RtoC 0) [M; N] (RtoC (sqrt (1 / cosh r)%R)) out) [m; n].
Proof. intros. unfold math_squeezer. exact (C27_squeezer (K := CF) _ _ _ _ M N out m n ltac:(assumption) ltac:(assumption) ltac:(assumption)). Qed.

(** the Jacobian along any differentiable path of complex displacements *)
Lemma rder_conj : forall r f d, rder r f d -> rder r (fun t => Cconj (f t)) (Cconj d).
Proof. intros r f d [H1 H2]. split; cbn; [exact H1|]. exact (is_derive_opp (K := R_AbsRing) _ _ _ H2). Qed.
Lemma der_gauss : forall (x y : R -> R) r dx dy, is_derive x r dx -> is_derive y r dy ->
  is_derive (fun t => exp (- (x t ^ 2 + y t ^ 2) / 2))%R r (- (dx * x r + dy * y r) * exp (- (x r ^ 2 + y r ^ 2) / 2))%R.
Proof.
  intros x y r dx dy H1 H2. auto_derive; [repeat split; [exists dx|exists dy]; assumption|].
  change (fun x0 : R => x x0) with x. change (fun x0 : R => y x0) with y. rewrite (is_derive_unique x r dx H1), (is_derive_unique y r dy H2).
  replace (- (x r ^ 2 + y r ^ 2) / 2)%R with (- (x r * (x r * 1) + y r * (y r * 1)) * / 2)%R by (cbn; field). cbn. field.
Qed.
Lemma rder_vac : forall r al d, rder r al d ->
  rder r (fun t => vac (al t)) (Cmult (Cmult (RtoC (- (1 / 2))) (Cplus (Cmult d (Cconj (al r))) (Cmult (al r) (Cconj d)))) (vac (al r))).
Proof.
  intros r al d [H1 H2].
  assert (E : forall z, ((Cmod z) ^ 2 = Re z ^ 2 + Im z ^ 2)%R).
  { intros z. unfold Cmod. apply pow2_sqrt. destruct z as [x y]. unfold Re, Im; cbn [fst snd]. pose proof (pow2_ge_0 x). pose proof (pow2_ge_0 y). lra. }
  assert (D : is_derive (fun t => exp (- (Cmod (al t)) ^ 2 / 2)) r (- (Re d * Re (al r) + Im d * Im (al r)) * exp (- (Cmod (al r)) ^ 2 / 2))%R).
  { apply (is_derive_ext (fun t => exp (- (Re (al t) ^ 2 + Im (al t) ^ 2) / 2))%R); [intros t; now rewrite E|]. rewrite E.
    exact (der_gauss (fun t => Re (al t)) (fun t => Im (al t)) r _ _ H1 H2). }
  split.
  - eapply (is_derive_ext (fun t => exp (- (Cmod (al t)) ^ 2 / 2))); [reflexivity|]. refine (eq_ind _ (fun x => is_derive _ r x) D _ _).
    destruct d as [d1 d2], (al r) as [a1 a2]. unfold vac, Cmult, Cplus, Cconj, RtoC, Re, Im; cbn [fst snd]. match goal with |- ?a = ?b => change (@eq R a b) end. field.
  - refine (eq_ind _ (fun x => is_derive _ r x) (is_derive_const (K := R_AbsRing) 0%R r) _ _).
    destruct d as [d1 d2], (al r) as [a1 a2]. unfold vac, Cmult, Cplus, Cconj, RtoC, Re, Im, zero; cbn. match goal with |- ?a = ?b => change (@eq R a b) end. ring.
Qed.
Theorem C27_jacobian_complex : forall r (al : R -> C) d, rder r al d -> forall M N m n, m < M -> n < N ->
  let '(ja, jc) := jacobian_displacement (K := CF) M N (displacement (K := CF) (vac (al r)) Cconj (al r) M N) (al r) (Cconj (al r)) in
  rder r (fun t => displacement (K := CF) (vac (al t)) Cconj (al t) M N m n) (Cplus (Cmult d (ja m n)) (Cmult (Cconj d) (jc m n))).
Proof.
  intros r al d H M N m n Hm Hn.
  assert (RR : forall t i j, i < M -> j < N -> displacement (K := CF) (vac (al t)) Cconj (al t) M N i j = d_amp (K := CF) (vac (al t)) (al t) (Cconj (al t)) i j).
  { intros t i j Hi Hj. apply (displacement_right (K := CF) (vac (al t)) Cconj); try apply Cconj_conjugation; try apply vac_conj; assumption. }
  pose proof (C27_jacobian (K := CF) R r (rder r) (rder_rules r) al (fun t => Cconj (al t)) (fun t => vac (al t)) d (Cconj d) H (rder_conj r al d H)) as X.
  specialize (X ltac:(unfold vac; intros E; change (RtoC (exp (- Cmod (al r) ^ 2 / 2)) = RtoC 0) in E; apply RtoC_inj in E; pose proof (exp_pos (- Cmod (al r) ^ 2 / 2)); lra)).
  assert (Hc : rder r (fun t => vac (al t)) (Cmult (Cmult (Copp (half (K := CF))) (Cplus (Cmult d (Cconj (al r))) (Cmult (al r) (Cconj d)))) (vac (al r)))).
  { refine (eq_ind _ (fun x => rder r _ x) (rder_vac r al d H) _ _). cbn. unfold half. cbn. f_equal. f_equal.
    unfold Cdiv, Cinv, RtoC, Copp, Cmult, Cplus; cbn. f_equal; field. }
  specialize (X Hc M N (displacement (K := CF) (vac (al r)) Cconj (al r) M N) m n Hm Hn (RR r)).
  destruct (jacobian_displacement _ _ _ _ _) as [ja jc]. eapply (der_ext r (rder r) (rder_rules r)); [|exact X]. intros t. symmetry. exact (RR t m n Hm Hn).
Qed.
(** a concrete case: <1|D(1)|0> = exp(-1/2) on a 3 x 2 matrix *)
Theorem C27_example : math_displacement 0 (RtoC 1) 3 2 1 0 = RtoC (exp (- (1 / 2))).
Proof.
  unfold math_displacement. destruct (Rlt_dec 0 (Cmod (RtoC 1))) as [_|C]; [|rewrite Cmod_1 in C; lra].
  rewrite (displacement_right (K := CF) (vac (RtoC 1)) Cconj); try apply Cconj_conjugation; try apply vac_conj; try lia.
  unfold d_amp. rewrite (amp_step (K := CF) 2 A_x (b_d (K := CF) (RtoC 1) (Cconj (RtoC 1))) A_x_sym (vac (RtoC 1)) 0) by (try (unfold at'; simpl); lia).
  unfold dec, at'. cbn [upd nth pred sumn A_x b_d]. rewrite (sq_0 CF).
  assert (E : amp (K := CF) 2 A_x (b_d (K := CF) (RtoC 1) (Cconj (RtoC 1))) (vac (RtoC 1)) [0; 0] = vac (RtoC 1)) by exact (amp_zero (K := CF) 2 _ _ _). rewrite E.
  cbn. unfold csq, vac. rewrite Cmod_1. cbn. rewrite sqrt_1. unfold Cdiv, Cinv, Cmult, Cplus, RtoC; cbn. f_equal; [|field].
  replace (- (1 * (1 * 1)) / 2)%R with (- (1 / 2))%R by field. field.
Qed.
Print Assumptions C27_squeezer.
Print Assumptions C27_jacobian_complex.
