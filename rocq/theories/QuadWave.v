(** The quadrature wave functions of mrmustard/physics/fock_utils.py and of the quadrature triples: claim C71. *)
From Coq Require Import Reals Lra List Arith Lia.
From Coquelicot Require Import Coquelicot.
From Verif Require Import RootField Series Vanilla VanillaProps ComplexRF CExp.
Import ListNotations.
Open Scope R_scope.

(** ** model *)
(** backend_numpy.py hermite_renormalized (the vanilla strategy of C19) for one variable: entry n of the array of length cutoff *)
Definition hermite1 (A b c : C) (cutoff n : nat) : C :=
  entry (K := CF) [cutoff] (vanilla (K := CF) 1 (fun _ _ => A) (fun _ => b) [cutoff] c (repeat (RtoC 0) cutoff)) [n].
(** fock_utils.py:104-121 oscillator_eigenstate: entry [n, j] for the point q = q[j] *)
Definition oscillator_eigenstate (hbar q : R) (cutoff n : nat) : C :=
  let x := RtoC (q / sqrt hbar) in
  let prefactor := RtoC (Rpower (PI * hbar) (- (1 / 4)) * Rpower (1 / 2) (INR n / 2)) in
  Cmult (Cexp (Copp (Cdiv (Cmult x x) (RtoC 2)))) (Cmult prefactor (hermite1 (Copp (RtoC 2)) (Cmult (RtoC 2) x) (RtoC 1) cutoff n)).
(** circuit_components.py:602-611: the basis array of one wire; math.allclose(phi, 0.0) is |phi| <= atol *)
Definition quad_basis (hbar phi atol : R) (conjugate : bool) (q : R) (cutoff n : nat) : C :=
  let v := oscillator_eigenstate hbar q cutoff n in
  let v := if Rle_dec (Rabs phi) atol then v else let theta := - INR n * phi in Cmult (cos theta, sin theta) v in
  if conjugate then Cconj v else v.
(** triples.py:779-805 bargmann_to_quadrature_Abc for one mode: (A00, A01, A11, c); variable 0 is the point, variable 1 the Bargmann variable *)
Definition btoq_e (phi : R) : C := Cexp (- 0, - phi + PI / 2).
Definition btoq_A (hbar phi : R) : C * C * C :=
  (RtoC (- 1 / hbar), Cmult (Cmult (Copp Ci) (btoq_e phi)) (RtoC (sqrt (2 / hbar))), Cmult (btoq_e phi) (btoq_e phi)).
Definition btoq_c (hbar : R) : C := RtoC (1 / Rpower (PI * hbar) (1 / 4)).
(** triples.py:338-349 quadrature_eigenstates_Abc *)
Definition eigenstate_A (phi : R) : C := Copp (Cexp (Cmult (Cmult Ci (RtoC 2)) (RtoC phi))).
Definition eigenstate_b (hbar x phi : R) : C := Cmult (Cmult (RtoC x) (Cexp (Cmult Ci (RtoC phi)))) (RtoC (sqrt (2 / hbar))).
Definition eigenstate_c (hbar x : R) : C := RtoC (1 / Rpower PI (1 / 4) * exp (- (x ^ 2) / (2 * hbar))).

(** ** specification *)
(** the n-th eigenfunction of the harmonic oscillator, with the Hermite polynomial given by Rodrigues' formula *)
Definition hermite_poly (n : nat) (x : R) : R := (- 1) ^ n * exp (x ^ 2) * Derive_n (fun t => exp (- t ^ 2)) n x.
Definition wave (hbar : R) (n : nat) (q : R) : R :=
  let x := q / sqrt hbar in
  / Rpower (PI * hbar) (1 / 4) * / sqrt (2 ^ n * INR (fact n)) * exp (- x ^ 2 / 2) * hermite_poly n x.

(** ** Hermite polynomials *)
Fixpoint herm (n : nat) (x : R) : R :=
  match n with 0%nat => 1 | S m => 2 * x * herm m x - match m with 0%nat => 0 | S l => 2 * INR m * herm l x end end.
Lemma herm_S : forall n x, herm (S (S n)) x = 2 * x * herm (S n) x - 2 * INR (S n) * herm n x.
Proof. reflexivity. Qed.
Lemma herm_0 : forall x, herm 0 x = 1.
Proof. reflexivity. Qed.
Lemma herm_1 : forall x, herm 1 x = 2 * x.
Proof. intros x. simpl. ring. Qed.
Local Arguments herm : simpl never.
Local Arguments INR : simpl never.
Lemma herm_der : forall n x, is_derive (herm n) x (match n with 0%nat => 0 | S m => 2 * INR n * herm m x end).
Proof.
  intros n. assert (G : forall x, is_derive (herm n) x (match n with 0%nat => 0 | S m => 2 * INR n * herm m x end)
    /\ is_derive (herm (S n)) x (2 * INR (S n) * herm n x)).
  { induction n as [|n IH]; intros x.
    - split; [apply is_derive_Reals, derivable_pt_lim_const|]. apply (is_derive_ext (fun x => 2 * x)).
      + intros t. now rewrite herm_1.
      + auto_derive; [exact I|]. rewrite herm_0. change (INR 1) with 1. ring.
    - destruct (IH x) as [I1 I2]. split; [exact I2|].
      apply (is_derive_ext (fun x => 2 * x * herm (S n) x - 2 * INR (S n) * herm n x)); [intros t; now rewrite herm_S|].
      evar_last.
      + apply @is_derive_minus.
        * apply @is_derive_mult; [auto_derive; [exact I|reflexivity]|exact I2|intros; apply Rmult_comm].
        * apply (is_derive_scal (herm n)). exact I1.
      + unfold minus, plus, opp, mult, scal; simpl. destruct n as [|n].
        * rewrite herm_1, herm_0, !S_INR. change (INR 0) with 0. unfold mult; simpl. ring.
        * rewrite !herm_S. rewrite !S_INR. unfold mult; simpl. ring. }
  intros x. apply G.
Qed.
Lemma gauss_der : forall n x, Derive_n (fun t => exp (- t ^ 2)) n x = (- 1) ^ n * exp (- x ^ 2) * herm n x.
Proof.
  induction n as [|n IH]; intros x; [simpl; rewrite herm_0; ring|]. cbn [Derive_n]. rewrite (Derive_ext _ _ x IH). apply is_derive_unique.
  evar_last.
  - apply @is_derive_mult; [|apply herm_der|intros; apply Rmult_comm]. apply (is_derive_scal (fun x => exp (- x ^ 2))). auto_derive; [exact I|reflexivity].
  - unfold plus, mult; simpl. rewrite ?S_INR. change (INR 0) with 0. destruct n as [|n]; [rewrite herm_1, herm_0; simpl; ring|]. rewrite herm_S, !S_INR. simpl. ring.
Qed.
Lemma hermite_poly_herm : forall n x, hermite_poly n x = herm n x.
Proof.
  intros n x. unfold hermite_poly. rewrite gauss_der. assert (E : exp (x ^ 2) * exp (- x ^ 2) = 1) by (rewrite <- exp_plus; replace (x ^ 2 + - x ^ 2) with 0 by ring; apply exp_0).
  assert (S1 : (-1) ^ n * (-1) ^ n = 1) by (rewrite <- Rpow_mult_distr; replace (-1 * -1) with 1 by ring; apply pow1).
  transitivity (((-1) ^ n * (-1) ^ n) * (exp (x ^ 2) * exp (- x ^ 2)) * herm n x); [ring|]. rewrite E, S1. ring.
Qed.

(** ** the one-variable recurrence *)
Definition rec1 (A b c : C) (N : nat) (G : nat -> C) : Prop :=
  G 0%nat = c /\ forall n, (S n < N)%nat -> Cmult (csq (S n)) (G (S n)) = Cplus (Cmult b (G n)) (match n with 0%nat => RtoC 0 | S m => Cmult A (Cmult (csq n) (G m)) end).
Lemma hermite1_rec : forall A b c N, (0 < N)%nat -> rec1 A b c N (hermite1 A b c N).
Proof.
  intros A b c N HN.
  destruct (C19_recurrence (K := CF) [N] (fun _ _ => A) (fun _ => b) c (repeat (RtoC 0) N)) as [E0 ER].
  - split; [simpl; lia|]. constructor; auto.
  - intros i j _ _. reflexivity.
  - unfold fits, prod. rewrite repeat_length. simpl. lia.
  - split; [exact E0|]. intros n Hn. specialize (ER [S n] 0%nat). cbn [length] in ER. unfold hermite1.
    specialize (ER ltac:(constructor; auto) ltac:(lia) ltac:(discriminate)). cbn in ER. unfold at', dec, upd in ER. cbn in ER. unfold at' in ER; cbn in ER.
    refine (eq_trans ER _). destruct n as [|m]; cbn; [apply (f_equal (Cplus _)); apply Cplus_0_l|apply (f_equal (Cplus _)); apply Cplus_0_l].
Qed.
Lemma csq_S_neq : forall n, csq (S n) <> RtoC 0.
Proof. intros n H. apply (cchar0 n). rewrite <- csq_ok, H. apply Cmult_0_l. Qed.
Lemma rec1_unique : forall A b c N G G', rec1 A b c N G -> rec1 A b c N G' -> forall n, (n < N)%nat -> G n = G' n.
Proof.
  intros A b c N G G' [G0 GR] [H0 HR] n.
  assert (X : ((n < N)%nat -> G n = G' n) /\ ((S n < N)%nat -> G (S n) = G' (S n))).
  { induction n as [|n [IH1 IH2]].
    - split; intros Hn; [now rewrite G0, H0|]. specialize (GR 0%nat Hn). specialize (HR 0%nat Hn). rewrite G0 in GR. rewrite H0 in HR.
      rewrite <- HR in GR. transitivity (Cmult (Cinv (csq 1)) (Cmult (csq 1) (G 1%nat))); [field; apply csq_S_neq|]. rewrite GR. field. apply csq_S_neq.
    - split; [exact IH2|]. intros Hn. specialize (GR (S n) Hn). specialize (HR (S n) Hn). cbv iota beta in GR, HR. rewrite IH2, IH1 in GR by lia. rewrite <- HR in GR.
      transitivity (Cmult (Cinv (csq (S (S n)))) (Cmult (csq (S (S n))) (G (S (S n))))); [field; apply csq_S_neq|]. rewrite GR. field. apply csq_S_neq. }
  apply X.
Qed.
Fixpoint cpow (t : C) (n : nat) : C := match n with 0%nat => RtoC 1 | S m => Cmult t (cpow t m) end.
Lemma rec1_scale : forall A b c N G s t, rec1 A b c N G -> rec1 (Cmult (Cmult t t) A) (Cmult t b) (Cmult s c) N (fun n => Cmult (Cmult s (cpow t n)) (G n)).
Proof.
  intros A b c N G s t [G0 GR]. split; [rewrite G0; simpl; ring|]. intros n Hn. specialize (GR n Hn).
  transitivity (Cmult (Cmult s (cpow t (S n))) (Cmult (csq (S n)) (G (S n)))); [ring|]. rewrite GR. destruct n as [|n]; simpl; ring.
Qed.
(** the renormalized physicists' Hermite polynomials *)
Lemma fact_sqrt_S : forall n, sqrt (INR (fact (S n))) = sqrt (INR (S n)) * sqrt (INR (fact n)).
Proof. intros n. change (fact (S n)) with (S n * fact n)%nat. rewrite mult_INR. apply sqrt_mult; apply pos_INR. Qed.
Lemma sqrt_fact_pos : forall n, 0 < sqrt (INR (fact n)).
Proof. intros n. apply sqrt_lt_R0, lt_0_INR, lt_O_fact. Qed.
Lemma rec1_herm : forall x N, rec1 (Copp (RtoC 2)) (Cmult (RtoC 2) (RtoC x)) (RtoC 1) N (fun n => RtoC (herm n x / sqrt (INR (fact n)))).
Proof.
  intros x N. split; [rewrite herm_0; change (INR (fact 0)) with 1; rewrite sqrt_1; f_equal; field|]. intros n _. unfold csq.
  assert (P := sqrt_fact_pos n). assert (Q : 0 < sqrt (INR (S n))) by (apply sqrt_lt_R0, lt_0_INR; lia).
  destruct n as [|n].
  - rewrite <- !RtoC_mult, <- RtoC_plus. f_equal. rewrite herm_1, herm_0. change (INR (fact 1)) with 1. change (INR (fact 0)) with 1. change (INR 1) with 1. rewrite sqrt_1. field.
  - assert (P' := sqrt_fact_pos n). assert (Q' : 0 < sqrt (INR (S n))) by (apply sqrt_lt_R0, lt_0_INR; lia).
    rewrite <- RtoC_opp, <- !RtoC_mult, <- RtoC_plus. f_equal. rewrite !fact_sqrt_S, herm_S.
    assert (E : sqrt (INR (S n)) * sqrt (INR (S n)) = INR (S n)) by (apply sqrt_sqrt, pos_INR).
    set (u := sqrt (INR (S n))) in *. set (v := sqrt (INR (fact n))) in *. set (w := sqrt (INR (S (S n)))) in *. rewrite <- E. clearbody u v w. clear E.
    field. lra.
Qed.

Lemma half_power : forall n, Rpower (1 / 2) (INR n / 2) = / sqrt (2 ^ n).
Proof.
  intros n. unfold Rdiv at 2. rewrite <- Rpower_mult, Rpower_sqrt by apply exp_pos. rewrite Rpower_pow by lra.
  rewrite <- sqrt_inv by (apply pow_lt; lra). f_equal. rewrite <- pow_inv by lra. f_equal. lra.
Qed.
Lemma wave_herm : forall hbar n q, wave hbar n q
  = / Rpower (PI * hbar) (1 / 4) * exp (- (q / sqrt hbar) ^ 2 / 2) * (/ sqrt (2 ^ n) * (herm n (q / sqrt hbar) / sqrt (INR (fact n)))).
Proof.
  intros hbar n q. unfold wave. rewrite hermite_poly_herm, sqrt_mult by (apply Rlt_le; try (apply pow_lt; lra); apply lt_0_INR, lt_O_fact).
  assert (P := sqrt_fact_pos n). assert (Q : 0 < sqrt (2 ^ n)) by (apply sqrt_lt_R0, pow_lt; lra). assert (Z : 0 < Rpower (PI * hbar) (1 / 4)) by apply exp_pos. field. lra.
Qed.
Lemma hermite1_herm : forall x N n, (n < N)%nat -> hermite1 (Copp (RtoC 2)) (Cmult (RtoC 2) (RtoC x)) (RtoC 1) N n = RtoC (herm n x / sqrt (INR (fact n))).
Proof. intros x N n Hn. apply (rec1_unique _ _ _ _ _ _ (hermite1_rec _ _ _ N ltac:(lia)) (rec1_herm x N) n Hn). Qed.
Lemma Cexp_real : forall r, Cexp (RtoC r) = RtoC (exp r).
Proof. intros r. unfold Cexp, RtoC; simpl. rewrite cos_0, sin_0. f_equal; ring. Qed.

(** C71: the array oscillator_eigenstate returns holds the eigenfunctions of the harmonic oscillator, at every point and cutoff *)
Theorem C71_wavefunction : forall hbar q cutoff n, 0 < hbar -> (n < cutoff)%nat -> oscillator_eigenstate hbar q cutoff n = RtoC (wave hbar n q).
Proof.
  intros hbar q cutoff n Hh Hn. unfold oscillator_eigenstate. rewrite hermite1_herm by exact Hn. rewrite half_power, wave_herm.
  set (x := q / sqrt hbar). replace (Copp (Cdiv (Cmult (RtoC x) (RtoC x)) (RtoC 2))) with (RtoC (- x ^ 2 / 2)).
  2:{ rewrite <- RtoC_mult, <- RtoC_div by lra. rewrite <- RtoC_opp. f_equal. field. }
  rewrite Cexp_real, <- !RtoC_mult. f_equal. rewrite Rpower_Ropp. ring.
Qed.

(** they solve the Schroedinger equation of the harmonic oscillator, with energy hbar (n + 1/2) *)
Definition dherm (n : nat) (x : R) : R := match n with 0%nat => 0 | S m => 2 * INR n * herm m x end.
Lemma dherm_der : forall n x, is_derive (dherm n) x (2 * x * dherm n x - 2 * INR n * herm n x).
Proof.
  intros [|n] x.
  - evar_last; [apply is_derive_Reals, derivable_pt_lim_const|]. unfold dherm. change (INR 0) with 0. ring.
  - unfold dherm. evar_last; [apply (is_derive_scal (herm n)), herm_der|]. destruct n as [|n].
    + rewrite herm_1, herm_0. change (INR 1) with 1. simpl. ring.
    + rewrite herm_S. simpl. ring.
Qed.
Lemma gauss_prod_der : forall s (g g1 : R -> R), s <> 0 -> (forall x, is_derive g x (g1 x)) -> forall q,
  is_derive (fun q => exp (- (q / s) ^ 2 / 2) * g (q / s)) q (exp (- (q / s) ^ 2 / 2) * ((g1 (q / s) - (q / s) * g (q / s)) / s)).
Proof.
  intros s g g1 Hs D q. evar_last.
  - apply @is_derive_mult; [auto_derive; [exact I|reflexivity]| |intros; apply Rmult_comm].
    apply (is_derive_comp g (fun q => q / s)); [apply D|]. auto_derive; [exact I|reflexivity].
  - unfold plus, mult, scal; simpl. unfold mult; simpl. rewrite ?S_INR. change (INR 0) with 0. unfold Rdiv. set (e := exp _). clearbody e. set (u := g _). set (v := g1 _). clearbody u v. field. exact Hs.
Qed.
Theorem C71_schroedinger : forall hbar n q, 0 < hbar ->
  - (hbar ^ 2 / 2) * Derive_n (wave hbar n) 2 q + q ^ 2 / 2 * wave hbar n q = hbar * (INR n + 1 / 2) * wave hbar n q.
Proof.
  intros hbar n q Hh. set (s := sqrt hbar). assert (Hs : 0 < s) by (apply sqrt_lt_R0; exact Hh). assert (Ss : s * s = hbar) by (apply sqrt_sqrt; lra).
  set (k := / Rpower (PI * hbar) (1 / 4) * / sqrt (2 ^ n) / sqrt (INR (fact n))).
  assert (W : forall q, wave hbar n q = k * (exp (- (q / s) ^ 2 / 2) * herm n (q / s))) by (intros t; rewrite wave_herm; unfold k, s, Rdiv; ring).
  rewrite (Derive_n_ext _ _ 2 q W), W. set (f0 := fun q => exp (- (q / s) ^ 2 / 2) * herm n (q / s)).
  set (g1 := fun x => dherm n x - x * herm n x). set (f1 := fun q => exp (- (q / s) ^ 2 / 2) * (g1 (q / s) / s)).
  assert (D1 : forall q, is_derive f0 q (f1 q)) by (intros t; apply (gauss_prod_der s (herm n) (dherm n)); [lra|intros x; apply herm_der]).
  set (g2 := fun x => (2 * x * dherm n x - 2 * INR n * herm n x) - (herm n x + x * dherm n x)).
  assert (D2 : forall q, is_derive (fun q => f1 q) q (exp (- (q / s) ^ 2 / 2) * ((g2 (q / s) / s - (q / s) * (g1 (q / s) / s)) / s))).
  { intros t. apply (gauss_prod_der s (fun x => g1 x / s) (fun x => g2 x / s)); [lra|]. intros x. unfold g1, g2, Rdiv.
    apply (is_derive_ext (fun x => / s * (dherm n x - x * herm n x))); [intros t0; apply (Rmult_comm (/ s))|]. evar_last.
    - apply (is_derive_scal (fun x => dherm n x - x * herm n x)). apply @is_derive_minus; [apply dherm_der|].
      apply @is_derive_mult; [apply @is_derive_id|apply herm_der|intros; apply Rmult_comm].
    - unfold minus, plus, opp, mult, one; simpl. fold (dherm n x). change Hierarchy.one with 1. ring. }
  assert (E2 : Derive_n (fun q => k * f0 q) 2 q = k * (exp (- (q / s) ^ 2 / 2) * ((g2 (q / s) / s - (q / s) * (g1 (q / s) / s)) / s))).
  { cbn [Derive_n]. rewrite (Derive_ext _ (fun q => k * f1 q)).
    - apply is_derive_unique, (is_derive_scal f1), D2.
    - intros t. apply is_derive_unique, (is_derive_scal f0), D1. }
  change (fun q0 => k * (exp (- (q0 / s) ^ 2 / 2) * herm n (q0 / s))) with (fun q => k * f0 q). rewrite E2. unfold g1, g2. rewrite <- Ss. clearbody k. field. lra.
Qed.

(** ** the basis of one wire *)
Lemma expi_pow : forall phi n, (cos (- INR n * phi), sin (- INR n * phi)) = cpow (cos (- phi), sin (- phi)) n.
Proof.
  intros phi n. induction n as [|n IH]; [simpl; change (INR 0) with 0; replace (- 0 * phi) with 0 by ring; rewrite cos_0, sin_0; reflexivity|].
  simpl. rewrite <- IH. replace (- INR (S n) * phi) with (- phi + - INR n * phi) by (rewrite S_INR; ring). rewrite cos_plus, sin_plus. unfold Cmult; simpl. f_equal; ring.
Qed.
Definition exact_phase (atol phi : R) : Prop := phi = 0 \/ atol < Rabs phi.
(** the wave function of quadrature angle phi; bra wires carry its conjugate *)
Definition phase (t : R) : C := (cos t, sin t).
Theorem C71_basis : forall hbar phi atol cj q cutoff n, 0 < hbar -> exact_phase atol phi -> (n < cutoff)%nat ->
  quad_basis hbar phi atol cj q cutoff n = Cmult (phase (if cj then INR n * phi else - (INR n * phi))) (RtoC (wave hbar n q)).
Proof.
  intros hbar phi atol cj q cutoff n Hh HP Hn. unfold quad_basis. rewrite C71_wavefunction by assumption.
  assert (E : (if Rle_dec (Rabs phi) atol then RtoC (wave hbar n q) else let theta := - INR n * phi in Cmult (cos theta, sin theta) (RtoC (wave hbar n q)))
    = Cmult (phase (- (INR n * phi))) (RtoC (wave hbar n q))).
  { unfold phase. destruct (Rle_dec (Rabs phi) atol) as [L|L].
    - destruct HP as [->|HP]; [|lra]. rewrite Rmult_0_r, Ropp_0, cos_0, sin_0. change (1, 0) with (RtoC 1). now rewrite Cmult_1_l.
    - cbv zeta. replace (- INR n * phi) with (- (INR n * phi)) by ring. reflexivity. }
  cbv zeta in E |- *. rewrite E. destruct cj; [|reflexivity]. unfold phase, Cconj, Cmult, RtoC; simpl. rewrite cos_neg, sin_neg. f_equal; ring.
Qed.
Lemma sqrt_div2 : forall hbar, 0 < hbar -> sqrt (2 / hbar) = 2 / (sqrt 2 * sqrt hbar).
Proof.
  intros hbar Hh. rewrite sqrt_div_alt by exact Hh. assert (E : sqrt 2 * sqrt 2 = 2) by (apply sqrt_sqrt; lra).
  assert (0 < sqrt 2) by (apply sqrt_lt_R0; lra). assert (0 < sqrt hbar) by (apply sqrt_lt_R0; exact Hh). rewrite <- E at 2. field. lra.
Qed.
Lemma sq_div : forall hbar x, 0 < hbar -> (x / sqrt hbar) ^ 2 = x ^ 2 / hbar.
Proof. intros hbar x Hh. assert (0 < sqrt hbar) by (apply sqrt_lt_R0; exact Hh). replace hbar with (sqrt hbar * sqrt hbar) at 2 by (apply sqrt_sqrt; lra). field. lra. Qed.
Lemma cpow_mult : forall a b n, cpow (Cmult a b) n = Cmult (cpow a n) (cpow b n).
Proof. intros a b n. induction n as [|n IH]; simpl; [ring|]. rewrite IH. ring. Qed.
Lemma cpow_real : forall r n, cpow (RtoC r) n = RtoC (r ^ n).
Proof. intros r n. induction n as [|n IH]; simpl; [reflexivity|]. now rewrite IH, RtoC_mult. Qed.
Lemma sqrt_pow2 : forall n, (/ sqrt 2) ^ n = / sqrt (2 ^ n).
Proof.
  induction n as [|n IH]; simpl; [rewrite sqrt_1; field|]. rewrite IH, sqrt_mult by (try apply pow_le; lra).
  assert (0 < sqrt 2) by (apply sqrt_lt_R0; lra). assert (0 < sqrt (2 ^ n)) by (apply sqrt_lt_R0, pow_lt; lra). field. lra.
Qed.
(** the amplitudes of any triple of the form of a quadrature kernel *)
Lemma kernel_amps : forall hbar x phi s cutoff n, 0 < hbar -> (n < cutoff)%nat ->
  hermite1 (Copp (phase (2 * phi))) (Cmult (RtoC (x * sqrt (2 / hbar))) (phase phi)) (RtoC (s * exp (- (x / sqrt hbar) ^ 2 / 2))) cutoff n
  = Cmult (phase (INR n * phi)) (RtoC (s * Rpower (PI * hbar) (1 / 4) * wave hbar n x)).
Proof.
  intros hbar x phi s cutoff n Hh Hn. set (y := x / sqrt hbar). set (t := Cmult (phase phi) (RtoC (/ sqrt 2))). set (r := s * exp (- y ^ 2 / 2)).
  assert (P2 : 0 < sqrt 2) by (apply sqrt_lt_R0; lra). assert (S2 : sqrt 2 * sqrt 2 = 2) by (apply sqrt_sqrt; lra). assert (Ph : 0 < sqrt hbar) by (apply sqrt_lt_R0; exact Hh).
  assert (EP : Cmult (phase phi) (phase phi) = phase (2 * phi)).
  { unfold phase, Cmult; simpl. replace (2 * phi) with (phi + phi) by ring. rewrite cos_plus, sin_plus. f_equal; ring. }
  pose proof (rec1_scale _ _ _ _ _ (RtoC r) t (rec1_herm y cutoff)) as RS.
  assert (EA : Cmult (Cmult t t) (Copp (RtoC 2)) = Copp (phase (2 * phi))).
  { rewrite <- EP. unfold t. transitivity (Copp (Cmult (Cmult (phase phi) (phase phi)) (Cmult (RtoC 2) (Cmult (RtoC (/ sqrt 2)) (RtoC (/ sqrt 2)))))); [ring|].
    rewrite <- !RtoC_mult. replace (2 * (/ sqrt 2 * / sqrt 2)) with 1; [ring|]. rewrite <- S2 at 1. field. lra. }
  assert (EB : Cmult t (Cmult (RtoC 2) (RtoC y)) = Cmult (RtoC (x * sqrt (2 / hbar))) (phase phi)).
  { unfold t. rewrite sqrt_div2 by exact Hh. transitivity (Cmult (Cmult (RtoC (/ sqrt 2)) (Cmult (RtoC 2) (RtoC y))) (phase phi)); [ring|]. f_equal. rewrite <- !RtoC_mult. f_equal. unfold y. field. lra. }
  assert (EC : Cmult (RtoC r) (RtoC 1) = RtoC r) by ring. rewrite EA, EB, EC in RS.
  rewrite (rec1_unique _ _ _ _ _ _ (hermite1_rec _ _ _ cutoff ltac:(lia)) RS n Hn).
  unfold t. rewrite cpow_mult, cpow_real, sqrt_pow2. replace (cpow (phase phi) n) with (phase (INR n * phi)).
  2:{ unfold phase at 2. pose proof (expi_pow (- phi) n) as X. replace (- INR n * - phi) with (INR n * phi) in X by ring. rewrite Ropp_involutive in X. exact X. }
  rewrite wave_herm. fold y. transitivity (Cmult (phase (INR n * phi)) (Cmult (RtoC r) (Cmult (RtoC (/ sqrt (2 ^ n))) (RtoC (herm n y / sqrt (INR (fact n))))))); [ring|].
  f_equal. rewrite <- !RtoC_mult. f_equal. unfold r. assert (Z : 0 < Rpower (PI * hbar) (1 / 4)) by apply exp_pos. assert (P := sqrt_fact_pos n).
  assert (Q : 0 < sqrt (2 ^ n)) by (apply sqrt_lt_R0, pow_lt; lra). field. lra.
Qed.

(** C71: the kernel of the Bargmann to quadrature conversion has, at every point x, the same wave functions as amplitudes:
    both conversions of `quadrature` use one basis *)
Definition at_point (hbar phi x : R) : C * C * C :=
  let '(a00, a01, a11) := btoq_A hbar phi in (a11, Cmult (RtoC x) a01, Cmult (btoq_c hbar) (Cexp (Cmult (RtoC (1 / 2)) (Cmult (Cmult (RtoC x) a00) (RtoC x))))).
Theorem C71_kernel : forall hbar phi atol x cutoff n, 0 < hbar -> exact_phase atol phi -> (n < cutoff)%nat ->
  (let '(A, b, c) := at_point hbar phi x in hermite1 A b c cutoff n) = quad_basis hbar phi atol false x cutoff n.
Proof.
  intros hbar phi atol x cutoff n Hh HP Hn. unfold at_point, btoq_A. cbv zeta.
  rewrite C71_basis by assumption. assert (Ph : 0 < sqrt hbar) by (apply sqrt_lt_R0; exact Hh). assert (Sh : sqrt hbar * sqrt hbar = hbar) by (apply sqrt_sqrt; lra).
  assert (Ee : btoq_e phi = Cmult Ci (phase (- phi))).
  { unfold btoq_e, Cexp, phase, Ci, Cmult; simpl. rewrite Ropp_0, exp_0, cos_plus, sin_plus, cos_PI2, sin_PI2. f_equal; ring. }
  assert (CI : Cmult Ci Ci = Copp (RtoC 1)) by (unfold Ci, Cmult, Copp, RtoC; simpl; f_equal; ring).
  assert (EP : Cmult (phase (- phi)) (phase (- phi)) = phase (2 * - phi)).
  { unfold phase, Cmult; simpl. replace (2 * - phi) with (- phi + - phi) by ring. rewrite cos_plus, sin_plus. f_equal; ring. }
  replace (Cmult (btoq_e phi) (btoq_e phi)) with (Copp (phase (2 * - phi))).
  2:{ rewrite Ee, <- EP. transitivity (Cmult (Cmult Ci Ci) (Cmult (phase (- phi)) (phase (- phi)))); [rewrite CI; ring|ring]. }
  replace (Cmult (RtoC x) (Cmult (Cmult (Copp Ci) (btoq_e phi)) (RtoC (sqrt (2 / hbar))))) with (Cmult (RtoC (x * sqrt (2 / hbar))) (phase (- phi))).
  2:{ rewrite Ee, RtoC_mult. transitivity (Cmult (Copp (Cmult Ci Ci)) (Cmult (Cmult (RtoC x) (RtoC (sqrt (2 / hbar)))) (phase (- phi)))); [rewrite CI; ring|ring]. }
  replace (Cmult (btoq_c hbar) _) with (RtoC (/ Rpower (PI * hbar) (1 / 4) * exp (- (x / sqrt hbar) ^ 2 / 2))).
  2:{ rewrite <- !RtoC_mult, Cexp_real. unfold btoq_c. rewrite <- RtoC_mult. f_equal. assert (EX : - (x / sqrt hbar) ^ 2 / 2 = 1 / 2 * (x * (-1 / hbar) * x)) by (rewrite sq_div by exact Hh; field; lra).
      rewrite EX. unfold Rdiv. ring. }
  rewrite kernel_amps by assumption. f_equal; [unfold phase; f_equal; f_equal; ring|]. f_equal.
  assert (Z : 0 < Rpower (PI * hbar) (1 / 4)) by apply exp_pos. field. lra.
Qed.
(** the amplitudes of QuadratureEigenstate(x, phi) are hbar^(1/4) times the conjugate wave functions *)
Theorem C71_eigenstate : forall hbar phi x cutoff n, 0 < hbar -> (n < cutoff)%nat ->
  hermite1 (eigenstate_A phi) (eigenstate_b hbar x phi) (eigenstate_c hbar x) cutoff n = Cmult (phase (INR n * phi)) (RtoC (Rpower hbar (1 / 4) * wave hbar n x)).
Proof.
  intros hbar phi x cutoff n Hh Hn. assert (Ph : 0 < sqrt hbar) by (apply sqrt_lt_R0; exact Hh). assert (Sh : sqrt hbar * sqrt hbar = hbar) by (apply sqrt_sqrt; lra).
  replace (eigenstate_A phi) with (Copp (phase (2 * phi))).
  2:{ unfold eigenstate_A, Cexp, phase, Ci, Cmult, Copp; simpl. replace ((0 * 2 - 1 * 0) * phi - (0 * 0 + 1 * 2) * 0) with 0 by ring. rewrite exp_0.
      replace ((0 * 2 - 1 * 0) * 0 + (0 * 0 + 1 * 2) * phi) with (2 * phi) by ring. f_equal; ring. }
  replace (eigenstate_b hbar x phi) with (Cmult (RtoC (x * sqrt (2 / hbar))) (phase phi)).
  2:{ unfold eigenstate_b. rewrite RtoC_mult. replace (Cexp (Cmult Ci (RtoC phi))) with (phase phi); [ring|].
      unfold Cexp, phase, Ci, Cmult; simpl. replace (0 * phi - 1 * 0) with 0 by ring. replace (0 * 0 + 1 * phi) with phi by ring. rewrite exp_0. f_equal; ring. }
  replace (eigenstate_c hbar x) with (RtoC (/ Rpower PI (1 / 4) * exp (- (x / sqrt hbar) ^ 2 / 2))).
  2:{ unfold eigenstate_c. f_equal. assert (EX : - (x / sqrt hbar) ^ 2 / 2 = - (x ^ 2) / (2 * hbar)) by (rewrite sq_div by exact Hh; field; lra).
      rewrite EX. unfold Rdiv. ring. }
  rewrite kernel_amps by assumption. f_equal. f_equal. rewrite <- Rpower_mult_distr by (try exact PI_RGT_0; exact Hh).
  assert (Z : 0 < Rpower PI (1 / 4)) by apply exp_pos. field. lra.
Qed.
(** refuted: the docstring of BtoQ claims psi >> QuadratureEigenstate(x).dual == (psi >> BtoQ)(x). On the vacuum the left side is the
    conjugate of the eigenstate's amplitude 0, and it differs from the right side whenever hbar <> 1 *)
Theorem C71_refuted_eigenstate : forall hbar x atol, 0 < hbar -> 0 <= atol ->
  (Cconj (hermite1 (eigenstate_A 0) (eigenstate_b hbar x 0) (eigenstate_c hbar x) 1 0) = quad_basis hbar 0 atol false x 1 0 <-> hbar = 1).
Proof.
  intros hbar x atol Hh Ha. rewrite C71_eigenstate by (lia || exact Hh). rewrite C71_basis by (lia || exact Hh || now left).
  change (INR 0) with 0. rewrite !Rmult_0_r, Ropp_0. unfold phase. rewrite cos_0, sin_0. change (1, 0) with (RtoC 1). rewrite !Cmult_1_l.
  assert (W : 0 < wave hbar 0 x).
  { rewrite wave_herm, herm_0. simpl. change (INR 1) with 1. rewrite sqrt_1. assert (0 < exp (- (x / sqrt hbar * (x / sqrt hbar * 1)) / 2)) by apply exp_pos.
    assert (0 < / Rpower (PI * hbar) (1 / 4)) by (apply Rinv_0_lt_compat, exp_pos). replace (/ 1 * (1 / 1)) with 1 by field. rewrite Rmult_1_r. now apply Rmult_lt_0_compat. }
  split.
  - intros H. apply (f_equal fst) in H. simpl in H. assert (E : Rpower hbar (1 / 4) = 1) by (apply (Rmult_eq_reg_r (wave hbar 0 x)); lra).
    unfold Rpower in E. assert (E1 : exp (1 / 4 * ln hbar) = exp 0) by (rewrite exp_0; exact E). apply exp_inv in E1. assert (L : ln hbar = 0) by lra. apply ln_inv; [exact Hh|lra|now rewrite ln_1].
  - intros ->. replace (Rpower 1 (1 / 4)) with 1; [rewrite Rmult_1_l; unfold Cconj, RtoC; simpl; f_equal; ring|]. unfold Rpower. rewrite ln_1, Rmult_0_r, exp_0. reflexivity.
Qed.
