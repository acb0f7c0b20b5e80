(** The Fock damping operator e^(- beta n).  Claim C81.
    Model of mrmustard/physics/triples.py:679-703 (fock_damping_Abc) and of mrmustard/lab/transformations/fockdamping.py:70-94 (FockDamping), one mode, one batch element; >> is the model of
    Compose.v (operators) and States.v (kets), the Fock arrays are those of the recurrence of C19 (QuadWave.v). *)
From Coq Require Import Reals Lra.
From Coquelicot Require Import Complex.
From mathcomp Require Import all_ssreflect all_algebra.
From Verif Require Import CMat Optimizer GateSym BargSym CExp Compose GateTriples ChanAlg States.
Require Verif.QuadWave.
Set Implicit Arguments. Unset Strict Implicit. Unset Printing Implicit Defensive.
Import GRing.Theory.
Local Open Scope ring_scope.
Delimit Scope R_scope with coqR.

(** triples.py:691-703 *)
Definition fock_damping (beta : R) : triple 1 :=
  let B := RtoC (exp (- beta)%coqR) in Tri (block_mx 0 B%:M B%:M 0) 0 1.
(** Ket.fock_array of a single-mode ket without derived variables (ansatz, representation.py; the array of C19) *)
Definition ket_amp (k : ket 1) (cutoff p : nat) : C := QuadWave.hermite1 (kA k 0 0) (kb k 0 0) (kc k) cutoff p.

Lemma col0 n : (0 : 'cV[C]_(n + n)) = col_mx 0 0. Proof. by rewrite col_mx0. Qed.
Lemma exp_C a b : RtoC (exp (- a)%coqR) * RtoC (exp (- b)%coqR) = RtoC (exp (- (a + b))%coqR).
Proof. rewrite CmulE -RtoC_mult -exp_plus. congr RtoC. congr exp. ring. Qed.
(** C81: damping operators compose by adding the damping, and no damping is the identity *)
Theorem C81_compose a b : then_ (fock_damping a) (fock_damping b) = Some (fock_damping (a + b)%coqR) /\ fock_damping R0 = identity 1.
Proof.
split; last by rewrite /fock_damping Ropp_0 exp_0 -C1E /identity /X.
set B1 := RtoC (exp (- a)%coqR). set B2 := RtoC (exp (- b)%coqR).
have t x : (x%:M : 'M[C]_1)^T = x%:M by exact: tr_scalar_mx.
have HK : (1%:M - 0 *m (0 : 'M[C]_1)) *m 1%:M = 1%:M by rewrite mul0mx subr0 mulmx1.
have Ht : Rlt threshold (Cmod (\det (1%:M - 0 *m (0 : 'M[C]_1)))) by rewrite mul0mx subr0 det1 C1E Cmod_1; exact: thr_lt1.
have E := @gthen_val 1 1 1 0 0 B1%:M 0 0 B2%:M (trmx0 _ _ _) (trmx0 _ _ _) 1%:M HK 0 0 0 0 1 1 Ht.
rewrite !t in E.
have G := gthen_then (fock_damping a) (fock_damping b). rewrite /of_triple /= -/B1 -/B2 col0 E in G.
case: (then_ _ _) G => //= r /Some_inj. case: r => A bb c [<- <- <-]. congr Some. rewrite /fock_damping -exp_C -/B1 -/B2.
rewrite /gQ !mul0mx !mulmx0 !mul0mx !addr0 !mulmx0 !add0r subr0 det1 invr1 csqrt1 !mulmx1 !mulr1 ?mul1r.
by rewrite -!scalar_mxM t col_mx0 mxE mulr0 C0E Cexp_0 -C1E [B2 * B1]mulrC.
Qed.
(** ** Kets *)
Lemma damp_ket beta (A : 'M[C]_1) b c : A^T = A ->
  kthen (Ket A b c) (fock_damping beta) = Some (let B := RtoC (exp (- beta)%coqR) in Ket (B * B *: A) (B *: b) c).
Proof.
move=> sA. rewrite /fock_damping col0. set B := RtoC _.
have HK : (1%:M - A *m (0 : 'M[C]_1)) *m 1%:M = 1%:M by rewrite mulmx0 subr0 mulmx1.
have Ht : Rlt threshold (Cmod (\det (1%:M - A *m (0 : 'M[C]_1)))) by rewrite mulmx0 subr0 det1 C1E Cmod_1; exact: thr_lt1.
have E := @kthen_val 1 A b c 0 B%:M 0 0 0 1 1%:M sA (trmx0 _ _ _) HK Ht. rewrite tr_scalar_mx in E. rewrite E.
rewrite /gQ !trmx0 !mulmx0 !mul0mx !addr0 subr0 det1 invr1 csqrt1 trmx1 !mulmx1 !mulr1 !mul1mx ?mul0mx ?addr0 ?mulmx0 !add0r.
congr (Some (Ket _ _ _)).
- by rewrite mul_scalar_mx mul_mx_scalar scalerA.
- by rewrite mul_scalar_mx.
- by rewrite mxE mulr0 C0E Cexp_0 -C1E mulr1.
Qed.
(** C81: the operator is exp(- beta n): the amplitude of n photons is multiplied by exp(- beta n), for every Gaussian ket and every cutoff; no other amplitude enters *)
Theorem C81_damps beta (k : ket 1) : (kA k)^T = kA k -> exists k', kthen k (fock_damping beta) = Some k' /\
  forall cutoff p, (p < cutoff)%N -> ket_amp k' cutoff p = RtoC (exp (- (beta * INR p))%coqR) * ket_amp k cutoff p.
Proof.
case: k => A b c /= sA. rewrite damp_ket //. eexists. split; first by []. move=> cutoff p Hp. rewrite /ket_amp /= !mxE. set B := RtoC _.
have HN : (0 < cutoff)%coq_nat by apply/ltP; exact: leq_ltn_trans Hp.
have H := QuadWave.rec1_scale _ _ _ _ _ 1 B (QuadWave.hermite1_rec (A 0 0) (b 0 0) c cutoff HN).
rewrite -!CmulE mul1r in H.
rewrite (QuadWave.rec1_unique _ _ _ _ _ _ (QuadWave.hermite1_rec _ _ _ cutoff HN) H p (elimT ltP Hp)). congr (_ * _). rewrite [LHS]Cmult_1_l.
have -> : QuadWave.cpow B p = B ^+ p by elim: (p) => //= q ->; rewrite exprS.
elim: (p) => [|q IH]; first by rewrite expr0 Rmult_0_r Ropp_0 exp_0.
rewrite exprS IH /B S_INR CmulE -RtoC_mult -exp_plus. congr RtoC. congr exp. ring.
Qed.
(** C81: so the photon number distribution only decreases for non-negative damping, and the vacuum amplitude is kept *)
Theorem C81_decreases beta (k k' : ket 1) cutoff p : Rle R0 beta -> (kA k)^T = kA k -> kthen k (fock_damping beta) = Some k' -> (p < cutoff)%N ->
  Rle (Cmod (ket_amp k' cutoff p)) (Cmod (ket_amp k cutoff p)) /\ ket_amp k' cutoff 0 = ket_amp k cutoff 0.
Proof.
move=> Hb sA Hk Hp. have [k2 [E H]] := C81_damps beta sA. rewrite Hk in E. move/Some_inj: E => E. rewrite -{}E in H. split; last first.
  rewrite H; last exact: leq_ltn_trans Hp. by rewrite /= Rmult_0_r Ropp_0 exp_0 -C1E mul1r.
rewrite H // CmulE Cmod_mult Cmod_R Rabs_pos_eq; last by apply: Rlt_le; exact: exp_pos.
rewrite -{2}[Cmod _]Rmult_1_l. apply: Rmult_le_compat_r; first exact: Cmod_ge_0. rewrite -exp_0.
have X : Rle (- (beta * INR p)) R0 by have := Rmult_le_pos _ _ Hb (pos_INR p); lra.
case: X => [X|->]; [by apply: Rlt_le; exact: exp_increasing|exact: Rle_refl].
Qed.
(** C81: coherent states stay coherent, with amplitude exp(- beta) alpha and norm factor exp(- |alpha|^2 (1 - exp(- 2 beta)) / 2) *)
Theorem C81_coherent beta al : exists k', kthen (coherent_state al) (fock_damping beta) = Some k' /\
  let al' := RtoC (exp (- beta)%coqR) * al in
  kA k' = kA (coherent_state al') /\ kb k' = kb (coherent_state al') /\
  kc k' = RtoC (exp (- (Cmod al * Cmod al * (1 - exp (- (2 * beta))) / 2))%coqR) * kc (coherent_state al').
Proof.
rewrite /coherent_state damp_ket; last exact: trmx0. eexists. split; first by []. rewrite /=. split; first by rewrite scaler0. split; first by rewrite scale_scalar_mx.
rewrite Cmod_mult Cmod_R Rabs_pos_eq; last by apply: Rlt_le; exact: exp_pos. rewrite CmulE -RtoC_mult -exp_plus. congr RtoC. congr exp.
have -> : exp (- (2 * beta))%coqR = (exp (- beta) * exp (- beta))%coqR by rewrite -exp_plus; congr exp; ring.
field.
Qed.
(** C81: it is not a unitary, unless there is no damping: an Operation, for which the library offers no inverse *)
Theorem C81_not_unitary beta : unitary_triple (fock_damping beta) <-> beta = R0.
Proof.
split=> [[Hk _]|->]; last by case: (C81_compose R0 R0) => _ ->; exact: identity_unitary.
set B := RtoC (exp (- beta)%coqR). have E : block_mx 0 B%:M B%:M 0 = block_mx 0 B%:M (B%:M)^T (0 : 'M[C]_1) by rewrite tr_scalar_mx.
rewrite /fock_damping /= -/B E in Hk. case/kernelP: Hk => _ _ _ + _. rewrite mulmx0 addr0.
move/matrixP => /(_ 0 0). rewrite /adj map_scalar_mx tr_scalar_mx -scalar_mxM !mxE eqxx /= !mulr1n conjR CmulE -RtoC_mult -exp_plus C1E => H.
have X : exp (- beta + - beta)%coqR = R1 by injection H.
have Y := exp_inv _ _ (etrans X (esym exp_0)). lra.
Qed.
(** a non-trivial case: damping ln 2 halves the amplitude of a coherent state *)
Theorem C81_example : exists k', kthen (coherent_state (RtoC 2)) (fock_damping (ln 2)) = Some k' /\ kb k' = (RtoC 1)%:M /\ kc k' = RtoC (exp (- 2)%coqR).
Proof.
have [k' [E [_ [Eb Ec]]]] := C81_coherent (ln 2) (RtoC 2). exists k'. split; first exact: E.
have X : exp (- ln 2)%coqR = (/ 2)%coqR by rewrite exp_Ropp exp_ln //; lra.
have Y : exp (- (2 * ln 2))%coqR = (/ 4)%coqR.
  have -> : (- (2 * ln 2) = - ln 2 + - ln 2)%coqR by ring. rewrite exp_plus X. field.
split; first by rewrite Eb /= X CmulE -RtoC_mult; congr (RtoC _)%:M; field.
rewrite Ec /= X Y. have -> : RtoC (/ 2)%coqR * RtoC 2 = RtoC 1 by rewrite CmulE -RtoC_mult; congr RtoC; field.
rewrite CmulE -!RtoC_mult -exp_plus. congr RtoC. congr exp. rewrite !Cmod_R Rabs_R1 Rabs_pos_eq; lra.
Qed.
