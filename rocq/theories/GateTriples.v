(** The Bargmann triples of the gates: claims C43 (their symplectic matrices) and C42 (composition laws of gates).
    Model of mrmustard/physics/triples.py:393-569.  One batch element, exact arithmetic.  then_ is the contraction t1 >> t2 of Compose.v. *)
From Coq Require Import Reals Lra.
From Coquelicot Require Import Complex.
From mathcomp Require Import all_ssreflect all_algebra.
From Verif Require Import CMat Optimizer GateSym BargSym CExp Compose.
Require Verif.Base.
Set Implicit Arguments. Unset Strict Implicit. Unset Printing Implicit Defensive.
Import GRing.Theory.
Local Open Scope ring_scope.
Delimit Scope R_scope with coqR.

Definition eit (x : R) : C := Cexp (Cmult Ci (RtoC x)).
(** [[a, b], [c, d]] *)
Definition mx2 (a b c d : C) : 'M[C]_2 := \matrix_(i < 2, j < 2) if i == 0 then (if j == 0 then a else b) else (if j == 0 then c else d).
(** triples.py:393-421 *)
Definition rotation_gate (theta : R) : triple 1 := Tri (block_mx 0 (eit theta)%:M (eit theta)%:M 0) 0 1.
(** triples.py:424-446 *)
Definition displacement_gate (al : C) : triple 1 := Tri (block_mx 0 1%:M 1%:M 0) (col_mx al%:M (- Cconj al)%:M) (RtoC (exp (Ropp (Rdiv (Rmult (Cmod al) (Cmod al)) (IZR 2))))).
(** triples.py:449-483 *)
Definition squeezing_gate (r phi : R) : triple 1 :=
  let tanhr := RtoC (Rdiv (sinh r) (cosh r)) in let sechr := RtoC (Rinv (cosh r)) in
  Tri (block_mx (- eit phi * tanhr)%:M sechr%:M sechr%:M (eit (Ropp phi) * tanhr)%:M) 0 (RtoC (Rinv (sqrt (cosh r)))).
(** triples.py:486-522 *)
Definition beamsplitter_gate (theta phi : R) : triple 2 :=
  let V := mx2 (RtoC (cos theta)) (- eit (Ropp phi) * RtoC (sin theta)) (eit phi * RtoC (sin theta)) (RtoC (cos theta)) in
  Tri (block_mx 0 V V^T 0) 0 1.
(** triples.py:525-569 *)
Definition twomode_squeezing_gate (r phi : R) : triple 2 :=
  let tanhr := eit phi * RtoC (sinh r) / RtoC (cosh r) in let sechr := RtoC (Rinv (cosh r)) in
  Tri (block_mx (mx2 0 tanhr tanhr 0) (mx2 sechr 0 0 sechr) (mx2 sechr 0 0 sechr) (mx2 0 (- Cconj tanhr) (- Cconj tanhr) 0)) 0 (RtoC (Rinv (cosh r))).

(** ** scalars *)
Lemma eit_norm x : eit x * Cconj (eit x) = 1.
Proof. rewrite mulconj /eit Cmod_Cexp /Cmult /Ci /RtoC /=. have -> : (0 * x - 1 * 0)%coqR = R0 by ring. by rewrite exp_0 Rmult_1_r C1E. Qed.
Lemma eit_conj x : Cconj (eit x) = eit (Ropp x).
Proof. rewrite /eit -Cexp_conj. congr Cexp. rewrite /Cconj /Cmult /Ci /RtoC /=. congr pair; ring. Qed.
Lemma eit_add x y : eit x * eit y = eit (Rplus x y).
Proof. rewrite /eit CmulE -Cexp_add. congr Cexp. rewrite RtoC_plus. ring. Qed.
Lemma cosh_pos r : Rlt R0 (cosh r).
Proof. rewrite /cosh. have := exp_pos r. have := exp_pos (Ropp r). move: (exp _) (exp _) => a b *. lra. Qed.
Lemma cosh_sinh r : Rminus (Rmult (cosh r) (cosh r)) (Rmult (sinh r) (sinh r)) = R1.
Proof.
rewrite /cosh /sinh. have : Rmult (exp r) (exp (Ropp r)) = R1 by rewrite -exp_plus Rplus_opp_r exp_0.
move: (exp _) (exp _) => a b H. transitivity (Rmult a b); [field|lra].
Qed.
Lemma tanh_sech r : Rplus (Rmult (Rdiv (sinh r) (cosh r)) (Rdiv (sinh r) (cosh r))) (Rmult (Rinv (cosh r)) (Rinv (cosh r))) = R1.
Proof. have := cosh_sinh r. have := cosh_pos r. move: (cosh r) (sinh r) => c s p H. have -> : (s / c * (s / c) + / c * / c = (s * s + 1) / (c * c))%coqR by field; lra. have -> : (s * s + 1 = c * c)%coqR by lra. field. lra. Qed.
Lemma sech_pos r : Rlt R0 (Rinv (cosh r)). Proof. exact/Rinv_0_lt_compat/cosh_pos. Qed.
Lemma zero_b n (A : 'M[C]_(n + n)) c : kernel A -> c * Cconj c = RtoC (Cmod (\det (ursubmx A))) -> unitary_triple (Tri A 0 c).
Proof.
move=> k m. split=> //=. split; first by rewrite map_mx0 mulmx0 oppr0.
have dl : dsubmx (0 : 'cV[C]_(n + n)) = 0 by apply/matrixP => a a'; rewrite !mxE. by rewrite dl mulmx0 mxE C0E /= exp_0 Rmult_1_r.
Qed.
(** passive gates: A = [[0, W], [W^T, 0]], c = 1 *)
Definition passive n (W : 'M[C]_n) : triple n := Tri (block_mx 0 W W^T 0) 0 1.
Lemma unitary_det n (W : 'M[C]_n) : unitary W -> Cmod (\det W) = R1.
Proof.
case=> _ H. have : \det (W *m adj W) = 1 by rewrite H det1.
rewrite det_mulmx /adj det_tr det_map_mx mulconj C1E => /RtoC_inj. have := Cmod_ge_0 (\det W). move: (Cmod _) => x *. nra.
Qed.
Lemma passive_unitary n (W : 'M[C]_n) : unitary W -> unitary_triple (passive W).
Proof.
move=> U. have D := unitary_det U. case: U => U1 U2. apply: zero_b.
- apply/kernelP. split; rewrite ?trmx0 //; first by case/mulmx1_unit: U2.
  + by rewrite mulmx0 addr0.
  + by rewrite mul0mx map_mx0 mulmx0 addr0.
- by rewrite block_mxKur D mulconj C1E Cmod_1 Rmult_1_l.
Qed.
(** C42: passive gates compose by matrix multiplication, for every number of modes and every pair of unitary matrices *)
Lemma usub0 n : usubmx (0 : 'cV[C]_(n + n)) = 0. Proof. by apply/matrixP => a a'; rewrite !mxE. Qed.
Lemma dsub0 n : dsubmx (0 : 'cV[C]_(n + n)) = 0. Proof. by apply/matrixP => a a'; rewrite !mxE. Qed.
Lemma invX1 n : 1%:M - (0 : 'M[C]_n) *m (0 : 'M[C]_n) = 1%:M. Proof. by rewrite mul0mx subr0. Qed.
Theorem C42_passive n (W1 W2 : 'M[C]_n) : unitary W1 -> unitary W2 -> then_ (passive W1) (passive W2) = Some (passive (W2 *m W1)).
Proof.
move=> U1 U2. case: (passive_unitary U1) => k1 _. case: (passive_unitary U2) => k2 _.
rewrite /passive -(col_mx0 _ n n 1). rewrite (then_val k1 k2 0 0 0 0 1 1); last first.
  rewrite invX1 det1 C1E Cmod_1. exact: thr_lt1.
rewrite /Compose.T /Compose.W /Compose.V /Compose.o /Compose.i /cc /Q /K /L invX1 invmx1 det1 invr1 csqrt1.
rewrite ?(mul0mx, mulmx0, mulmx1, mul1mx, addr0, add0r, trmx0, mulr1). by rewrite mxE mulr0 C0E Cexp_0 -C1E mulr1.
Qed.
(** ** 2 by 2 matrices *)
Lemma mx2P (A B : 'M[C]_2) : A 0 0 = B 0 0 -> A 0 1 = B 0 1 -> A 1 0 = B 1 0 -> A 1 1 = B 1 1 -> A = B.
Proof.
move=> *. apply/matrixP => i j. have H (k : 'I_2) : k = 0 \/ k = 1 by case: k => [[|[|k]]] // p; [left|right]; apply: val_inj.
by case: (H i) => ->; case: (H j) => ->.
Qed.
Lemma mx2_mul a b c d a' b' c' d' : mx2 a b c d *m mx2 a' b' c' d' = mx2 (a * a' + b * c') (a * b' + b * d') (c * a' + d * c') (c * b' + d * d').
Proof. apply: mx2P; by rewrite !mxE !big_ord_recl big_ord0 !mxE /= addr0. Qed.
Lemma mx2_tr a b c d : (mx2 a b c d)^T = mx2 a c b d.
Proof. apply: mx2P; by rewrite !mxE. Qed.
Lemma mx2_conj a b c d : conj (mx2 a b c d) = mx2 (Cconj a) (Cconj b) (Cconj c) (Cconj d).
Proof. apply: mx2P; by rewrite !mxE. Qed.
Lemma mx2_1 x : mx2 x 0 0 x = x%:M.
Proof. apply: mx2P; by rewrite !mxE. Qed.
Lemma mx2_opp a b c d : - mx2 a b c d = mx2 (- a) (- b) (- c) (- d).
Proof. apply: mx2P; by rewrite !mxE. Qed.
Lemma mx2_add a b c d a' b' c' d' : mx2 a b c d + mx2 a' b' c' d' = mx2 (a + a') (b + b') (c + c') (d + d').
Proof. apply: mx2P; by rewrite !mxE. Qed.
(** rotation matrices *)
Definition rot2 (theta phi : R) : 'M[C]_2 :=
  mx2 (RtoC (cos theta)) (- eit (Ropp phi) * RtoC (sin theta)) (eit phi * RtoC (sin theta)) (RtoC (cos theta)).
Lemma cs a b c d : RtoC a * RtoC b + RtoC c * RtoC d = RtoC (Rplus (Rmult a b) (Rmult c d)).
Proof. by rewrite CaddE !CmulE -!RtoC_mult -RtoC_plus. Qed.
Lemma rot2_mul a b phi : rot2 a phi *m rot2 b phi = rot2 (Rplus a b) phi.
Proof.
have E : eit phi * eit (Ropp phi) = 1 by rewrite -eit_conj eit_norm.
rewrite /rot2 mx2_mul. congr mx2.
- have -> : - eit (Ropp phi) * RtoC (sin a) * (eit phi * RtoC (sin b)) = - (RtoC (sin a) * RtoC (sin b)).
    rewrite mulrACA mulNr [_ * eit phi]mulrC E mulN1r. by [].
  rewrite cos_plus CaddE CoppE !CmulE -!RtoC_mult -RtoC_opp -RtoC_plus. congr RtoC.
- rewrite sin_plus RtoC_plus !RtoC_mult CaddE !CmulE CoppE. ring.
- rewrite sin_plus RtoC_plus !RtoC_mult CaddE !CmulE. ring.
- have -> : eit phi * RtoC (sin a) * (- eit (Ropp phi) * RtoC (sin b)) = - (RtoC (sin a) * RtoC (sin b)).
    rewrite mulrACA mulrN E mulN1r. by [].
  rewrite cos_plus CaddE CoppE !CmulE -!RtoC_mult -RtoC_opp -RtoC_plus. congr RtoC. ring.
Qed.
Lemma rot2_adj a phi : adj (rot2 a phi) = rot2 (Ropp a) phi.
Proof.
rewrite /adj /rot2 mx2_conj mx2_tr !conjR cos_neg sin_neg. congr mx2.
- rewrite rmorphM /= eit_conj conjR RtoC_opp -CoppE mulrNN. by [].
- by rewrite rmorphM rmorphN /= eit_conj Ropp_involutive conjR RtoC_opp -CoppE mulrN mulNr.
Qed.
Lemma rot2_0 phi : rot2 R0 phi = 1%:M.
Proof. by rewrite /rot2 cos_0 sin_0 -C0E !mulr0 mx2_1 -C1E. Qed.
Lemma rot2_unitary a phi : unitary (rot2 a phi).
Proof. rewrite /unitary rot2_adj !rot2_mul. by rewrite Rplus_opp_l Rplus_opp_r rot2_0. Qed.
Lemma eit_unitary x : unitary ((eit x)%:M : 'M[C]_1).
Proof. have E : Cconj (eit x) * eit x = 1 by rewrite mulrC eit_norm. by rewrite /unitary /adj map_scalar_mx tr_scalar_mx -!scalar_mxM eit_norm /= E. Qed.
Lemma rotationE x : rotation_gate x = passive (eit x)%:M.
Proof. by rewrite /passive tr_scalar_mx. Qed.
Lemma beamsplitterE x phi : beamsplitter_gate x phi = passive (rot2 x phi). Proof. by []. Qed.
(** squeezing type gates *)
Lemma kernel_sq n (T : 'M[C]_n) (s : R) : T^T = T -> Rlt R0 s -> T *m conj T = (1 - RtoC s * RtoC s)%:M ->
  kernel (block_mx T (RtoC s)%:M (RtoC s)%:M (- conj T)).
Proof.
move=> sT s0 H. have hs : RtoC s != 0 by apply/eqP => /RtoC_inj; lra.
rewrite -{2}(tr_scalar_mx n (RtoC s)). apply/kernelP. split=> //.
- by rewrite linearN /= -conj_tr sT.
- by rewrite unitmxE det_scalar unitrX // unitfE.
- by rewrite /adj !conj_sc tr_scalar_mx -!scalar_mxM map_mxN conjmxK mulmxN mulNmx opprK H -raddfD /= addrC subrK.
- by rewrite conj_sc map_mxN conjmxK mulmxN scalar_mxC subrr.
Qed.
Lemma squeezing_T r phi : Cconj (- eit phi * RtoC (Rdiv (sinh r) (cosh r))) = - (eit (Ropp phi) * RtoC (Rdiv (sinh r) (cosh r))).
Proof. by rewrite rmorphM rmorphN /= eit_conj conjR mulNr. Qed.
Lemma sq_val r phi : eit phi * RtoC (Rdiv (sinh r) (cosh r)) * (eit (Ropp phi) * RtoC (Rdiv (sinh r) (cosh r))) = 1 - RtoC (Rinv (cosh r)) * RtoC (Rinv (cosh r)).
Proof.
rewrite mulrACA -eit_conj eit_norm mul1r !CmulE -!RtoC_mult C1E CaddE CoppE -RtoC_opp -RtoC_plus. congr RtoC. have := tanh_sech r. lra.
Qed.
Lemma squeezing_kernel r phi : kernel (tA (squeezing_gate r phi)).
Proof.
rewrite /squeezing_gate /=. have -> : (eit (Ropp phi) * RtoC (Rdiv (sinh r) (cosh r)))%:M = - conj (- eit phi * RtoC (Rdiv (sinh r) (cosh r)))%:M :> 'M[C]_1.
  by rewrite map_scalar_mx [Cconj_additive _]squeezing_T raddfN opprK.
apply: kernel_sq; [by rewrite tr_scalar_mx|exact: sech_pos|]. rewrite map_scalar_mx -scalar_mxM [Cconj_additive _]squeezing_T mulNr mulrNN. by rewrite sq_val.
Qed.
Theorem squeezing_unitary r phi : unitary_triple (squeezing_gate r phi).
Proof.
apply: zero_b; first exact: squeezing_kernel. rewrite block_mxKur det_scalar1 Cmod_R Rabs_pos_eq; last exact/Rlt_le/sech_pos.
have p := cosh_pos r. rewrite mulconj Cmod_R. congr RtoC. rewrite -Rabs_mult -Rinv_mult sqrt_sqrt; last lra. apply: Rabs_pos_eq. exact/Rlt_le/sech_pos.
Qed.
Theorem twomode_unitary r phi : unitary_triple (twomode_squeezing_gate r phi).
Proof.
have p := cosh_pos r. have ET : eit phi * RtoC (sinh r) / RtoC (cosh r) = eit phi * RtoC (Rdiv (sinh r) (cosh r)).
  by rewrite CinvE -RtoC_inv -?mulrA ?[RtoC (sinh r) * _]CmulE -?RtoC_mult //; apply: Rgt_not_eq.
rewrite /twomode_squeezing_gate ET. set t := eit phi * _. apply: zero_b.
  have -> : mx2 0 (- Cconj t) (- Cconj t) 0 = - conj (mx2 0 t t 0) by rewrite mx2_conj mx2_opp rmorph0 oppr0.
  rewrite mx2_1. apply: kernel_sq; [by rewrite mx2_tr|exact: sech_pos|].
  rewrite mx2_conj mx2_mul rmorph0 !mul0r !mulr0 !add0r addr0 mx2_1. congr (_%:M). rewrite /t rmorphM /= eit_conj conjR. exact: sq_val.
rewrite block_mxKur mx2_1 det_scalar expr2 mulconj. rewrite CmulE Cmod_mult. by [].
Qed.
Lemma displacementE al : displacement_gate al = displacement (al%:M : 'cV[C]_1).
Proof.
rewrite /displacement_gate /displacement /X map_scalar_mx raddfN /=. congr Tri. rewrite /adj map_scalar_mx tr_scalar_mx -scalar_mxM mxE /= mulr1n.
have -> : - half * (Cconj al * al) = RtoC (Ropp (Rdiv (Rmult (Cmod al) (Cmod al)) (IZR 2))).
  rewrite [_ * al]mulrC mulconj /half CoppE CmulE -RtoC_opp -RtoC_mult. congr RtoC. field.
by rewrite Cexp_R.
Qed.
(** C43: every gate given by its triple is a unitary, so its symplectic matrix is real and symplectic *)
Theorem C43_triples theta phi r al :
  unitary_triple (rotation_gate theta) /\ unitary_triple (displacement_gate al) /\ unitary_triple (squeezing_gate r phi) /\
  unitary_triple (beamsplitter_gate theta phi) /\ unitary_triple (twomode_squeezing_gate r phi).
Proof.
split; first by rewrite rotationE; exact/passive_unitary/eit_unitary.
split; first by rewrite displacementE; exact: displacement_unitary.
split; first exact: squeezing_unitary. split; last exact: twomode_unitary. rewrite beamsplitterE. exact/passive_unitary/rot2_unitary.
Qed.
Theorem C43_symplectic n (t : triple n) : unitary_triple t -> exists S, au2Symplectic (tA t) = Base.Ok S /\ real S /\ symplectic S.
Proof. case=> k _. case: (C44_symplectic k) => S [E [R [H _]]]. by exists S. Qed.
(** C42: laws *)
Theorem C42_rotation a b : then_ (rotation_gate a) (rotation_gate b) = Some (rotation_gate (Rplus a b)).
Proof. by rewrite !rotationE (C42_passive (eit_unitary a) (eit_unitary b)) -scalar_mxM mulrC eit_add. Qed.
Theorem C42_beamsplitter a b phi : then_ (beamsplitter_gate a phi) (beamsplitter_gate b phi) = Some (beamsplitter_gate (Rplus a b) phi).
Proof. by rewrite !beamsplitterE (C42_passive (rot2_unitary a phi) (rot2_unitary b phi)) rot2_mul Rplus_comm. Qed.
(** displacements add, with the phase exp((a^dagger b - b^dagger a) / 2); any number of modes *)
Theorem C42_displacement n (a b : 'cV[C]_n) :
  then_ (displacement a) (displacement b) =
  Some (Tri (X n) (tb (displacement (a + b))) (tc (displacement (a + b)) * Cexp (half * (adj a *m b - adj b *m a) 0 0))).
Proof.
have k := kernel_X n. have EX : X n = block_mx 0 1%:M (1%:M)^T 0 by rewrite trmx1. rewrite /displacement /= EX in k *.
rewrite (then_val k k a (- conj a) b (- conj b)); last by rewrite invX1 det1 C1E Cmod_1; exact: thr_lt1.
rewrite /Compose.T /Compose.W /Compose.V /Compose.o /Compose.i /cc /Q /K /L invX1 invmx1 det1 invr1 csqrt1.
rewrite ?(mul0mx, mulmx0, mulmx1, mul1mx, trmx1, addr0, add0r, trmx0, mulr1).
congr (Some (Tri _ _ _)); first by rewrite addrC map_mxD opprD.
rewrite !CmulE -!Cexp_add. congr Cexp. rewrite -!CaddE -!CmulE.
have -> : a^T *m - conj b = - (adj b *m a)^T by rewrite mulmxN /adj trmx_mul trmxK.
have -> : (- conj b)^T *m a = - (adj b *m a) by rewrite linearN /= mulNmx.
have -> : adj (a + b) *m (a + b) = adj a *m a + adj b *m b + adj a *m b + adj b *m a.
  have -> : adj (a + b) = adj a + adj b by apply/matrixP => i j; rewrite !mxE rmorphD.
  rewrite mulmxDl !mulmxDr. move: (adj a *m a) (adj b *m b) (adj a *m b) (adj b *m a) => x y z w. by rewrite -!addrA; congr (_ + _); rewrite addrA addrC.
move: (adj a *m a) (adj b *m b) (adj a *m b) (adj b *m a) => x y z w. rewrite !mxE. move: (x 0 0) (y 0 0) (z 0 0) (w 0 0) => {x y z w} x y z w.
rewrite ?CaddE ?CmulE ?CoppE /half.
case: x y z w => [? ?] [? ?] [? ?] [? ?]. rewrite /Cplus /Cmult /Copp /RtoC /=. congr pair; field.
Qed.
(** ** squeezers along the same axis *)
Section Sq.
Variables (n : nat) (Y : 'M[C]_n).
Hypothesis sY : Y^T = Y.
Hypothesis YY : Y *m conj Y = 1%:M.
Definition sqz (x s : R) (c : C) : triple n := Tri (block_mx (RtoC x *: Y) (RtoC s)%:M (RtoC s)%:M (- conj (RtoC x *: Y))) 0 c.
Lemma conjZ x : conj (RtoC x *: Y) = RtoC x *: conj Y.
Proof. by rewrite map_mxZ /= conjR. Qed.
Lemma sqz_kernel x s c : Rplus (Rmult x x) (Rmult s s) = R1 -> Rlt R0 s -> kernel (tA (sqz x s c)).
Proof.
move=> H s0. apply: kernel_sq => //; first by rewrite linearZ /= sY.
rewrite conjZ -scalemxAl -scalemxAr scalerA YY scale_scalar_mx mulr1. congr (_%:M). rewrite !CmulE -!RtoC_mult C1E CaddE CoppE -RtoC_opp -RtoC_plus. congr RtoC. lra.
Qed.
Lemma conjYY : conj Y *m Y = 1%:M.
Proof. by move: (congr1 conj YY); rewrite conj_mul conjmxK map_mx1. Qed.
Theorem sqz_then x1 s1 c1 x2 s2 c2 : Rplus (Rmult x1 x1) (Rmult s1 s1) = R1 -> Rlt R0 s1 -> Rplus (Rmult x2 x2) (Rmult s2 s2) = R1 -> Rlt R0 s2 ->
  Rlt threshold (pow (Rplus R1 (Rmult x1 x2)) n) ->
  then_ (sqz x1 s1 c1) (sqz x2 s2 c2) =
  Some (sqz (Rdiv (Rplus x1 x2) (Rplus R1 (Rmult x1 x2))) (Rdiv (Rmult s1 s2) (Rplus R1 (Rmult x1 x2))) (c1 * c2 * RtoC (sqrt (Rinv (pow (Rplus R1 (Rmult x1 x2)) n))))).
Proof.
move=> H1 p1 H2 p2 Ht. have k1 := sqz_kernel c1 H1 p1. have k2 := sqz_kernel c2 H2 p2. set d := Rplus R1 _.
have dp : Rlt R0 d by rewrite /d; nra.
have ET : (RtoC s1)%:M = ((RtoC s1)%:M)^T :> 'M[C]_n by rewrite tr_scalar_mx.
have ET2 : (RtoC s2)%:M = ((RtoC s2)%:M)^T :> 'M[C]_n by rewrite tr_scalar_mx.
rewrite /sqz /= {2}ET in k1. rewrite /sqz /= {2}ET2 in k2. rewrite /sqz {2}ET {2}ET2 -(col_mx0 _ n n 1).
have E12 : 1%:M - (RtoC x1 *: Y) *m - conj (RtoC x2 *: Y) = (RtoC d)%:M.
  rewrite conjZ mulmxN opprK -scalemxAl -scalemxAr scalerA YY scale_scalar_mx mulr1 -raddfD /=. congr (_%:M). by rewrite CaddE CmulE C1E -RtoC_mult -RtoC_plus.
have E21 : 1%:M - - conj (RtoC x2 *: Y) *m (RtoC x1 *: Y) = (RtoC d)%:M.
  rewrite conjZ mulNmx opprK -scalemxAl -scalemxAr scalerA conjYY scale_scalar_mx mulr1 -raddfD /=. congr (_%:M). rewrite CaddE CmulE C1E -RtoC_mult -RtoC_plus. congr RtoC. rewrite /d. ring.
have dn : Rlt R0 (pow d n) by apply: pow_lt.
have Ei : invmx (RtoC d)%:M = (RtoC (Rinv d))%:M :> 'M[C]_n.
  rewrite invmx_scalar CinvE RtoC_inv //. lra.
rewrite (then_val k1 k2 0 0 0 0); last by rewrite E12 det_scalar -RtoC_exp Cmod_R Rabs_pos_eq //; exact: Rlt_le.
rewrite /Compose.T /Compose.W /Compose.V /Compose.o /Compose.i /cc /Q /K /L E12 E21 Ei det_scalar -RtoC_exp.
rewrite ?(mul0mx, mulmx0, addr0, add0r, trmx0, mxE, mulr0) C0E Cexp_0 -C1E mulr1 CinvE -RtoC_inv; last lra.
rewrite csqrt_R; last by apply/Rlt_le/Rinv_0_lt_compat.
rewrite tr_scalar_mx -!scalar_mxM !tr_scalar_mx. 
have Es : RtoC s2 * RtoC (Rinv d) * RtoC s1 = RtoC (Rdiv (Rmult s1 s2) d) by rewrite !CmulE -!RtoC_mult; congr RtoC; rewrite /Rdiv; ring.
rewrite Es. congr (Some (Tri (block_mx _ _ _ _) _ _)).
- rewrite mul_scalar_mx !mul_mx_scalar !scalerA -scalerDl. congr (_ *: _). rewrite CaddE !CmulE -!RtoC_mult -RtoC_plus. congr RtoC.
  have -> : Rplus x1 x2 = Rplus (Rmult x2 d) (Rmult x1 (Rmult s2 s2)).
    transitivity (Rplus x2 (Rmult x1 (Rplus (Rmult x2 x2) (Rmult s2 s2)))); [rewrite H2; ring|rewrite /d; ring].
  field. lra.
- rewrite !conjZ mulmxN !mulNmx mul_scalar_mx !mul_mx_scalar !scalerA -opprD -scalerDl. congr (- (_ *: _)). rewrite CaddE !CmulE -!RtoC_mult -RtoC_plus. congr RtoC.
  have -> : Rplus x1 x2 = Rplus (Rmult x1 d) (Rmult x2 (Rmult s1 s1)).
    transitivity (Rplus x1 (Rmult x2 (Rplus (Rmult x1 x1) (Rmult s1 s1)))); [rewrite H1; ring|rewrite /d; ring].
  field. lra.
Qed.
End Sq.
Lemma cosh_plus a b : cosh (Rplus a b) = Rplus (Rmult (cosh a) (cosh b)) (Rmult (sinh a) (sinh b)).
Proof. rewrite /cosh /sinh Ropp_plus_distr !exp_plus. field. Qed.
Lemma sinh_plus a b : sinh (Rplus a b) = Rplus (Rmult (sinh a) (cosh b)) (Rmult (cosh a) (sinh b)).
Proof. rewrite /cosh /sinh Ropp_plus_distr !exp_plus. field. Qed.
Definition th (r : R) : R := Rdiv (sinh r) (cosh r).
Lemma th_plus a b : Rdiv (Rplus (th a) (th b)) (Rplus R1 (Rmult (th a) (th b))) = th (Rplus a b) /\
  Rdiv (Rmult (Rinv (cosh a)) (Rinv (cosh b))) (Rplus R1 (Rmult (th a) (th b))) = Rinv (cosh (Rplus a b)) /\
  Rplus R1 (Rmult (th a) (th b)) = Rdiv (cosh (Rplus a b)) (Rmult (cosh a) (cosh b)).
Proof.
have := cosh_pos (Rplus a b). rewrite /th sinh_plus cosh_plus. have := cosh_pos a. have := cosh_pos b.
move: (cosh a) (cosh b) (sinh a) (sinh b) => p q u v q0 p0 H. have E : Rplus R1 (Rmult (Rdiv u p) (Rdiv v q)) = Rdiv (Rplus (Rmult p q) (Rmult u v)) (Rmult p q) by field; lra.
rewrite E. split; [field; lra|split; [field; lra|by []]].
Qed.
Lemma squeezing_sqz r phi : squeezing_gate r phi = sqz (- eit phi)%:M (th r) (Rinv (cosh r)) (RtoC (Rinv (sqrt (cosh r)))).
Proof.
rewrite /squeezing_gate /sqz /th. congr (Tri (block_mx _ _ _ _) _ _).
- by rewrite scale_scalar_mx mulrC.
- rewrite map_mxZ /= conjR map_scalar_mx scale_scalar_mx -raddfN /=. congr (_%:M). by rewrite rmorphN /= eit_conj mulrN opprK mulrC.
Qed.
Lemma eit_Y phi : ((- eit phi)%:M : 'M[C]_1) *m conj (- eit phi)%:M = 1%:M.
Proof. by rewrite map_scalar_mx -scalar_mxM /= rmorphN /= mulrNN eit_norm. Qed.
(** squeezers along the same axis add, above the threshold *)
Theorem C42_squeezing a b phi : Rlt threshold (Rdiv (cosh (Rplus a b)) (Rmult (cosh a) (cosh b))) ->
  then_ (squeezing_gate a phi) (squeezing_gate b phi) = Some (squeezing_gate (Rplus a b) phi).
Proof.
case: (th_plus a b) => E1 [E2 E3]. rewrite -E3 => H. rewrite !squeezing_sqz (sqz_then _ (eit_Y phi) _ _ (tanh_sech a) (sech_pos a) (tanh_sech b) (sech_pos b)); last by rewrite pow_1.
  rewrite -!/(th _) E1 E2 pow_1 E3. congr (Some (sqz _ _ _ _)). rewrite !CmulE -!RtoC_mult. congr RtoC.
  have pa := cosh_pos a. have pb := cosh_pos b. have pc := cosh_pos (Rplus a b). have ia := Rlt_le _ _ (Rinv_0_lt_compat _ pa). have ib := Rlt_le _ _ (Rinv_0_lt_compat _ pb).
  have pd : Rlt R0 (Rdiv (cosh (Rplus a b)) (Rmult (cosh a) (cosh b))) by apply: Rdiv_lt_0_compat => //; apply: Rmult_lt_0_compat.
  have ic := Rlt_le _ _ (Rinv_0_lt_compat _ pd).
  rewrite -!sqrt_inv -!sqrt_mult //; last exact: Rmult_le_pos.
  congr sqrt. field. lra.
by rewrite tr_scalar_mx.
Qed.
Lemma twomode_sqz r phi : twomode_squeezing_gate r phi = sqz (mx2 0 (eit phi) (eit phi) 0) (th r) (Rinv (cosh r)) (RtoC (Rinv (cosh r))).
Proof.
have p := cosh_pos r. have ET : eit phi * RtoC (sinh r) / RtoC (cosh r) = eit phi * RtoC (Rdiv (sinh r) (cosh r)).
  by rewrite CinvE -RtoC_inv -?mulrA ?[RtoC (sinh r) * _]CmulE -?RtoC_mult //; apply: Rgt_not_eq.
rewrite /twomode_squeezing_gate ET /sqz -/(th r) mx2_1.
have E : RtoC (th r) *: mx2 0 (eit phi) (eit phi) 0 = mx2 0 (eit phi * RtoC (th r)) (eit phi * RtoC (th r)) 0.
  apply: mx2P; rewrite !mxE /= ?mulr0 //; by rewrite mulrC.
by rewrite E mx2_conj mx2_opp rmorph0 oppr0.
Qed.
Theorem C42_twomode a b phi : Rlt threshold (pow (Rdiv (cosh (Rplus a b)) (Rmult (cosh a) (cosh b))) 2) ->
  then_ (twomode_squeezing_gate a phi) (twomode_squeezing_gate b phi) = Some (twomode_squeezing_gate (Rplus a b) phi).
Proof.
have YY : mx2 0 (eit phi) (eit phi) 0 *m conj (mx2 0 (eit phi) (eit phi) 0) = 1%:M.
  by rewrite mx2_conj mx2_mul rmorph0 !mul0r !mulr0 !add0r addr0 eit_norm mx2_1.
case: (th_plus a b) => E1 [E2 E3]. rewrite -E3 => H. rewrite !twomode_sqz (sqz_then _ YY _ _ (tanh_sech a) (sech_pos a) (tanh_sech b) (sech_pos b)) //; last by rewrite mx2_tr.
rewrite -!/(th _) E1 E2 E3. congr (Some (sqz _ _ _ _)). rewrite !CmulE -!RtoC_mult. congr RtoC.
have pa := cosh_pos a. have pb := cosh_pos b. have pc := cosh_pos (Rplus a b). have pd : Rlt R0 (Rdiv (cosh (Rplus a b)) (Rmult (cosh a) (cosh b))) by apply: Rdiv_lt_0_compat => //; apply: Rmult_lt_0_compat.
have -> : Rinv (pow (Rdiv (cosh (Rplus a b)) (Rmult (cosh a) (cosh b))) 2) = Rsqr (Rinv (Rdiv (cosh (Rplus a b)) (Rmult (cosh a) (cosh b)))) by rewrite /Rsqr /=; field; lra.
rewrite sqrt_Rsqr; last by apply/Rlt_le/Rinv_0_lt_compat. field. lra.
Qed.
(** the threshold is above the bound for moderate squeezing, and not reached at r = 0 *)
Theorem C42_example : Rlt threshold (Rdiv (cosh (Rplus R1 R1)) (Rmult (cosh R1) (cosh R1))) /\ Rlt threshold (pow (Rdiv (cosh (Rplus R1 R1)) (Rmult (cosh R1) (cosh R1))) 2).
Proof.
have H : Rle R1 (Rdiv (cosh (Rplus R1 R1)) (Rmult (cosh R1) (cosh R1))).
  case: (th_plus R1 R1) => _ [_ <-]. have : Rle R0 (Rmult (th R1) (th R1)) by nra. lra.
have T := thr_lt1. split; first lra. rewrite /=. nra.
Qed.
