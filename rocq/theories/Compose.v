(** Composition of Gaussian unitaries: claim C53 (the symplectic matrix of u1 >> u2 is the product), and Unitary.inverse (C50).
    Model of the contraction of two triples (mrmustard/physics/gaussian_integrals.py:353-390 and 413-557, the true branch) when the output of the
    first unitary meets the input of the second on the same modes, and of Unitary.inverse / CircuitComponent.dual. *)
From Coq Require Import Reals Lra.
From Coquelicot Require Import Complex.
From mathcomp Require Import all_ssreflect all_algebra.
From Verif Require Import CMat Optimizer GateSym BargSym CExp.
Require Verif.Base.
Set Implicit Arguments. Unset Strict Implicit. Unset Printing Implicit Defensive.
Import GRing.Theory.
Local Open Scope ring_scope.
Delimit Scope R_scope with coqR.

(** a Bargmann triple (A, b, c) without polynomial part on n modes, variables ordered (out, in); physics/ansatz/polyexp_ansatz.py *)
Record triple n := Tri { tA : 'M[C]_(n + n); tb : 'cV[C]_(n + n); tc : C }.
Arguments Tri {n}. 
(** gaussian_integrals.py:488: abs(det_M) > 1e-12 *)
Definition threshold : R := Rinv (pow (IZR 10) 12).
(** t1 >> t2: gaussian_integrals.py:353-401 and 473-505 for the joined triple (join_Abc: A = diag(A1, A2), b = (b1, b2), log c = log c1 + log c2) with variables
    (out1, in1, out2, in2), idx = out1 + in2 and measure -1: M = A[idx, idx] - X, D = A[rest, idx], R = A[rest, rest], A_post = R - D M^-1 D^T,
    b_post = bR - D M^-1 bM, c_post = c sqrt((-1)^n / det M) exp(-bM M^-1 bM / 2); the rest is (in1, out2), and the component orders it (out2, in1).
    None: the false branch, in which every entry of the result is infinite.  exp(log x) is x: c1, c2 are supposed non-zero *)
Definition then_ n (t1 t2 : triple n) : option (triple n) :=
  let A1 := tA t1 in let A2 := tA t2 in
  let M := block_mx (ulsubmx A1) (- 1%:M) (- 1%:M) (drsubmx A2) in
  let D := block_mx (dlsubmx A1) 0 0 (ursubmx A2) in
  let R := block_mx (drsubmx A1) 0 0 (ulsubmx A2) in
  let bM := col_mx (usubmx (tb t1)) (dsubmx (tb t2)) in
  let bR := col_mx (dsubmx (tb t1)) (usubmx (tb t2)) in
  if Rlt_dec threshold (Cmod (\det M)) then
    let P := R - D *m invmx M *m D^T in let q := bR - D *m (invmx M *m bM) in
    Some (Tri (block_mx (drsubmx P) (dlsubmx P) (ursubmx P) (ulsubmx P)) (col_mx (dsubmx q) (usubmx q))
              (tc t1 * tc t2 * csqrt ((-1) ^+ n / \det M) * Cexp (- half * (bM^T *m invmx M *m bM) 0 0)))
  else None.
(** CircuitComponent.dual (circuit_components.py:113-135): the ansatz reordered to (in, out) and conjugated *)
Definition dual n (t : triple n) : triple n := Tri (conj (X n *m tA t *m X n)) (conj (X n *m tb t)) (Cconj (tc t)).
(** Unitary.inverse (transformations/base.py:307-323): the dual *)
Definition inverse n (t : triple n) : triple n := dual t.
(** Identity (physics/triples.py, identity_Abc): A = X, b = 0, c = 1 *)
Definition identity n : triple n := Tri (X n) 0 1.
(** Unitary.from_symplectic (transformations/base.py:253-279): c = ((-1)^m det(V conj V - 1))^0.25, the principal fourth root *)
Definition from_symplectic n (S : 'M[C]_(n + n)) : Base.result (triple n) :=
  Base.bind (symplectic2Au S) (fun A => let V := drsubmx A in
  Base.Ok (Tri A 0 (csqrt (csqrt ((-1) ^+ n * \det (V *m conj V - 1%:M)))))).
(** displacement_gate_Abc (physics/triples.py:424-446), on n modes at once *)
Definition displacement n (al : 'cV[C]_n) : triple n :=
  Tri (X n) (col_mx al (- conj al)) (Cexp (- half * (adj al *m al) 0 0)).

(** Specification: the triples of Gaussian unitaries.  A is a symmetric unitary matrix with invertible input-output block, b = - A conj(b), and |c|^2 is fixed by A and b. *)
Definition dispvec n (t : triple n) : 'cV[C]_n := - conj (invmx (ursubmx (tA t))^T *m dsubmx (tb t)).
Definition unitary_triple n (t : triple n) : Prop :=
  kernel (tA t) /\ tb t = - (tA t *m conj (tb t)) /\
  tc t * Cconj (tc t) = RtoC (Rmult (Cmod (\det (ursubmx (tA t)))) (exp (Re (((usubmx (tb t))^T *m invmx (ursubmx (tA t))^T *m dsubmx (tb t)) 0 0)))).

Lemma kernel_rel n (T W V : 'M[C]_n) : kernel (block_mx T W W^T V) ->
  [/\ T *m conj T + W *m adj W = 1%:M, T *m conj W + W *m conj V = 0, W^T *m conj T + V *m adj W = 0 & W^T *m conj W + V *m conj V = 1%:M].
Proof.
case=> HT [[_ HU] _]. move: HT HU. rewrite {1}tr_block_mx trmxK => /eq_block_mx [ET _ _ EV].
rewrite /adj map_block_mx tr_block_mx conj_tr trmxK mulmx_block scalar_mx_block -(conj_tr T) -(conj_tr V) ET EV => /eq_block_mx [h1 h2 h3 h4]. by split.
Qed.
(** the displacement carried by b *)
Section Disp.
Variables (n : nat) (T W V : 'M[C]_n) (o i : 'cV[C]_n).
Hypothesis k : kernel (block_mx T W W^T V).
Let q := invmx W^T *m i.
Let p := invmx W *m o.
Lemma rel_b : col_mx o i = - (block_mx T W W^T V *m conj (col_mx o i)) <-> o = - (T *m conj o + W *m conj i) /\ i = - (W^T *m conj o + V *m conj i).
Proof.
rewrite map_col_mx mul_block_col opp_col_mx. split=> [/eq_col_mx|[H1 H2]] //. by congr col_mx.
Qed.
Hypothesis r : o = - (T *m conj o + W *m conj i) /\ i = - (W^T *m conj o + V *m conj i).
Lemma disp_q : o - T *m q = - conj q.
Proof.
case: r => _ r2. have [_ _ h _] := kernel_rel k. case/kernelP: k => ET EV HW _ _. have UT : W^T \in unitmx by rewrite unitmx_tr.
have Ud : adj W \in unitmx by rewrite /adj unitmx_tr conj_unit.
have E : V = - (W^T *m conj T *m invmx (adj W)).
  move/eqP: h. rewrite addr_eq0 => /eqP h. by rewrite h mulNmx opprK mulmxK.
have Eq : q = - (conj o) + conj T *m conj q.
  rewrite {1}/q r2 mulmxN mulmxDr mulKmx // opprD. congr (_ + _). rewrite mulmxA {1}E mulmxN mulNmx opprK mulmxA mulKmx //.
  by rewrite /q conj_mul conj_inv conj_tr mulmxA.
move: (q) Eq => z Eq. have := congr1 conj Eq. rewrite map_mxD map_mxN conj_mul !conjmxK => ->. by rewrite opprD opprK.
Qed.
Lemma disp_p : V *m p - i = conj p.
Proof.
case: r => r1 _. case/kernelP: k => ET EV HW _ h. have Uc : conj W \in unitmx by rewrite conj_unit.
have E : T = - (W *m conj V *m invmx (conj W)).
  move/eqP: h. rewrite addr_eq0 => /eqP h. by rewrite -mulNmx -h mulmxK.
have Ep : p = conj V *m conj p - conj i.
  rewrite {1}/p r1 mulmxN mulmxDr mulKmx // opprD. congr (_ + _). rewrite mulmxA {1}E mulmxN mulNmx opprK mulmxA mulKmx //.
  by rewrite /p conj_mul conj_inv mulmxA.
move: (p) Ep => z Ep. have := congr1 conj Ep. by rewrite map_mxB conj_mul !conjmxK => ->.
Qed.
End Disp.
Lemma disp_conv n (T W V : 'M[C]_n) (o i : 'cV[C]_n) : kernel (block_mx T W W^T V) -> o - T *m (invmx W^T *m i) = - conj (invmx W^T *m i) ->
  o = - (T *m conj o + W *m conj i) /\ i = - (W^T *m conj o + V *m conj i).
Proof.
move=> k. have [h1 h2 h3 h4] := kernel_rel k. case/kernelP: k => ET EV HW _ _. have UT : W^T \in unitmx by rewrite unitmx_tr.
move Eq : (invmx W^T *m i) => q. have -> : i = W^T *m q by rewrite -Eq mulKVmx.
move/eqP. rewrite subr_eq => /eqP ->. rewrite map_mxD map_mxN !conj_mul conjmxK conj_tr -/(adj W). split.
- have -> : T *m (- q + conj T *m conj q) + W *m (adj W *m conj q) = - (T *m q) + (T *m conj T + W *m adj W) *m conj q.
    by rewrite mulmxDr mulmxN mulmxDl !mulmxA addrA.
  by rewrite h1 mul1mx opprD opprK addrC.
- have -> : W^T *m (- q + conj T *m conj q) + V *m (adj W *m conj q) = - (W^T *m q) + (W^T *m conj T + V *m adj W) *m conj q.
    by rewrite mulmxDr mulmxN mulmxDl !mulmxA addrA.
  by rewrite h3 mul0mx addr0 opprK.
Qed.
Lemma sum9 (e1 e2 e3 e4 e5 e6 e7 e8 e9 : C) :
  e1 - e2 + (e3 + e4) + (e5 + e6 + (e7 + e8 - e9)) = e7 + e8 + e5 + e4 + (e1 - (e2 - e3 + (- e6 - - e9))) :> C.
Proof. rewrite ?CaddE ?CoppE. ring. Qed.
Lemma mulconj (z : C) : z * Cconj z = RtoC (Rmult (Cmod z) (Cmod z)).
Proof. by rewrite mul_conj Cmod2. Qed.
Lemma Cmod_csqrt z : Rmult (Cmod (csqrt z)) (Cmod (csqrt z)) = Cmod z.
Proof. by rewrite -Cmod_mult csqrt_sq. Qed.
Lemma Cmod_conj z : Cmod (Cconj z) = Cmod z.
Proof. rewrite /Cmod /Cconj /=. congr sqrt. ring. Qed.
Lemma Cmod_Cexp z : Cmod (Cexp z) = exp (Re z).
Proof.
rewrite /Cmod /Cexp /=. have -> : (exp z.1 * cos z.2 * (exp z.1 * cos z.2 * 1) + exp z.1 * sin z.2 * (exp z.1 * sin z.2 * 1))%coqR = Rsqr (exp (Re z)).
  rewrite /Re /Rsqr. have := sin2_cos2 z.2. rewrite /Rsqr. move: (sin _) (cos _) (exp _) => a b e H. 
  transitivity (e * e * (a * a + b * b))%coqR; [ring|rewrite H; ring].
apply: sqrt_Rsqr. exact/Rlt_le/exp_pos.
Qed.
Section Two.
Variables (n : nat) (T1 W1 V1 T2 W2 V2 : 'M[C]_n).
Hypothesis k1 : kernel (block_mx T1 W1 W1^T V1).
Hypothesis k2 : kernel (block_mx T2 W2 W2^T V2).
Let sT1 : T1^T = T1. Proof. by case/kernelP: k1. Qed.
Let sV1 : V1^T = V1. Proof. by case/kernelP: k1. Qed.
Let sT2 : T2^T = T2. Proof. by case/kernelP: k2. Qed.
Let sV2 : V2^T = V2. Proof. by case/kernelP: k2. Qed.
Let uW1 : W1 \in unitmx. Proof. by case/kernelP: k1. Qed.
Let uW2 : W2 \in unitmx. Proof. by case/kernelP: k2. Qed.
Lemma unit_K : 1%:M - T1 *m V2 \in unitmx.
Proof.
have [a1 _ _ _] := kernel_rel k1. have [_ _ _ a2] := kernel_rel k2.
rewrite -row_free_unit -kermx_eq0. apply/eqP/row_matrixP => i. rewrite row0. set v := row i (kermx _).
have : v *m (1%:M - T1 *m V2) = 0 by rewrite /v -row_mul mulmx_ker row0.
rewrite mulmxBr mulmx1 => /eqP. rewrite subr_eq0 mulmxA => /eqP. move Ey : (v *m T1) => y Ev.
have N1 : y *m adj y = v *m adj v - v *m W1 *m adj (v *m W1).
  rewrite -Ey /adj !conj_mul !trmx_mul -(conj_tr T1) sT1 -/(adj W1) -/(adj v).
  have -> : v *m T1 *m (conj T1 *m adj v) = v *m (T1 *m conj T1) *m adj v by rewrite !mulmxA.
  have -> : T1 *m conj T1 = 1%:M - W1 *m adj W1 by apply/eqP; rewrite eq_sym subr_eq a1.
  by rewrite mulmxBr mulmx1 mulmxBl !mulmxA.
have N2 : v *m adj v = y *m adj y - y *m W2^T *m adj (y *m W2^T).
  have -> : v *m adj v = (y *m V2) *m adj (y *m V2) by rewrite -Ev.
  rewrite /adj !conj_mul !trmx_mul -(conj_tr V2) sV2 (conj_tr W2) trmxK -/(adj y).
  have -> : y *m V2 *m (conj V2 *m adj y) = y *m (V2 *m conj V2) *m adj y by rewrite !mulmxA.
  have -> : V2 *m conj V2 = 1%:M - W2^T *m conj W2 by apply/eqP; rewrite eq_sym subr_eq addrC a2.
  by rewrite mulmxBr mulmx1 mulmxBl !mulmxA.
have : v *m W1 *m adj (v *m W1) + y *m W2^T *m adj (y *m W2^T) = 0.
  apply/eqP. rewrite -oppr_eq0 opprD. apply/eqP. apply: (addrI (v *m adj v)). by rewrite addr0 {2}N2 N1 addrA.
move/norm_sum0 => Z. by rewrite -[v](mulmxK uW1) Z mul0mx.
Qed.
Definition K := invmx (1%:M - T1 *m V2).
Definition L := invmx (1%:M - V2 *m T1).
Lemma KT : K^T = L.
Proof. by rewrite /K /L trmx_inv linearB /= trmx1 trmx_mul sT1 sV2. Qed.
Lemma unit_L : 1%:M - V2 *m T1 \in unitmx.
Proof. rewrite -unitmx_tr linearB /= trmx1 trmx_mul sT1 sV2. exact: unit_K. Qed.
Lemma TL : T1 *m L = K *m T1.
Proof.
apply: (canLR (mulmxK unit_L)). rewrite -mulmxA. apply: (canRL (mulKmx unit_K)).
by rewrite mulmxBl mulmxBr mul1mx mulmx1 mulmxA.
Qed.
Lemma VK : V2 *m K = L *m V2.
Proof.
apply: (canLR (mulmxK unit_K)). rewrite -mulmxA. apply: (canRL (mulKmx unit_L)).
by rewrite mulmxBl mulmxBr mul1mx mulmx1 mulmxA.
Qed.
Definition T := T2 + W2 *m T1 *m L *m W2^T.
Definition W := W2 *m K *m W1.
Definition V := V1 + W1^T *m V2 *m K *m W1.
Definition M := block_mx T1 (- 1%:M) (- 1%:M) V2.
Definition N := - block_mx (V2 *m K) L K (T1 *m L).
Lemma M_inv : M \in unitmx /\ invmx M = N.
Proof.
have HMN : M *m N = 1%:M.
  rewrite /N mulmxN mulmx_block !mulNmx !mul1mx opp_block_mx !opprD !opprK scalar_mx_block.
  have E1 : K - T1 *m (V2 *m K) = 1%:M by rewrite mulmxA -{1}[K]mul1mx -mulmxBl mulmxV // unit_K.
  have E2 : L - V2 *m (T1 *m L) = 1%:M by rewrite mulmxA -{1}[L]mul1mx -mulmxBl mulmxV // unit_L.
  congr block_mx; [by rewrite addrC|by rewrite addNr|by rewrite subrr|by []].
have UM : M \in unitmx by case/mulmx1_unit: HMN.
split=> //. by rewrite -[N](mulKmx UM) HMN mulmx1.
Qed.
Lemma det_X m : \det (X m) = (-1) ^+ m.
Proof.
have E : block_mx 1%:M 0 (- 1%:M) 1%:M *m (X m *m block_mx 1%:M 0 1%:M 1%:M) = block_mx 1%:M 1%:M 0 (- 1%:M).
  by rewrite /X !mulmx_block ?(mul0mx, mul1mx, mulmx0, mulmx1, mulNmx, addr0, add0r) addNr.
move: (congr1 determinant E). rewrite !det_mulmx !det_lblock det_ublock !det1 !mul1r !mulr1 => ->. by rewrite -scaleN1r detZ det1 mulr1.
Qed.
Lemma det_M : (-1) ^+ n * \det M = \det (1%:M - T1 *m V2).
Proof.
rewrite -det_X -det_mulmx /X /M mulmx_block !mul0mx !mul1mx !addr0 !add0r.
have -> : block_mx (- 1%:M) V2 T1 (- 1%:M) = block_mx 1%:M 0 (- T1) 1%:M *m block_mx (- 1%:M) V2 0 (T1 *m V2 - 1%:M).
  rewrite mulmx_block ?(mul0mx, mul1mx, mulmx0, mulmx1, mulNmx, mulmxN, addr0, add0r, opprK). by rewrite addrA addNr add0r.
rewrite det_mulmx det_lblock det_ublock !det1 !mul1r -det_mulmx mulNmx mul1mx opprB. by [].
Qed.
Variables (o1 i1 o2 i2 : 'cV[C]_n) (c1 c2 : C).
Definition o := o2 + W2 *m (K *m o1 + T1 *m L *m i2).
Definition i := i1 + W1^T *m (V2 *m K *m o1 + L *m i2).
Definition Q : C := (o1^T *m (V2 *m K *m o1 + L *m i2) + i2^T *m (K *m o1 + T1 *m L *m i2)) 0 0.
Definition cc : C := c1 * c2 * csqrt (\det (1%:M - T1 *m V2))^-1 * Cexp (half * Q).
Lemma Cmod_sgn k : Cmod ((-1) ^+ k) = R1.
Proof.
elim: k => [|k IH]; first by rewrite expr0 C1E Cmod_1.
by rewrite exprS CmulE Cmod_mult IH Cmod_opp Cmod_1 Rmult_1_l.
Qed.
Lemma threshold_det : Cmod (\det M) = Cmod (\det (1%:M - T1 *m V2)).
Proof. by rewrite -det_M CmulE Cmod_mult Cmod_sgn Rmult_1_l. Qed.
Lemma then_val : Rlt threshold (Cmod (\det (1%:M - T1 *m V2))) ->
  then_ (Tri (block_mx T1 W1 W1^T V1) (col_mx o1 i1) c1) (Tri (block_mx T2 W2 W2^T V2) (col_mx o2 i2) c2) = Some (Tri (block_mx T W W^T V) (col_mx o i) cc).
Proof.
move=> Ht. rewrite /then_ /= !block_mxKul !block_mxKur !block_mxKdl !block_mxKdr !col_mxKu !col_mxKd -/M.
case: Rlt_dec => [Hd|H]; last by case: H; rewrite threshold_det.
case: M_inv => UM EM. rewrite EM. congr Some.
set P := _ - _ *m _^T. have EP : P = block_mx V (W1^T *m L *m W2^T) (W2 *m K *m W1) T.
  rewrite /P /N mulmxN mulNmx opprK tr_block_mx trmxK !trmx0 !mulmx_block ?mul0mx ?mulmx0 ?addr0 ?add0r ?mulmx0 ?addr0 ?add0r add_block_mx ?add0r ?mulmxA. by [].
rewrite EP block_mxKul block_mxKur block_mxKdl block_mxKdr.
have Eq : N *m col_mx o1 i2 = - col_mx (V2 *m K *m o1 + L *m i2) (K *m o1 + T1 *m L *m i2) by rewrite /N mulNmx mul_block_col.
have -> : col_mx i1 o2 - block_mx W1^T 0 0 W2 *m (N *m col_mx o1 i2) = col_mx i o.
  rewrite Eq mulmxN opprK mul_block_col !mul0mx addr0 add0r add_col_mx. by [].
rewrite col_mxKu col_mxKd. have -> : (W1^T *m L *m W2^T) = W^T by rewrite /W !trmx_mul KT mulmxA.
have -> : (-1) ^+ n / \det M = (\det (1%:M - T1 *m V2))^-1.
  rewrite -det_M invfM. congr (_ * _). by rewrite -exprVn invrN invr1.
have -> : - half * ((col_mx o1 i2)^T *m N *m col_mx o1 i2) 0 0 = half * Q.
  by rewrite -mulmxA Eq mulmxN mxE mulrNN tr_col_mx mul_row_col. 
by [].
Qed.
(** the blocks of the symplectic matrix in the complex basis *)
Let a1 := ka W1. Let b1 := kb W1 V1. Let a2 := ka W2. Let b2 := kb W2 V2.
Lemma adj_unit m (M : 'M[C]_m) : (adj M \in unitmx) = (M \in unitmx).
Proof. by rewrite /adj unitmx_tr conj_unit. Qed.
Lemma adj_inv m (M : 'M[C]_m) : invmx (adj M) = adj (invmx M).
Proof. by rewrite /adj conj_inv trmx_inv. Qed.
Lemma adj_prod m p q (M : 'M[C]_(m, p)) (N : 'M[C]_(p, q)) : adj (M *m N) = adj N *m adj M.
Proof. by rewrite /adj conj_mul trmx_mul. Qed.
Lemma uW : W \in unitmx.
Proof. by rewrite /W !unitmx_mul uW1 uW2 unitmx_inv unit_K. Qed.
Lemma W_inv : invmx (adj W) = a2 *m (1%:M - conj V2 *m conj T1) *m a1.
Proof.
have H : adj W *m (a2 *m (1%:M - conj V2 *m conj T1) *m a1) = 1%:M.
  rewrite /W !adj_prod. have -> : 1%:M - conj V2 *m conj T1 = adj (1%:M - T1 *m V2).
    by rewrite /adj map_mxB linearB /= map_mx1 trmx1 conj_mul trmx_mul -(conj_tr T1) -(conj_tr V2) sT1 sV2.
  rewrite -adj_inv /a1 /a2 /ka -!mulmxA (mulmxA (adj W2)) mulmxV ?adj_unit // mul1mx (mulmxA (invmx _) (adj _)) mulVmx ?adj_unit ?unit_K // mul1mx mulmxV ?adj_unit //.
have U : adj W \in unitmx by rewrite adj_unit uW. by rewrite -[RHS](mulKmx U) H mulmx1.
Qed.
Lemma rel_a1 : conj T1 *m a1 = - (conj a1 *m V1).
Proof.
have [_ _ h _] := kernel_rel k1. have U : W1^T \in unitmx by rewrite unitmx_tr.
have -> : conj a1 = invmx W1^T by rewrite /a1 /ka conj_inv /adj conj_tr conjmxK.
apply: (canLR (mulmxK _)); first by rewrite adj_unit.
move/eqP: h. rewrite addr_eq0 => /eqP h. by rewrite -[LHS](mulKmx U) h mulmxN mulmxA mulNmx.
Qed.

Lemma a_prod : invmx (adj W) = a2 *m a1 + b2 *m conj b1.
Proof.
rewrite W_inv mulmxBr mulmx1 mulmxBl. congr (_ + _).
have -> : a2 *m (conj V2 *m conj T1) *m a1 = a2 *m conj V2 *m (conj T1 *m a1) by rewrite !mulmxA.
by rewrite rel_a1 mulmxN opprK /b1 /b2 /kb map_mxN conj_mul conjmxK mulmxN mulNmx opprK.
Qed.
Lemma b_prod : - (invmx (adj W) *m conj V) = a2 *m b1 + b2 *m conj a1.
Proof.
have [_ _ _ h] := kernel_rel k1.
have U1 : adj W1 \in unitmx by rewrite adj_unit.
have Uk : conj (1%:M - T1 *m V2) \in unitmx by rewrite conj_unit unit_K.
have -> : conj V = conj V1 + adj W1 *m conj V2 *m conj K *m conj W1 by rewrite /V map_mxD !conj_mul conj_tr.
rewrite W_inv.
have E1 : a2 *m (1%:M - conj V2 *m conj T1) *m a1 *m (adj W1 *m conj V2 *m conj K *m conj W1) = a2 *m conj V2 *m conj W1.
  have -> : a2 *m (1%:M - conj V2 *m conj T1) *m a1 *m (adj W1 *m conj V2 *m conj K *m conj W1) =
            a2 *m ((1%:M - conj V2 *m conj T1) *m (a1 *m adj W1) *m conj V2) *m conj K *m conj W1 by rewrite !mulmxA.
  have -> : (1%:M - conj V2 *m conj T1) *m (a1 *m adj W1) *m conj V2 = conj V2 *m conj (1%:M - T1 *m V2).
    by rewrite /a1 /ka mulVmx // mulmx1 map_mxB map_mx1 conj_mul mulmxBl mulmxBr mul1mx mulmx1 mulmxA.
  by rewrite /K conj_inv -!mulmxA mulKVmx.
have E2 : a2 *m (1%:M - conj V2 *m conj T1) *m a1 *m conj V1 = a2 *m a1 *m conj V1 + a2 *m conj V2 *m conj a1 *m V1 *m conj V1.
  have -> : a2 *m (1%:M - conj V2 *m conj T1) *m a1 = a2 *m a1 - a2 *m conj V2 *m (conj T1 *m a1) by rewrite mulmxBr mulmx1 mulmxBl !mulmxA.
  by rewrite rel_a1 mulmxN opprK mulmxDl !mulmxA.
have E3 : conj W1 = conj a1 *m (1%:M - V1 *m conj V1).
  have -> : 1%:M - V1 *m conj V1 = W1^T *m conj W1 by apply/eqP; rewrite subr_eq h.
  by rewrite /a1 /ka conj_inv /adj conj_tr conjmxK mulKmx // unitmx_tr.
rewrite [_ *m (conj V1 + _)]mulmxDr E1 E2 E3 /b1 /b2 /kb -/a1 -/a2 mulmxBr mulmx1 [a2 *m conj V2 *m (_ - _)]mulmxBr !mulmxN !mulNmx !mulmxA.
set p := a2 *m a1 *m _. set q := _ *m V1 *m conj V1. by rewrite addrACA subrr addr0 opprD.
Qed.
Lemma kSc_prod : kSc W V = kSc W2 V2 *m kSc W1 V1.
Proof.
rewrite /kSc mulmx_block -/a1 -/a2 -/b1 -/b2 -a_prod -b_prod -/(ka W) -/(kb W V). congr block_mx.
- by rewrite /kb b_prod map_mxD !conj_mul conjmxK addrC.
- by rewrite /ka a_prod map_mxD !conj_mul conjmxK addrC.
Qed.
Lemma then_kernel : kernel (block_mx T W W^T V).
Proof.
have [_ _ EE1 EE2] := kernel_rel k1. have [F1 F2 F3 F4] := kernel_rel k2. have [G1 G2 G3 G4] := kernel_rel k1.
have Uk := unit_K.
have sV : V^T = V.
  rewrite /V linearD /= sV1 !trmx_mul trmxK KT sV2. by rewrite -!mulmxA (mulmxA L) -VK !mulmxA.
have sT : T^T = T.
  rewrite /T linearD /= sT2 !trmx_mul trmxK sT1. have -> : L^T = K by rewrite -KT trmxK. by rewrite -!mulmxA (mulmxA K) -TL !mulmxA.
apply/kernelP. split=> //; first exact: uW.
- have H : kSc W V *m J n *m (kSc W V)^T = J n.
    rewrite kSc_prod.
    rewrite trmx_mul. have -> : kSc W2 V2 *m kSc W1 V1 *m J n *m ((kSc W1 V1)^T *m (kSc W2 V2)^T) = kSc W2 V2 *m (kSc W1 V1 *m J n *m (kSc W1 V1)^T) *m (kSc W2 V2)^T by rewrite !mulmxA.
    by rewrite (kSc_J k1) (kSc_J k2).
  have [H1 _] := blocks H.
  have U : adj W \in unitmx by rewrite adj_unit uW.
  have E : ka W *m (1%:M - conj V *m V) *m adj (ka W) = 1%:M.
    rewrite mulmxBr mulmx1 mulmxBl H1 /kb /adj map_mxN conj_mul conjmxK linearN /= trmx_mul sV mulmxN mulNmx opprK !mulmxA addrK. by [].
  have E' : 1%:M - conj V *m V = adj W *m W.
    have Uk' : ka W \in unitmx by rewrite unitmx_inv. have Uka : adj (ka W) \in unitmx by rewrite adj_unit.
    have EI : invmx (adj (ka W)) = W by rewrite /ka -adj_inv adjK invmxK.
    rewrite -[LHS](mulKmx Uk') -[X in invmx (ka W) *m X](mulmxK Uka) E mul1mx EI /ka invmxK. by [].
  by rewrite -E' subrK.
- have E1 : T *m conj W = W2 *m K *m (T1 - conj V2) *m conj K *m conj W1.
    rewrite /W !conj_mul !mulmxA. congr (_ *m _). congr (_ *m _).
    have -> : T *m conj W2 = T2 *m conj W2 + W2 *m (T1 *m L) *m (W2^T *m conj W2) by rewrite /T mulmxDl !mulmxA.
    have -> : T2 *m conj W2 = - (W2 *m (K *m (1%:M - T1 *m V2)) *m conj V2).
      rewrite /K mulVmx // mulmx1. by apply/eqP; rewrite -addr_eq0 F2.
    have -> : W2^T *m conj W2 = 1%:M - V2 *m conj V2 by apply/eqP; rewrite eq_sym subr_eq F4.
    rewrite TL. have -> : W2 *m (K *m (1%:M - T1 *m V2)) *m conj V2 = W2 *m K *m ((1%:M - T1 *m V2) *m conj V2) by rewrite !mulmxA.
    have -> : W2 *m (K *m T1) *m (1%:M - V2 *m conj V2) = W2 *m K *m (T1 *m (1%:M - V2 *m conj V2)) by rewrite !mulmxA.
    rewrite -mulmxN -mulmxDr. congr (_ *m _). rewrite mulmxBl mul1mx mulmxBr mulmx1 opprB mulmxA addrC addrA subrK. by [].
  have E2 : W *m conj V = - (W2 *m K *m (T1 - conj V2) *m conj K *m conj W1).
    have -> : conj V = conj V1 + adj W1 *m conj V2 *m conj K *m conj W1 by rewrite /V map_mxD !conj_mul conj_tr.
    rewrite /W mulmxDr. 
    have -> : W2 *m K *m W1 *m conj V1 = W2 *m K *m (W1 *m conj V1) by rewrite !mulmxA.
    have -> : W1 *m conj V1 = - (T1 *m (1%:M - conj T1 *m conj V2) *m conj K *m conj W1).
      have -> : 1%:M - conj T1 *m conj V2 = conj (1%:M - T1 *m V2) by rewrite map_mxB map_mx1 conj_mul.
      rewrite /K conj_inv mulmxK ?conj_unit //. by apply/eqP; rewrite -addr_eq0 addrC G2.
    have -> : W2 *m K *m W1 *m (adj W1 *m conj V2 *m conj K *m conj W1) = W2 *m K *m ((W1 *m adj W1) *m conj V2 *m conj K *m conj W1) by rewrite !mulmxA.
    have -> : W1 *m adj W1 = 1%:M - T1 *m conj T1 by apply/eqP; rewrite eq_sym subr_eq addrC G1.
    have -> : - (W2 *m K *m (T1 - conj V2) *m conj K *m conj W1) = W2 *m K *m ((conj V2 - T1) *m conj K *m conj W1) by rewrite -!mulmxA -opprB mulNmx !mulmxN opprK.
    rewrite -mulmxDr. congr (_ *m _). rewrite -!mulNmx -!mulmxDl. congr (_ *m _). congr (_ *m _).
    rewrite mulmxDr mulmx1 mulmxDl mul1mx !mulNmx mulmxN opprK mulmxA addrACA subrr addr0 addrC. by [].
  by rewrite E1 E2 subrr.
Qed.
(** composition keeps b = - A conj(b), and composes the displacements *)
Hypothesis r1 : o1 = - (T1 *m conj o1 + W1 *m conj i1) /\ i1 = - (W1^T *m conj o1 + V1 *m conj i1).
Hypothesis r2 : o2 = - (T2 *m conj o2 + W2 *m conj i2) /\ i2 = - (W2^T *m conj o2 + V2 *m conj i2).
Definition q1 := invmx W1^T *m i1.
Definition p2 := invmx W2 *m o2.
Definition q := invmx W^T *m i.
Let uT1 : W1^T \in unitmx. Proof. by rewrite unitmx_tr. Qed.
Let uT2 : W2^T \in unitmx. Proof. by rewrite unitmx_tr. Qed.
Lemma WT_inv : invmx W^T = invmx W2^T *m (1%:M - V2 *m T1) *m invmx W1^T.
Proof.
have H : W^T *m (invmx W2^T *m (1%:M - V2 *m T1) *m invmx W1^T) = 1%:M.
  rewrite /W !trmx_mul KT -!mulmxA mulKVmx // (mulmxA L) /L mulVmx ?unit_L // mul1mx mulmxV //.
have U : W^T \in unitmx by rewrite unitmx_tr uW. by rewrite -[RHS](mulKmx U) H mulmx1.
Qed.
Lemma i_fact : i = W1^T *m (q1 + (V2 *m K *m o1 + L *m i2)).
Proof. by rewrite mulmxDr /q1 mulKVmx. Qed.
Lemma o_fact : o = W2 *m (p2 + (K *m o1 + T1 *m L *m i2)).
Proof. by rewrite mulmxDr /p2 mulKVmx. Qed.
Lemma step_v : (1%:M - V2 *m T1) *m (V2 *m K *m o1 + L *m i2) = V2 *m o1 + i2.
Proof. by rewrite mulmxDr VK !mulmxA mulmxV ?unit_L // !mul1mx. Qed.
Lemma q_val : q = invmx W2^T *m ((1%:M - V2 *m T1) *m q1 + (V2 *m o1 + i2)).
Proof. rewrite /q i_fact WT_inv -step_v. move: (V2 *m K *m o1 + _) => v. by rewrite -mulmxA mulKmx // -mulmxA [_ *m (q1 + v)]mulmxDr. Qed.
Lemma al1 : o1 - T1 *m q1 = - conj q1. Proof. exact: disp_q k1 r1. Qed.
Lemma be2 : V2 *m p2 - i2 = conj p2. Proof. exact: disp_p k2 r2. Qed.
Lemma q_val2 : q = invmx W2^T *m (q1 - V2 *m conj q1 + i2).
Proof.
rewrite q_val mulmxBl mul1mx. congr (_ *m _). rewrite !addrA. congr (_ + _). rewrite -addrA. congr (_ + _).
by rewrite -[- (V2 *m conj q1)]mulmxN -al1 mulmxBr addrC mulmxA.
Qed.
Lemma then_disp : o = - (T *m conj o + W *m conj i) /\ i = - (W^T *m conj o + V *m conj i).
Proof.
apply: (disp_conv then_kernel). rewrite -/q.
have [F1 F2 F3 F4] := kernel_rel k2. case/kernelP: (k2) => _ _ _ G1 G2.
have Ud : adj W2 \in unitmx by rewrite adj_unit.
have WTq : W2^T *m q = q1 - V2 *m conj q1 + i2 by rewrite q_val2 mulKVmx.
have E1 : o - T *m q = o2 - T2 *m q + W2 *m (o1 - T1 *m q1).
  have -> : o - T *m q = o2 - T2 *m q + W2 *m (K *m o1 + T1 *m L *m i2 - T1 *m L *m (W2^T *m q)).
    by rewrite /o /T mulmxDl opprD addrACA mulmxBr !mulmxA.
  congr (_ + _). congr (_ *m _). rewrite WTq [T1 *m L *m (_ + i2)]mulmxDr opprD addrA addrAC addrK.
  have -> : T1 *m L = K *m T1 by exact: TL. rewrite -mulmxA -mulmxBr. 
  have -> : o1 - T1 *m (q1 - V2 *m conj q1) = (1%:M - T1 *m V2) *m (o1 - T1 *m q1).
    rewrite al1 mulmxBl mul1mx -al1 al1 !mulmxN opprK mulmxBr opprB mulmxA -al1. by rewrite addrA addrAC.
  by rewrite mulKmx // unit_K.
rewrite E1 al1 mulmxN. apply: (can_inj (mulKmx Ud)).
have HT : adj W2 *m T2 = - (conj V2 *m W2^T).
  have := congr1 trmx G2. rewrite linearD /= !trmx_mul trmx0 -/(adj W2) -conj_tr sT2 sV2 => /eqP. by rewrite addr_eq0 => /eqP.
have Hq : adj W2 *m conj q = conj (W2^T *m q) by rewrite conj_mul conj_tr.
move: (q) (q1) WTq Hq {E1} => z z1 WTq Hq. rewrite [adj W2 *m (- conj z)]mulmxN Hq WTq !mulmxDr !mulmxN !mulmxA HT !mulNmx opprK -[conj V2 *m W2^T *m z]mulmxA WTq.
rewrite [conj V2 *m (_ + _)]mulmxDr [conj V2 *m (_ - _)]mulmxBr !map_mxD map_mxN !conj_mul conjmxK.
have H2 : adj W2 *m o2 = - conj i2 - conj V2 *m i2.
  case: r2 => _ h. have := congr1 conj h. rewrite map_mxN map_mxD !conj_mul conj_tr -/(adj W2) !conjmxK => ->. by rewrite opprK addrK.
have H3 : adj W2 *m W2 *m conj z1 = conj z1 - conj V2 *m (V2 *m conj z1).
  have -> : adj W2 *m W2 = 1%:M - conj V2 *m V2 by apply/eqP; rewrite eq_sym subr_eq G1. by rewrite mulmxBl mul1mx mulmxA.
rewrite H2 H3. move: (conj i2) (conj V2 *m i2) (conj V2 *m z1) (conj z1) (conj V2 *m (V2 *m _)) => x1 x2 x3 x4 x5.
rewrite !opprD !opprK. rewrite [x3 - x5 + x2]addrC !addrA subrK. rewrite addrAC subrK. by rewrite addrC [- x1 + x3]addrC addrA.
Qed.
Lemma then_exponent : o^T *m invmx W^T *m i =
  (o1^T *m (V2 *m K *m o1 + L *m i2) + i2^T *m (K *m o1 + T1 *m L *m i2)) + o1^T *m invmx W1^T *m i1 + o2^T *m invmx W2^T *m i2 + (p2^T *m q1 - conj (p2^T *m q1)).
Proof.
move Es : (K *m o1 + T1 *m L *m i2) => s. move Ev : (V2 *m K *m o1 + L *m i2) => v.
have Eo : o^T = (p2^T + s^T) *m W2^T by rewrite o_fact trmx_mul linearD /= Es.
have -> : o^T *m invmx W^T *m i = (p2^T + s^T) *m ((1%:M - V2 *m T1) *m q1 + (V2 *m o1 + i2)).
  rewrite -step_v Ev -mulmxDr i_fact Ev Eo WT_inv.
  have -> : (p2^T + s^T) *m W2^T *m (invmx W2^T *m (1%:M - V2 *m T1) *m invmx W1^T) *m (W1^T *m (q1 + v)) =
            (p2^T + s^T) *m (W2^T *m invmx W2^T) *m (1%:M - V2 *m T1) *m (invmx W1^T *m W1^T) *m (q1 + v) by rewrite !mulmxA.
  by rewrite mulmxV // mulVmx // !mulmx1 -mulmxA.
have Es1 : s^T *m (1%:M - V2 *m T1) = o1^T + i2^T *m T1.
  have EL : L^T = K by rewrite -KT trmxK.
  have -> : s^T = o1^T *m L + i2^T *m T1 *m L by rewrite -Es linearD /= !trmx_mul KT EL sT1 -mulmxA -TL mulmxA.
  by rewrite mulmxDl -!mulmxA /L mulVmx ?unit_L // !mulmx1.
have Es2 : s^T *m (V2 *m o1 + i2) = o1^T *m v + i2^T *m s - i2^T *m o1.
  rewrite -step_v Ev mulmxA Es1 mulmxDl -addrA. congr (_ + _). rewrite -mulmxA -mulmxBr. congr (_ *m _).
  rewrite -Ev -Es mulmxDr !mulmxA [RHS]addrAC. congr (_ + _).
  have -> : K *m o1 - o1 = (K - 1%:M) *m o1 by rewrite mulmxBl mul1mx. congr (_ *m _).
  apply/eqP. rewrite eq_sym subr_eq addrC. apply/eqP. rewrite -[K in LHS]mul1mx. apply/eqP. rewrite -subr_eq -mulmxBl. by rewrite mulmxV ?unit_K.
rewrite mulmxDl [s^T *m (_ + _)]mulmxDr [s^T *m (_ *m q1)]mulmxA Es1 Es2.
have E1 : o1^T *m invmx W1^T *m i1 = o1^T *m q1 by rewrite /q1 mulmxA.
have E2 : o2^T *m invmx W2^T *m i2 = p2^T *m i2 by rewrite /p2 trmx_mul trmx_inv.
have E3 : conj (p2^T *m q1) = (p2^T *m V2 - i2^T) *m (T1 *m q1 - o1).
  rewrite conj_mul conj_tr -be2 linearB /= trmx_mul sV2. congr (_ *m _). by rewrite -opprB al1 opprK.
rewrite E1 E2 E3 {E1 E2 E3 Es1 Es2 Eo Es Ev}.
move: (q1) (p2) => x y. rewrite ?(mulmxDr, mulmxDl, mulmxBr, mulmxBl, mulmx1, mul1mx, mulmxA, mulmxN, mulNmx).
move: (y^T *m x) (y^T *m V2 *m T1 *m x) (y^T *m V2 *m o1) (y^T *m i2) (o1^T *m x) (i2^T *m T1 *m x) (o1^T *m v) (i2^T *m s) (i2^T *m o1) => e1 e2 e3 e4 e5 e6 e7 e8 e9.
apply/matrixP => a b. rewrite !mxE. exact: sum9.
Qed.
Lemma Cmod_det_K : Cmod (\det K) = Rinv (Cmod (\det (1%:M - T1 *m V2))).
Proof.
rewrite /K det_inv. move: unit_K. rewrite unitmxE unitfE. move: (\det _) => d /eqP Hd. rewrite CinvE Cmod_inv //. 
Qed.
Hypothesis m1 : c1 * Cconj c1 = RtoC (Rmult (Cmod (\det W1)) (exp (Re ((o1^T *m invmx W1^T *m i1) 0 0)))).
Hypothesis m2 : c2 * Cconj c2 = RtoC (Rmult (Cmod (\det W2)) (exp (Re ((o2^T *m invmx W2^T *m i2) 0 0)))).
Lemma then_norm : cc * Cconj cc = RtoC (Rmult (Cmod (\det W)) (exp (Re ((o^T *m invmx W^T *m i) 0 0)))).
Proof.
move: m1 m2. rewrite !mulconj => /RtoC_inj N1 /RtoC_inj N2. congr RtoC. rewrite then_exponent.
have -> : Cmod (\det W) = Rmult (Rmult (Cmod (\det W2)) (Cmod (\det K))) (Cmod (\det W1)).
  by rewrite /W !det_mulmx !CmulE !Cmod_mult.
have Ere : Re ((o1^T *m (V2 *m K *m o1 + L *m i2) + i2^T *m (K *m o1 + T1 *m L *m i2) + o1^T *m invmx W1^T *m i1 + o2^T *m invmx W2^T *m i2 +
   (p2^T *m q1 - conj (p2^T *m q1))) 0 0) = Rplus (Re Q) (Rplus (Re ((o1^T *m invmx W1^T *m i1) 0 0)) (Re ((o2^T *m invmx W2^T *m i2) 0 0))).
  rewrite /Q. move: (o1^T *m (V2 *m K *m o1 + L *m i2) + _) (o1^T *m invmx W1^T *m i1) (o2^T *m invmx W2^T *m i2) (p2^T *m q1) => x1 x2 x3 x4.
  rewrite !mxE. case: (x1 0 0) (x2 0 0) (x3 0 0) (x4 0 0) => [? ?] [? ?] [? ?] [? ?]. rewrite /GRing.add /GRing.opp /= /Cplus /Copp /Cconj /Re /=. ring.
rewrite Ere !exp_plus Cmod_det_K /cc !CmulE !Cmod_mult Cmod_Cexp.
have Ed : Rmult (Cmod (csqrt (\det (1%:M - T1 *m V2))^-1)) (Cmod (csqrt (\det (1%:M - T1 *m V2))^-1)) = Rinv (Cmod (\det (1%:M - T1 *m V2))).
  rewrite Cmod_csqrt CinvE Cmod_inv //. apply/eqP. by move: unit_K; rewrite unitmxE unitfE.
rewrite -Ed. have EQ : Rmult (exp (Re (half * Q))) (exp (Re (half * Q))) = exp (Re Q).
  rewrite -exp_plus. congr exp. case: Q => x y. rewrite /half CmulE /Cmult /RtoC /Re /=. field.
rewrite -EQ. move: N1 N2. move: (exp _) (exp _) (exp _) (Cmod _) (Cmod _) (Cmod _) (Cmod _) (Cmod _) => x1 x2 x3 x4 x5 x6 x7 x8 N1 N2.
transitivity (Rmult (Rmult (Rmult x8 x8) (Rmult x6 x6)) (Rmult (Rmult x4 x4) (Rmult x1 x1))); [ring|rewrite N1 N2; ring].
Qed.
(** the displacements compose: the displacement of the product is a2 al1 + b2 conj(al1) + al2 *)
Lemma then_alpha : - conj q = (a2 *m (- conj q1) + b2 *m conj (- conj q1)) - conj (invmx W2^T *m i2).
Proof.
rewrite q_val2 mulmxDr map_mxD opprD. congr (_ + _). move: (q1) => z.
have E : conj (invmx W2^T) = a2 by rewrite conj_inv conj_tr.
rewrite conj_mul E map_mxB conj_mul conjmxK map_mxN conjmxK /b2 /kb -/a2 mulmxBr !mulmxN !mulNmx opprB opprK mulmxA. by rewrite addrC.
Qed.
End Two.
(** quadratures (in units of sqrt(hbar)) of a displacement: (sqrt 2 Re al, sqrt 2 Im al) *)
Definition quadratures n (al : 'cV[C]_n) : 'cV[C]_(n + n) := col_mx (rr *: (al + conj al)) (rr *: (- Ci *: (al - conj al))).
Lemma quadE n (al : 'cV[C]_n) : quadratures al = adj (rotmat n) *m col_mx al (conj al).
Proof.
rewrite adj_rotmat -scalemxAl mul_block_col scale_col_mx !mul1mx /quadratures -!scalemxAl !mul1mx. congr col_mx. congr (_ *: _).
by rewrite scalerBr !scaleNr opprK.
Qed.
Lemma triple_blocks n (t : triple n) : kernel (tA t) -> exists T W V o i, t = Tri (block_mx T W W^T V) (col_mx o i) (tc t).
Proof.
case: t => A b c /= k. exists (ulsubmx A), (ursubmx A), (drsubmx A), (usubmx b), (dsubmx b). by rewrite -(kernel_block k) vsubmxK.
Qed.
Definition detM n (t1 t2 : triple n) : R := Cmod (\det (1%:M - ulsubmx (tA t1) *m drsubmx (tA t2))).
(** C53: for all Gaussian unitaries u1, u2 on the same modes (any number of them), u1 >> u2 is a Gaussian unitary whose symplectic matrix is the product S2 S1 and whose
    displacement is S2 d1 + d2, as long as the determinant is above the threshold of the code *)
Theorem C53 n (t1 t2 : triple n) : unitary_triple t1 -> unitary_triple t2 -> Rlt threshold (detM t1 t2) ->
  exists t S1 S2, then_ t1 t2 = Some t /\ unitary_triple t /\
    au2Symplectic (tA t1) = Base.Ok S1 /\ au2Symplectic (tA t2) = Base.Ok S2 /\ au2Symplectic (tA t) = Base.Ok (S2 *m S1) /\
    quadratures (dispvec t) = S2 *m quadratures (dispvec t1) + quadratures (dispvec t2).
Proof.
case=> k1 [r1 m1] [k2 [r2 m2]]. case: (triple_blocks k1) => T1 [W1 [V1 [o1 [i1 E1]]]]. case: (triple_blocks k2) => T2 [W2 [V2 [o2 [i2 E2]]]].
move: (tc t1) (tc t2) E1 E2 m1 m2 => c1 c2 E1 E2. subst t1 t2. move: k1 k2 r1 r2. rewrite /detM /dispvec /= !block_mxKur !col_mxKu !col_mxKd block_mxKul block_mxKdr.
move=> k1 k2 /rel_b r1 /rel_b r2 m1 m2 Ht. rewrite (au_val k1) (au_val k2) (then_val k1 k2 o1 i1 o2 i2 c1 c2 Ht).
eexists; eexists; eexists. split; first reflexivity. have k := then_kernel k1 k2.
have d := then_disp k1 k2 r1 r2. have m := then_norm k1 k2 r1 r2 m1 m2.
split; first by split; [exact: k|split; [exact: (proj2 (rel_b _ _ _ _ _) d)|move: m; rewrite /= block_mxKur col_mxKu col_mxKd]].
split=> //. split=> //=. rewrite !block_mxKur !col_mxKd. have [U1 U2] := rot_unitary n. split.
  rewrite (au_val k) (kSc_prod k1 k2). congr Base.Ok. rewrite !mulmxA. congr (_ *m _).
  have -> : adj (rotmat n) *m kSc W2 V2 *m rotmat n *m adj (rotmat n) *m kSc W1 V1 = adj (rotmat n) *m kSc W2 V2 *m (rotmat n *m adj (rotmat n)) *m kSc W1 V1 by rewrite !mulmxA.
  by rewrite U2 mulmx1.
rewrite !quadE !mulmxA. rewrite -[_ *m rotmat n *m adj (rotmat n)]mulmxA U2 mulmx1 -!mulmxA -mulmxDr. congr (_ *m _).
rewrite /kSc mul_block_col add_col_mx. move: (then_alpha k1 k2 i2 r1). rewrite /q /q1.
move: (- conj (invmx (W T1 W1 W2 V2)^T *m _)) (- conj (invmx W1^T *m i1)) (- conj (invmx W2^T *m i2)) (ka W2) (kb W2 V2) => al al1 al2 a b ->.
congr col_mx. rewrite !map_mxD !conj_mul conjmxK. congr (_ + _). by rewrite addrC.
Qed.

(** ** the inverse of a unitary *)
Lemma dual_val n (T W V : 'M[C]_n) (o i : 'cV[C]_n) c :
  dual (Tri (block_mx T W W^T V) (col_mx o i) c) = Tri (block_mx (conj V) (adj W) (adj W)^T (conj T)) (col_mx (conj i) (conj o)) (Cconj c).
Proof.
rewrite /dual /= /X !mulmx_block mul_block_col !mul0mx !mulmx0 !mul1mx !mulmx1 !add0r !addr0 map_block_mx map_col_mx /adj trmxK. by rewrite conj_tr.
Qed.
Lemma dual_kernel n (T W V : 'M[C]_n) : kernel (block_mx T W W^T V) -> kernel (block_mx (conj V) (adj W) (adj W)^T (conj T)).
Proof.
move=> k. have [h1 _ _ _] := kernel_rel k. case/kernelP: k => ET EV HW _ h. apply/kernelP. split; try by rewrite -conj_tr ?ET ?EV.
- by rewrite adj_unit.
- by rewrite adjK conjmxK addrC.
- have := congr1 trmx h. rewrite linearD /= !trmx_mul -(conj_tr V) EV ET -/(adj W) trmx0 conjmxK addrC. by rewrite {2}/adj conj_tr conjmxK.
Qed.
Lemma conj_scalar n (u v : 'cV[C]_n) (Z : 'M[C]_n) : ((conj u)^T *m conj Z *m conj v) 0 0 = Cconj ((v^T *m Z^T *m u) 0 0).
Proof.
have -> : (v^T *m Z^T *m u) 0 0 = (u^T *m Z *m v) 0 0.
  have -> : v^T *m Z^T *m u = (u^T *m Z *m v)^T by rewrite !trmx_mul trmxK mulmxA. by rewrite mxE.
by rewrite -conj_tr -!conj_mul mxE.
Qed.
Lemma Re_conj z : Re (Cconj z) = Re z. Proof. by []. Qed.
Lemma dual_rel n (T W V : 'M[C]_n) (o i : 'cV[C]_n) : o = - (T *m conj o + W *m conj i) /\ i = - (W^T *m conj o + V *m conj i) ->
  conj i = - (conj V *m conj (conj i) + adj W *m conj (conj o)) /\ conj o = - ((adj W)^T *m conj (conj i) + conj T *m conj (conj o)).
Proof.
case=> r1 r2. split.
- have := congr1 conj r2. rewrite map_mxN map_mxD !conj_mul !conjmxK conj_tr => {1}->. by rewrite addrC.
- have := congr1 conj r1. rewrite map_mxN map_mxD !conj_mul !conjmxK => {1}->. by rewrite addrC /adj trmxK.
Qed.
Lemma dual_norm n (W : 'M[C]_n) (o i : 'cV[C]_n) c : c * Cconj c = RtoC (Rmult (Cmod (\det W)) (exp (Re ((o^T *m invmx W^T *m i) 0 0)))) ->
  Cconj c * Cconj (Cconj c) = RtoC (Rmult (Cmod (\det (adj W))) (exp (Re (((conj i)^T *m invmx (adj W)^T *m conj o) 0 0)))).
Proof.
move=> m. rewrite CconjK mulrC m. congr RtoC. congr Rmult.
  have -> : adj W = conj W^T by rewrite conj_tr. by rewrite det_map_mx det_tr Cmod_conj.
have -> : invmx (adj W)^T = conj (invmx W) by rewrite /adj trmxK conj_inv. by rewrite conj_scalar Re_conj trmx_inv.
Qed.
Theorem C50_dual n (t : triple n) : unitary_triple t -> unitary_triple (inverse t) /\ inverse (inverse t) = t.
Proof.
case=> k [r m]. case: (triple_blocks k) => T [W [V [o [i E]]]]. move: (tc t) E m => c E. subst t. move: k r. rewrite /inverse /= block_mxKur col_mxKu col_mxKd.
move=> k /rel_b r m. rewrite !dual_val. have k' := dual_kernel k. split.
  split=> //=. split; first by apply/rel_b; exact: dual_rel r.
  rewrite block_mxKur col_mxKu col_mxKd. exact: dual_norm m.
by rewrite !conjmxK adjK CconjK.
Qed.
Section Inv.
Variables (n : nat) (T W V : 'M[C]_n) (o i : 'cV[C]_n) (c : C).
Hypothesis k : kernel (block_mx T W W^T V).
Hypothesis r : o = - (T *m conj o + W *m conj i) /\ i = - (W^T *m conj o + V *m conj i).
Hypothesis m : c * Cconj c = RtoC (Rmult (Cmod (\det W)) (exp (Re ((o^T *m invmx W^T *m i) 0 0)))).
Let k' := dual_kernel k.
Let r' := dual_rel r.
Let hW : W \in unitmx. Proof. by case/kernelP: k. Qed.
Lemma one_minus : 1%:M - T *m conj T = W *m adj W.
Proof. have [h1 _ _ _] := kernel_rel k. apply/eqP. by rewrite subr_eq addrC h1. Qed.
Lemma inv_W : Compose.W T W (adj W) (conj T) = 1%:M.
Proof.
rewrite /Compose.W /K one_minus. have U : adj W \in unitmx by rewrite adj_unit.
have -> : invmx (W *m adj W) = invmx (adj W) *m invmx W.
  have UU : W *m adj W \in unitmx by rewrite unitmx_mul hW U.
  have H : W *m adj W *m (invmx (adj W) *m invmx W) = 1%:M by rewrite mulmxA mulmxK // mulmxV. by rewrite -[RHS](mulKmx UU) H mulmx1.
by rewrite !mulmxA mulmxV // mul1mx mulVmx.
Qed.
Lemma inv_V : Compose.V T W V (conj T) = 0.
Proof.
have := then_kernel k k'. rewrite inv_W => /kernelP [_ sV _ E _]. move: E. rewrite /adj map_mx1 trmx1 mulmx1 => /eqP. rewrite -subr_eq0 addrAC subrr add0r => /eqP.
move: (Compose.V _ _ _ _) sV => Z sZ E. apply/row_matrixP => a. rewrite row0. apply: (@norm_sum0 _ n _ 0). rewrite mul0mx addr0.
have -> : row a Z *m adj (row a Z) = row a Z *m conj (Z *m delta_mx a 0).
  congr (_ *m _). by rewrite /adj -conj_tr tr_row sZ colE.
by rewrite conj_mul mulmxA -row_mul -[Z]conjmxK -conj_mul conjmxK E map_mx0 row0 mul0mx.
Qed.
Lemma inv_T : Compose.T T (conj V) (adj W) (conj T) = 0.
Proof.
have := then_kernel k k'. rewrite inv_W inv_V => /kernelP [_ _ _ _]. by rewrite !map_mx1 map_mx0 mulmx1 mulmx0 addr0.
Qed.
Lemma inv_i : Compose.i T W (conj T) o i (conj o) = 0.
Proof.
have E := q_val k k' o i (conj o). rewrite /q inv_W trmx1 invmx1 mul1mx in E. rewrite E /q1.
have -> : 1%:M - conj T *m T = conj W *m W^T.
  have := congr1 conj one_minus. by rewrite map_mxB map_mx1 !conj_mul conjmxK {1}/adj conj_tr conjmxK.
rewrite mulmxA mulmxK ?unitmx_tr // /adj trmxK.
have -> : conj T *m o + conj o = - (conj W *m i).
  case: r => r1 _. have := congr1 conj r1. rewrite map_mxN map_mxD !conj_mul !conjmxK => ->. by rewrite opprD addrA subrr add0r.
by rewrite subrr mulmx0.
Qed.
Lemma inv_o : Compose.o T (adj W) (conj T) o (conj i) (conj o) = 0.
Proof.
case: (then_disp k k' r r') => E _. move: E. by rewrite inv_W inv_T inv_i map_mx0 mulmx0 mul0mx addr0 oppr0.
Qed.
Lemma det_pos : \det (1%:M - T *m conj T) = RtoC (Rmult (Cmod (\det W)) (Cmod (\det W))).
Proof.
rewrite one_minus det_mulmx. have -> : \det (adj W) = Cconj (\det W) by rewrite /adj det_tr det_map_mx. by rewrite mulconj.
Qed.
Lemma inv_c : Compose.cc T (conj T) o (conj o) c (Cconj c) = 1.
Proof.
have N := then_norm k k' r r' m (dual_norm m). rewrite inv_W inv_o inv_i trmx0 !mul0mx det1 mxE /= C1E Cmod_1 in N.
have [x [x0 E]] : exists x, Rle R0 x /\ cc T (conj T) o (conj o) c (Cconj c) = RtoC x.
  rewrite /cc det_pos CinvE mulconj /Q. set z := Rmult (Cmod (\det W)) _.
  have zp : Rlt R0 z. { apply: Rmult_lt_0_compat; apply: (proj1 (Cmod_gt_0 _)) => E0; move: hW; by rewrite unitmxE unitfE E0 eqxx. }
  have -> : Cinv (RtoC z) = RtoC (Rinv z) by rewrite RtoC_inv //; exact: Rgt_not_eq.
  rewrite csqrt_R; last by apply/Rlt_le/Rinv_0_lt_compat.
  have KL : conj (K T (conj T)) = L T (conj T) by rewrite /K /L conj_inv map_mxB map_mx1 conj_mul conjmxK.
  have LK : conj (L T (conj T)) = K T (conj T) by rewrite -KL conjmxK.
  have -> : (conj o)^T *m (K T (conj T) *m o + T *m L T (conj T) *m conj o) = conj (o^T *m (conj T *m K T (conj T) *m o + L T (conj T) *m conj o)).
    by rewrite conj_mul map_mxD !conj_mul !conjmxK KL LK conj_tr addrC.
  rewrite mxE. move: (_ *m (_ + _)) => y. rewrite [conj y 0 0]mxE.
  have -> : half * (y 0 0 + Cconj (y 0 0)) = RtoC (Re (y 0 0)).
    case: (y 0 0) => u v. rewrite /half CmulE CaddE /Cmult /Cplus /Cconj /RtoC /Re /=. congr pair; field.
  rewrite Cexp_R. exists (Rmult (Rmult (Rmult (Cmod c) (Cmod c)) (sqrt (Rinv z))) (exp (Re (y 0 0)))). split; last by rewrite !CmulE -!RtoC_mult.
  have := exp_pos (Re (y 0 0)). have := sqrt_pos (Rinv z). have := Cmod_ge_0 c. move: (Cmod _) (sqrt _) (exp _) => p1 p2 p3 *.
  apply: Rmult_le_pos; last lra. apply: Rmult_le_pos; last lra. nra.
move: N. rewrite E mulconj Cmod_R Rabs_pos_eq // => /RtoC_inj. rewrite exp_0 => N. rewrite C1E. congr RtoC. nra.
Qed.
Lemma inv_then : Rlt threshold (Cmod (\det (1%:M - T *m conj T))) ->
  then_ (Tri (block_mx T W W^T V) (col_mx o i) c) (dual (Tri (block_mx T W W^T V) (col_mx o i) c)) = Some (identity n).
Proof.
move=> Ht. rewrite dual_val (then_val k k' _ _ _ _ _ _ Ht) inv_W inv_V inv_T inv_o inv_i inv_c trmx1 col_mx0. by [].
Qed.
End Inv.
(** C50, unitaries: for every Gaussian unitary u, u >> u.inverse() and u.inverse() >> u are the identity (A, b and c), above the threshold *)
Theorem C50_unitary n (t : triple n) : unitary_triple t -> Rlt threshold (detM t (inverse t)) -> then_ t (inverse t) = Some (identity n).
Proof.
case=> k [r m]. case: (triple_blocks k) => T [W [V [o [i E]]]]. move: (tc t) E m => c E. subst t. move: k r. rewrite /inverse /= block_mxKur col_mxKu col_mxKd.
move=> k /rel_b r m. rewrite /detM dual_val /= block_mxKul block_mxKdr => H. rewrite -dual_val. exact: inv_then k r m H.
Qed.
Theorem C50_unitary_left n (t : triple n) : unitary_triple t -> Rlt threshold (detM (inverse t) t) -> then_ (inverse t) t = Some (identity n).
Proof.
move=> u H. case: (C50_dual u) => u' E. rewrite -{2}E. apply: C50_unitary => //. by rewrite E.
Qed.

(** ** the unitaries of the library are unitary triples *)
Lemma kernel_X n : kernel (X n).
Proof.
have -> : X n = block_mx 0 1%:M (1%:M)^T 0 by rewrite trmx1. apply/kernelP. split; rewrite ?trmx0 ?unitmx1 //.
- by rewrite /adj !map_mx1 trmx1 map_mx0 mulmx1 mulmx0 addr0.
- by rewrite map_mx1 map_mx0 mul0mx mulmx0 addr0.
Qed.
Theorem displacement_unitary n (al : 'cV[C]_n) : unitary_triple (displacement al).
Proof.
split; first exact: kernel_X. split=> /=.
- rewrite map_col_mx map_mxN conjmxK /X mul_block_col !mul0mx !mul1mx add0r addr0 opp_col_mx opprK. by [].
- rewrite /X block_mxKur col_mxKu col_mxKd trmx1 invmx1 mulmx1 det1 C1E Cmod_1 Rmult_1_l mulconj Cmod_Cexp -exp_plus. congr RtoC. congr exp.
  have -> : al^T *m - conj al = - conj (adj al *m al) by rewrite mulmxN /adj conj_mul conj_tr conjmxK.
  rewrite !mxE. move: (\sum_j _) => z. case: z => x y. rewrite /half CmulE CoppE /Cmult /Copp /Cconj /RtoC /Re /=. field.
Qed.
Theorem identity_unitary n : unitary_triple (identity n).
Proof.
have -> : identity n = displacement (0 : 'cV[C]_n).
  rewrite /identity /displacement map_mx0 oppr0 col_mx0 mulmx0 mxE mulr0 C0E Cexp_0. by []. exact: displacement_unitary.
Qed.
Theorem from_symplectic_unitary n (S : 'M[C]_(n + n)) : real S -> symplectic S -> exists t, from_symplectic S = Base.Ok t /\ unitary_triple t /\ au2Symplectic (tA t) = Base.Ok S.
Proof.
move=> HR HS. have E0 := C44_unitary HR HS. case: (C44_kernel HR HS) => A [E k]. rewrite E /= in E0.
rewrite /from_symplectic E /=. eexists; split; first reflexivity. split=> //=. split=> //=.
split; first by rewrite map_mx0 mulmx0 oppr0.
have EA := kernel_block k. move: k. rewrite EA block_mxKur block_mxKdr. move: (ulsubmx A) (ursubmx A) (drsubmx A) => T W V k.
have -> : (-1) ^+ n * \det (V *m conj V - 1%:M) = RtoC (Rmult (Cmod (\det W)) (Cmod (\det W))).
  rewrite -detZ scaleN1r opprB. have [_ _ _ h] := kernel_rel k. have -> : 1%:M - V *m conj V = W^T *m conj W by apply/eqP; rewrite subr_eq h.
  by rewrite det_mulmx det_tr det_map_mx mulconj.
have p := Cmod_ge_0 (\det W). rewrite csqrt_R ?sqrt_square // ?csqrt_R //; last by nra.
rewrite mulconj Cmod_R Rabs_pos_eq; last exact: sqrt_pos. rewrite sqrt_sqrt //.
have -> : dsubmx (0 : 'cV[C]_(n + n)) = 0 by apply/matrixP => a b; rewrite !mxE. rewrite mulmx0 mxE.
by rewrite C0E /= exp_0 Rmult_1_r.
Qed.
(** identities are neutral, for every triple with symmetric A *)
Lemma thr_lt1 : Rlt threshold R1.
Proof. rewrite /threshold. apply: (Rmult_lt_reg_r (pow (IZR 10) 12)); [apply: pow_lt; lra|]. rewrite Rinv_l; [simpl; lra|apply: pow_nonzero; lra]. Qed.
Lemma csqrt1 : csqrt 1 = 1.
Proof. rewrite C1E csqrt_R ?sqrt_1 //. lra. Qed.
Theorem identity_neutral n (t : triple n) : (tA t)^T = tA t -> then_ t (identity n) = Some t /\ then_ (identity n) t = Some t.
Proof.
case: t => A b c /=. rewrite -(submxK A) -(vsubmxK b). move: (ulsubmx A) (ursubmx A) (dlsubmx A) (drsubmx A) (usubmx b) (dsubmx b) => T W W' V o i.
rewrite tr_block_mx => /eq_block_mx [sT <- _ sV].
have dl : dsubmx (0 : 'cV[C]_(n + n)) = 0 by apply/matrixP => a a'; rewrite !mxE.
have du : usubmx (0 : 'cV[C]_(n + n)) = 0 by apply/matrixP => a a'; rewrite !mxE.
have inv_of m (Y Z : 'M[C]_m) : Y *m Z = 1%:M -> invmx Y = Z.
  move=> H. have U : Y \in unitmx by case/mulmx1_unit: H. by rewrite -[Z](mulKmx U) H mulmx1.
split; rewrite /then_ /= /X !block_mxKul !block_mxKur !block_mxKdl !block_mxKdr !col_mxKu !col_mxKd du dl.
- have Hd : (-1) ^+ n * \det (block_mx T (- 1%:M) (- 1%:M) 0) = 1 by rewrite (@det_M n T 0) ?mul0mx ?mulmx0 subr0 det1.
  have Ht : Cmod (\det (block_mx T (- 1%:M) (- 1%:M) 0)) = R1 by rewrite (@threshold_det n T 0) ?mul0mx ?mulmx0 subr0 det1 C1E Cmod_1.
  have Hs : (-1) ^+ n / \det (block_mx T (- 1%:M) (- 1%:M) 0) = 1.
    have := congr1 (fun z : C => z^-1) Hd. by rewrite /= invfM invr1 -exprVn invrN invr1.
  case: Rlt_dec => [H|H]; last by case: H; rewrite Ht; exact: thr_lt1.
  rewrite (inv_of _ _ (block_mx 0 (- 1%:M) (- 1%:M) (- T))); last first.
    rewrite mulmx_block ?(mul0mx, mul1mx, mulmx0, mulmx1, mulNmx, mulmxN, addr0, add0r, opprK) scalar_mx_block. by rewrite addNr.
  congr Some. rewrite Hs csqrt1 !tr_block_mx ?trmx0 ?trmx1 ?trmxK tr_col_mx ?trmx0 !mulmx_block !mul_block_col !mul_row_block !mul_row_col.
  rewrite ?(mul0mx, mul1mx, mulmx0, mulmx1, mulNmx, mulmxN, addr0, add0r, opprK, oppr0).
  rewrite opp_block_mx add_block_mx opp_col_mx add_col_mx block_mxKul block_mxKur block_mxKdl block_mxKdr col_mxKu col_mxKd mxE mulr0 C0E Cexp_0 -C1E !mulr1 ?mul1r ?(subr0, oppr0, sub0r, opprK, addr0, add0r).
  by [].
- have Hd : (-1) ^+ n * \det (block_mx 0 (- 1%:M) (- 1%:M) V) = 1 by rewrite (@det_M n 0 V) ?mul0mx ?mulmx0 subr0 det1.
  have Ht : Cmod (\det (block_mx 0 (- 1%:M) (- 1%:M) V)) = R1 by rewrite (@threshold_det n 0 V) ?mul0mx ?mulmx0 subr0 det1 C1E Cmod_1.
  have Hs : (-1) ^+ n / \det (block_mx 0 (- 1%:M) (- 1%:M) V) = 1.
    have := congr1 (fun z : C => z^-1) Hd. by rewrite /= invfM invr1 -exprVn invrN invr1.
  case: Rlt_dec => [H|H]; last by case: H; rewrite Ht; exact: thr_lt1.
  rewrite (inv_of _ _ (block_mx (- V) (- 1%:M) (- 1%:M) 0)); last first.
    rewrite mulmx_block ?(mul0mx, mul1mx, mulmx0, mulmx1, mulNmx, mulmxN, addr0, add0r, opprK) scalar_mx_block. by rewrite subrr oppr0.
  congr Some. rewrite Hs csqrt1 !tr_block_mx ?trmx0 ?trmx1 ?trmxK tr_col_mx ?trmx0 !mulmx_block !mul_block_col !mul_row_block !mul_row_col.
  rewrite ?(mul0mx, mul1mx, mulmx0, mulmx1, mulNmx, mulmxN, addr0, add0r, opprK, oppr0).
  rewrite opp_block_mx add_block_mx opp_col_mx add_col_mx block_mxKul block_mxKur block_mxKdl block_mxKdr col_mxKu col_mxKd mxE mulr0 C0E Cexp_0 -C1E !mulr1 ?mul1r ?(subr0, oppr0, sub0r, opprK, addr0, add0r).
  by [].
Qed.

(** ** squeezers, and the threshold *)
(** squeezing_gate_Abc (physics/triples.py:449-483) with phi = 0 on each of n modes; t = tanh r, s = sech r *)
Definition squeezers n (t s : R) : triple n :=
  Tri (block_mx (RtoC (Ropp t))%:M (RtoC s)%:M (RtoC s)%:M (RtoC t)%:M) 0 (RtoC (sqrt (pow s n))).
Lemma RtoC_exp x k : RtoC (pow x k) = RtoC x ^+ k.
Proof. elim: k => [|k IH]; first by rewrite expr0 C1E. by rewrite exprS -IH /= CmulE RtoC_mult. Qed.
Lemma conj_sc n x : conj ((RtoC x)%:M : 'M[C]_n) = (RtoC x)%:M.
Proof. by rewrite map_scalar_mx /= conjR. Qed.
Theorem squeezers_unitary n t s : Rplus (Rmult t t) (Rmult s s) = R1 -> Rlt R0 s -> unitary_triple (squeezers n t s).
Proof.
move=> H s0. have hs : RtoC s != 0 by apply/eqP => /RtoC_inj; lra.
have E : RtoC s * RtoC s + RtoC t * RtoC t = 1 by rewrite CaddE !CmulE -!RtoC_mult -RtoC_plus C1E Rplus_comm H.
split.
  rewrite /squeezers /=. have -> : block_mx (RtoC (Ropp t))%:M (RtoC s)%:M (RtoC s)%:M (RtoC t)%:M = block_mx (RtoC (Ropp t))%:M (RtoC s)%:M ((RtoC s)%:M)^T (RtoC t)%:M :> 'M[C]_(n + n) by rewrite tr_scalar_mx.
  apply/kernelP. split; rewrite ?tr_scalar_mx //.
  - by rewrite unitmxE det_scalar unitrX // unitfE.
  - by rewrite /adj !conj_sc tr_scalar_mx -!scalar_mxM -raddfD /= E.
  - by rewrite !conj_sc -!scalar_mxM -raddfD /= RtoC_opp -CoppE mulNr mulrC addNr raddf0.
split; first by rewrite map_mx0 mulmx0 oppr0.
have dl : dsubmx (0 : 'cV[C]_(n + n)) = 0 by apply/matrixP => a a'; rewrite !mxE.
rewrite /= dl mulmx0 mxE C0E /= exp_0 Rmult_1_r block_mxKur det_scalar -RtoC_exp Cmod_R. have p := pow_lt s n s0.
rewrite Rabs_pos_eq; last exact: Rlt_le. rewrite mulconj Cmod_R Rabs_pos_eq; last exact: sqrt_pos. by rewrite sqrt_sqrt //; exact: Rlt_le.
Qed.
Lemma squeezers_det n t s : Rplus (Rmult t t) (Rmult s s) = R1 -> Rlt R0 s -> detM (squeezers n t s) (inverse (squeezers n t s)) = pow (Rmult s s) n.
Proof.
move=> H s0. rewrite /detM /inverse /dual /squeezers /= /X !mulmx_block !mul0mx !mulmx0 !mul1mx !mulmx1 !add0r !addr0 map_block_mx block_mxKul block_mxKdr conj_sc.
rewrite -scalar_mxM -raddfB /= det_scalar. have -> : 1 - RtoC (Ropp t) * RtoC (Ropp t) = RtoC (Rmult s s).
  rewrite C1E CaddE CoppE CmulE -RtoC_mult -RtoC_opp -RtoC_plus. congr RtoC. lra.
rewrite -RtoC_exp Cmod_R Rabs_pos_eq //. apply: pow_le. nra.
Qed.
Definition q35 : R := Rdiv (IZR 3) (IZR 5).
Definition q45 : R := Rdiv (IZR 4) (IZR 5).
Lemma qq1 : Rplus (Rmult q45 q45) (Rmult q35 q35) = R1. Proof. rewrite /q45 /q35. field. Qed.
Lemma qq0 : Rlt R0 q35. Proof. rewrite /q35. lra. Qed.
(** the hypotheses of C50 and C53 are met: one squeezer with r = ln 3 *)
Theorem C50_example : unitary_triple (squeezers 1 q45 q35) /\ Rlt threshold (detM (squeezers 1 q45 q35) (inverse (squeezers 1 q45 q35))) /\
  then_ (squeezers 1 q45 q35) (inverse (squeezers 1 q45 q35)) = Some (identity 1).
Proof.
have u := squeezers_unitary 1 qq1 qq0. have Ht : Rlt threshold (detM (squeezers 1 q45 q35) (inverse (squeezers 1 q45 q35))).
  rewrite (squeezers_det 1 qq1 qq0) /q35 /= /threshold. apply: (Rlt_trans _ (Rinv (IZR 10))); last lra. apply: Rinv_lt_contravar; simpl; lra.
split=> //. split=> //. exact: C50_unitary.
Qed.
(** C50 fails below the threshold: for 28 modes squeezed by r = ln 3 (9.5 dB), u >> u.inverse() is not the identity: every entry is infinite *)
Theorem C50_refuted : exists n (t : triple n), unitary_triple t /\ then_ t (inverse t) = None.
Proof.
exists 28%N, (squeezers 28 q45 q35). have u := squeezers_unitary 28 qq1 qq0. split=> //.
have : Rle (detM (squeezers 28 q45 q35) (inverse (squeezers 28 q45 q35))) threshold.
  rewrite (squeezers_det 28 qq1 qq0) /q35 /threshold.
  have -> : Rmult (Rdiv (IZR 3) (IZR 5)) (Rdiv (IZR 3) (IZR 5)) = Rdiv (IZR 9) (IZR 25) by field. simpl. lra.
case: (u) => k _. case: (triple_blocks k) => T [W [V [o [i E]]]]. rewrite E. move: (tc _) => c. move: k. rewrite E /= => k {u E}.
rewrite /inverse dual_val /detM /= block_mxKul block_mxKdr => H.
rewrite /then_ /= block_mxKul block_mxKdr. case: Rlt_dec => // H'. exfalso. have := threshold_det T (conj T). rewrite /M => E. move: H'. rewrite E. exact: Rle_not_lt.
Qed.
