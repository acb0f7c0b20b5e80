(** Algebra of the contraction of two triples along a set of k pairs of variables, for any numbers of remaining variables: the general form of Compose.then_.
    Model of mrmustard/physics/gaussian_integrals.py:353-401 and 473-505; used for channels and states (Channels.v). *)
From Coq Require Import Reals Lra.
From Coquelicot Require Import Complex.
From mathcomp Require Import all_ssreflect all_algebra.
From Verif Require Import CMat Optimizer GateSym BargSym CExp Compose.
Set Implicit Arguments. Unset Strict Implicit. Unset Printing Implicit Defensive.
Import GRing.Theory.
Local Open Scope ring_scope.

(** a triple (A, b, c) whose variables are a output variables followed by i input variables *)
Record gtri a i := GTri { gA : 'M[C]_(a + i); gb : 'cV[C]_(a + i); gc : C }.
Arguments GTri {a i}.
(** t1 >> t2: the k outputs of t1 are contracted with the k inputs of t2; same formulas as Compose.then_ *)
Definition gthen k p q (t1 : gtri k p) (t2 : gtri q k) : option (gtri q p) :=
  let A1 := gA t1 in let A2 := gA t2 in
  let M := block_mx (ulsubmx A1) (- 1%:M) (- 1%:M) (drsubmx A2) in
  let D := block_mx (dlsubmx A1) 0 0 (ursubmx A2) in
  let R := block_mx (drsubmx A1) 0 0 (ulsubmx A2) in
  let bM := col_mx (usubmx (gb t1)) (dsubmx (gb t2)) in
  let bR := col_mx (dsubmx (gb t1)) (usubmx (gb t2)) in
  if Rlt_dec threshold (Cmod (\det M)) then
    let P := R - D *m invmx M *m D^T in let q := bR - D *m (invmx M *m bM) in
    Some (GTri (block_mx (drsubmx P) (dlsubmx P) (ursubmx P) (ulsubmx P)) (col_mx (dsubmx q) (usubmx q))
              (gc t1 * gc t2 * csqrt ((-1) ^+ k / \det M) * Cexp (- half * (bM^T *m invmx M *m bM) 0 0)))
  else None.
(** Compose.then_ is the square case *)
Definition of_triple n (t : triple n) : gtri n n := GTri (tA t) (tb t) (tc t).
Lemma gthen_then n (t1 t2 : triple n) : gthen (of_triple t1) (of_triple t2) = omap (@of_triple n) (then_ t1 t2).
Proof. rewrite /gthen /then_ /=. by case: Rlt_dec. Qed.

Section Val.
Variables (k p q : nat) (T1 V2 : 'M[C]_k) (W1 : 'M[C]_(k, p)) (V1 : 'M[C]_p) (T2 : 'M[C]_q) (W2 : 'M[C]_(q, k)).
Hypothesis sT1 : T1^T = T1.
Hypothesis sV2 : V2^T = V2.
Variable K : 'M[C]_k.
Hypothesis HK : (1%:M - T1 *m V2) *m K = 1%:M.
Let uK : 1%:M - T1 *m V2 \in unitmx. Proof. by case/mulmx1_unit: HK. Qed.
Lemma K_inv : K = invmx (1%:M - T1 *m V2).
Proof. by rewrite -[K](mulKmx uK) HK mulmx1. Qed.
Lemma KH : K *m (1%:M - T1 *m V2) = 1%:M. Proof. exact: mulmx1C. Qed.
Lemma LH : (1%:M - V2 *m T1) *m K^T = 1%:M.
Proof. move: (congr1 trmx KH). by rewrite trmx_mul trmx1 linearB /= trmx1 trmx_mul sT1 sV2. Qed.
Lemma gTL : T1 *m K^T = K *m T1.
Proof.
have E : T1 *m (1%:M - V2 *m T1) = (1%:M - T1 *m V2) *m T1 by rewrite mulmxBl mulmxBr mul1mx mulmx1 mulmxA.
have : K *m (T1 *m (1%:M - V2 *m T1)) *m K^T = K *m ((1%:M - T1 *m V2) *m T1) *m K^T by rewrite E.
by rewrite -[X in X = _]mulmxA -[X in K *m X]mulmxA LH mulmx1 mulmxA KH mul1mx => ->.
Qed.
Definition gM := block_mx T1 (- 1%:M) (- 1%:M) V2.
Lemma gM_inv : gM \in unitmx /\ invmx gM = - block_mx (V2 *m K) K^T K (T1 *m K^T).
Proof.
have HMN : gM *m - block_mx (V2 *m K) K^T K (T1 *m K^T) = 1%:M.
  rewrite mulmxN mulmx_block !mulNmx !mul1mx opp_block_mx !opprD !opprK scalar_mx_block.
  have E1 : K - T1 *m (V2 *m K) = 1%:M by rewrite mulmxA -{1}[K]mul1mx -mulmxBl.
  have E2 : K^T - V2 *m (T1 *m K^T) = 1%:M by rewrite mulmxA -{1}[K^T]mul1mx -mulmxBl LH.
  congr block_mx; [by rewrite addrC|by rewrite addNr|by rewrite subrr|by []].
have UM : gM \in unitmx by case/mulmx1_unit: HMN.
split=> //. by rewrite -[RHS](mulKmx UM) HMN mulmx1.
Qed.
Lemma gdet_M : (-1) ^+ k * \det gM = \det (1%:M - T1 *m V2).
Proof. exact: det_M. Qed.
Variables (o1 i2 : 'cV[C]_k) (i1 : 'cV[C]_p) (o2 : 'cV[C]_q) (c1 c2 : C).
Definition gQ : C := (o1^T *m (V2 *m K *m o1 + K^T *m i2) + i2^T *m (K *m o1 + T1 *m K^T *m i2)) 0 0.
Lemma gthen_val : Rlt threshold (Cmod (\det (1%:M - T1 *m V2))) ->
  gthen (GTri (block_mx T1 W1 W1^T V1) (col_mx o1 i1) c1) (GTri (block_mx T2 W2 W2^T V2) (col_mx o2 i2) c2) =
  Some (GTri (block_mx (T2 + W2 *m T1 *m K^T *m W2^T) (W2 *m K *m W1) (W2 *m K *m W1)^T (V1 + W1^T *m V2 *m K *m W1))
             (col_mx (o2 + W2 *m (K *m o1 + T1 *m K^T *m i2)) (i1 + W1^T *m (V2 *m K *m o1 + K^T *m i2)))
             (c1 * c2 * csqrt (\det (1%:M - T1 *m V2))^-1 * Cexp (half * gQ))).
Proof.
move=> Ht. rewrite /gthen /= !block_mxKul !block_mxKur !block_mxKdl !block_mxKdr !col_mxKu !col_mxKd -/gM.
case: Rlt_dec => [Hd|H]; last by case: H; move: Ht; rewrite -gdet_M CmulE Cmod_mult Cmod_sgn Rmult_1_l.
case: gM_inv => UM EM. rewrite EM. congr Some.
set P := _ - _ *m _^T. have EP : P = block_mx (V1 + W1^T *m V2 *m K *m W1) (W1^T *m K^T *m W2^T) (W2 *m K *m W1) (T2 + W2 *m T1 *m K^T *m W2^T).
  rewrite /P mulmxN mulNmx opprK tr_block_mx trmxK !trmx0 !mulmx_block ?mul0mx ?mulmx0 ?addr0 ?add0r ?mulmx0 ?addr0 ?add0r add_block_mx ?add0r ?mulmxA. by [].
rewrite EP block_mxKul block_mxKur block_mxKdl block_mxKdr.
set N := - block_mx _ _ _ _.
have Eq : N *m col_mx o1 i2 = - col_mx (V2 *m K *m o1 + K^T *m i2) (K *m o1 + T1 *m K^T *m i2) by rewrite /N mulNmx mul_block_col.
have -> : col_mx i1 o2 - block_mx W1^T 0 0 W2 *m (N *m col_mx o1 i2) = col_mx (i1 + W1^T *m (V2 *m K *m o1 + K^T *m i2)) (o2 + W2 *m (K *m o1 + T1 *m K^T *m i2)).
  rewrite Eq mulmxN opprK mul_block_col !mul0mx addr0 add0r add_col_mx. by [].
rewrite col_mxKu col_mxKd. have -> : (W1^T *m K^T *m W2^T) = (W2 *m K *m W1)^T by rewrite !trmx_mul mulmxA.
have -> : (-1) ^+ k / \det gM = (\det (1%:M - T1 *m V2))^-1.
  rewrite -gdet_M invfM. congr (_ * _). by rewrite -exprVn invrN invr1.
have -> : - half * ((col_mx o1 i2)^T *m N *m col_mx o1 i2) 0 0 = half * gQ.
  by rewrite -mulmxA Eq mulmxN mxE mulrNN tr_col_mx mul_row_col. 
by [].
Qed.
End Val.

(** change of basis: each group of variables is transformed by an invertible matrix, and the matrices of contracted groups are inverse transposes of each other *)
Definition change a i (u : 'M[C]_a) (v : 'M[C]_i) (t : gtri a i) : gtri a i :=
  GTri (block_mx u 0 0 v *m gA t *m (block_mx u 0 0 v)^T) (block_mx u 0 0 v *m gb t) (gc t).
Section Change.
Variables (k p q : nat) (u1 v2 : 'M[C]_k) (v1 : 'M[C]_p) (u2 : 'M[C]_q).
Hypothesis uv : u1 *m v2^T = 1%:M.
Let vu : v2^T *m u1 = 1%:M. Proof. exact: mulmx1C. Qed.
Lemma gthen_change t1 t2 : gthen (change u1 v1 t1) (change u2 v2 t2) = omap (change u2 v1) (gthen t1 t2).
Proof.
case: t1 t2 => A1 b1 c1 [A2 b2 c2]. rewrite /change /=.
rewrite -(submxK A1) -(submxK A2) -(vsubmxK b1) -(vsubmxK b2).
move: (ulsubmx A1) (ursubmx A1) (dlsubmx A1) (drsubmx A1) (ulsubmx A2) (ursubmx A2) (dlsubmx A2) (drsubmx A2) => a1 b1' d1 e1 a2 b2' d2 e2.
move: (usubmx b1) (dsubmx b1) (usubmx b2) (dsubmx b2) => o1 i1 o2 i2. clear A1 A2 b1 b2.
rewrite !tr_block_mx !trmx0 !mulmx_block !mul_block_col ?(mul0mx, mulmx0, addr0, add0r).
rewrite /gthen /= !block_mxKul !block_mxKur !block_mxKdl !block_mxKdr !col_mxKu !col_mxKd.
set U : 'M[C]_(k + k) := block_mx u1 0 0 v2. set Z : 'M[C]_(p + q) := block_mx v1 0 0 u2.
set M := block_mx a1 _ _ e2. set D := block_mx d1 0 0 b2'. set R := block_mx e1 0 0 a2. set bM := col_mx o1 i2. set bR := col_mx i1 o2.
have vu1 : v2 *m u1^T = 1%:M by move: (congr1 trmx uv); rewrite trmx_mul trmxK trmx1.
have EM : block_mx (u1 *m a1 *m u1^T) (- 1%:M) (- 1%:M) (v2 *m e2 *m v2^T) = U *m M *m U^T.
  by rewrite /U /M tr_block_mx !trmx0 !mulmx_block ?(mul0mx, mulmx0, addr0, add0r) !mulmxN !mulNmx !mulmx1 uv vu1.
have ED : block_mx (v1 *m d1 *m u1^T) 0 0 (u2 *m b2' *m v2^T) = Z *m D *m U^T.
  by rewrite /U /Z /D tr_block_mx !trmx0 !mulmx_block ?(mul0mx, mulmx0, addr0, add0r).
have ER : block_mx (v1 *m e1 *m v1^T) 0 0 (u2 *m a2 *m u2^T) = Z *m R *m Z^T.
  by rewrite /Z /R tr_block_mx !trmx0 !mulmx_block ?(mul0mx, mulmx0, addr0, add0r).
have EbM : col_mx (u1 *m o1) (v2 *m i2) = U *m bM by rewrite /U mul_block_col !mul0mx addr0 add0r.
have EbR : col_mx (v1 *m i1) (u2 *m o2) = Z *m bR by rewrite /Z mul_block_col !mul0mx addr0 add0r.
rewrite EM ED ER EbM EbR.
have dU : \det U * \det U = 1.
  rewrite {1 2}/U !det_ublock. have := congr1 determinant uv. rewrite det_mulmx det_tr det1 => E.
  by rewrite E mul1r.
have -> : \det (U *m M *m U^T) = \det M by rewrite !det_mulmx det_tr mulrC mulrA dU mul1r.
have UU : U \in unitmx.
  rewrite unitmxE. apply/unitrP. exists (\det U). by rewrite dU.
clearbody M D R bM bR. case: Rlt_dec => [Hd|H] //=. congr Some.
have UM : M \in unitmx.
  rewrite unitmxE unitfE. apply/eqP => E. move: Hd. rewrite E C0E Cmod_0 /threshold => Hd.
  have : Rlt R0 threshold. { rewrite /threshold. apply: Rinv_0_lt_compat. apply: pow_lt. lra. } rewrite /threshold. lra.
have EI : invmx (U *m M *m U^T) = (invmx U)^T *m invmx M *m invmx U.
  have UT : U^T \in unitmx by rewrite unitmx_tr.
  have H : (U *m M *m U^T) *m ((invmx U)^T *m invmx M *m invmx U) = 1%:M.
    rewrite trmx_inv. have -> : (U *m M *m U^T) *m (invmx U^T *m invmx M *m invmx U) = U *m (M *m (U^T *m invmx U^T) *m invmx M) *m invmx U by rewrite !mulmxA.
    by rewrite (mulmxV UT) mulmx1 (mulmxV UM) mulmx1 mulmxV.
  have UH : U *m M *m U^T \in unitmx by rewrite !unitmx_mul UU UM UT.
  by rewrite -[RHS](mulKmx UH) H mulmx1.
rewrite EI.
have E1 : Z *m R *m Z^T - Z *m D *m U^T *m ((invmx U)^T *m invmx M *m invmx U) *m (Z *m D *m U^T)^T = Z *m (R - D *m invmx M *m D^T) *m Z^T.
  rewrite !trmx_mul trmxK mulmxBr mulmxBl. congr (_ - _).
  have -> : Z *m D *m U^T *m ((invmx U)^T *m invmx M *m invmx U) *m (U *m (D^T *m Z^T)) = Z *m D *m (U^T *m (invmx U)^T) *m invmx M *m (invmx U *m U) *m D^T *m Z^T by rewrite !mulmxA.
  by rewrite -trmx_mul mulVmx // trmx1 !mulmx1 !mulmxA.
have E2 : Z *m bR - Z *m D *m U^T *m ((invmx U)^T *m invmx M *m invmx U *m (U *m bM)) = Z *m (bR - D *m (invmx M *m bM)).
  rewrite mulmxBr. congr (_ - _).
  have -> : Z *m D *m U^T *m ((invmx U)^T *m invmx M *m invmx U *m (U *m bM)) = Z *m D *m (U^T *m (invmx U)^T) *m invmx M *m (invmx U *m U) *m bM by rewrite !mulmxA.
  by rewrite -trmx_mul mulVmx // trmx1 !mulmx1 !mulmxA.
have E3 : (U *m bM)^T *m ((invmx U)^T *m invmx M *m invmx U) *m (U *m bM) = bM^T *m invmx M *m bM.
  have -> : (U *m bM)^T *m ((invmx U)^T *m invmx M *m invmx U) *m (U *m bM) = bM^T *m (U^T *m (invmx U)^T) *m invmx M *m (invmx U *m U) *m bM by rewrite trmx_mul !mulmxA.
  by rewrite -trmx_mul mulVmx // trmx1 !mulmx1.
rewrite E1 E2 E3. rewrite /change /=. move: (R - _) (bR - _) => P y.
rewrite -(submxK P) -(vsubmxK y). move: (ulsubmx P) (ursubmx P) (dlsubmx P) (drsubmx P) (usubmx y) (dsubmx y) => p1 p2 p3 p4 y1 y2.
rewrite /Z !tr_block_mx !trmx0 !mulmx_block !mul_block_col ?(mul0mx, mulmx0, addr0, add0r).
by rewrite !block_mxKul !block_mxKur !block_mxKdl !block_mxKdr !col_mxKu !col_mxKd ?mul0mx ?addr0 ?add0r.
Qed.
End Change.
