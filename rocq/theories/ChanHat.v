(** Gaussian channels in the quadrature basis: composition, algebraically.  Used by Channels.v; nothing here models code of /repo by itself. *)
From Coq Require Import Reals Lra.
From Coquelicot Require Import Complex.
From mathcomp Require Import all_ssreflect all_algebra.
From Verif Require Import CMat Optimizer GateSym BargSym CExp Compose ChanAlg.
Set Implicit Arguments. Unset Strict Implicit. Unset Printing Implicit Defensive.
Import GRing.Theory.
Local Open Scope ring_scope.
Delimit Scope R_scope with coqR.

Lemma sylvester a i (A : 'M[C]_(a, i)) (B : 'M[C]_(i, a)) : \det (1%:M + A *m B) = \det (1%:M + B *m A).
Proof.
have E1 : block_mx 1%:M A 0 1%:M *m block_mx (1%:M + A *m B) 0 (- B) 1%:M = block_mx 1%:M A (- B) 1%:M.
  by rewrite mulmx_block ?(mul0mx, mulmx0, mul1mx, mulmx1, addr0, add0r) mulmxN addrK.
have E2 : block_mx 1%:M 0 (- B) 1%:M *m block_mx 1%:M A 0 (1%:M + B *m A) = block_mx 1%:M A (- B) 1%:M.
  by rewrite mulmx_block ?(mul0mx, mulmx0, mul1mx, mulmx1, addr0, add0r) mulNmx [_ + (1%:M + _)]addrCA addNr addr0.
have := congr1 determinant E1. have := congr1 determinant E2. rewrite !det_mulmx !det_lblock !det_ublock !det1 !mul1r !mulr1 => -> ->. by [].
Qed.
(** the triple of the channel with matrices X, xi and displacement d in the quadrature basis *)
Definition hat a i (xi : 'M[C]_a) (X : 'M[C]_(a, i)) (d : 'cV[C]_a) : gtri a i :=
  GTri (block_mx (1%:M - invmx xi) (invmx xi *m X) (X^T *m invmx xi) (1%:M - X^T *m invmx xi *m X))
       (col_mx (invmx xi *m d) (- (X^T *m invmx xi *m d)))
       (Cexp (- half * (d^T *m invmx xi *m d) 0 0) / csqrt (\det xi)).
Lemma divC (a b z : C) : a <> RtoC 0 -> b <> RtoC 0 -> z = Cdiv (Cmult (Cmult a z) b) (Cmult a b).
Proof. move=> Na Nb. field. by split. Qed.
Lemma prodC (a b c x y z : C) : a <> RtoC 0 -> b <> RtoC 0 -> c <> RtoC 0 ->
  Cmult (Cmult (Cmult (Cmult x (Cinv a)) (Cmult y (Cinv b))) (Cmult (Cmult a b) (Cinv c))) z = Cmult (Cmult (Cmult x y) z) (Cinv c).
Proof. move=> Na Nb Nc. field. by split. Qed.
Lemma expC (h a b c : C) : Cmult (Copp h) c = Cplus (Cplus (Cmult (Copp h) a) (Cmult (Copp h) b)) (Cmult h (Cplus (Cplus a b) (Copp c))).
Proof. ring. Qed.
Section Two.
Variables (k p q : nat) (xi1 : 'M[C]_k) (X1 : 'M[C]_(k, p)) (d1 : 'cV[C]_k) (xi2 : 'M[C]_q) (X2 : 'M[C]_(q, k)) (d2 : 'cV[C]_q).
Hypothesis s1 : xi1^T = xi1.
Hypothesis s2 : xi2^T = xi2.
Let Z := xi1 - 1%:M.
Definition xi12 := xi2 + X2 *m (xi1 - 1%:M) *m X2^T.
Hypothesis u1 : xi1 \in unitmx.
Hypothesis u2 : xi2 \in unitmx.
Hypothesis u : xi12 \in unitmx.
Lemma s12 : xi12^T = xi12.
Proof. by rewrite /xi12 linearD /= s2 !trmx_mul trmxK linearB /= s1 trmx1 mulmxA. Qed.
Let t1 : (invmx xi1)^T = invmx xi1. Proof. by rewrite trmx_inv s1. Qed.
Let t2 : (invmx xi2)^T = invmx xi2. Proof. by rewrite trmx_inv s2. Qed.
Let t12 : (invmx xi12)^T = invmx xi12. Proof. by rewrite trmx_inv s12. Qed.
Definition E := X2^T *m invmx xi12 *m X2.
Definition sS := X2^T *m invmx xi2 *m X2.
Definition hK := (1%:M - (xi1 - 1%:M) *m E) *m xi1.
Lemma XZX : X2 *m (xi1 - 1%:M) *m X2^T = xi12 - xi2.
Proof. by rewrite /xi12 [RHS]addrC addKr. Qed.
Lemma F0 : invmx xi2 *m (xi12 - xi2) *m invmx xi12 = invmx xi2 - invmx xi12.
Proof. by rewrite mulmxBr mulVmx // mulmxBl mul1mx mulmxK. Qed.
Lemma F0' : invmx xi12 *m (xi12 - xi2) *m invmx xi2 = invmx xi2 - invmx xi12.
Proof. by rewrite mulmxBr mulVmx // mulmxBl mul1mx mulmxK. Qed.
Lemma F1 : sS *m (xi1 - 1%:M) *m E = sS - E.
Proof.
have -> : sS *m (xi1 - 1%:M) *m E = X2^T *m (invmx xi2 *m (X2 *m (xi1 - 1%:M) *m X2^T) *m invmx xi12) *m X2 by rewrite /sS /E !mulmxA.
by rewrite XZX F0 mulmxBr mulmxBl.
Qed.
Lemma F2 : invmx xi2 *m X2 *m (1%:M - (xi1 - 1%:M) *m E) = invmx xi12 *m X2.
Proof.
rewrite mulmxBr mulmx1. have -> : invmx xi2 *m X2 *m ((xi1 - 1%:M) *m E) = invmx xi2 *m (X2 *m (xi1 - 1%:M) *m X2^T) *m invmx xi12 *m X2 by rewrite /E !mulmxA.
by rewrite XZX F0 mulmxBl opprB addrC subrK.
Qed.
Lemma F3 : (1%:M - sS) *m (1%:M - (xi1 - 1%:M) *m E) = 1%:M - xi1 *m E.
Proof.
rewrite mulmxBl mul1mx mulmxBr mulmx1 mulmxA F1. rewrite mulmxBl mul1mx. move: (xi1 *m E) E sS => a b c.
by rewrite subKr opprB addrA addrAC addrK.
Qed.
Lemma F4 : xi1 *m (1%:M - (1%:M - invmx xi1) *m (1%:M - sS)) = 1%:M + (xi1 - 1%:M) *m sS.
Proof.
have H : xi1 *m (1%:M - invmx xi1) = xi1 - 1%:M by rewrite mulmxBr mulmx1 mulmxV.
rewrite [LHS]mulmxBr mulmx1 mulmxA H [(xi1 - 1%:M) *m (1%:M - _)]mulmxBr mulmx1 opprB. move: (_ *m sS) => b.
by rewrite opprB addrCA [xi1 + _]addrC subrK addrC.
Qed.
Lemma HK : (1%:M - (1%:M - invmx xi1) *m (1%:M - sS)) *m hK = 1%:M.
Proof.
have EE : (1%:M + (xi1 - 1%:M) *m sS) *m (1%:M - (xi1 - 1%:M) *m E) = 1%:M.
  rewrite mulmxDl mul1mx mulmxBr mulmx1. have -> : (xi1 - 1%:M) *m sS *m ((xi1 - 1%:M) *m E) = (xi1 - 1%:M) *m (sS *m (xi1 - 1%:M) *m E) by rewrite !mulmxA.
  rewrite F1 [_ *m (sS - E)]mulmxBr. move: (_ *m E) (_ *m sS) => a b. by rewrite subKr subrK.
move: EE. rewrite -F4 /hK. move: (1%:M - _ *m (_ - sS)) (1%:M - _ *m E) => x y EE.
have H : x *m y = invmx xi1 by rewrite -[LHS](mulKmx u1) [xi1 *m (x *m y)]mulmxA EE mulmx1.
by rewrite mulmxA H mulVmx.
Qed.
Lemma sSt : (1%:M - sS)^T = 1%:M - sS.
Proof. by rewrite linearB /= trmx1 /sS !trmx_mul trmxK t2 mulmxA. Qed.
Lemma Tt : (1%:M - invmx xi1)^T = 1%:M - invmx xi1.
Proof. by rewrite linearB /= trmx1 t1. Qed.
Lemma KT1 : hK *m (1%:M - invmx xi1) = (1%:M - (xi1 - 1%:M) *m E) *m (xi1 - 1%:M).
Proof. by rewrite /hK -mulmxA mulmxBr mulmx1 mulmxV. Qed.
Lemma W2K : invmx xi2 *m X2 *m hK = invmx xi12 *m X2 *m xi1.
Proof. by rewrite /hK mulmxA F2. Qed.
Lemma W2KT1 : invmx xi2 *m X2 *m (hK *m (1%:M - invmx xi1)) = invmx xi12 *m X2 *m (xi1 - 1%:M).
Proof. by rewrite KT1 mulmxA F2. Qed.
Lemma V2K : (1%:M - sS) *m hK = (1%:M - xi1 *m E) *m xi1.
Proof. by rewrite /hK mulmxA F3. Qed.
Lemma KTX : hK^T *m (X2^T *m invmx xi2) = xi1 *m (X2^T *m invmx xi12).
Proof.
have := congr1 trmx W2K. rewrite !trmx_mul t2 t12 s1 => ->. by [].
Qed.
Lemma det_hat : \det xi1 * \det (1%:M - (1%:M - invmx xi1) *m (1%:M - sS)) * \det xi2 = \det xi12.
Proof.
rewrite -det_mulmx F4 /sS. have -> : (xi1 - 1%:M) *m (X2^T *m invmx xi2 *m X2) = (xi1 - 1%:M) *m X2^T *m (invmx xi2 *m X2) by rewrite !mulmxA.
rewrite sylvester mulrC -det_mulmx mulmxDr mulmx1 -!mulmxA mulKVmx //. by rewrite /xi12 !mulmxA.
Qed.
Variables (r1 r2 r : R).
Hypothesis p1 : Rlt R0 r1 /\ \det xi1 = RtoC r1.
Hypothesis p2 : Rlt R0 r2 /\ \det xi2 = RtoC r2.
Hypothesis p12 : Rlt R0 r /\ \det xi12 = RtoC r.
Lemma det_hat' : \det (1%:M - (1%:M - invmx xi1) *m (1%:M - sS)) = RtoC (r / (r1 * r2))%coqR.
Proof.
case: p1 p2 p12 => P1 E1 [P2 E2] [P12 E12]. have := det_hat. rewrite E1 E2 E12. move: (\det _) => z H.
have -> : RtoC (r / (r1 * r2))%coqR = Cdiv (RtoC r) (Cmult (RtoC r1) (RtoC r2)) by rewrite RtoC_div ?RtoC_mult //; nra.
have N1 : RtoC r1 <> RtoC 0 by move/RtoC_inj; lra. have N2 : RtoC r2 <> RtoC 0 by move/RtoC_inj; lra.
rewrite -H !CmulE. exact: divC.
Qed.
Lemma hat_c (q1 q2 qq : C) : Cexp (- half * q1) / csqrt (RtoC r1) * (Cexp (- half * q2) / csqrt (RtoC r2)) * csqrt (RtoC (r / (r1 * r2)))^-1 * Cexp (half * (q1 + q2 - qq)) = Cexp (- half * qq) / csqrt (RtoC r).
Proof.
case: p1 p2 p12 => P1 E1 [P2 E2] [P12 E12].
have -> : Cexp (- half * qq) = Cexp (- half * q1) * Cexp (- half * q2) * Cexp (half * (q1 + q2 - qq)).
  rewrite !CmulE -!Cexp_add. congr Cexp. exact: expC.
have -> : (RtoC (r / (r1 * r2)))^-1 = RtoC (/ (r / (r1 * r2))).
  rewrite CinvE RtoC_inv //. have : (0 < r / (r1 * r2))%coqR by apply: Rdiv_lt_0_compat; nra. lra.
have Hi : (/ (r / (r1 * r2)) = r1 * r2 * / r)%coqR by field; nra.
rewrite Hi !csqrt_R; try lra; last first.
  apply: Rmult_le_pos; [nra|]. apply: Rlt_le. exact: Rinv_0_lt_compat.
rewrite !sqrt_mult; try nra; last by apply: Rlt_le; exact: Rinv_0_lt_compat.
have Q1 := sqrt_lt_R0 _ P1. have Q2 := sqrt_lt_R0 _ P2. have Q := sqrt_lt_R0 _ P12.
have -> : sqrt (/ r) = (/ sqrt r)%coqR by rewrite sqrt_inv.
move: (sqrt r1) (sqrt r2) (sqrt r) Q1 Q2 Q => a b c Q1 Q2 Q. rewrite !RtoC_mult RtoC_inv; last lra.
have N1 : RtoC a <> RtoC 0 by move/RtoC_inj; lra. have N2 : RtoC b <> RtoC 0 by move/RtoC_inj; lra. have N : RtoC c <> RtoC 0 by move/RtoC_inj; lra.
move: (Cexp _) (Cexp _) (Cexp _) => x y z. exact: prodC.
Qed.
Lemma hat_then : Rlt threshold (r / (r1 * r2))%coqR -> gthen (hat xi1 X1 d1) (hat xi2 X2 d2) = Some (hat xi12 (X2 *m X1) (X2 *m d1 + d2)).
Proof.
move=> Ht. rewrite /hat.
have -> : X1^T *m invmx xi1 = (invmx xi1 *m X1)^T by rewrite trmx_mul t1.
have -> : X2^T *m invmx xi2 = (invmx xi2 *m X2)^T by rewrite trmx_mul t2.
have ES : 1%:M - (invmx xi2 *m X2)^T *m X2 = 1%:M - sS by rewrite trmx_mul t2.
rewrite ES (gthen_val (K := hK) _ _ _ _ Tt sSt HK); last first.
  rewrite det_hat' Cmod_R Rabs_pos_eq //. apply: Rlt_le. apply: Rlt_trans Ht. rewrite /threshold. apply: Rinv_0_lt_compat. apply: pow_lt. lra.
have TT : (1%:M - invmx xi1) *m hK^T = hK *m (1%:M - invmx xi1) by rewrite (gTL Tt sSt HK).
congr Some.
have EW : invmx xi2 *m X2 *m hK *m (invmx xi1 *m X1) = invmx xi12 *m (X2 *m X1).
  by rewrite W2K -!mulmxA mulKVmx.
have ET : 1%:M - invmx xi2 + invmx xi2 *m X2 *m (1%:M - invmx xi1) *m hK^T *m (invmx xi2 *m X2)^T = 1%:M - invmx xi12.
  have -> : invmx xi2 *m X2 *m (1%:M - invmx xi1) *m hK^T = invmx xi2 *m X2 *m (hK *m (1%:M - invmx xi1)) by rewrite -TT !mulmxA.
  rewrite W2KT1 trmx_mul t2. have -> : invmx xi12 *m X2 *m (xi1 - 1%:M) *m (X2^T *m invmx xi2) = invmx xi12 *m (X2 *m (xi1 - 1%:M) *m X2^T) *m invmx xi2 by rewrite !mulmxA.
  by rewrite XZX F0' addrA subrK.
have EV : 1%:M - (invmx xi1 *m X1)^T *m X1 + (invmx xi1 *m X1)^T *m (1%:M - sS) *m hK *m (invmx xi1 *m X1) = 1%:M - (X2 *m X1)^T *m invmx xi12 *m (X2 *m X1).
  have -> : (invmx xi1 *m X1)^T *m (1%:M - sS) *m hK *m (invmx xi1 *m X1) = X1^T *m invmx xi1 *m ((1%:M - sS) *m hK) *m invmx xi1 *m X1 by rewrite trmx_mul t1 !mulmxA.
  rewrite V2K trmx_mul t1 trmx_mul. have -> : X1^T *m invmx xi1 *m ((1%:M - xi1 *m E) *m xi1) *m invmx xi1 *m X1 = X1^T *m invmx xi1 *m X1 - X1^T *m E *m X1.
    have -> : X1^T *m invmx xi1 *m ((1%:M - xi1 *m E) *m xi1) *m invmx xi1 *m X1 = X1^T *m (invmx xi1 *m (1%:M - xi1 *m E)) *m (xi1 *m invmx xi1) *m X1 by rewrite !mulmxA.
    by rewrite mulmxV // mulmx1 mulmxBr mulmx1 mulKmx // mulmxBr mulmxBl.
  by rewrite addrA subrK /E !mulmxA.
have Eo : invmx xi2 *m d2 + invmx xi2 *m X2 *m (hK *m (invmx xi1 *m d1) + (1%:M - invmx xi1) *m hK^T *m - ((invmx xi2 *m X2)^T *m d2)) = invmx xi12 *m (X2 *m d1 + d2).
  rewrite mulmxDr TT mulmxN mulmxN. have -> : invmx xi2 *m X2 *m (hK *m (invmx xi1 *m d1)) = invmx xi12 *m (X2 *m d1) by rewrite mulmxA W2K -!mulmxA mulKVmx.
  have -> : invmx xi2 *m X2 *m (hK *m (1%:M - invmx xi1) *m ((invmx xi2 *m X2)^T *m d2)) = invmx xi2 *m d2 - invmx xi12 *m d2.
    rewrite mulmxA W2KT1 trmx_mul t2. have -> : invmx xi12 *m X2 *m (xi1 - 1%:M) *m (X2^T *m invmx xi2 *m d2) = invmx xi12 *m (X2 *m (xi1 - 1%:M) *m X2^T) *m invmx xi2 *m d2 by rewrite !mulmxA.
    by rewrite XZX F0' mulmxBl.
  by rewrite addrCA subKr mulmxDr.
have Et : (1%:M - sS) *m hK *m (invmx xi1 *m d1) + hK^T *m - ((invmx xi2 *m X2)^T *m d2) = d1 - xi1 *m (X2^T *m (invmx xi12 *m (X2 *m d1 + d2))).
  have -> : (invmx xi2 *m X2)^T = X2^T *m invmx xi2 by rewrite trmx_mul t2.
  have -> : hK^T *m - (X2^T *m invmx xi2 *m d2) = - (xi1 *m (X2^T *m (invmx xi12 *m d2))) by rewrite mulmxN mulmxA KTX -!mulmxA.
  have -> : (1%:M - sS) *m hK *m (invmx xi1 *m d1) = d1 - xi1 *m (X2^T *m (invmx xi12 *m (X2 *m d1))).
    by rewrite V2K -mulmxA mulKVmx // mulmxBl mul1mx /E !mulmxA.
  by rewrite !mulmxDr opprD addrA.
have Ei : - ((invmx xi1 *m X1)^T *m d1) + (invmx xi1 *m X1)^T *m ((1%:M - sS) *m hK *m (invmx xi1 *m d1) + hK^T *m - ((invmx xi2 *m X2)^T *m d2)) = - ((X2 *m X1)^T *m invmx xi12 *m (X2 *m d1 + d2)).
  rewrite Et mulmxBr addrA addNr add0r. congr (- _). by rewrite !trmx_mul t1 -!mulmxA mulKmx.
rewrite ET EW EV Eo Ei.
have EWT : (invmx xi12 *m (X2 *m X1))^T = (X2 *m X1)^T *m invmx xi12 by rewrite trmx_mul t12.
rewrite EWT. congr GTri. rewrite det_hat'. have [_ E1] := p1. have [_ E2] := p2. have [_ E12] := p12. rewrite E1 E2 E12.
rewrite -(hat_c ((d1^T *m invmx xi1 *m d1) 0 0) ((d2^T *m invmx xi2 *m d2) 0 0)). congr (_ * Cexp (_ * _)).
rewrite /gQ Et.
set L := _ + _. have -> : L = d1^T *m invmx xi1 *m d1 + d2^T *m invmx xi2 *m d2 - (X2 *m d1 + d2)^T *m invmx xi12 *m (X2 *m d1 + d2).
  rewrite /L. have -> : (invmx xi1 *m d1)^T *m (d1 - xi1 *m (X2^T *m (invmx xi12 *m (X2 *m d1 + d2)))) = d1^T *m invmx xi1 *m d1 - (X2 *m d1)^T *m invmx xi12 *m (X2 *m d1 + d2).
    rewrite !trmx_mul t1 mulmxBr. congr (_ - _). by rewrite -!mulmxA mulKmx.
  have -> : (- ((invmx xi2 *m X2)^T *m d2))^T *m (hK *m (invmx xi1 *m d1) + (1%:M - invmx xi1) *m hK^T *m - ((invmx xi2 *m X2)^T *m d2)) = d2^T *m invmx xi2 *m d2 - d2^T *m invmx xi12 *m (X2 *m d1 + d2).
    rewrite linearN /= trmx_mul trmxK mulNmx -[d2^T *m invmx xi12 *m _]mulmxA -Eo [d2^T *m (_ + _)]mulmxDr opprD.
    move: (_ + (1%:M - invmx xi1) *m hK^T *m _) => y. by rewrite addrA -[d2^T *m invmx xi2 *m d2]mulmxA subrr add0r !mulmxA.
  have -> : (X2 *m d1 + d2)^T = (X2 *m d1)^T + d2^T by apply: linearD.
  move: (X2 *m d1 + d2) => y. by rewrite !mulmxDl opprD addrACA.
by rewrite mxE [X in X + _]mxE [X in _ + X]mxE.
Qed.
End Two.
