(** Gaussian channels: composition, action on Gaussian states, trace preservation, attenuators, amplifiers and random noise.  Claims C54, C55 and C42 (channels).
    Model of mrmustard/physics/triples.py:597-676 (attenuator_Abc, amplifier_Abc), 708-759 (gaussian_random_noise_Abc), 357-385 (thermal_state_Abc); everything else is in Channels.v. *)
From Coq Require Import Reals Lra.
From Coquelicot Require Import Complex.
From mathcomp Require Import all_ssreflect all_algebra.
From Verif Require Import CMat Optimizer GateSym BargSym CExp Compose ChanAlg ChanHat PosDef Channels.
Require Verif.Base.
Set Implicit Arguments. Unset Strict Implicit. Unset Printing Implicit Defensive.
Import GRing.Theory.
Local Open Scope ring_scope.
Delimit Scope R_scope with coqR.

(** ** the specification: a channel acts on (covariance, means) *)
(** a real symmetric positive semidefinite matrix *)
Definition noise n (Y : 'M[C]_n) : Prop := real Y /\ psd Y.
Lemma noise_sym n (Y : 'M[C]_n) : noise Y -> Y^T = Y.
Proof. case=> HR [HY _]. by rewrite -(adj_real HR). Qed.
Lemma noiseD n (A B : 'M[C]_n) : noise A -> noise B -> noise (A + B).
Proof. move=> [RA PA] [RB PB]. split; [exact: realD|exact: psdD]. Qed.
Lemma noise_sandwich n m (B : 'M[C]_(m, n)) A : real B -> noise A -> noise (B *m A *m B^T).
Proof. move=> HB [RA PA]. split; last by rewrite -(adj_real HB); exact: psd_conj. apply: realM; [exact: realM|exact: realT]. Qed.

Section Then.
Variables (k p q : nat) (xi1 : 'M[C]_k) (X1 : 'M[C]_(k, p)) (d1 : 'cV[C]_k) (xi2 : 'M[C]_q) (X2 : 'M[C]_(q, k)) (d2 : 'cV[C]_q).
Hypothesis s1 : xi1^T = xi1.
Hypothesis s2 : xi2^T = xi2.
Hypothesis P1 : pd xi1.
Hypothesis P2 : pd xi2.
Hypothesis P : pd (xi12 xi1 xi2 X2).
Lemma hat_then_if : gthen (hat xi1 X1 d1) (hat xi2 X2 d2) =
  if Rlt_dec threshold (Cmod (\det (xi12 xi1 xi2 X2)) / (Cmod (\det xi1) * Cmod (\det xi2)))%coqR then Some (hat (xi12 xi1 xi2 X2) (X2 *m X1) (X2 *m d1 + d2)) else None.
Proof.
case: (det_pos_ex P1) (det_pos_ex P2) (det_pos_ex P) => r1 [p1 e1] [r2 [p2 e2]] [r [p0 e]].
rewrite e1 e2 e !Cmod_R !Rabs_pos_eq; try lra.
case: Rlt_dec => [H|H].
  exact: (hat_then X1 d1 d2 s1 s2 (pd_unit P1) (pd_unit P2) (pd_unit P) (Logic.conj p1 e1) (Logic.conj p2 e2) (Logic.conj p0 e) H).
rewrite /gthen /hat /= !block_mxKul !block_mxKur !block_mxKdl !block_mxKdr. case: Rlt_dec => [Hd|//].
case: H. move: Hd.
have E := det_hat' (pd_unit P1) (pd_unit P2) (Logic.conj p1 e1) (Logic.conj p2 e2) (Logic.conj p0 e).
have Eg (z : C) : Cmod z = Cmod ((-1) ^+ k * z) by rewrite CmulE Cmod_mult Cmod_sgn Rmult_1_l.
rewrite Eg. have -> : 1%:M - X2^T *m invmx xi2 *m X2 = 1%:M - sS xi2 X2 by [].
rewrite det_M E Cmod_R Rabs_pos_eq //. apply: Rlt_le. apply: Rdiv_lt_0_compat; nra.
Qed.
End Then.

Lemma zmod_hh (V : zmodType) (h u w : V) : h + u + w - (h + h) = u + w - h.
Proof. rewrite -(addrA h u) [h + (u + w)]addrC. by rewrite opprD addrA addrK. Qed.
Lemma zmod_ab (V : zmodType) (a b c d e : V) : a + b + c + (d + e - b) = a + d + (e + c).
Proof. rewrite [a + b]addrC -(addrA b) [b + (a + c)]addrC -addrA [b + _]addrC subrK. by rewrite addrACA [c + e]addrC. Qed.
Section HB.
Variable hb : R.
Hypothesis hb0 : Rlt R0 hb.
Lemma xi_comp k p q (X1 : 'M[C]_(k, p)) (Y1 : 'M[C]_k) (X2 : 'M[C]_(q, k)) (Y2 : 'M[C]_q) :
  xi12 (xiM hb X1 Y1) (xiM hb X2 Y2) X2 = xiM hb (X2 *m X1) (X2 *m Y1 *m X2^T + Y2).
Proof.
rewrite /xi12 /xiM. have -> : half *: 1%:M + half *: (X1 *m X1^T) + RtoC (/ hb) *: Y1 - 1%:M = half *: (X1 *m X1^T) + RtoC (/ hb) *: Y1 - half *: 1%:M.
  have E1 : 1%:M = half *: 1%:M + half *: 1%:M :> 'M[C]_k by rewrite -scalerDl half1 scale1r. rewrite {2}E1. exact: zmod_hh.
rewrite mulmxBr mulmxBl mulmxDr mulmxDl -!scalemxAr -!scalemxAl mulmx1 trmx_mul scalerDr.
have -> : X2 *m (X1 *m X1^T) *m X2^T = X2 *m X1 *m (X1^T *m X2^T) by rewrite !mulmxA.
move: (half *: 1%:M) (half *: (X2 *m X2^T)) (RtoC (/ hb) *: Y2) (half *: (X2 *m X1 *m (X1^T *m X2^T))) (RtoC (/ hb) *: (X2 *m Y1 *m X2^T)) => a b c d e.
exact: zmod_ab.
Qed.
(** ** C54: ch1 >> ch2 for channels built by Channel.from_XY *)
(** the determinant the code compares with its threshold *)
Definition margin k p q (X1 : 'M[C]_(k, p)) (Y1 : 'M[C]_k) (X2 : 'M[C]_(q, k)) (Y2 : 'M[C]_q) : R :=
  (Cmod (\det (xiM hb (X2 *m X1) (X2 *m Y1 *m X2^T + Y2))) / (Cmod (\det (xiM hb X1 Y1)) * Cmod (\det (xiM hb X2 Y2))))%coqR.
Section Comp.
Variables (k p q : nat) (X1 : 'M[C]_(k, p)) (Y1 : 'M[C]_k) (X2 : 'M[C]_(q, k)) (Y2 : 'M[C]_q).
Hypothesis rX1 : real X1.
Hypothesis rX2 : real X2.
Hypothesis nY1 : noise Y1.
Hypothesis nY2 : noise Y2.
Lemma hat_comp d1 d2 : gthen (hat (xiM hb X1 Y1) X1 d1) (hat (xiM hb X2 Y2) X2 d2) =
  if Rlt_dec threshold (margin X1 Y1 X2 Y2) then Some (hat (xiM hb (X2 *m X1) (X2 *m Y1 *m X2^T + Y2)) (X2 *m X1) (X2 *m d1 + d2)) else None.
Proof.
have [_ N1] := nY1. have [_ N2] := nY2.
have P : pd (xi12 (xiM hb X1 Y1) (xiM hb X2 Y2) X2).
  rewrite xi_comp. apply: (xi_pd hb0); first exact: realM. have [] // := noiseD (noise_sandwich rX2 nY1) nY2.
by rewrite (hat_then_if X1 d1 d2 (xi_sym hb X1 (noise_sym nY1)) (xi_sym hb X2 (noise_sym nY2)) (xi_pd hb0 rX1 N1) (xi_pd hb0 rX2 N2) P) xi_comp.
Qed.
End Comp.
(** for all real X1, X2 and all real positive semidefinite Y1, Y2 of every size: composing the two channels gives the channel of (X2 X1, X2 Y1 X2^T + Y2), the classical rule, exactly when margin exceeds the
    threshold; otherwise the code returns infinities *)
Theorem C54 m (X1 Y1 X2 Y2 : 'M[C]_(m + m)) : real X1 -> real X2 -> noise Y1 -> noise Y2 ->
  exists t1 t2 t, XY_to_channel hb X1 Y1 DNone = Base.Ok t1 /\ XY_to_channel hb X2 Y2 DNone = Base.Ok t2 /\
    XY_to_channel hb (X2 *m X1) (X2 *m Y1 *m X2^T + Y2) DNone = Base.Ok t /\
    (cthen t1 t2 = Some t <-> Rlt threshold (margin X1 Y1 X2 Y2)) /\ (cthen t1 t2 = None <-> ~ Rlt threshold (margin X1 Y1 X2 Y2)).
Proof.
move=> rX1 rX2 nY1 nY2. have [_ N1] := nY1. have [_ N2] := nY2. have nY := noiseD (noise_sandwich rX2 nY1) nY2. have [_ N] := nY.
case: (XY_val0 hb0 (pd_unit (xi_pd hb0 rX1 N1))) => t1 [E1 G1]. case: (XY_val0 hb0 (pd_unit (xi_pd hb0 rX2 N2))) => t2 [E2 G2].
case: (XY_val0 hb0 (pd_unit (xi_pd hb0 (realM rX2 rX1) N))) => t [E G]. exists t1, t2, t. do 3 (split=> //).
rewrite /cthen G1 G2 (gthen_change _ _ (rrT m)) (hat_comp rX1 rX2 nY1 nY2) mulmx0 addr0.
case: Rlt_dec => [H|H] /=; last by split; split.
rewrite -G ungrp_grp. by split; split.
Qed.
(** ** C55: rho >> channel for Gaussian states given by covariance and means *)
Definition nil n : 'M[C]_(n, 0) := 0.
Lemma xi_nil n (Y : 'M[C]_n) : xiM hb (nil n) Y = half *: 1%:M + RtoC (/ hb) *: Y.
Proof. by rewrite /xiM /nil mul0mx scaler0 addr0. Qed.
Lemma real_nil n : real (nil n). Proof. exact: map_mx0. Qed.
Lemma real_invmx n (A : 'M[C]_n) : real A -> real (invmx A).
Proof. rewrite /real => H. by rewrite map_invmx H. Qed.
Lemma wig_val m (cov : 'M[C]_(m + m)) (means : 'cV[C]_(m + m)) : real cov -> real means -> xiM hb (nil (m + m)) cov \in unitmx ->
  exists s, wigner_to_bargmann_rho hb cov means = Base.Ok s /\
    st2g s = change (conj (rotmat m)) 1%:M (hat (xiM hb (nil (m + m)) cov) (nil (m + m)) (RtoC (/ sqrt hb) *: means)).
Proof.
move=> Hc Hm U. have Rx := xi_real hb (real_nil (m + m)) Hc. have Ri := real_invmx Rx. have Rd := realZ (/ sqrt hb) Hm.
rewrite /wigner_to_bargmann_rho. set d := RtoC (/ sqrt hb) *: means. rewrite -/d in Rd. clearbody d.
have [R1 R2] := rot_unitary m. have RT := rrT m.
have EQ : rotmat m *m (RtoC (/ hb) *: cov) *m adj (rotmat m) + half *: 1%:M = rotmat m *m xiM hb (nil (m + m)) cov *m adj (rotmat m).
  rewrite xi_nil mulmxDr mulmxDl addrC. congr (_ + _). by rewrite -scalemxAr -scalemxAl mulmx1 R2.
have ED : rotmat m *m (RtoC (/ hb) *: cov) *m adj (rotmat m) - half *: 1%:M = rotmat m *m xiM hb (nil (m + m)) cov *m adj (rotmat m) - 1%:M.
  rewrite -EQ. move: (rotmat m *m _ *m _) => w. have E1 : 1%:M = half *: 1%:M + half *: 1%:M :> 'M[C]_(m + m) by rewrite -scalerDl half1 scale1r.
  by rewrite {3}E1 opprD addrA addrK.
have Xr := Xrot m. have Xc := Xcrot m.
rewrite EQ ED. move: (xiM hb (nil (m + m)) cov) U Rx Ri => xi U Rx Ri. move: (rotmat m) R1 R2 RT Xr Xc {EQ ED} => r R1 R2 RT Xr Xc.
have EI : (r *m xi *m adj r) *m (r *m invmx xi *m adj r) = 1%:M.
  have -> : (r *m xi *m adj r) *m (r *m invmx xi *m adj r) = r *m (xi *m (adj r *m r) *m invmx xi) *m adj r by rewrite !mulmxA.
  by rewrite R1 mulmx1 mulmxV // mulmx1 R2.
have UQ : r *m xi *m adj r \in unitmx by case/mulmx1_unit: EI.
have EV : invmx (r *m xi *m adj r) = r *m invmx xi *m adj r by rewrite -[RHS](mulKmx UQ) EI mulmx1.
rewrite /inv UQ /=. eexists; split; first reflexivity. rewrite /st2g /= /change /hat /=.
have EA : X m *m (invmx (r *m xi *m adj r) *m (r *m xi *m adj r - 1%:M)) = conj r *m (1%:M - invmx xi) *m (conj r)^T.
  rewrite mulmxBr mulVmx // mulmx1 EV. have -> : (conj r)^T = adj r by [].
  rewrite !mulmxBr mulmxBl !mulmx1 -Xr !mulmxA. congr (_ - _). by rewrite -mulmxA R2 mulmx1.
congr GTri.
- rewrite EA tr_block_mx !trmx0 trmx1 /nil !mulmx_block ?(mul0mx, mulmx0, trmx0, addr0, add0r, mul1mx, mulmx1). congr block_mx. exact/esym/flatmx0.
- rewrite mul_block_col !mul0mx ?addr0 ?add0r mul1mx. congr col_mx; last exact/esym/flatmx0.
  rewrite EV !conj_mul Ri Rd -!mulmxA. have -> : conj (adj r) *m (conj r *m d) = d by rewrite [LHS]mulmxA /adj -conj_tr conjmxK -(trmxK (conj r)) -trmx_mul -/(adj r) R1 trmx1 mul1mx.
  by [].
- congr (Cexp (- half * _) / csqrt _).
  + congr (fun_of_matrix _ 0 0). rewrite EV adj_prod (adj_real Rd).
    have -> : d^T *m adj r *m (r *m invmx xi *m adj r *m (r *m d)) = d^T *m (adj r *m r) *m invmx xi *m (adj r *m r) *m d by rewrite !mulmxA. by rewrite R1 !mulmx1.
  + rewrite !det_mulmx mulrC mulrA -det_mulmx R1 det1 mul1r. by [].
Qed.
Lemma st2g_g2st a (t : gtri (a + a) 0) : st2g (g2st t) = t.
Proof.
case: t => A b c. rewrite /st2g /g2st /=. congr GTri.
- rewrite -[RHS]submxK. congr block_mx; [exact/esym/thinmx0|exact/esym/flatmx0|exact/esym/flatmx0].
- rewrite -[RHS]vsubmxK. congr col_mx. exact/esym/flatmx0.
Qed.
Lemma g2st_st2g a (s : stri a) : g2st (st2g s) = s.
Proof. case: s => A b c. by rewrite /st2g /g2st /= block_mxKul col_mxKu. Qed.
Theorem C55 m (X Y cov : 'M[C]_(m + m)) (means : 'cV[C]_(m + m)) : real X -> noise Y -> noise cov -> real means ->
  exists s t s', wigner_to_bargmann_rho hb cov means = Base.Ok s /\ XY_to_channel hb X Y DNone = Base.Ok t /\
    wigner_to_bargmann_rho hb (X *m cov *m X^T + Y) (X *m means) = Base.Ok s' /\
    (sthen s t = Some s' <-> Rlt threshold (margin (nil (m + m)) cov X Y)) /\ (sthen s t = None <-> ~ Rlt threshold (margin (nil (m + m)) cov X Y)).
Proof.
move=> rX nY nc rm. have [rY N] := nY. have [rc Nc] := nc. have nY' := noiseD (noise_sandwich rX nc) nY. have [rY' N'] := nY'.
case: (wig_val rc rm (pd_unit (xi_pd hb0 (real_nil _) Nc))) => s [Es Gs].
case: (XY_val0 hb0 (pd_unit (xi_pd hb0 rX N))) => t [Et Gt].
case: (wig_val rY' (realM rX rm) (pd_unit (xi_pd hb0 (real_nil _) N'))) => s' [Es' Gs'].
exists s, t, s'. do 3 (split=> //).
rewrite /sthen Gs Gt (gthen_change _ _ (rrT m)) (hat_comp (real_nil _) rX nc nY) addr0.
have -> : X *m nil (m + m) = nil (m + m) by exact: thinmx0.
rewrite -scalemxAr. case: Rlt_dec => [H|H] /=; last by split; split.
rewrite -Gs' g2st_st2g. by split; split.
Qed.
(** ** trace preservation *)
Lemma expK (h x : C) : Cplus (Cmult (Copp h) x) (Cmult (Copp h) (Copp x)) = RtoC 0. Proof. ring. Qed.
Lemma canC (e1 e2 s : C) : s <> RtoC 0 -> Cmult e1 e2 = RtoC 1 -> Cmult (Cmult (Cmult e1 (Cinv s)) s) e2 = RtoC 1.
Proof. move=> Ns E. have -> : Cmult (Cmult (Cmult e1 (Cinv s)) s) e2 = Cmult e1 e2 by field. by []. Qed.
Lemma gtrace_hat m i (xi : 'M[C]_(m + m)) (Xc : 'M[C]_(m + m, i)) d w (v : 'M[C]_i) : xi^T = xi -> pd xi ->
  gtrace (change (conj (rotmat m)) v (GTri (gA (hat xi Xc d)) (col_mx (invmx xi *m d) w) (gc (hat xi Xc d)))) =
  if Rlt_dec threshold (/ Cmod (\det xi))%coqR then Some (v *m v^T, v *m (w + Xc^T *m invmx xi *m d), 1) else None.
Proof.
move=> s P. have U := pd_unit P. have t1 : (invmx xi)^T = invmx xi by rewrite trmx_inv s.
have [R1 R2] := rot_unitary m. have RT := rrT m. have Xr := Xrot m.
rewrite /gtrace /change /hat /=. rewrite tr_block_mx !trmx0 !mulmx_block ?(mul0mx, mulmx0, addr0, add0r) block_mxKul block_mxKur block_mxKdl block_mxKdr mul_block_col ?(mul0mx, addr0, add0r) col_mxKu col_mxKd.
move: (rotmat m) R1 R2 RT Xr => r R1 R2 RT Xr. have -> : (conj r)^T = adj r by [].
have EXm : X m = conj r *m adj r by rewrite -Xr -mulmxA R2 mulmx1.
have EM : conj r *m (1%:M - invmx xi) *m adj r - X m = - (conj r *m invmx xi *m adj r) by rewrite mulmxBr mulmxBl mulmx1 EXm addrAC subrr add0r.
have rc : r^T *m conj r = 1%:M by exact: mulmx1C.
have EI : - (conj r *m invmx xi *m adj r) *m - (r *m xi *m r^T) = 1%:M.
  rewrite mulmxN mulNmx opprK. have -> : conj r *m invmx xi *m adj r *m (r *m xi *m r^T) = conj r *m (invmx xi *m (adj r *m r) *m xi) *m r^T by rewrite !mulmxA.
  by rewrite R1 mulmx1 mulVmx // mulmx1.
have UM : - (conj r *m invmx xi *m adj r) \in unitmx by case/mulmx1_unit: EI.
have EV : invmx (- (conj r *m invmx xi *m adj r)) = - (r *m xi *m r^T) by rewrite -[RHS](mulKmx UM) EI mulmx1.
rewrite EM EV.
have dM : \det (- (conj r *m invmx xi *m adj r)) = (-1) ^+ m / \det xi.
  rewrite -scaleN1r detZ exprD -expr2 sqrr_sign mul1r !det_mulmx mulrAC -det_mulmx -EXm det_X det_inv. by [].
case: (det_pos_ex P) => q [q0 eq]. rewrite dM eq.
have Nq : RtoC q <> RtoC 0 by move/RtoC_inj; lra.
have -> : Cmod ((-1) ^+ m / RtoC q) = (/ Cmod (RtoC q))%coqR by rewrite CmulE Cmod_mult Cmod_sgn Rmult_1_l CinvE Cmod_inv.
case: Rlt_dec => // H. congr Some.
have E1 : v *m (1%:M - Xc^T *m invmx xi *m Xc) *m v^T - v *m (Xc^T *m invmx xi) *m adj r *m - (r *m xi *m r^T) *m (conj r *m (invmx xi *m Xc) *m v^T) = v *m v^T.
  rewrite mulmxN mulNmx opprK.
  have -> : v *m (Xc^T *m invmx xi) *m adj r *m (r *m xi *m r^T) *m (conj r *m (invmx xi *m Xc) *m v^T) = v *m (Xc^T *m invmx xi *m (adj r *m r) *m xi *m (r^T *m conj r) *m (invmx xi *m Xc)) *m v^T by rewrite !mulmxA.
  rewrite R1 rc !mulmx1 -mulmxDl -mulmxDr. congr (_ *m _). have -> : Xc^T *m invmx xi *m xi *m (invmx xi *m Xc) = Xc^T *m invmx xi *m Xc by rewrite -!mulmxA mulKVmx //.
  by rewrite subrK mulmx1.
have E0 : - (r *m xi *m r^T) *m (conj r *m (invmx xi *m d)) = - (r *m d).
  rewrite mulNmx. congr (- _). have -> : r *m xi *m r^T *m (conj r *m (invmx xi *m d)) = r *m (xi *m (r^T *m conj r) *m (invmx xi *m d)) by rewrite !mulmxA. by rewrite rc mulmx1 mulKVmx.
have E2 : v *m w - v *m (Xc^T *m invmx xi) *m adj r *m (- (r *m xi *m r^T) *m (conj r *m (invmx xi *m d))) = v *m (w + Xc^T *m invmx xi *m d).
  rewrite E0 mulmxN opprK mulmxDr. congr (_ + _). have -> : v *m (Xc^T *m invmx xi) *m adj r *m (r *m d) = v *m (Xc^T *m invmx xi *m (adj r *m r) *m d) by rewrite !mulmxA. by rewrite R1 mulmx1.
have E3 : (conj r *m (invmx xi *m d))^T *m - (r *m xi *m r^T) *m (conj r *m (invmx xi *m d)) = - (d^T *m invmx xi *m d).
  rewrite -mulmxA E0 mulmxN !trmx_mul t1. congr (- _). have -> : d^T *m invmx xi *m (conj r)^T *m (r *m d) = d^T *m invmx xi *m (adj r *m r) *m d by rewrite !mulmxA. by rewrite R1 mulmx1.
rewrite E1 E2 E3. congr (_, _, _).
have -> : (-1) ^+ m / ((-1) ^+ m / RtoC q) = RtoC q by rewrite invfM invrK mulrA divff ?mul1r // signr_eq0.
rewrite csqrt_R; last lra. have Ns : RtoC (sqrt q) <> RtoC 0 by move/RtoC_inj; have := sqrt_lt_R0 _ q0; lra.
rewrite [(- (d^T *m invmx xi *m d)) 0 0]mxE. move: ((d^T *m invmx xi *m d) 0 0) => x. apply: canC => //. by rewrite -Cexp_add expK Cexp_0.
Qed.
(** TraceOut after the channel is TraceOut: the traced channel is the kernel (A, b, c) = (X, 0, 1) of the trace, for all real X and real positive semidefinite Y, unless det M is below the threshold *)
Theorem C55_trace_preserving m (X Y : 'M[C]_(m + m)) : real X -> noise Y ->
  exists t, XY_to_channel hb X Y DNone = Base.Ok t /\
    gtrace (grp t) = if Rlt_dec threshold (/ Cmod (\det (xiM hb X Y)))%coqR then Some (BargSym.X m, 0, 1) else None.
Proof.
move=> rX nY. have [rY N] := nY. have P := xi_pd hb0 rX N. case: (XY_val0 hb0 (pd_unit P)) => t [E G]. exists t. split=> //.
rewrite G. have -> : hat (xiM hb X Y) X 0 = GTri (gA (hat (xiM hb X Y) X 0)) (col_mx (invmx (xiM hb X Y) *m 0) (- (X^T *m invmx (xiM hb X Y) *m 0))) (gc (hat (xiM hb X Y) X 0)) by [].
rewrite (gtrace_hat X 0 _ _ (xi_sym hb X (noise_sym nY)) P) !mulmx0 addNr mulmx0.
have -> : rotmat m *m (rotmat m)^T = BargSym.X m; last by [].
by rewrite -{1}Xcrot -mulmxA rrT mulmx1.
Qed.
(** the probability of every Gaussian state is 1, unless det M is below the threshold *)
Theorem C55_probability m (cov : 'M[C]_(m + m)) (means : 'cV[C]_(m + m)) : noise cov -> real means ->
  exists s, wigner_to_bargmann_rho hb cov means = Base.Ok s /\
    omap (fun z => z.2) (gtrace (st2g s)) = if Rlt_dec threshold (/ Cmod (\det (half *: 1%:M + RtoC (/ hb) *: cov)))%coqR then Some 1 else None.
Proof.
move=> nc rm. have [rc Nc] := nc. have P := xi_pd hb0 (real_nil _) Nc. case: (wig_val rc rm (pd_unit P)) => s [E G]. exists s. split=> //.
rewrite G. set d := RtoC _ *: means. rewrite [hat _ _ d]/hat -/(hat _ _ d).
have -> : hat (xiM hb (nil (m + m)) cov) (nil (m + m)) d = GTri (gA (hat (xiM hb (nil (m + m)) cov) (nil (m + m)) d)) (col_mx (invmx (xiM hb (nil (m + m)) cov) *m d) (- ((nil (m + m))^T *m invmx (xiM hb (nil (m + m)) cov) *m d))) (gc (hat (xiM hb (nil (m + m)) cov) (nil (m + m)) d)) by [].
rewrite (gtrace_hat _ _ _ _ (xi_sym hb _ (noise_sym nc)) P) xi_nil. by case: Rlt_dec.
Qed.
(** with a displacement: a NumPy array raises, a list gives a channel whose trace is the kernel of exp(2 d.. ), not of the trace *)
Theorem C55_displaced m (X Y : 'M[C]_(m + m)) (d : 'cV[C]_(m + m)) : real X -> noise Y ->
  XY_to_channel hb X Y (DArray d) = Base.Err Base.ValueError /\
  exists t, XY_to_channel hb X Y (DList d) = Base.Ok t /\
    (Rlt threshold (/ Cmod (\det (xiM hb X Y)))%coqR ->
     exists b, gtrace (grp t) = Some (BargSym.X m, b, 1) /\ (b = 0 <-> X^T *m invmx (xiM hb X Y) *m d = 0)).
Proof.
move=> rX nY. split=> //. have [rY N] := nY. have P := xi_pd hb0 rX N. case: (XY_val hb0 d (pd_unit P)) => t [E G]. exists t. split=> // H.
rewrite G /lhat (gtrace_hat X _ _ _ (xi_sym hb X (noise_sym nY)) P). case: Rlt_dec => [H1|//].
have -> : rotmat m *m (rotmat m)^T = BargSym.X m by rewrite -{1}Xcrot -mulmxA rrT mulmx1.
eexists; split; first reflexivity. rewrite -!scalemxAr. set k := RtoC _. set w := X^T *m _ *m d. 
have -> : k *: w + k *: w = (k + k) *: w by rewrite scalerDl.
have Nk : k + k <> 0.
  rewrite /k CaddE -RtoC_plus C0E => /RtoC_inj. have := Rinv_0_lt_compat _ (sqrt_lt_R0 _ hb0). lra.
have [R1 _] := rot_unitary m. split=> [Hb|->]; last by rewrite scaler0 mulmx0.
have : adj (rotmat m) *m (rotmat m *m ((k + k) *: w)) = 0 by rewrite Hb mulmx0.
rewrite mulmxA R1 mul1mx => /eqP. rewrite scaler_eq0. case/orP=> /eqP //.
Qed.
(** ** C42, channels *)
(** 'Found transmissivity ...': ValueError *)
(** triples.py:597-636; the argument is real *)
Definition attenuator (eta : R) : Base.result (ctri 1 1) :=
  if Rlt_dec R1 eta then Base.Err Base.ValueError else if Rlt_dec eta R0 then Base.Err Base.ValueError else
  let e1 := (RtoC (sqrt eta))%:M : 'M[C]_1 in let e2 := (RtoC (R1 - eta)%coqR)%:M : 'M[C]_1 in
  Base.Ok (CTri (block_mx (block_mx 0 e1 e1 0) (block_mx 0 0 0 e2) (block_mx 0 0 0 e2) (block_mx 0 e1 e1 0)) 0 1).
(** triples.py:639-676 *)
Definition amplifier (g : R) : Base.result (ctri 1 1) :=
  if Rlt_dec g R1 then Base.Err Base.ValueError else
  let g1 := (RtoC (/ sqrt g))%:M : 'M[C]_1 in let g2 := (RtoC (R1 - / g)%coqR)%:M : 'M[C]_1 in
  Base.Ok (CTri (block_mx (block_mx 0 g1 g1 0) (block_mx g2 0 0 0) (block_mx g2 0 0 0) (block_mx 0 g1 g1 0)) 0 (RtoC (/ g))).
(** triples.py:708-759 *)
Definition random_noise m (Y : 'M[C]_(m + m)) : Base.result (ctri m m) :=
  let xi := 1%:M + RtoC (/ hb) *: Y in
  Base.bind (inv xi) (fun V =>
  Base.Ok (CTri (BargSym.X (m + m) *m Rlib m *m block_mx (1%:M - V) V V (1%:M - V) *m adj (Rlib m)) 0 (1 / csqrt (\det xi)))).
(** scalar channels *)
Definition sc (r : R) : 'M[C]_(1 + 1) := (RtoC r)%:M.
Lemma sc_real r : real (sc r). Proof. by rewrite /real /sc map_scalar_mx /= conjR. Qed.
Lemma sc_noise r : Rle R0 r -> noise (sc r).
Proof. move=> H. split; first exact: sc_real. rewrite /sc -scalemx1. apply: psdZ => //. apply: pd_psd. exact: pd1. Qed.
Lemma sc_mul a b : sc a *m sc b = sc (a * b). Proof. by rewrite /sc -scalar_mxM CmulE -RtoC_mult. Qed.
Lemma sc_add a b : sc a + sc b = sc (a + b). Proof. rewrite /sc -raddfD /=. congr (_%:M). by rewrite CaddE -RtoC_plus. Qed.
Lemma sc_opp a : - sc a = sc (- a). Proof. rewrite /sc -raddfN /=. congr (_%:M). by rewrite CoppE -RtoC_opp. Qed.
Lemma sc_tr a : (sc a)^T = sc a. Proof. exact: tr_scalar_mx. Qed.
Lemma sc_scale a b : RtoC a *: sc b = sc (a * b). Proof. by rewrite /sc scale_scalar_mx CmulE -RtoC_mult. Qed.
Lemma sc_one : 1%:M = sc 1. Proof. by []. Qed.
Lemma half_R : half = RtoC (/ 2). Proof. by []. Qed.
Lemma xi_sc x y : xiM hb (sc x) (sc y) = sc (/ 2 + / 2 * (x * x) + / hb * y)%coqR.
Proof. rewrite /xiM sc_one half_R sc_tr sc_mul !sc_scale !sc_add Rmult_1_r. by []. Qed.
Lemma det_sc r : \det (sc r) = RtoC (r * r). Proof. by rewrite /sc det_scalar expr2 CmulE -RtoC_mult. Qed.
Lemma inv_sc r : r <> R0 -> invmx (sc r) = sc (/ r).
Proof.
move=> H. have E : sc r *m sc (/ r) = 1%:M by rewrite sc_mul Rinv_r. have U : sc r \in unitmx by case/mulmx1_unit: E. by rewrite -[RHS](mulKmx U) E mulmx1.
Qed.
Lemma sc_block r : sc r = block_mx (RtoC r)%:M 0 0 (RtoC r)%:M. Proof. exact: scalar_mx_block. Qed.
Lemma X_sc r : RtoC r *: BargSym.X 1 = block_mx 0 (RtoC r)%:M (RtoC r)%:M 0.
Proof. by rewrite /BargSym.X scale_block_mx !scaler0 scalemx1. Qed.
(** every channel with scalar X and Y of one mode *)
Lemma XY_sc x y z : (z = / 2 + / 2 * (x * x) + / hb * y)%coqR -> Rlt R0 z ->
  XY_to_channel hb (sc x) (sc y) DNone =
  Base.Ok (CTri (block_mx (block_mx 0 (RtoC (x / z))%:M (RtoC (x / z))%:M 0) (block_mx (RtoC (1 - / z))%:M 0 0 (RtoC (1 - x * x / z))%:M)
                          (block_mx (RtoC (1 - / z))%:M 0 0 (RtoC (1 - x * x / z))%:M) (block_mx 0 (RtoC (x / z))%:M (RtoC (x / z))%:M 0)) 0 (RtoC (/ z))).
Proof.
move=> Ez z0. have Exi : xiM hb (sc x) (sc y) = sc z by rewrite xi_sc Ez.
have Nz : z <> R0 by lra. have U : xiM hb (sc x) (sc y) \in unitmx.
  rewrite Exi unitmxE det_sc unitfE. apply/eqP. rewrite C0E => /RtoC_inj. nra.
case: (XY_val0 hb0 U) => t [-> G]. congr Base.Ok. rewrite -(ungrp_grp t) G Exi /ungrp /change /hat /= (inv_sc Nz).
have RT := rrT 1. have [R1 R2] := rot_unitary 1. have Xr := Xrot 1. have Xc := Xcrot 1.
have TO : conj (rotmat 1) *m (1%:M - sc (/ z)) *m (conj (rotmat 1))^T = RtoC (1 - / z) *: BargSym.X 1.
  have -> : 1%:M - sc (/ z) = RtoC (1 - / z) *: 1%:M.
    rewrite sc_one sc_scale. rewrite sc_opp sc_add. congr sc. ring.
  by rewrite -scalemxAr -scalemxAl mulmx1 -/(adj (rotmat 1)) -{1}Xr -mulmxA R2 mulmx1.
have TW : conj (rotmat 1) *m (sc (/ z) *m sc x) *m (rotmat 1)^T = sc (x / z).
  rewrite sc_mul /sc mul_mx_scalar -scalemxAl RT scalemx1. congr (_%:M). congr RtoC. rewrite /Rdiv. ring.
have TW' : rotmat 1 *m ((sc x)^T *m sc (/ z)) *m (conj (rotmat 1))^T = sc (x / z).
  rewrite sc_tr sc_mul /sc mul_mx_scalar -scalemxAl -/(adj (rotmat 1)) R2 scalemx1. by [].
have TV : rotmat 1 *m (1%:M - (sc x)^T *m sc (/ z) *m sc x) *m (rotmat 1)^T = RtoC (1 - x * x / z) *: BargSym.X 1.
  have -> : 1%:M - (sc x)^T *m sc (/ z) *m sc x = RtoC (1 - x * x / z) *: 1%:M.
    rewrite sc_tr !sc_mul sc_one sc_scale. set w := (x * / z * x)%coqR. rewrite sc_opp sc_add. congr sc. rewrite /w /Rdiv. ring.
  by rewrite -scalemxAr -scalemxAl mulmx1 -{1}Xc -mulmxA RT mulmx1.
congr CTri.
- rewrite tr_block_mx !trmx0 !mulmx_block ?(mul0mx, mulmx0, addr0, add0r) TO TW TW' TV !X_sc sc_block.
  by rewrite /ungroup ?(block_mxKul, block_mxKur, block_mxKdl, block_mxKdr).
- by rewrite !mulmx0 oppr0 col_mx0 mulmx0 /ungroupv -!col_mx0 ?(col_mxKu, col_mxKd).
- rewrite det_sc !mulmx0 mxE mulr0 CmulE. have -> : Cexp 0 = RtoC 1 by exact: Cexp_0. rewrite csqrt_R; last nra. rewrite sqrt_square; last lra.
  by rewrite Cmult_1_l RtoC_inv.
Qed.
Lemma if_not T (x y : T) a b : ~ Rlt a b -> (if Rlt_dec a b then x else y) = y. Proof. move=> H. by case: (Rlt_dec a b). Qed.
Lemma if_yes T (x y : T) a b : Rlt a b -> (if Rlt_dec a b then x else y) = x. Proof. move=> H. by case: (Rlt_dec a b). Qed.
Lemma hbhb u : (/ hb * (hb * u) = u)%coqR. Proof. field. lra. Qed.
(** Attenuator(eta) is the channel of X = sqrt(eta), Y = (1 - eta) hbar / 2 *)
Theorem C42_attenuator_XY eta : Rle R0 eta -> Rle eta R1 -> attenuator eta = XY_to_channel hb (sc (sqrt eta)) (sc (hb * (/ 2 * (1 - eta)))) DNone.
Proof.
move=> H0 H1. rewrite /attenuator !if_not; try lra. rewrite (@XY_sc _ _ 1) //; try lra; last by rewrite hbhb sqrt_sqrt //; lra.
rewrite sqrt_sqrt // /Rdiv Rinv_1 !Rmult_1_r. have -> : (1 - 1 = 0)%coqR by ring. have -> : (RtoC 0)%:M = 0 :> 'M[C]_1 by exact: raddf0. by [].
Qed.
(** Amplifier(g) is the channel of X = sqrt(g), Y = (g - 1) hbar / 2 *)
Theorem C42_amplifier_XY g : Rle R1 g -> amplifier g = XY_to_channel hb (sc (sqrt g)) (sc (hb * (/ 2 * (g - 1)))) DNone.
Proof.
move=> H1. have g0 : Rlt R0 g by lra. rewrite /amplifier if_not; try lra. rewrite (@XY_sc _ _ g) //; last by rewrite hbhb sqrt_sqrt //; lra.
have q0 := sqrt_lt_R0 _ g0. have E := sqrt_sqrt _ (Rlt_le _ _ g0). rewrite E. have -> : (g / g = 1)%coqR by field; lra. have -> : (1 - 1 = 0)%coqR by ring.
have -> : (RtoC 0)%:M = 0 :> 'M[C]_1 by exact: raddf0. have -> // : (sqrt g / g = / sqrt g)%coqR. rewrite -{2}E. field. lra.
Qed.
(** GaussRandNoise(Y) is the channel of X = 1 and Y *)
Theorem C42_noise_XY m (Y : 'M[C]_(m + m)) : random_noise Y = XY_to_channel hb 1%:M Y DNone.
Proof.
rewrite /random_noise /XY_to_channel /=. have -> : xiM hb 1%:M Y = 1%:M + RtoC (/ hb) *: Y by rewrite /xiM trmx1 mulmx1 -scalerDl half1 scale1r.
rewrite /inv. case: (_ \in unitmx) => //=. congr Base.Ok. congr CTri; first by rewrite trmx1 ?(mul1mx, mulmx1).
- by rewrite !mulmx0 col_mx0 mulmx0 scaler0.
- rewrite !mulmx0 mxE mulr0. have -> : Cexp 0 = 1 by exact: Cexp_0. by [].
Qed.
Lemma sc_then x1 y1 x2 y2 z1 z2 z t1 t2 t : Rle R0 y1 -> Rle R0 y2 -> 
  (z1 = / 2 + / 2 * (x1 * x1) + / hb * y1)%coqR -> (z2 = / 2 + / 2 * (x2 * x2) + / hb * y2)%coqR ->
  (z = / 2 + / 2 * ((x2 * x1) * (x2 * x1)) + / hb * (x2 * y1 * x2 + y2))%coqR -> Rlt threshold ((z * z) / ((z1 * z1) * (z2 * z2)))%coqR ->
  XY_to_channel hb (sc x1) (sc y1) DNone = Base.Ok t1 -> XY_to_channel hb (sc x2) (sc y2) DNone = Base.Ok t2 ->
  XY_to_channel hb (sc (x2 * x1)) (sc (x2 * y1 * x2 + y2)) DNone = Base.Ok t -> cthen t1 t2 = Some t.
Proof.
move=> p1 p2 e1 e2 e H T1 T2 T. case: (C54 (sc_real x1) (sc_real x2) (sc_noise p1) (sc_noise p2)) => t1' [t2' [t' [E1 [E2 [E [Hs _]]]]]].
move: E1 E2 E. rewrite T1 T2 !sc_tr !sc_mul !sc_add T => -[?] [?] [?]; subst t1' t2' t'. apply/Hs.
rewrite /margin !sc_tr !sc_mul !sc_add !xi_sc -e1 -e2 -e !det_sc !Cmod_R !Rabs_pos_eq //; exact: Rle_0_sqr.
Qed.
Lemma att_x a b u v : (u * u = a -> v * v = b -> v * u * (v * u) = a * b)%coqR. Proof. move=> <- <-. ring. Qed.
Lemma att_y h a b v : (v * v = b -> v * (h * (/ 2 * (1 - a))) * v + h * (/ 2 * (1 - b)) = h * (/ 2 * (1 - a * b)))%coqR. Proof. move=> <-. field. Qed.
Lemma amp_y h a b v : (v * v = b -> v * (h * (/ 2 * (a - 1))) * v + h * (/ 2 * (b - 1)) = h * (/ 2 * (a * b - 1)))%coqR. Proof. move=> <-. field. Qed.
Lemma thr1 : Rlt threshold R1.
Proof. rewrite /threshold -[X in Rlt _ X]Rinv_1. apply: Rinv_lt_contravar; last by apply: Rlt_pow_R1; [lra|exact/ltP]. rewrite Rmult_1_l. apply: pow_lt. lra. Qed.
(** two attenuators in a row are one attenuator, two amplifiers one amplifier *)
Theorem C42_attenuators a b : Rle R0 a -> Rle a R1 -> Rle R0 b -> Rle b R1 ->
  exists t1 t2 t, attenuator a = Base.Ok t1 /\ attenuator b = Base.Ok t2 /\ attenuator (a * b) = Base.Ok t /\ cthen t1 t2 = Some t.
Proof.
move=> a0 a1 b0 b1. have ab0 : Rle R0 (a * b)%coqR by nra. have ab1 : Rle (a * b)%coqR R1 by nra.
have [t1 E1] : exists t, attenuator a = Base.Ok t by rewrite /attenuator !if_not; try lra; eexists.
have [t2 E2] : exists t, attenuator b = Base.Ok t by rewrite /attenuator !if_not; try lra; eexists.
have [t E] : exists t, attenuator (a * b) = Base.Ok t by rewrite /attenuator !if_not; try lra; eexists.
exists t1, t2, t. do 3 (split=> //). move: E1 E2 E. rewrite !C42_attenuator_XY // => E1 E2 E.
have qa := sqrt_sqrt _ a0. have qb := sqrt_sqrt _ b0.
apply: (sc_then (z1 := 1) (z2 := 1) (z := 1)) E1 E2 _.
- nra. - nra. - rewrite hbhb qa. lra. - rewrite hbhb qb. lra.
- have -> : (sqrt b * sqrt a * (sqrt b * sqrt a) = a * b)%coqR by exact: att_x qa qb.
  have -> : (sqrt b * (hb * (/ 2 * (1 - a))) * sqrt b + hb * (/ 2 * (1 - b)) = hb * (/ 2 * (1 - a * b)))%coqR by exact: att_y qb.
  rewrite hbhb. lra.
- have -> : (1 * 1 / (1 * 1 * (1 * 1)) = 1)%coqR by field. exact: thr1.
- rewrite -E. congr XY_to_channel; congr sc; first by rewrite sqrt_mult //; ring. exact: att_y qb.
Qed.
Theorem C42_amplifiers a b : Rle R1 a -> Rle R1 b ->
  exists t1 t2 t, amplifier a = Base.Ok t1 /\ amplifier b = Base.Ok t2 /\ amplifier (a * b) = Base.Ok t /\ cthen t1 t2 = Some t.
Proof.
move=> a1 b1. have ab1 : Rle R1 (a * b)%coqR by nra.
have [t1 E1] : exists t, amplifier a = Base.Ok t by rewrite /amplifier !if_not; try lra; eexists.
have [t2 E2] : exists t, amplifier b = Base.Ok t by rewrite /amplifier !if_not; try lra; eexists.
have [t E] : exists t, amplifier (a * b) = Base.Ok t by rewrite /amplifier !if_not; try lra; eexists.
exists t1, t2, t. do 3 (split=> //). move: E1 E2 E. rewrite !C42_amplifier_XY // => E1 E2 E.
have a0 : Rle R0 a by lra. have b0 : Rle R0 b by lra. have qa := sqrt_sqrt _ a0. have qb := sqrt_sqrt _ b0.
apply: (sc_then (z1 := a) (z2 := b) (z := (a * b)%coqR)) E1 E2 _.
- nra. - nra. - rewrite hbhb qa. lra. - rewrite hbhb qb. lra.
- have -> : (sqrt b * sqrt a * (sqrt b * sqrt a) = a * b)%coqR by exact: att_x qa qb.
  have -> : (sqrt b * (hb * (/ 2 * (a - 1))) * sqrt b + hb * (/ 2 * (b - 1)) = hb * (/ 2 * (a * b - 1)))%coqR by exact: amp_y qb.
  rewrite hbhb. lra.
- have -> : (a * b * (a * b) / (a * a * (b * b)) = 1)%coqR by field; lra. exact: thr1.
- rewrite -E. congr XY_to_channel; congr sc; first by rewrite sqrt_mult //; ring. exact: amp_y qb.
Qed.
(** noises add *)
Theorem C42_noises m (Y1 Y2 : 'M[C]_(m + m)) : noise Y1 -> noise Y2 ->
  exists t1 t2 t, random_noise Y1 = Base.Ok t1 /\ random_noise Y2 = Base.Ok t2 /\ random_noise (Y1 + Y2) = Base.Ok t /\
    (cthen t1 t2 = Some t <-> Rlt threshold (margin 1%:M Y1 1%:M Y2)).
Proof.
move=> n1 n2. case: (C54 (real1 _) (real1 _) n1 n2) => t1 [t2 [t [E1 [E2 [E [H _]]]]]]. exists t1, t2, t. rewrite !C42_noise_XY. do 2 (split=> //).
split; last exact: H. by rewrite -E trmx1 !mulmx1 mul1mx.
Qed.
(** an attenuator maps the Gaussian state with covariance hbar/2 (a coherent state) and means mu to the one with means sqrt(eta) mu *)
Theorem C42_coherent_loss eta means : Rle R0 eta -> Rle eta R1 -> real means ->
  exists s t s', wigner_to_bargmann_rho hb (sc (hb * / 2)) means = Base.Ok s /\ attenuator eta = Base.Ok t /\
    wigner_to_bargmann_rho hb (sc (hb * / 2)) (RtoC (sqrt eta) *: means) = Base.Ok s' /\ sthen s t = Some s'.
Proof.
move=> H0 H1 rm. have q := sqrt_sqrt _ H0. have n1 : noise (sc (hb * (/ 2 * (1 - eta)))) by apply: sc_noise; nra.
have n2 : noise (sc (hb * / 2)) by apply: sc_noise; nra.
case: (C55 (sc_real (sqrt eta)) n1 n2 rm) => s [t [s' [Es [Et [Es' [H _]]]]]]. exists s, t, s'. rewrite C42_attenuator_XY //. do 2 (split=> //).
have EC : sc (sqrt eta) *m sc (hb * / 2) *m (sc (sqrt eta))^T + sc (hb * (/ 2 * (1 - eta))) = sc (hb * / 2).
  rewrite sc_tr !sc_mul sc_add. congr sc. have -> : (sqrt eta * (hb * / 2) * sqrt eta = eta * (hb * / 2))%coqR by rewrite -{3}q; ring. field.
split; first by rewrite -Es' EC /sc mul_scalar_mx.
apply/H. rewrite /margin EC. have -> : sc (sqrt eta) *m nil (1 + 1) = nil (1 + 1) by exact: thinmx0.
rewrite xi_nil xi_sc hbhb half_R sc_one !sc_scale sc_add hbhb q. have -> : (/ 2 * 1 + / 2 = 1)%coqR by field.
have -> : (/ 2 + / 2 * eta + / 2 * (1 - eta) = 1)%coqR by field. rewrite -sc_one det1 C1E Cmod_1. have -> : (1 / (1 * 1) = 1)%coqR by field. exact: thr1.
Qed.
(** triples.py:357-385 *)
Definition thermal (nbar : R) : stri 1 :=
  let a := (RtoC (nbar / (nbar + 1))%coqR)%:M : 'M[C]_1 in STri (block_mx 0 a a 0) 0 (RtoC (/ (nbar + 1))%coqR).
(** Thermal(nbar) is the state with covariance (nbar + 1/2) hbar *)
Theorem C55_thermal nbar : Rle R0 nbar -> wigner_to_bargmann_rho hb (sc (hb * (nbar + / 2))) 0 = Base.Ok (thermal nbar).
Proof.
move=> H0. have n2 : noise (sc (hb * (nbar + / 2))) by apply: sc_noise; nra. have r0 : real (0 : 'cV[C]_(1 + 1)) by exact: map_mx0.
have Nz : (nbar + 1)%coqR <> R0 by lra.
have Exi : xiM hb (nil (1 + 1)) (sc (hb * (nbar + / 2))) = sc (nbar + 1) by rewrite xi_nil half_R sc_one !sc_scale sc_add hbhb; congr sc; field.
case: (n2) => rc Nc. case: (wig_val rc r0 (pd_unit (xi_pd hb0 (real_nil _) Nc))) => s [-> G]. congr Base.Ok.
rewrite -(g2st_st2g s) G Exi /g2st /change /hat /= (inv_sc Nz) /thermal. have [R1 R2] := rot_unitary 1. congr STri.
- rewrite tr_block_mx !trmx0 !mulmx_block ?(mul0mx, mulmx0, addr0, add0r) block_mxKul.
  have -> : 1%:M - sc (/ (nbar + 1)) = RtoC (nbar / (nbar + 1)) *: 1%:M.
    rewrite sc_one sc_scale sc_opp sc_add. congr sc. by field.
  by rewrite -scalemxAr -scalemxAl mulmx1 -/(adj (rotmat 1)) -{1}Xrot -mulmxA R2 mulmx1 X_sc.
- by rewrite !scaler0 !mulmx0 oppr0 col_mx0 mulmx0 linear0.
- rewrite det_sc !scaler0 !mulmx0 mxE mulr0 CmulE. have -> : Cexp 0 = RtoC 1 by exact: Cexp_0. rewrite csqrt_R; last nra. rewrite sqrt_square; last lra.
  by rewrite Cmult_1_l RtoC_inv.
Qed.
(** so Thermal(nbar).probability is 1 exactly below one million photons: above, the library returns infinity *)
Theorem C55_thermal_probability_refuted nbar : Rle R0 nbar ->
  omap (fun z => z.2) (gtrace (st2g (thermal nbar))) = if Rlt_dec threshold (/ ((nbar + 1) * (nbar + 1)))%coqR then Some 1 else None.
Proof.
move=> H0. have n2 : noise (sc (hb * (nbar + / 2))) by apply: sc_noise; nra. have r0 : real (0 : 'cV[C]_(1 + 1)) by exact: map_mx0.
case: (C55_probability n2 r0) => s []. rewrite C55_thermal // => -[<-] ->.
have -> : half *: 1%:M + RtoC (/ hb) *: sc (hb * (nbar + / 2)) = sc (nbar + 1) by rewrite half_R sc_one !sc_scale sc_add hbhb; congr sc; field.
rewrite det_sc Cmod_R Rabs_pos_eq //. nra.
Qed.
Corollary C55_thermal_million : omap (fun z => z.2) (gtrace (st2g (thermal (10 ^ 6)))) = None.
Proof.
rewrite C55_thermal_probability_refuted; last by apply: pow_le; lra. apply: if_not. apply: Rle_not_lt. rewrite /threshold. apply: Rinv_le_contravar; first by apply: pow_lt; lra. lra.
Qed.
(** the displaced channel of X = 1, Y = 0 does not preserve the trace *)
Theorem C55_displaced_refuted m (d : 'cV[C]_(m + m)) : d <> 0 ->
  exists t, XY_to_channel hb 1%:M 0 (DList d) = Base.Ok t /\ exists b, gtrace (grp t) = Some (BargSym.X m, b, 1) /\ b <> 0.
Proof.
move=> Nd. have n0 : noise (0 : 'M[C]_(m + m)). { split; first exact: map_mx0. rewrite -(mul0mx _ (adj (0 : 'M[C]_(m + m)))). exact: psd_gram. }
case: (C55_displaced d (real1 _) n0) => _ [t [E H]]. exists t. split=> //.
have Ex : xiM hb 1%:M 0 = 1%:M :> 'M[C]_(m + m) by rewrite /xiM trmx1 mulmx1 scaler0 addr0 -scalerDl half1 scale1r.
have [|b [Eb Hb]] := H. { rewrite Ex det1 C1E Cmod_1 Rinv_1. exact: thr1. }
exists b. split=> // /Hb. by rewrite Ex trmx1 mul1mx invmx1 mul1mx.
Qed.
End HB.
