(** Overlaps and fidelity of Gaussian density matrices: claim C77.
    Model of DM.expectation for a density matrix as operator (lab/states/dm.py:285-342: self.contract(operator.dual)) and of DM.fidelity between Gaussian density matrices (lab/states/dm.py:344-372),
    with phase_space and from_phase_space of PhaseSpace.v and gaussian.fidelity of Fidelity.v. One batch element, no derived variables, both states on the same modes. *)
From Coq Require Import Reals Lra Psatz.
From Coquelicot Require Import Complex Series Hierarchy.
From mathcomp Require Import all_ssreflect all_algebra.
From Verif Require Import CMat Optimizer GateSym BargSym CExp Compose GateTriples ChanAlg ChanHat PosDef Channels ChanLaws States KetPhys PhaseSpace Fidelity.
Require Verif.Base.
Set Implicit Arguments. Unset Strict Implicit. Unset Printing Implicit Defensive.
Import GRing.Theory.
Local Open Scope ring_scope.
Delimit Scope R_scope with coqR.
Local Arguments Re : simpl never.

(** ** Model *)
(** dm.py:317-340 with no modes left over: the contraction of self with operator.dual *)
Definition expectation m (rho op : stri m) : option C := omap (@gc 0 0) (gthen (st2g rho) (dm_dual op)).
(** dm.py:368-372; None: phase_space takes the singular branch *)
Definition dm_fidelity m (f : 'M[C]_(m + m) -> 'M[C]_(m + m)) (hb : R) (rho other : stri m) : option (Base.result R) :=
  match phase_space hb R0 rho, phase_space hb R0 other with
  | Some (cov1, mean1, _), Some (cov2, mean2, _) => Some (gfidelity f hb mean1 cov1 mean2 cov2)
  | _, _ => None
  end.

Section HB.
Variable hb : R.
Hypothesis hb0 : Rlt R0 hb.
(** the determinant which the contractions of the library compare with their threshold for one state *)
Definition husimi m (cov : 'M[C]_(m + m)) : 'M[C]_(m + m) := half *: 1%:M + RtoC (/ hb) *: cov.
Lemma over_c (k1 k2 r1 r2 v q1 q2 q : R) : Rlt R0 r1 -> Rlt R0 r2 -> Rlt R0 v ->
  RtoC (k1 * (exp (- / 2 * q1) / sqrt r1))%coqR * RtoC (k2 * (exp (- / 2 * q2) / sqrt r2))%coqR * csqrt (RtoC (v / (r1 * r2))%coqR)^-1 * Cexp (half * (RtoC q1 + RtoC q2 - RtoC q)) = RtoC (k1 * k2 / sqrt v * exp (- (1 / 2) * q))%coqR.
Proof.
move=> p1 p3 pv. have pp := Rmult_lt_0_compat _ _ p1 p3. have p2 : Rlt R0 (v / (r1 * r2))%coqR by apply: Rdiv_lt_0_compat.
have -> : (RtoC (v / (r1 * r2))%coqR)^-1 = RtoC (/ (v / (r1 * r2)))%coqR by rewrite CinvE RtoC_inv //; lra.
have -> : half * (RtoC q1 + RtoC q2 - RtoC q) = RtoC (/ 2 * (q1 + q2 - q))%coqR by rewrite /half CoppE !CaddE -RtoC_opp -!RtoC_plus CmulE -RtoC_mult.
rewrite csqrt_R; last by apply/Rlt_le/Rinv_0_lt_compat. rewrite Cexp_R !CmulE -!RtoC_mult. congr RtoC.
have -> : (/ (v / (r1 * r2)) = (r1 * r2) / v)%coqR by field; lra.
rewrite sqrt_div_alt // sqrt_mult; [|lra..]. have s1 := sqrt_lt_R0 _ p1. have s2 := sqrt_lt_R0 _ p3. have sv := sqrt_lt_R0 _ pv.
have E : (exp (- / 2 * q1) * exp (- / 2 * q2) * exp (/ 2 * (q1 + q2 - q)) = exp (- (1 / 2) * q))%coqR by rewrite -!exp_plus; congr exp; field.
rewrite -E. field. lra.
Qed.
Lemma real_quad n (z : 'M[C]_n) (d : 'cV[C]_n) : real z -> real d -> exists q, (d^T *m z *m d) 0 0 = RtoC q.
Proof.
move=> rz rd. have R : real (d^T *m z *m d) by apply: realM => //; apply: realM => //; exact: realT.
move/matrixP: R => /(_ 0 0). rewrite mxE. case: (_ 0 0) => x y [] H. exists x. rewrite /RtoC. congr pair. lra.
Qed.
(** C77: the overlap tr(rho1 rho2) of two Gaussian density matrices in phase space: any covariances for which cov1 + cov2 is invertible, any real coefficients *)
Theorem C77_overlap m (cov1 cov2 : 'M[C]_(m + m)) (mu1 mu2 : 'cV[C]_(m + m)) (k1 k2 : R) : noise cov1 -> noise cov2 -> pd (cov1 + cov2) -> real mu1 -> real mu2 ->
  Rlt threshold (Cmod (\det (RtoC (/ hb) *: (cov1 + cov2))) / (Cmod (\det (husimi cov1)) * Cmod (\det (husimi cov2))))%coqR ->
  exists rho1 rho2 D q, [/\ from_phase_space hb cov1 mu1 (RtoC k1) = Base.Ok rho1, from_phase_space hb cov2 mu2 (RtoC k2) = Base.Ok rho2,
    \det (cov1 + cov2) = RtoC D /\ Rlt R0 D, ((mu2 - mu1)^T *m invmx (cov1 + cov2) *m (mu2 - mu1)) 0 0 = RtoC q
    & expectation rho1 rho2 = Some (RtoC (k1 * k2 * (hb ^ m / sqrt D * exp (- (1 / 2) * q)))%coqR)].
Proof.
move=> n1 n2 pS rm1 rm2 H. have [rc1 N1] := n1. have [rc2 N2] := n2.
have P1 := xi_pd hb0 (real_nil _) N1. have P2 := xi_pd hb0 (real_nil _) N2.
case: (wig_q (RtoC k1) rc1 rm1 (pd_unit P1)) => rho1 [E1 G1]. case: (wig_q (RtoC k2) rc2 rm2 (pd_unit P2)) => rho2 [E2 G2].
have sx1 := xi_sym hb (nil (m + m)) (noise_sym n1). have sx2 := xi_sym hb (nil (m + m)) (noise_sym n2).
have rx1 := xi_real hb (real_nil (m + m)) rc1. have rx2 := xi_real hb (real_nil (m + m)) rc2.
move: H. rewrite /husimi -!xi_nil. move: P1 P2 G1 G2 sx1 sx2 rx1 rx2. cbn zeta.
have ES : xiM hb (nil (m + m)) cov1 + xiM hb (nil (m + m)) cov2 - 1%:M = RtoC (/ hb) *: (cov1 + cov2).
  rewrite !xi_nil addrACA -!scalerDl half1 scale1r addrC addrA addNr add0r scalerDr. by [].
rewrite -ES. set x1 := xiM _ _ cov1 in ES *. set x2 := xiM _ _ cov2 in ES *. set d1 := _ *: mu1. set d2 := _ *: mu2.
move=> P1 P2 G1 G2 s1 s2 r1 r2 H. have rd1 : real d1 by exact: realZ. have rd2 : real d2 by exact: realZ.
set Sg := x1 + x2 - 1%:M in ES H *. have hi : Rlt R0 (/ hb) by exact: Rinv_0_lt_compat.
have PS : pd Sg by rewrite ES; exact: pdZ. have U1 := pd_unit P1. have U2 := pd_unit P2. have US := pd_unit PS.
case: (det_pos_ex P1) => v1 [p1 e1]. case: (det_pos_ex P2) => v2 [p2 e2]. case: (det_pos_ex PS) => v [pv ev]. case: (det_pos_ex pS) => D [pD eD].
set z1 := invmx x1 in G1 *. set z2 := invmx x2 in G2 *. set w := invmx Sg.
have rz1 : real z1 by exact: real_invmx. have rz2 : real z2 by exact: real_invmx.
have rS : real Sg by apply: realB; [exact: realD|exact: real1]. have rw : real w by exact: real_invmx.
case: (real_quad rz1 rd1) => q1 Q1. case: (real_quad rz2 rd2) => q2 Q2. case: (real_quad rw (realB rd2 rd1)) => q Q.
have Ec k qq vv : Rlt R0 vv -> RtoC k * (Cexp (- half * RtoC qq) / csqrt (RtoC vv)) = RtoC (k * (exp (- / 2 * qq) / sqrt vv))%coqR.
  move=> pvv. rewrite csqrt_R; last lra. have -> : - half * RtoC qq = RtoC (- (/ 2) * qq)%coqR by rewrite /half CoppE CmulE -RtoC_opp -RtoC_mult.
  rewrite Cexp_R !CmulE CinvE /Rdiv !RtoC_mult RtoC_inv //. have := sqrt_lt_R0 _ pvv. lra.
rewrite Q1 e1 Ec // in G1. rewrite Q2 e2 Ec // in G2. set c1 := RtoC (k1 * _)%coqR in G1. set c2 := RtoC (k2 * _)%coqR in G2.
exists rho1, rho2, D, q. split=> //.
  have sqp := sqrt_lt_R0 _ hb0. have sqq := sqrt_sqrt _ (Rlt_le _ _ hb0).
  rewrite -Q /d1 /d2 -scalerBr. set dd := mu2 - mu1. have -> : (RtoC (/ sqrt hb) *: dd)^T = RtoC (/ sqrt hb) *: dd^T by apply/matrixP => i j; rewrite !mxE.
  rewrite -!scalemxAl -scalemxAr scalerA /w ES.
  have -> : invmx (RtoC (/ hb) *: (cov1 + cov2)) = RtoC hb *: invmx (cov1 + cov2).
    apply: (proj1 (inv_uniq _)). rewrite -scalemxAl -scalemxAr mulmxV ?pd_unit // scalerA CmulE -RtoC_mult Rinv_l ?scale1r //. lra.
  rewrite -scalemxAr -scalemxAl scalerA. have -> : RtoC (/ sqrt hb) * RtoC (/ sqrt hb) * RtoC hb = 1.
    rewrite !CmulE -!RtoC_mult C1E. congr RtoC. rewrite -{3}sqq. field. lra.
  by rewrite scale1r.
set T1 := 1%:M - z1. set T2 := 1%:M - z2. have rT2 : real T2 by apply: realB => //; exact: real1.
have sz1 : z1^T = z1 by rewrite /z1 trmx_inv s1. have sz2 : z2^T = z2 by rewrite /z2 trmx_inv s2.
have sT1 : T1^T = T1 by rewrite /T1 linearB /= trmx1 sz1. have sT2 : T2^T = T2 by rewrite /T2 linearB /= trmx1 sz2.
have zK1 : z1 *m x1 = 1%:M by exact: mulVmx. have zK2 : z2 *m x2 = 1%:M by exact: mulVmx. have Kz1 : x1 *m z1 = 1%:M by exact: mulmxV. have Kz2 : x2 *m z2 = 1%:M by exact: mulmxV.
have ED : 1%:M - T1 *m T2 = z1 *m Sg *m z2.
  have -> : z1 *m Sg *m z2 = z2 + z1 - z1 *m z2 by rewrite /Sg mulmxBr mulmxDr zK1 mulmx1 !mulmxBl !mulmxDl mul1mx -(mulmxA z1 x2) Kz2 mulmx1.
  rewrite /T1 /T2 mulmxBr mulmx1 mulmxBl mul1mx. move: (z1 *m z2) => zz. by rewrite !opprB addrC -addrA subrK addrAC.
set K := x2 *m w *m x1. have HK : (1%:M - T1 *m T2) *m K = 1%:M.
  rewrite ED /K. have -> : z1 *m Sg *m z2 *m (x2 *m w *m x1) = z1 *m (Sg *m (z2 *m x2) *m w) *m x1 by rewrite !mulmxA. by rewrite zK2 mulmx1 /w mulmxV // mulmx1.
have dD : \det (1%:M - T1 *m T2) = RtoC (v / (v1 * v2))%coqR.
  rewrite ED !det_mulmx !det_inv e1 e2 ev !CinvE !CmulE -!RtoC_inv; [|lra..]. rewrite -!RtoC_mult. congr RtoC. field. lra.
have pvv := Rmult_lt_0_compat _ _ p1 p2.
have Ht : Rlt threshold (Cmod (\det (1%:M - T1 *m T2))).
  rewrite dD Cmod_R Rabs_pos_eq; last by apply/Rlt_le/Rdiv_lt_0_compat. move: H. by rewrite e1 e2 ev !Cmod_R !Rabs_pos_eq; lra.
have cc : Cconj c2 = c2 by exact: conjR.
have GD : dm_dual rho2 = change 1%:M (rotmat m) (GTri (block_mx 0 (0 : 'M[C]_(0, m + m)) (0 : 'M[C]_(0, m + m))^T T2) (col_mx 0 (z2 *m d2)) c2).
  move: G2. rewrite /st2g /dm_dual /change /qstate /= !tr_block_mx !trmx0 !trmx1 !mulmx_block !mul_block_col ?(mul0mx, mulmx0, addr0, add0r, mul1mx, mulmx1) => -[/eq_block_mx [-> _ _ _] /eq_col_mx [-> _] ->].
  rewrite !conj_mul conj_tr !conjmxK cc rT2 rz2 rd2. by [].
rewrite /expectation GD G1 (gthen_change 1%:M 1%:M (rrT m)) /qstate -/z1 -/T1.
have -> : block_mx T1 0 0 0 = block_mx T1 (0 : 'M[C]_(m + m, 0)) (0 : 'M[C]_(m + m, 0))^T 0 by rewrite trmx0.
rewrite (gthen_val 0 0 _ _ sT1 sT2 HK _ _ 0 0 c1 c2 Ht) /=. congr Some.
have -> : gQ T1 T2 K (z1 *m d1) (z2 *m d2) = RtoC q1 + RtoC q2 - RtoC q.
  have sw : w^T = w by rewrite /w trmx_inv ES linearZ linearD /= (noise_sym n1) (noise_sym n2).
  have KT : K^T = x1 *m w *m x2 by rewrite /K !trmx_mul sw s1 s2 mulmxA.
  have SK : Sg *m w = 1%:M by exact: mulmxV.
  have A1 : T2 *m K *m (z1 *m d1) = d1 - x1 *m w *m d1.
    have -> : T2 *m K *m (z1 *m d1) = (T2 *m x2) *m w *m (x1 *m z1) *m d1 by rewrite /K !mulmxA. rewrite Kz1 mulmx1. have -> : T2 *m x2 = Sg - x1 by rewrite /T2 mulmxBl mul1mx zK2 /Sg [x1 + x2]addrC addrAC addrK.
    by rewrite mulmxBl SK mulmxBl mul1mx.
  have A2 : K^T *m (z2 *m d2) = x1 *m w *m d2 by rewrite KT mulmxA -(mulmxA _ x2) Kz2 mulmx1.
  have A3 : K *m (z1 *m d1) = x2 *m w *m d1 by rewrite /K mulmxA -(mulmxA _ x1) Kz1 mulmx1.
  have A4 : T1 *m K^T *m (z2 *m d2) = d2 - x2 *m w *m d2.
    have -> : T1 *m K^T *m (z2 *m d2) = (T1 *m x1) *m w *m (x2 *m z2) *m d2 by rewrite KT !mulmxA. rewrite Kz2 mulmx1. have -> : T1 *m x1 = Sg - x2 by rewrite /T1 mulmxBl mul1mx zK1 /Sg addrAC addrK.
    by rewrite mulmxBl SK mulmxBl mul1mx.
  rewrite /gQ A1 A2 A3 A4 !trmx_mul sz1 sz2 -Q1 -Q2 -Q.
  have B1 : d1^T *m z1 *m (d1 - x1 *m w *m d1 + x1 *m w *m d2) = d1^T *m z1 *m d1 + d1^T *m w *m (d2 - d1).
    rewrite !mulmxDr mulmxN -!addrA. congr (_ + _). have e (u : 'cV[C]_(m + m)) : d1^T *m z1 *m (x1 *m w *m u) = d1^T *m w *m u by rewrite !mulmxA -(mulmxA d1^T z1) zK1 mulmx1. by rewrite !e mulmxN addrC.
  have B2 : d2^T *m z2 *m (x2 *m w *m d1 + (d2 - x2 *m w *m d2)) = d2^T *m z2 *m d2 - d2^T *m w *m (d2 - d1).
    rewrite !mulmxDr !mulmxN. have e (u : 'cV[C]_(m + m)) : d2^T *m z2 *m (x2 *m w *m u) = d2^T *m w *m u by rewrite !mulmxA -(mulmxA d2^T z2) zK2 mulmx1. by rewrite !e opprB addrCA.
  rewrite B1 B2. have -> : (d2 - d1)^T = d2^T - d1^T by apply/matrixP => i j; rewrite !mxE. rewrite !(mulmxBl d2^T) (mulmxBl (d2^T *m w)).
  move: (d1^T *m z1 *m d1) (d2^T *m z2 *m d2) (d1^T *m w *m (d2 - d1)) (d2^T *m w *m (d2 - d1)) => a1 a2 a3 a4. rewrite !mxE. by rewrite opprB addrACA [a3 0 0 - _]addrC.
rewrite dD over_c //. congr RtoC.
have Ev : v = (D / (hb ^ m * hb ^ m))%coqR.
  have : RtoC v = RtoC (D / (hb ^ m * hb ^ m))%coqR; last by case.
  rewrite -ev ES detZ eD. have -> : RtoC (/ hb) ^+ (m + m) = RtoC (/ (hb ^ m * hb ^ m))%coqR.
    have hn : hb <> R0 by lra. rewrite exprD. have -> : RtoC (/ hb) ^+ m = RtoC (/ hb ^ m)%coqR; last by rewrite CmulE -RtoC_mult Rinv_mult_distr //; apply: pow_nonzero.
    rewrite Rinv_pow //. elim: (m) => [|k IH]; first by rewrite expr0 C1E. by rewrite exprS IH CmulE -RtoC_mult.
  rewrite CmulE -RtoC_mult. congr RtoC. rewrite /Rdiv. ring.
have hm := pow_lt _ m hb0. have hh := Rmult_lt_0_compat _ _ hm hm.
have -> : sqrt v = (sqrt D / hb ^ m)%coqR by rewrite Ev sqrt_div_alt // sqrt_square //; lra.
have sD := sqrt_lt_R0 _ pD. field. lra.
Qed.
(** C77: DM.fidelity of two Gaussian density matrices is gaussian.fidelity of their means and covariances, whatever their coefficients *)
Theorem C77_fidelity m f (cov1 cov2 : 'M[C]_(m + m)) (mu1 mu2 : 'cV[C]_(m + m)) k1 k2 rho1 rho2 : noise cov1 -> noise cov2 -> real mu1 -> real mu2 ->
  Rlt threshold (/ Cmod (\det (husimi cov1)))%coqR -> Rlt threshold (/ Cmod (\det (husimi cov2)))%coqR ->
  from_phase_space hb cov1 mu1 k1 = Base.Ok rho1 -> from_phase_space hb cov2 mu2 k2 = Base.Ok rho2 ->
  dm_fidelity f hb rho1 rho2 = Some (gfidelity f hb mu1 cov1 mu2 cov2).
Proof.
move=> n1 n2 rm1 rm2 H1 H2 E1 E2. have Z (cov : 'M[C]_(m + m)) : cov - RtoC (0 * (hb / 2))%coqR *: 1%:M = cov by rewrite Rmult_0_l -C0E scale0r subr0.
case: (C63_roundtrip hb0 k1 0%coqR n1 rm1) => r1 [F1]. case: Rlt_dec => [a1|[]]; last exact: H1. rewrite Z => P1. case: (C63_roundtrip hb0 k2 0%coqR n2 rm2) => r2 [F2]. case: Rlt_dec => [a2|[]]; last exact: H2. rewrite Z => P2.
move: F1 F2. rewrite E1 E2 => -[F1] -[F2]. rewrite -F1 in P1. rewrite -F2 in P2. by rewrite /dm_fidelity P1 P2.
Qed.
Lemma frame_noise m (S : 'M[C]_(m + m)) (nbar : 'I_m -> R) : real S -> (forall j, Rle 0 (nbar j)) -> noise (frame hb S nbar).
Proof.
move=> rS hn. pose t := dbl (fun j => sqrt (nbar j + 1 / 2)). have rt : real t.
  rewrite /real /t /dbl map_block_mx !map_mx0. have -> : conj (diag_mx (\row_j RtoC (sqrt (nbar j + 1 / 2)))) = diag_mx (\row_j RtoC (sqrt (nbar j + 1 / 2))) :> 'M[C]_m; last by [].
  apply/matrixP => i j. rewrite !mxE. case: (i == j); by rewrite ?mulr1n ?mulr0n ?rmorph0 //; exact: conjR.
have tT : t^T = t by rewrite /t /dbl tr_block_mx !trmx0 !tr_diag_mx.
have E : frame hb S nbar = RtoC hb *: (S *m t *m adj (S *m t)).
  rewrite /frame /adj conj_mul rS rt trmx_mul tT. congr (_ *: _). rewrite !mulmxA. congr (_ *m _). rewrite -mulmxA dblM. congr (_ *m _). apply: dbl_ext => j. rewrite sqrt_sqrt //. have := hn j. lra.
split; last by rewrite E; apply: psdZ; [lra|exact: psd_gram].
apply: realZ. apply: realM; last exact: realT. apply: realM => //. rewrite /real /dbl map_block_mx !map_mx0. have -> : conj (diag_mx (\row_j RtoC (nbar j + 1 / 2)%coqR)) = diag_mx (\row_j RtoC (nbar j + 1 / 2)%coqR) :> 'M[C]_m; last by [].
apply/matrixP => i j. rewrite !mxE. case: (i == j); by rewrite ?mulr1n ?mulr0n ?rmorph0 //; exact: conjR.
Qed.
Lemma frame_pd m (S : 'M[C]_(m + m)) (nbar : 'I_m -> R) : real S -> symplectic S -> (forall j, Rle 0 (nbar j)) -> pd (frame hb S nbar).
Proof.
move=> rS HS hn. have n1 := frame_noise rS hn. have [h1 h2] := HS. have [J3 J4] := J_inv m. have E1 : S *m (J m *m S^T *m - J m) = 1%:M by rewrite !mulmxA h2.
have [iS uS] := inv_uniq E1. have -> : frame hb S nbar = RtoC hb *: (S *m dbl (fun j => (nbar j + 1 / 2)%coqR) *m adj S) by rewrite /frame /adj rS.
apply: pdZ => //. apply: pd_conj => //.
have -> : dbl (fun j => (nbar j + 1 / 2)%coqR) = RtoC (1 / 2)%coqR *: 1%:M + dbl nbar.
  have -> : RtoC (1 / 2)%coqR *: (1%:M : 'M[C]_(m + m)) = dbl (fun _ => (1 / 2)%coqR) by rewrite dbl1 dblZ; apply: dbl_ext => j; ring. rewrite dblD. apply: dbl_ext => j. ring.
apply: pdD; first by apply: pdZ; [lra|exact: pd1]. have -> : dbl nbar = dbl (fun j => sqrt (nbar j)) *m adj (dbl (fun j => sqrt (nbar j))); last exact: psd_gram.
have -> : adj (dbl (fun j => sqrt (nbar j))) = dbl (fun j => sqrt (nbar j)) :> 'M[C]_(m + m).
  rewrite /adj /dbl map_block_mx !map_mx0 tr_block_mx !trmx0. have -> : (conj (diag_mx (\row_j RtoC (sqrt (nbar j)))))^T = diag_mx (\row_j RtoC (sqrt (nbar j))) :> 'M[C]_m; last by [].
  apply/matrixP => i j. rewrite !mxE eq_sym. case: eqP => [->|_]; by rewrite ?mulr1n ?mulr0n ?rmorph0 //; exact: conjR.
rewrite dblM. apply: dbl_ext => j. by rewrite sqrt_sqrt.
Qed.
(** C77: against a pure state in any frame, DM.fidelity and DM.expectation agree when both states are normalised; with coefficients k1 and k2 the fidelity is
    unchanged and the expectation is k1 k2 times larger *)
Theorem C77_pure m f (S cov2 : 'M[C]_(m + m)) (mu1 mu2 : 'cV[C]_(m + m)) (k1 k2 : R) : root_fun f -> symplectic S -> real S -> noise cov2 -> real mu1 -> real mu2 ->
  let cov1 := frame hb S (fun _ => R0) in
  Rlt threshold (/ Cmod (\det (husimi cov1)))%coqR -> Rlt threshold (/ Cmod (\det (husimi cov2)))%coqR ->
  Rlt threshold (Cmod (\det (RtoC (/ hb) *: (cov1 + cov2))) / (Cmod (\det (husimi cov1)) * Cmod (\det (husimi cov2))))%coqR ->
  exists psi rho F, [/\ from_phase_space hb cov1 mu1 (RtoC k1) = Base.Ok psi, from_phase_space hb cov2 mu2 (RtoC k2) = Base.Ok rho,
    dm_fidelity f hb psi rho = Some (Base.Ok F), dm_fidelity f hb rho psi = Some (Base.Ok F)
    & expectation psi rho = Some (RtoC (k1 * k2 * F)%coqR)].
Proof.
move=> Hf HS rS n2 rm1 rm2 cov1 H1 H2 H3. have z j : Rle 0 ((fun _ : 'I_m => R0) j) by lra. have n1 : noise cov1 by exact: frame_noise.
have pS : pd (cov1 + cov2) by apply: pdD; [exact: frame_pd|exact: (proj2 n2)].
case: (C77_overlap k1 k2 n1 n2 pS rm1 rm2 H3) => psi [rho [D [q [E1 E2 [ED D0] Eq EX]]]].
have GF := C76_pure Hf HS hb0 ED D0 Eq. exists psi, rho, (hb ^ m / sqrt D * exp (- (1 / 2) * q))%coqR. split=> //.
- by rewrite (C77_fidelity f n1 n2 rm1 rm2 H1 H2 E1 E2) GF.
- rewrite (C77_fidelity f n2 n1 rm2 rm1 H2 H1 E2 E1) C76_symmetric //; [by rewrite GF|exact: noise_sym|exact: noise_sym].
Qed.
(** C77: two density matrices which are thermal in one frame *)
Theorem C77_thermal m f (S : 'M[C]_(m + m)) (mu : 'cV[C]_(m + m)) (nbar1 nbar2 x p be : 'I_m -> R) k1 k2 rho1 rho2 : root_fun f -> symplectic S -> real S -> real mu ->
  (forall j, Rle 0 (nbar1 j)) -> (forall j, Rle 0 (nbar2 j)) -> (forall j, is_series (fun k => sqrt (photons (nbar1 j) k * photons (nbar2 j) k)) (be j)) ->
  let cov1 := frame hb S nbar1 in let cov2 := frame hb S nbar2 in
  Rlt threshold (/ Cmod (\det (husimi cov1)))%coqR -> Rlt threshold (/ Cmod (\det (husimi cov2)))%coqR ->
  from_phase_space hb cov1 mu k1 = Base.Ok rho1 -> from_phase_space hb cov2 (mu + S *m rvec x p) k2 = Base.Ok rho2 ->
  dm_fidelity f hb rho1 rho2 = Some (Base.Ok (Rprod be * Rprod be * exp (- (1 / 2) * Rsum (fun j => (x j * x j + p j * p j) / (hb * (nbar1 j + nbar2 j + 1)))))%coqR).
Proof.
move=> Hf HS rS rmu h1 h2 Hb cov1 cov2 H1 H2 E1 E2. have n1 : noise cov1 by exact: frame_noise. have n2 : noise cov2 by exact: frame_noise.
have rv : real (mu + S *m rvec x p).
  apply: realD => //. apply: realM => //. rewrite /real /rvec map_col_mx. congr col_mx; apply/matrixP => i j; rewrite !mxE; exact: conjR.
by rewrite (C77_fidelity f n1 n2 rmu rv H1 H2 E1 E2) (C76_common_frame Hf mu x p HS hb0 h1 h2 Hb).
Qed.
(** C77: DM.fidelity ignores the coefficients, so for unnormalised density matrices it is not the overlap with a pure state: the vacuum and half the vacuum *)
Theorem C77_unnormalised_refuted m (f : 'M[C]_(m + m) -> 'M[C]_(m + m)) : root_fun f -> let vac := RtoC (hb / 2)%coqR *: 1%:M : 'M[C]_(m + m) in
  exists psi rho, [/\ from_phase_space hb vac 0 (RtoC 1) = Base.Ok psi, from_phase_space hb vac 0 (RtoC (/ 2)) = Base.Ok rho,
    dm_fidelity f hb psi rho = Some (Base.Ok R1) & expectation psi rho = Some (RtoC (/ 2))].
Proof.
move=> Hf vac. have HS : symplectic (1%:M : 'M[C]_(m + m)) by split; rewrite trmx1 mulmx1 mul1mx. have rS : real (1%:M : 'M[C]_(m + m)) by exact: real1.
have r0 : real (0 : 'cV[C]_(m + m)) by exact: map_mx0. have z j : Rle 0 ((fun _ : 'I_m => R0) j) by lra.
have Ev : vac = frame hb 1%:M (fun _ : 'I_m => R0) by rewrite /vac /frame trmx1 mulmx1 mul1mx dblZ dbl1 dblZ; apply: dbl_ext => j; field.
have Hh : husimi vac = 1%:M.
  rewrite /husimi /vac scalerA -scalerDl. rewrite -[RHS]scale1r. congr (_ *: _). rewrite /half CmulE CaddE -RtoC_mult -RtoC_plus C1E. congr RtoC. field. lra.
have Hs : RtoC (/ hb) *: (vac + vac) = 1%:M.
  rewrite /vac -scalerDl scalerA -[RHS]scale1r. congr (_ *: _). rewrite CmulE CaddE -RtoC_plus -RtoC_mult C1E. congr RtoC. field. lra.
have H1 : Rlt threshold (/ Cmod (\det (husimi vac)))%coqR by rewrite Hh det1 C1E Cmod_1 Rinv_1; exact: thr_lt1.
have H3 : Rlt threshold (Cmod (\det (RtoC (/ hb) *: (vac + vac))) / (Cmod (\det (husimi vac)) * Cmod (\det (husimi vac))))%coqR.
  rewrite Hs Hh det1 C1E Cmod_1. have -> : (1 / (1 * 1) = 1)%coqR by field. exact: thr_lt1.
have n1 : noise vac by rewrite Ev; exact: frame_noise.
have G := C76_self Hf (0 : 'cV[C]_(m + m)) HS hb0 z. rewrite -Ev in G.
have := C77_pure 1%coqR (/ 2)%coqR Hf HS rS n1 r0 r0. rewrite -Ev => /(_ H1 H1 H3) [psi [rho [F [E1 E2 EF _ EX]]]].
exists psi, rho. have := C77_fidelity f n1 n1 r0 r0 H1 H1 E1 E2. rewrite EF G => -[EF1]. rewrite -EF1. split=> //. by rewrite EX EF1; congr (Some (RtoC _)); rewrite ?Rmult_1_l ?Rmult_1_r.
Qed.
End HB.
