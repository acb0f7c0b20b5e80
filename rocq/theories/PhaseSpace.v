(** C63: the phase space parametrization of Gaussian states (covariance, means, coefficient).
    Model of State.phase_space (lab/states/base.py:502-521), DM.from_phase_space (lab/states/dm.py:144-188), Ket.from_phase_space (lab/states/ket.py:150-172), BtoChar (lab/circuit_components_utils/b_to_ch.py:81-103),
    bargmann_Abc_to_phasespace_cov_means and wigner_to_bargmann_psi (physics/bargmann_utils.py:26-62, 99-106), displacement_map_s_parametrized_Abc (physics/triples.py:813-866) and purity (physics/gaussian.py:45-54).
    One batch element, no derived variables, exact arithmetic. *)
From Coq Require Import Reals Lra.
From Coquelicot Require Import Complex.
From mathcomp Require Import all_ssreflect all_algebra.
From Verif Require Import CMat Optimizer GateSym BargSym CExp Compose GateTriples ChanAlg ChanHat PosDef Channels ChanLaws States KetPhys.
Require Verif.Base.
Set Implicit Arguments. Unset Strict Implicit. Unset Printing Implicit Defensive.
Import GRing.Theory.
Local Open Scope ring_scope.
Local Arguments Re : simpl never.
Delimit Scope R_scope with coqR.
Local Notation sc := Channels.sc.

(** triples.py:848-862: rows and columns of four blocks taken in the order 0, 3, 1, 2 *)
Definition order0312 m (A : 'M[C]_((m + m) + (m + m))) : 'M[C]_((m + m) + (m + m)) :=
  let u := ulsubmx A in let v := ursubmx A in let w := dlsubmx A in let z := drsubmx A in
  block_mx (block_mx (ulsubmx u) (ursubmx v) (dlsubmx w) (drsubmx z)) (block_mx (ursubmx u) (ulsubmx v) (drsubmx w) (dlsubmx z))
           (block_mx (dlsubmx u) (drsubmx v) (ulsubmx w) (ursubmx z)) (block_mx (drsubmx u) (dlsubmx v) (ursubmx w) (ulsubmx z)).
(** math/backend_manager.py:1606-1617 *)
Definition Zm m : 'M[C]_(m + m) := block_mx 1%:M 0 0 (- 1%:M).
(** triples.py:813-866; variables out_bra, in_bra, out_ket, in_ket *)
Definition btochar m (s : R) : ctri m m :=
  CTri (order0312 (block_mx (RtoC ((s - 1) / 2)%coqR *: X m) (- Zm m) (- Zm m) (X m))) 0 1.

Section HB.
Variable hb : R.
(** bargmann_utils.py:56-62 *)
Definition cov_means m (t : stri m) : 'M[C]_(m + m) * 'cV[C]_(m + m) * C :=
  let Omega := (J m)^T in let W := (conj (rotmat m))^T in
  (RtoC hb *: - (Omega *m W *m sA t *m W^T *m Omega^T), RtoC (sqrt hb) *: (Ci *: (Omega *m W *m sb t)), sc t).
(** base.py:502-521, for a state with both sides (DM); None: the contraction takes the singular branch *)
Definition phase_space m (s : R) (rho : stri m) : option ('M[C]_(m + m) * 'cV[C]_(m + m) * C) := omap (@cov_means m) (sthen rho (btochar m s)).
(** dm.py:184-188 *)
Definition from_phase_space m (cov : 'M[C]_(m + m)) (means : 'cV[C]_(m + m)) (coeff : C) : Base.result (stri m) :=
  Base.bind (wigner_to_bargmann_rho hb cov means) (fun t => Base.Ok (STri (sA t) (sb t) (coeff * sc t))).

Hypothesis hb0 : Rlt R0 hb.
(** BtoChar in the grouped order *)
Lemma btochar_grp m s : grp (btochar m s) = GTri (block_mx (RtoC ((s - 1) / 2)%coqR *: X m) (- J m) (- J m)^T (X m)) 0 1.
Proof.
rewrite /grp /btochar /= /order0312 /X /Zm /J scale_block_mx !opp_block_mx ?(block_mxKul, block_mxKur, block_mxKdl, block_mxKdr) /group ?(block_mxKul, block_mxKur, block_mxKdl, block_mxKdr).
rewrite !opprK !oppr0 !scaler0. congr GTri.
- congr block_mx. by rewrite tr_block_mx !trmx0 linearN /= !trmx1.
- rewrite groupv_P mulmx0. by [].
Qed.
(** a state in the quadrature basis *)
Definition qstate m (xi : 'M[C]_(m + m)) (d : 'cV[C]_(m + m)) (c : C) : gtri (m + m) 0 := GTri (block_mx (1%:M - invmx xi) 0 0 0) (col_mx (invmx xi *m d) 0) c.
Lemma rTr m : (rotmat m)^T *m conj (rotmat m) = 1%:M.
Proof. apply: mulmx1C. exact: rrT. Qed.
Lemma J_rot m : J m *m conj (rotmat m) = Ci *: (rotmat m *m J m).
Proof.
have H := rot_J m. have E : J m = Ci *: (rotmat m *m J m *m (rotmat m)^T).
  rewrite H scalerA. have -> : Ci * - Ci = 1 by rewrite CmulE CoppE C1E /Ci /Cmult /Copp /RtoC /=; congr pair; ring. by rewrite scale1r.
by rewrite {1}E -scalemxAl -mulmxA rTr mulmx1.
Qed.
Lemma btochar_change m s : grp (btochar m s) = change 1%:M (rotmat m) (GTri (block_mx (RtoC ((s - 1) / 2)%coqR *: X m) (- (Ci *: (rotmat m *m J m))) (- (Ci *: (rotmat m *m J m)))^T 1%:M) 0 1).
Proof.
rewrite btochar_grp /change /= mulmx0. congr GTri. rewrite -J_rot tr_block_mx !trmx0 trmx1 !mulmx_block ?(mul0mx, mulmx0, addr0, add0r, mul1mx, mulmx1).
have E : (- (J m *m conj (rotmat m))) *m (rotmat m)^T = - J m by rewrite mulNmx -mulmxA rrT mulmx1.
congr block_mx; first by [].
- by rewrite -[in LHS]E trmx_mul trmxK.
- by rewrite -{1}Xcrot -mulmxA rrT mulmx1.
Qed.
Lemma JJ m : (J m)^T *m J m = 1%:M.
Proof. by rewrite /J tr_block_mx !trmx0 linearN /= trmx1 mulmx_block ?(mul0mx, mulmx0, addr0, add0r) mulNmx mulmxN opprK !mul1mx -scalar_mx_block. Qed.
Section Core.
Variables (m : nat) (xi : 'M[C]_(m + m)) (d : 'cV[C]_(m + m)) (c : C) (st : stri m) (s : R).
Hypothesis sxi : xi^T = xi.
Hypothesis P : pd xi.
Hypothesis E : st2g st = change (conj (rotmat m)) 1%:M (qstate xi d c).
Let U := pd_unit P.
Let HK : (1%:M - (1%:M - invmx xi) *m 1%:M) *m xi = 1%:M.
Proof. by rewrite mulmx1 opprB addrC subrK mulVmx. Qed.
Lemma core_then : gthen (st2g st) (grp (btochar m s)) = if Rlt_dec threshold (/ Cmod (\det xi))%coqR then
  Some (GTri (block_mx (RtoC ((s - 1) / 2)%coqR *: X m - rotmat m *m J m *m (xi - 1%:M) *m (rotmat m *m J m)^T) 0 0 0)
             (col_mx (- (Ci *: (rotmat m *m J m *m d))) 0) (c * csqrt (\det xi) * Cexp (half * (d^T *m invmx xi *m d) 0 0))) else None.
Proof.
have ED : Cmod (\det (1%:M - (1%:M - invmx xi) *m 1%:M)) = (/ Cmod (\det xi))%coqR.
  rewrite mulmx1 opprB addrC subrK det_inv CinvE Cmod_inv // => H0. move: U. rewrite unitmxE unitfE => /eqP. by rewrite C0E H0.
rewrite E btochar_change. rewrite (gthen_change 1%:M 1%:M (rrT m)). rewrite /qstate.
have -> : block_mx (1%:M - invmx xi) 0 0 0 = block_mx (1%:M - invmx xi) (0 : 'M[C]_(m + m, 0)) (0 : 'M[C]_(m + m, 0))^T 0 by rewrite trmx0.
have -> : (0 : 'cV[C]_(m + m + (m + m))) = col_mx 0 0 by rewrite col_mx0.
have s1 : (1%:M - invmx xi)^T = 1%:M - invmx xi by rewrite linearB /= trmx1 trmx_inv sxi.
have s2 : (1%:M : 'M[C]_(m + m))^T = 1%:M by rewrite trmx1.
rewrite -ED. case: Rlt_dec => H; last first.
  rewrite /gthen /= !block_mxKul !block_mxKdr. case: Rlt_dec => // H1. case: H. by rewrite -gdet_M CmulE Cmod_mult Cmod_sgn Rmult_1_l.
rewrite (gthen_val 0 0 _ _ s1 s2 HK _ 0 0 0 _ _ H) /= /change /=. congr Some.
set w := - (Ci *: _). rewrite -!scalar_mx_block mul1mx trmx1 mulmx1 mul1mx !sxi. congr GTri.
- rewrite ?(mul0mx, mulmx0, trmx0, add0r, addr0). congr block_mx. congr (_ + _).
  have -> : w *m (1%:M - invmx xi) *m xi *m w^T = w *m (xi - 1%:M) *m w^T by rewrite -[w *m _ *m xi]mulmxA mulmxBl mul1mx mulVmx.
  have wT : w^T = - (Ci *: (rotmat m *m J m)^T) by apply/matrixP=> i j; rewrite !mxE.
  have E3 (u v t : 'M[C]_(m + m)) : - (Ci *: u) *m v *m - (Ci *: t) = - (u *m v *m t) by rewrite mulmxN !mulNmx opprK -!scalemxAl -scalemxAr scalerA CiCi scaleN1r.
  by rewrite wT /w E3.
- rewrite ?(mul0mx, mulmx0, trmx0, add0r, addr0). congr col_mx. by rewrite mulKVmx // /w mulNmx -scalemxAl.
- rewrite mulr1 mulmx1 opprB addrC subrK det_inv invrK. congr (_ * Cexp (_ * _)). rewrite /gQ ?(mul0mx, mulmx0, trmx0, add0r, addr0) mul1mx mulKVmx //.
  by rewrite trmx_mul trmx_inv sxi.
Qed.
Definition cov_of : 'M[C]_(m + m) := RtoC hb *: (xi - 1%:M) + RtoC (hb * (1 - s) / 2)%coqR *: 1%:M.
Lemma core : phase_space s st = if Rlt_dec threshold (/ Cmod (\det xi))%coqR then
  Some (cov_of, RtoC (sqrt hb) *: d, c * csqrt (\det xi) * Cexp (half * (d^T *m invmx xi *m d) 0 0)) else None.
Proof.
rewrite /phase_space /sthen core_then. case: Rlt_dec => // H. rewrite /= /cov_means /g2st /= block_mxKul col_mxKu. congr Some. congr (_, _, _).
- rewrite /cov_of. have R1 := proj1 (rot_unitary m).
  set r := rotmat m. have -> : (conj r)^T = adj r by []. have -> : (adj r)^T = conj r by rewrite /adj trmxK. rewrite trmxK.
  move: (xi - 1%:M) => y. rewrite !mulmxBr !mulmxBl opprB scalerBr. congr (_ + _).
  + congr (_ *: _). rewrite trmx_mul. have -> : (J m)^T *m adj r *m (r *m J m *m y *m ((J m)^T *m r^T)) *m conj r *m J m =
      (J m)^T *m (adj r *m r) *m J m *m y *m ((J m)^T *m (r^T *m conj r) *m J m) by rewrite !mulmxA.
    by rewrite R1 rTr !mulmx1 JJ mul1mx mulmx1.
  + rewrite -scalemxAr -!scalemxAl scalerA. have -> : (J m)^T *m adj r *m X m *m conj r *m J m = (J m)^T *m (adj r *m (X m *m conj r)) *m J m by rewrite !mulmxA.
    rewrite Xcrot R1 mulmx1 JJ -scaleNr. congr (_ *: _). rewrite CmulE CoppE -RtoC_mult -RtoC_opp. congr RtoC. field.
- congr (_ *: _). have R1 := proj1 (rot_unitary m). rewrite mulmxN -scalemxAr scalerN scalerA CiCi scaleN1r opprK.
  have -> : (J m)^T *m (conj (rotmat m))^T *m (rotmat m *m J m *m d) = (J m)^T *m (adj (rotmat m) *m rotmat m) *m J m *m d by rewrite !mulmxA. by rewrite R1 mulmx1 JJ mul1mx.
Qed.
End Core.

Lemma st2g_inj m : injective (@st2g m).
Proof. move=> x y H. by rewrite -(g2st_st2g x) -(g2st_st2g y) H. Qed.
Lemma wig_q m (cov : 'M[C]_(m + m)) (means : 'cV[C]_(m + m)) coeff : real cov -> real means -> xiM hb (nil (m + m)) cov \in unitmx ->
  exists rho, from_phase_space cov means coeff = Base.Ok rho /\
    let xi := xiM hb (nil (m + m)) cov in let d := RtoC (/ sqrt hb) *: means in
    st2g rho = change (conj (rotmat m)) 1%:M (qstate xi d (coeff * (Cexp (- half * (d^T *m invmx xi *m d) 0 0) / csqrt (\det xi)))).
Proof.
move=> rc rm U. case: (wig_val rc rm U) => t [Et Gt]. rewrite /from_phase_space Et /=. eexists; split; first reflexivity.
set xi := xiM hb _ cov in U Gt *. set d := _ *: means in Gt *. move: Gt. rewrite /st2g /= /change /hat /qstate /= => -[].
have -> : invmx xi *m nil (m + m) = 0 by apply: thinmx0. have -> : (nil (m + m))^T *m invmx xi = 0 by apply: flatmx0.
have -> : 1%:M - 0 *m nil (m + m) = 0 :> 'M[C]_0 by apply: flatmx0. have -> : - (0 *m d) = 0 :> 'cV[C]_0 by apply: flatmx0.
move=> -> -> ->. by [].
Qed.
Lemma cexp_cancel q : Cexp (- half * q) * Cexp (half * q) = 1.
Proof. rewrite CmulE -Cexp_add mulNr -CaddE addNr C0E Cexp_0. by []. Qed.
Lemma sqrt_det n (xi : 'M[C]_n) : pd xi -> csqrt (\det xi) <> 0.
Proof.
move=> P. case: (det_pos_ex P) => r [r0 ->]. rewrite csqrt_R; last lra. rewrite C0E => /RtoC_inj. have := sqrt_lt_R0 _ r0. lra.
Qed.
Lemma coef_cancel (k e1 e2 z : C) : z <> 0 -> e1 * e2 = 1 -> k * (e1 / z) * z * e2 = k.
Proof. move=> /eqP Nz H. rewrite -!mulrA [z^-1 * _]mulrA mulVf // mul1r H mulr1. by []. Qed.
Lemma sqhb : RtoC (sqrt hb) * RtoC (/ sqrt hb) = 1.
Proof. rewrite CmulE -RtoC_mult C1E. congr RtoC. apply: Rinv_r. have := sqrt_lt_R0 _ hb0. lra. Qed.
Lemma half2h : RtoC hb * half = RtoC (hb / 2)%coqR. Proof. rewrite /half CmulE -RtoC_mult. by []. Qed.
(** C63: the phase space parametrization of DM.from_phase_space(modes, (cov, means, coeff)) is (cov - s hbar/2, means, coeff); cov is any real positive semidefinite matrix *)
Theorem C63_roundtrip m (cov : 'M[C]_(m + m)) (means : 'cV[C]_(m + m)) coeff s : noise cov -> real means ->
  exists rho, from_phase_space cov means coeff = Base.Ok rho /\
    phase_space s rho = if Rlt_dec threshold (/ Cmod (\det (half *: 1%:M + RtoC (/ hb) *: cov)))%coqR then Some (cov - RtoC (s * (hb / 2))%coqR *: 1%:M, means, coeff) else None.
Proof.
move=> nc rm. have [rc Nc] := nc. have P := xi_pd hb0 (real_nil _) Nc. have sx := xi_sym hb (nil (m + m)) (noise_sym nc).
case: (wig_q coeff rc rm (pd_unit P)) => rho [E G]. exists rho. split=> //. rewrite (core s sx P G). rewrite -xi_nil. case: Rlt_dec => // H. congr (Some (_, _, _)).
- rewrite /cov_of xi_nil.
  have -> : RtoC hb *: (half *: 1%:M + RtoC (/ hb) *: cov - 1%:M) = cov - RtoC (hb / 2)%coqR *: 1%:M.
    have E1 : 1%:M = half *: 1%:M + half *: 1%:M :> 'M[C]_(m + m) by rewrite -scalerDl half1 scale1r.
    rewrite {2}E1 opprD addrA addrC !addrA [- _ + half *: _]addrC subrr add0r scalerDr scalerA scalerN scalerA half2h.
    have -> : RtoC hb * RtoC (/ hb) = 1 by rewrite CmulE -RtoC_mult C1E; congr RtoC; apply: Rinv_r; lra. by rewrite scale1r.
  rewrite -addrA. congr (_ + _). rewrite -!scaleNr -scalerDl. congr (_ *: _). rewrite CaddE !CoppE -!RtoC_opp -RtoC_plus. congr RtoC. field.
- by rewrite scalerA sqhb scale1r.
- apply: coef_cancel; [exact: sqrt_det|exact: cexp_cancel].
Qed.

(** ** the other direction: a density matrix is determined by its phase space parametrization *)
(** A Gaussian density matrix: A symmetric, Hermitian under the exchange of bra and ket, and 1 - A X positive definite (the Husimi covariance is positive) *)
Definition gaussian_dm m (rho : stri m) : Prop :=
  [/\ (sA rho)^T = sA rho, conj (sA rho) = X m *m sA rho *m X m, conj (sb rho) = X m *m sb rho & pd (1%:M - sA rho *m X m)].
Lemma Xrot' m : (rotmat m)^T *m X m = adj (rotmat m).
Proof. rewrite /adj -Xrot trmx_mul. congr (_ *m _). by rewrite /X tr_block_mx !trmx0 !trmx1. Qed.
Lemma Xadj m : adj (rotmat m) *m X m = (rotmat m)^T.
Proof. have XXm : X m *m X m = 1%:M by rewrite /X mulmx_block ?(mul0mx, mulmx0, mulmx1, addr0, add0r) -scalar_mx_block. by rewrite -Xrot' -mulmxA XXm mulmx1. Qed.
Lemma gaussian_q m (rho : stri m) : gaussian_dm rho -> exists xi d, [/\ xi^T = xi, pd xi, real xi, real d & st2g rho = change (conj (rotmat m)) 1%:M (qstate xi d (sc rho))].
Proof.
case: rho => A b c [/= sA hA hb' P]. set r := rotmat m. have rt := rTr m. have tr := rrT m. rewrite -/r in rt tr.
set y := r^T *m A *m r. have y1 : 1%:M - y = r^T *m (1%:M - A *m X m) *m adj r^T.
  rewrite mulmxBr mulmxBl mulmx1. have -> : adj r^T = conj r by rewrite /adj -conj_tr trmxK. rewrite rt. congr (_ - _).
  by rewrite /y -!mulmxA Xcrot !mulmxA.
have Ur : r^T \in unitmx by case/mulmx1_unit: rt.
have Py : pd (1%:M - y) by rewrite y1; exact: pd_conj.
have sy : y^T = y by rewrite /y !trmx_mul trmxK sA mulmxA.
have ry : real y.
  rewrite /real /y !conj_mul hA. have -> : conj r^T = adj r by rewrite conj_tr.
  have -> : adj r *m (X m *m A *m X m) *m conj r = (adj r *m X m) *m A *m (X m *m conj r) by rewrite !mulmxA. by rewrite Xadj Xcrot.
have rb : real (r^T *m b) by rewrite /real conj_mul hb' conj_tr mulmxA Xadj.
set xi := invmx (1%:M - y). have Px : pd xi by exact: pd_inv. have ix : invmx xi = 1%:M - y by rewrite invmxK.
exists xi, (xi *m (r^T *m b)). split=> //.
- by rewrite /xi trmx_inv linearB /= trmx1 sy.
- apply: real_invmx. apply: realB => //. exact: real1.
- apply: realM => //. apply: real_invmx. apply: realB => //. exact: real1.
- rewrite /st2g /change /qstate /= mulKmx; last exact: pd_unit. rewrite ix. congr GTri.
  + rewrite tr_block_mx !trmx0 trmx1 !mulmx_block ?(mul0mx, mulmx0, addr0, add0r, mul1mx). congr block_mx.
    rewrite opprB addrCA subrr addr0 /y. have -> : conj r *m (r^T *m A *m r) *m (conj r)^T = (conj r *m r^T) *m A *m (r *m (conj r)^T) by rewrite !mulmxA.
    rewrite tr mul1mx. have -> : r *m (conj r)^T = 1%:M by case: (rot_unitary m). by rewrite mulmx1.
  + by rewrite mul_block_col !mul0mx mulmx0 ?(addr0, add0r) mulmxA tr mul1mx.
Qed.
Lemma coef_cancel' (k e1 e2 z : C) : z <> 0 -> e1 * e2 = 1 -> k * z * e2 * (e1 / z) = k.
Proof. move=> /eqP Nz H. rewrite -!mulrA [e2 * _]mulrA [e2 * e1]mulrC H mul1r mulfV // mulr1. by []. Qed.
(** C63: from_phase_space is inverse to phase_space(0) on Gaussian density matrices, of any trace *)
Theorem C63_complete m (rho : stri m) cov means coeff : gaussian_dm rho -> phase_space R0 rho = Some (cov, means, coeff) ->
  real cov /\ real means /\ cov^T = cov /\ from_phase_space cov means coeff = Base.Ok rho.
Proof.
move=> G. case: (gaussian_q G) => xi [d [sx Px rx rd E]]. rewrite (core R0 sx Px E). case: Rlt_dec => // H [<- <- <-].
have rc : real (cov_of xi R0) by apply: realD; apply: realZ; [apply: realB => //; exact: real1|exact: real1].
have rm := realZ (sqrt hb) rd. have X1 : xiM hb (nil (m + m)) (cov_of xi R0) = xi.
  rewrite xi_nil /cov_of scalerDr !scalerA. have -> : RtoC (/ hb) * RtoC hb = 1 by rewrite CmulE -RtoC_mult C1E; congr RtoC; apply: Rinv_l; lra.
  have -> : RtoC (/ hb) * RtoC (hb * (1 - R0) / 2)%coqR = half by rewrite CmulE -RtoC_mult; congr RtoC; field; lra.
  rewrite scale1r addrC -addrA -scalerDl half1 scale1r. by rewrite subrK.
split=> //. split=> //. split; first by rewrite /cov_of linearD /= !linearZ /= linearB /= !trmx1 sx.
case: (wig_q (sc rho * csqrt (\det xi) * Cexp (half * (d^T *m invmx xi *m d) 0 0)) rc rm); first by rewrite X1; exact: pd_unit.
move=> rho' [-> /= G']. congr Base.Ok. apply: st2g_inj. rewrite G' E X1. congr change.
have -> : RtoC (/ sqrt hb) *: (RtoC (sqrt hb) *: d) = d by rewrite scalerA mulrC sqhb scale1r.
congr qstate. apply: coef_cancel'; [exact: sqrt_det|exact: cexp_cancel].
Qed.

Lemma q_gaussian m xi d c (rho : stri m) : xi^T = xi -> pd xi -> real xi -> real d -> st2g rho = change (conj (rotmat m)) 1%:M (qstate xi d c) -> gaussian_dm rho.
Proof.
move=> sx P rx rd. case: rho => A b c' /=. rewrite /st2g /change /qstate /= tr_block_mx !trmx0 trmx1 !mulmx_block !mul_block_col ?(mul0mx, mulmx0, addr0, add0r, mul1mx) => -[/eq_block_mx [-> _ _ _] /eq_col_mx [-> _] _].
set r := rotmat m. have ri := real_invmx rx. have Xc := Xcrot m. have Xr := Xrot m. rewrite -/r in Xc Xr.
have XT : (X m)^T = X m by rewrite /X tr_block_mx !trmx0 !trmx1. have tX : (conj r)^T *m X m = r^T by rewrite -[in RHS]Xc trmx_mul XT.
split=> /=.
- by rewrite !trmx_mul trmxK linearB /= trmx1 trmx_inv sx mulmxA.
- rewrite !conj_mul conjmxK conj_tr conjmxK map_mxB map_mx1 ri !mulmxA Xc -[_ *m X m]mulmxA tX. by [].
- by rewrite !conj_mul conjmxK ri rd [RHS]mulmxA Xc.
- have -> : 1%:M - conj r *m (1%:M - invmx xi) *m (conj r)^T *m X m = conj r *m invmx xi *m adj (conj r).
    have aX : adj (conj r) = r^T by rewrite /adj conjmxK.
    rewrite -mulmxA tX aX mulmxBr mulmxBl mulmx1. have -> : conj r *m r^T = 1%:M := rrT m. by rewrite opprB addrCA subrr addr0.
  apply: pd_conj; last exact: pd_inv. by case/mulmx1_unit: (rrT m).
Qed.
(** the states of from_phase_space are Gaussian density matrices *)
Theorem C63_gaussian m (cov : 'M[C]_(m + m)) (means : 'cV[C]_(m + m)) coeff rho : noise cov -> real means -> from_phase_space cov means coeff = Base.Ok rho -> gaussian_dm rho.
Proof.
move=> nc rm. have [rc Nc] := nc. have P := xi_pd hb0 (real_nil _) Nc. case: (wig_q coeff rc rm (pd_unit P)) => r [-> G] [<-].
apply: (q_gaussian _ P _ _ G); [exact: xi_sym (noise_sym nc)|exact: xi_real (real_nil _) rc|exact: realZ].
Qed.

(** ** kets *)
(** base.py:517-518: the ket meets the input ket wires of BtoChar first, then its adjoint meets the input bra wires.
    [ket_side]: BtoChar with outputs (out_bra, out_ket, in_bra) and input in_ket; [bra_side]: a triple on (out_bra, out_ket, in_bra) with input in_bra *)
Definition ket_side m (t : gtri (m + m) (m + m)) : gtri ((m + m) + m) m :=
  let oi := ursubmx (gA t) in let io := dlsubmx (gA t) in let ii := drsubmx (gA t) in
  GTri (block_mx (block_mx (ulsubmx (gA t)) (lsubmx oi) (usubmx io) (ulsubmx ii)) (col_mx (rsubmx oi) (ursubmx ii)) (row_mx (dsubmx io) (dlsubmx ii)) (drsubmx ii))
       (col_mx (col_mx (usubmx (gb t)) (usubmx (dsubmx (gb t)))) (dsubmx (dsubmx (gb t)))) (gc t).
Definition bra_side m (t : gtri ((m + m) + m) 0) : gtri (m + m) m := GTri (ulsubmx (gA t)) (usubmx (gb t)) (gc t).
Definition kadj m (k : ket m) : gtri m 0 := GTri (block_mx (conj (kA k)) 0 0 0) (col_mx (conj (kb k)) 0) (Cconj (kc k)).
Definition ket_phase_space m (s : R) (k : ket m) : option ('M[C]_(m + m) * 'cV[C]_(m + m) * C) :=
  omap (fun t => cov_means (g2st t)) (obind (fun t => gthen (kadj k) (bra_side t)) (gthen (k2g k) (ket_side (grp (btochar m s))))).
Lemma ket_first m s (k : ket m) : (kA k)^T = kA k ->
  gthen (k2g k) (ket_side (grp (btochar m s))) = Some (GTri
   (block_mx (block_mx (RtoC ((s - 1) / 2)%coqR *: X m + block_mx (kA k) 0 0 0) (col_mx (- kA k) 1%:M) (row_mx (- kA k) 1%:M) (kA k)) 0 0 0)
   (col_mx (col_mx (col_mx (- kb k) 0) (kb k)) 0) (kc k)).
Proof.
case: k => A b c /= sA. rewrite btochar_grp /ket_side /= !linear0 ?(block_mxKul, block_mxKur, block_mxKdl, block_mxKdr).
have EJ : - J m = row_mx (col_mx 0 1%:M) (col_mx (- 1%:M) 0) by rewrite /J opp_block_mx !oppr0 opprK block_mxEh.
have EJT : (- J m)^T = col_mx (row_mx 0 1%:M) (row_mx (- 1%:M) 0).
  rewrite EJ tr_row_mx !tr_col_mx !trmx0 trmx1. by have -> : (- 1%:M)^T = - 1%:M :> 'M[C]_m by rewrite linearN /= trmx1.
rewrite EJT EJ row_mxKl row_mxKr col_mxKu col_mxKd /k2g /=.
set T := block_mx (_ *: _) _ _ _. set W := col_mx (col_mx (- 1%:M) 0) 1%:M.
have -> : row_mx (row_mx (- 1%:M) 0) 1%:M = W^T.
  rewrite /W !tr_col_mx !trmx0 trmx1. by have -> : (- 1%:M)^T = - 1%:M :> 'M[C]_m by rewrite linearN /= trmx1.
have -> : block_mx A 0 0 0 = block_mx A (0 : 'M[C]_(m, 0)) (0 : 'M[C]_(m, 0))^T 0 by rewrite trmx0.
have s0 : (0 : 'M[C]_m)^T = 0 by rewrite trmx0. have HK : (1%:M - A *m 0) *m 1%:M = 1%:M :> 'M[C]_m by rewrite mulmx0 subr0 mulmx1.
rewrite (gthen_val 0 0 T W sA s0 HK); last by rewrite mulmx0 subr0 det1 C1E Cmod_1; exact: thr_lt1.
congr Some. congr GTri.
- rewrite ?(mul0mx, mulmx0, trmx0, add0r, addr0). congr block_mx. rewrite trmx1 mulmx1 /W !tr_col_mx !trmx0 trmx1.
  have -> : (- 1%:M)^T = - 1%:M :> 'M[C]_m by rewrite linearN /= trmx1.
  rewrite !mul_col_mx mulNmx mul1mx mul0mx !mul_mx_row ?(mulmxN, mulNmx, mulmx1, mul0mx, mulmx0, oppr0, opprK).
  set Q := col_mx _ _. have -> : Q = block_mx (block_mx A 0 0 0) (col_mx (- A) 0) (row_mx (- A) 0) A.
    rewrite /Q [RHS]block_mxEv. congr col_mx. rewrite -block_mxEv block_mxEh. by congr row_mx.
  rewrite /T add_block_mx add_col_mx add_row_mx !add0r !addr0. by [].
- rewrite ?(mul0mx, mulmx0, trmx0, add0r, addr0, mul1mx) /W !mul_col_mx mulNmx mul1mx mul0mx col_mx0 add0r. by [].
- rewrite mulr1 mulmx0 subr0 det1 invr1 /gQ ?(mul0mx, mulmx0, trmx0, add0r, addr0) mxE mulr0.
  have -> : Cexp 0 = 1 by rewrite C0E Cexp_0. have -> : csqrt 1 = 1 by rewrite C1E csqrt1. by rewrite !mulr1.
Qed.

Section KetDm.
Variables (m : nat) (s : R) (A : 'M[C]_m) (b : 'cV[C]_m) (c : C).
Hypothesis sA : A^T = A.
Let sA' : (conj A)^T = conj A. Proof. by rewrite -conj_tr sA. Qed.
Let D := 1%:M - conj A *m A.
Let AX : block_mx (conj A) 0 0 A *m X m = block_mx 0 (conj A) A 0.
Proof. by rewrite /X mulmx_block ?(mul0mx, mulmx0, mulmx1, addr0, add0r). Qed.
Lemma dm_det : \det (1%:M - block_mx (conj A) 0 0 A *m X m) = \det D.
Proof.
rewrite AX scalar_mx_block opp_block_mx add_block_mx !oppr0 !addr0 !add0r.
have E : block_mx 1%:M (- conj A) (- A) 1%:M = block_mx D (- conj A) 0 1%:M *m block_mx 1%:M 0 (- A) 1%:M.
  rewrite mulmx_block ?(mul0mx, mulmx0, mulmx1, mul1mx, addr0, add0r). by rewrite mulNmx mulmxN opprK /D subrK.
by rewrite E det_mulmx det_ublock det_lblock !det1 !mulr1.
Qed.
(** the density matrix has the same phase space parametrization as the ket *)
Lemma ket_dm : ket_phase_space s (Ket A b c) = phase_space s (dm (Ket A b c)).
Proof.
rewrite /ket_phase_space ket_first //= /phase_space /sthen. rewrite /bra_side /= block_mxKul col_mxKu.
rewrite btochar_grp /kadj /st2g /dm /=.
set T := RtoC _ *: X m. set AA := block_mx (conj A) 0 0 A.
have sAA : AA^T = AA by rewrite /AA tr_block_mx !trmx0 sA sA'.
have XT : (X m)^T = X m by rewrite /X tr_block_mx !trmx0 !trmx1.
case: (Rlt_dec threshold (Cmod (\det D))) => H; last first.
  have -> : gthen (GTri (block_mx AA 0 0 0) (col_mx (col_mx (conj b) b) 0) (Cconj c * c)) (GTri (block_mx T (- J m) (- J m)^T (X m)) 0 1) = None :> option (gtri (m + m) 0).
    rewrite /gthen /= !block_mxKul !block_mxKdr. case: Rlt_dec => // H1. case: H. by rewrite -dm_det -gdet_M CmulE Cmod_mult Cmod_sgn Rmult_1_l.
  have -> : row_mx (- A) 1%:M = (col_mx (- A) 1%:M)^T by rewrite tr_col_mx trmx1 linearN /= sA.
  rewrite /gthen /= !block_mxKul !block_mxKdr. case: Rlt_dec => // H1. case: H. by rewrite -gdet_M CmulE Cmod_mult Cmod_sgn Rmult_1_l.
have U := thr_unit H. set K := invmx D. have DK : D *m K = 1%:M by exact: mulmxV. have KD : K *m D = 1%:M by exact: mulVmx.
have DT : D^T = conj D by rewrite /D linearB /= trmx1 trmx_mul sA sA' map_mxB map_mx1 conj_mul conjmxK.
have KT : K^T = conj K by rewrite /K trmx_inv DT conj_inv.
have cDK : conj D *m conj K = 1%:M by rewrite -conj_mul DK map_mx1.
(* e = K conj A = conj A conj K *)
have eE : K *m conj A = conj A *m conj K.
  have E1 : D *m conj A = conj A *m conj D by rewrite /D map_mxB map_mx1 conj_mul conjmxK mulmxBl mulmxBr mul1mx mulmx1 mulmxA.
  have : K *m (D *m conj A) *m conj K = K *m (conj A *m conj D) *m conj K by rewrite E1. rewrite mulmxA KD mul1mx => ->. by rewrite -!mulmxA cDK mulmx1.
have eE' : conj K *m A = A *m K by move: (congr1 (fun M => conj M) eE); rewrite !conj_mul !conjmxK.
have K1 : K = 1%:M + conj A *m A *m K.
  by rewrite -DK {1}/D mulmxBl mul1mx subrK.
have K2 : conj K = 1%:M + A *m conj A *m conj K by move: (congr1 (fun M => conj M) K1); rewrite map_mxD map_mx1 !conj_mul conjmxK.
(* the contraction of the density matrix *)
set KK : 'M[C]_(m + m) := block_mx K (conj A *m conj K) (A *m K) (conj K).
have HKK : (1%:M - AA *m X m) *m KK = 1%:M.
  rewrite /AA AX scalar_mx_block opp_block_mx add_block_mx !oppr0 !addr0 !add0r /KK mulmx_block !mulNmx !mul1mx !mulmxA.
  congr block_mx; [by rewrite {1}K1 addrK|by rewrite subrr|by rewrite addNr|by rewrite {2}K2 addrCA addNr addr0].
have Hd : Rlt threshold (Cmod (\det (1%:M - AA *m X m))) by rewrite dm_det.
have -> : block_mx AA 0 0 0 = block_mx AA (0 : 'M[C]_(m + m, 0)) (0 : 'M[C]_(m + m, 0))^T 0 by rewrite trmx0.
have -> : (0 : 'cV[C]_(m + m + (m + m))) = col_mx 0 0 by rewrite col_mx0.
rewrite (gthen_val 0 0 T (- J m) sAA XT HKK _ 0 0 0 _ 1 Hd).
(* the contraction of the ket *)
have -> : row_mx (- A) 1%:M = (col_mx (- A) 1%:M)^T by rewrite tr_col_mx trmx1 linearN /= sA.
have -> : block_mx (conj A) 0 0 0 = block_mx (conj A) (0 : 'M[C]_(m, 0)) (0 : 'M[C]_(m, 0))^T 0 by rewrite trmx0.
rewrite (gthen_val 0 0 _ _ sA' sA DK _ _ 0 _ _ _ H) /=. congr Some. congr cov_means. rewrite /g2st /= !block_mxKul !col_mxKu.
have EJ : - J m = block_mx 0 (- 1%:M) 1%:M 0 by rewrite /J opp_block_mx !oppr0 opprK.
have EJT : (- J m)^T = block_mx 0 1%:M (- 1%:M) 0 by rewrite EJ tr_block_mx !trmx0 trmx1 linearN /= trmx1.
have KKT : KK^T = block_mx (conj K) (A *m K) (conj A *m conj K) K.
  rewrite /KK tr_block_mx !trmx_mul KT -[(conj K)^T]conj_tr KT !conjmxK sA sA'. by rewrite eE eE'.
congr STri.
- rewrite -addrA. congr (_ + _). rewrite EJT EJ KKT /AA !mulmx_block ?(mul0mx, mulmx0, mulmx1, mul1mx, mulmxN, mulNmx, addr0, add0r, oppr0, opprK).
  rewrite KT tr_col_mx trmx1 linearN /= sA -[_ *m row_mx _ _]mulmxA mul_mx_row mulmx1 -mulmxA mul_mx_row mul_col_row add_block_mx !add0r ?(mulmxN, mulNmx, mul1mx, opprK).
  congr block_mx; [|by rewrite -eE'].
  by rewrite -{1}[A]mul1mx !mulmxA -mulmxDl -K2 eE'.
- rewrite mulmx0 add0r addr0 EJ /KK !mul_block_col ?(mul0mx, mul1mx, mulNmx, addr0, add0r) KT mul_col_mx mul1mx add_col_mx add0r. congr col_mx.
  rewrite mulNmx -opprD mulmxDr addrCA. congr (- (_ + _)); first by rewrite !mulmxA. rewrite {2}K2 mulmxDl mul1mx !mulmxA. by [].
- rewrite mulr1 dm_det -/D. congr (_ * Cexp (_ * _)). rewrite /gQ ?(mul0mx, mulmx0, trmx0, addr0) KT /KK tr_col_mx -[X m *m _ *m _]mulmxA mul_block_col /X mul_block_col !mul0mx !mul1mx addr0 add0r mul_row_col.
  by [].
Qed.
End KetDm.
(** C63: Ket.phase_space(s) is the phase space parametrization of the density matrix of the ket *)
Theorem C63_ket m s (k : ket m) : (kA k)^T = kA k -> ket_phase_space s k = phase_space s (dm k).
Proof. case: k => A b c. exact: ket_dm. Qed.

(** ** Ket.from_phase_space *)
(** gaussian.py:45-54; the determinant of a real matrix is real *)
Definition gpurity m (cov : 'M[C]_(m + m)) : R := (/ sqrt (Re (\det (RtoC (2 / hb)%coqR *: cov))))%coqR.
(** bargmann_utils.py:99-106 *)
Definition wigner_to_bargmann_psi m (cov : 'M[C]_(m + m)) (means : 'cV[C]_(m + m)) : Base.result (ket m) :=
  Base.bind (wigner_to_bargmann_rho hb cov means) (fun t => Base.Ok (Ket (drsubmx (sA t)) (dsubmx (sb t)) (csqrt (sc t)))).
(** ket.py:150-172; atol_purity = None or 0 skips the check *)
Definition ket_from_phase_space m (cov : 'M[C]_(m + m)) (means : 'cV[C]_(m + m)) (coeff : C) (atol : option R) : Base.result (ket m) :=
  let ok := match atol with None => true | Some a => if Req_EM_T a R0 then true else if Rlt_dec (gpurity cov) (1 - a)%coqR then false else true end in
  if ok then Base.bind (wigner_to_bargmann_psi cov means) (fun k => Base.Ok (Ket (kA k) (kb k) (coeff * kc k))) else Base.Err Base.ValueError.
(** a pure covariance matrix: 2 cov / hbar is symplectic *)
Definition pure m (cov : 'M[C]_(m + m)) : Prop := let V := RtoC (2 / hb)%coqR *: cov in V *m J m *m V = J m.
Lemma pure_anti m (cov : 'M[C]_(m + m)) : pure cov -> xiM hb (nil (m + m)) cov \in unitmx ->
  J m *m (1%:M - invmx (xiM hb (nil (m + m)) cov)) *m (J m)^T = - (1%:M - invmx (xiM hb (nil (m + m)) cov)).
Proof.
rewrite /pure. set V := _ *: cov => HV. have Ex : xiM hb (nil (m + m)) cov = half *: (1%:M + V).
  rewrite xi_nil scalerDr /V scalerA. congr (_ + _ *: _). rewrite /half CmulE -RtoC_mult. congr RtoC. field. lra.
set xi := xiM _ _ _ in Ex *. move=> U. clearbody V. have J2 := JJ m. have J3 : J m *m (J m)^T = 1%:M by apply: mulmx1C.
have JT : (J m)^T = - J m by rewrite /J tr_block_mx !trmx0 trmx1 linearN /= trmx1 opp_block_mx !oppr0 opprK.
have VI : V *m (J m *m V *m (J m)^T) = 1%:M by rewrite !mulmxA HV.
have JVJ : J m *m V *m (J m)^T *m V = 1%:M by exact: mulmx1C VI.
(* J xi J^T is xi times the inverse of V *)
have E1 : (J m *m xi *m (J m)^T) *m V = xi.
  rewrite Ex -!scalemxAr -!scalemxAl. congr (_ *: _). rewrite mulmxDr mulmx1 !mulmxDl J3 JVJ mul1mx addrC. by [].
have E2 : (J m *m invmx xi *m (J m)^T) *m (J m *m xi *m (J m)^T) = 1%:M.
  have -> : (J m *m invmx xi *m (J m)^T) *m (J m *m xi *m (J m)^T) = J m *m (invmx xi *m ((J m)^T *m J m) *m xi) *m (J m)^T by rewrite !mulmxA.
  by rewrite J2 mulmx1 mulVmx // mulmx1.
have E3 : J m *m invmx xi *m (J m)^T = V *m invmx xi.
  have : (J m *m invmx xi *m (J m)^T) *m xi = V. rewrite -{2}E1 mulmxA E2 mul1mx. by []. move=> <-. by rewrite mulmxK.
rewrite mulmxBr mulmxBl mulmx1 J3 E3. have -> : V = xi + xi - 1%:M by rewrite Ex -scalerDl half1 scale1r addrAC subrr add0r.
rewrite !mulmxBl mulmxDl mul1mx mulmxV //. by rewrite !opprB addrCA opprD [1%:M + _]addrA subrr add0r.
Qed.

Lemma pure_blocks m (A : 'M[C]_(m + m)) : conj A = X m *m A *m X m -> J m *m A *m (J m)^T = conj A -> A = block_mx (conj (drsubmx A)) 0 0 (drsubmx A).
Proof.
rewrite -(submxK A). move: (ulsubmx A) (ursubmx A) (dlsubmx A) (drsubmx A) => a b c d. rewrite map_block_mx /X /J tr_block_mx !trmx0 trmx1.
have -> : (- 1%:M)^T = - 1%:M :> 'M[C]_m by rewrite linearN /= trmx1.
rewrite !mulmx_block ?(mul0mx, mulmx0, mulmx1, mul1mx, mulNmx, mulmxN, addr0, add0r, oppr0, opprK) => /eq_block_mx [Ea Eb Ec Ed] /eq_block_mx [_ Fb Fc _]. rewrite block_mxKdr.
have Z n (M : 'M[C]_n) : - M = M -> M = 0.
  move=> /matrixP H. apply/matrixP => i j. move: (H i j). rewrite !mxE. case: (M i j) => x y. rewrite CoppE /Copp /= => -[H1 H2]. rewrite C0E /RtoC. congr pair; lra.
congr block_mx; [by rewrite -(conjmxK a) Ea|by apply: Z; rewrite Fc Ec|by apply: Z; rewrite Fb Eb].
Qed.
Lemma c_pos n (xi : 'M[C]_n) (d : 'cV[C]_n) : pd xi -> real xi -> real d -> exists r, Rlt R0 r /\ Cexp (- half * (d^T *m invmx xi *m d) 0 0) / csqrt (\det xi) = RtoC r.
Proof.
move=> P rx rd. case: (det_pos_ex P) => r [r0 ->]. rewrite csqrt_R; last lra.
have R : real (d^T *m invmx xi *m d) by apply: realM => //; apply: realM; [exact: realT|exact: real_invmx].
have [q Eq] : exists q, (d^T *m invmx xi *m d) 0 0 = RtoC q.
  move/matrixP: R => /(_ 0 0). rewrite mxE. case: (_ 0 0) => x y [] H. exists x. rewrite /RtoC. congr pair. lra.
rewrite Eq. exists (exp (- (/ 2) * q) / sqrt r)%coqR. have s0 := sqrt_lt_R0 _ r0. split; first by apply: Rdiv_lt_0_compat => //; exact: exp_pos.
have -> : - half * RtoC q = RtoC (- (/ 2) * q)%coqR by rewrite /half CoppE CmulE -RtoC_opp -RtoC_mult.
rewrite Cexp_R CmulE CinvE /Rdiv RtoC_mult RtoC_inv //. lra.
Qed.
(** C63: Ket.from_phase_space of a pure covariance matrix is a ket whose density matrix is DM.from_phase_space with the coefficient |coeff|^2 *)
Theorem C63_pure m (cov : 'M[C]_(m + m)) (means : 'cV[C]_(m + m)) coeff : noise cov -> real means -> pure cov ->
  exists k, ket_from_phase_space cov means coeff None = Base.Ok k /\ (kA k)^T = kA k /\ from_phase_space cov means (Cconj coeff * coeff) = Base.Ok (dm k).
Proof.
move=> nc rm pc. have [rc Nc] := nc. have P := xi_pd hb0 (real_nil _) Nc. have U := pd_unit P. have sx := xi_sym hb (nil (m + m)) (noise_sym nc). have rx := xi_real hb (real_nil _) rc.
have An := pure_anti pc U. case: (wig_val rc rm U) => t [Et _]. 
case: (wig_q 1 rc rm U) => t' []. rewrite /from_phase_space Et /= => -[Et'] G.
have Gt := q_gaussian sx P rx (realZ (/ sqrt hb) rm) G. have [tA hA hB _] := Gt.
rewrite /ket_from_phase_space /wigner_to_bargmann_psi Et /=. eexists; split; first reflexivity.
have EA : sA t' = block_mx (conj (drsubmx (sA t'))) 0 0 (drsubmx (sA t')).
  apply: pure_blocks => //. move: G. rewrite /st2g /change /qstate /= tr_block_mx !trmx0 trmx1 !mulmx_block ?(mul0mx, mulmx0, addr0, add0r, mul1mx) => -[/eq_block_mx [-> _ _ _] _ _].
  set y := 1%:M - _ in An *. set r := rotmat m. have -> : J m *m (conj r *m y *m (conj r)^T) *m (J m)^T = (J m *m conj r) *m y *m (J m *m conj r)^T by rewrite trmx_mul !mulmxA.
  rewrite J_rot -/r -scalemxAl. have -> : (Ci *: (r *m J m))^T = Ci *: ((J m)^T *m r^T) by rewrite linearZ /= trmx_mul.
  rewrite -scalemxAr -scalemxAl scalerA CiCi scaleN1r.
  have -> : r *m J m *m y *m ((J m)^T *m r^T) = r *m (J m *m y *m (J m)^T) *m r^T by rewrite !mulmxA.
  rewrite An mulmxN mulNmx opprK !conj_mul conj_tr !conjmxK. congr (_ *m _ *m _). by rewrite /y map_mxB map_mx1 conj_inv rx.
have Eb : sb t' = col_mx (conj (dsubmx (sb t'))) (dsubmx (sb t')).
  move: hB. rewrite -(vsubmxK (sb t')). move: (usubmx _) (dsubmx _) => u l. rewrite col_mxKd map_col_mx /X mul_block_col !mul0mx !mul1mx addr0 add0r => /eq_col_mx [_ E].
  congr col_mx. by [].
split.
  move: tA. rewrite -Et' /= -{1 2}(submxK (sA t)) tr_block_mx => /eq_block_mx [_ _ _ E]. exact: E.
congr Base.Ok. rewrite /dm /=. rewrite -Et' /= in EA Eb. congr STri; [exact: EA|exact: Eb|].
case: (c_pos P rx (realZ (/ sqrt hb) rm)) => r [r0 Er]. have Ec : sc t = RtoC r by rewrite -Er -[LHS]mul1r -[RHS]mul1r; move: (congr1 (@gc _ _) G); rewrite -Et'. rewrite Ec.
rewrite csqrt_R; last lra. rewrite rmorphM /= conjR -!mulrA. congr (_ * _). rewrite [RHS]mulrCA. congr (_ * _). rewrite CmulE -RtoC_mult sqrt_sqrt //. lra.
Qed.

(** ** the purity *)
Lemma gtrace_scale a i (A : 'M[C]_((a + a) + i)) b (k c : C) : gtrace (GTri A b (k * c)) = omap (fun z => (z.1, k * z.2)) (gtrace (GTri A b c)).
Proof. rewrite /gtrace /=. case: Rlt_dec => //= H. by rewrite -!mulrA. Qed.
Lemma prob_fps m (cov : 'M[C]_(m + m)) (means : 'cV[C]_(m + m)) coeff : noise cov -> real means -> Rlt threshold (/ Cmod (\det (half *: 1%:M + RtoC (/ hb) *: cov)))%coqR ->
  exists rho, from_phase_space cov means coeff = Base.Ok rho /\ dm_probability rho = Some (Re coeff).
Proof.
move=> nc rm H. case: (C55_probability hb0 nc rm) => t [Et]. case: Rlt_dec => // H9 Ht. rewrite /from_phase_space Et /=. eexists; split; first reflexivity.
rewrite /dm_probability /st2g /= gtrace_scale. move: Ht. rewrite /st2g. by move: (gtrace (GTri _ _ (sc t))) => [z|] //= [->]; rewrite mulr1.
Qed.
Lemma grp_id (V : zmodType) (o z w : V) : o + (z - w + (z - o)) = z + z - w.
Proof. by rewrite addrC -addrA subrK addrAC. Qed.
Lemma pur_c (k r1 v q : R) : Rlt R0 r1 -> Rlt R0 v ->
  Re (RtoC (k * (exp (- / 2 * q) / sqrt r1))%coqR * RtoC (k * (exp (- / 2 * q) / sqrt r1))%coqR * csqrt (RtoC (v / (r1 * r1))%coqR)^-1 * Cexp (RtoC q)) = (k * k / sqrt v)%coqR.
Proof.
move=> p1 pv. have p2 : Rlt R0 (v / (r1 * r1))%coqR by apply: Rdiv_lt_0_compat => //; nra.
have -> : (RtoC (v / (r1 * r1))%coqR)^-1 = RtoC (/ (v / (r1 * r1)))%coqR by rewrite CinvE RtoC_inv //; lra.
rewrite csqrt_R; last by apply/Rlt_le/Rinv_0_lt_compat. rewrite Cexp_R !CmulE -!RtoC_mult /Re /=.
have -> : (/ (v / (r1 * r1)) = (r1 * r1) / v)%coqR by field; lra.
rewrite sqrt_div_alt // sqrt_square; last lra. have s1 := sqrt_lt_R0 _ p1. have sv := sqrt_lt_R0 _ pv. have S1 := sqrt_sqrt _ (Rlt_le _ _ p1).
have E : (exp (- / 2 * q) * exp (- / 2 * q) * exp q = 1)%coqR by rewrite -!exp_plus -exp_0; congr exp; field.
have -> : (k * (exp (- / 2 * q) / sqrt r1) * (k * (exp (- / 2 * q) / sqrt r1)) * (r1 / sqrt v) * exp q = k * k / sqrt v * (exp (- / 2 * q) * exp (- / 2 * q) * exp q) * (r1 / (sqrt r1 * sqrt r1)))%coqR by field; lra.
rewrite E S1. field. lra.
Qed.
(** C63: DM.purity of from_phase_space(cov, means, k) is gaussian.purity(cov) *)
Theorem C63_purity m (cov : 'M[C]_(m + m)) (means : 'cV[C]_(m + m)) (k : R) : real cov -> pd cov -> real means -> k <> R0 ->
  Rlt threshold (/ Cmod (\det (half *: 1%:M + RtoC (/ hb) *: cov)))%coqR ->
  Rlt threshold (Cmod (\det (RtoC (2 / hb)%coqR *: cov)) / (Cmod (\det (half *: 1%:M + RtoC (/ hb) *: cov)) * Cmod (\det (half *: 1%:M + RtoC (/ hb) *: cov))))%coqR ->
  exists rho, from_phase_space cov means (RtoC k) = Base.Ok rho /\ dm_purity rho = Some (gpurity cov).
Proof.
move=> rc pc rm k0 H1 H2. have nc : noise cov by split=> //; exact: pd_psd.
case: (prob_fps (RtoC k) nc rm H1) => rho [E Hp]. exists rho. split=> //. have P := xi_pd hb0 (real_nil _) (proj2 nc). have U := pd_unit P.
case: (wig_q (RtoC k) rc rm U) => rho' []. rewrite E => -[<-]. move: H1 H2 P U. have sx := xi_sym hb (nil (m + m)) (noise_sym nc). have rx := xi_real hb (real_nil (m + m)) rc. move: sx rx. rewrite -xi_nil.
set xi := xiM _ _ _. move=> sx rx H1 H2 P U /= G. set d := _ *: means in G. have rd : real d by exact: realZ.
set V := RtoC (2 / hb)%coqR *: cov in H2 *. have EV : V = xi + xi - 1%:M.
  rewrite /xi xi_nil addrACA -!scalerDl half1 scale1r addrC addrA addNr add0r /V. congr (_ *: _). rewrite CaddE -RtoC_plus. congr RtoC. field. lra.
have h2 : Rlt R0 (2 / hb)%coqR by apply: Rdiv_lt_0_compat; lra.
have PV : pd V by apply: pdZ. have UV := pd_unit PV.
case: (det_pos_ex P) => r1 [p1 e1]. case: (det_pos_ex PV) => v [pv ev]. rewrite /gpurity -/V ev.
have [q Eq] : exists q, (d^T *m invmx xi *m d) 0 0 = RtoC q.
  have R : real (d^T *m invmx xi *m d) by apply: realM => //; apply: realM; [exact: realT|exact: real_invmx].
  move/matrixP: R => /(_ 0 0). rewrite mxE. case: (_ 0 0) => x y [] H. exists x. rewrite /RtoC. congr pair. lra.
have Ec : RtoC k * (Cexp (- half * (d^T *m invmx xi *m d) 0 0) / csqrt (\det xi)) = RtoC (k * (exp (- / 2 * q) / sqrt r1))%coqR.
  rewrite Eq e1 csqrt_R; last lra. have -> : - half * RtoC q = RtoC (- (/ 2) * q)%coqR by rewrite /half CoppE CmulE -RtoC_opp -RtoC_mult.
  rewrite Cexp_R !CmulE CinvE /Rdiv !RtoC_mult RtoC_inv //. have := sqrt_lt_R0 _ p1. lra.
rewrite Ec in G. set c := RtoC (k * _)%coqR in G Ec *. set z := invmx xi in G *.
have rz : real z by exact: real_invmx. have sz : z^T = z by rewrite /z trmx_inv sx.
set T := 1%:M - z. have rT : real T by apply: realB => //; exact: real1. have sT : T^T = T by rewrite /T linearB /= trmx1 sz.
have zK : z *m xi = 1%:M by exact: mulVmx. have Kz : xi *m z = 1%:M by exact: mulmxV.
have ED : 1%:M - T *m T = z *m V *m z.
  have -> : z *m V *m z = z + z - z *m z by rewrite EV mulmxBr mulmxDr zK mulmx1 mulmxBl mulmxDl !mul1mx.
  rewrite /T mulmxBr mulmx1 mulmxBl mul1mx opprB. move: (z *m z) => zz. rewrite opprB. exact: grp_id.
set K := xi *m invmx V *m xi. have HK : (1%:M - T *m T) *m K = 1%:M.
  rewrite ED /K. have -> : z *m V *m z *m (xi *m invmx V *m xi) = z *m (V *m (z *m xi) *m invmx V) *m xi by rewrite !mulmxA. by rewrite zK mulmx1 mulmxV // mulmx1.
have dD : \det (1%:M - T *m T) = RtoC (v / (r1 * r1))%coqR.
  rewrite ED !det_mulmx det_inv e1 ev CinvE !CmulE -RtoC_inv; last lra. rewrite -!RtoC_mult. congr RtoC. field. lra.
have Ht : Rlt threshold (Cmod (\det (1%:M - T *m T))).
  rewrite dD Cmod_R Rabs_pos_eq; last by apply/Rlt_le/Rdiv_lt_0_compat => //; nra. move: H2. by rewrite e1 ev !Cmod_R !Rabs_pos_eq; lra.
have cc : Cconj c = c by exact: conjR.
have GD : dm_dual rho = change 1%:M (rotmat m) (GTri (block_mx 0 (0 : 'M[C]_(0, m + m)) (0 : 'M[C]_(0, m + m))^T T) (col_mx 0 (z *m d)) c).
  move: G. rewrite /st2g /dm_dual /change /qstate /= !tr_block_mx !trmx0 !trmx1 !mulmx_block !mul_block_col ?(mul0mx, mulmx0, addr0, add0r, mul1mx, mulmx1) => -[/eq_block_mx [-> _ _ _] /eq_col_mx [-> _] ->].
  rewrite !conj_mul conj_tr !conjmxK cc rT rz rd. by [].
have L2 : dm_L2_norm rho = Some (k * k / sqrt v)%coqR.
  rewrite /dm_L2_norm GD G (gthen_change 1%:M 1%:M (rrT m)) /qstate -/z -/T.
  have -> : block_mx T 0 0 0 = block_mx T (0 : 'M[C]_(m + m, 0)) (0 : 'M[C]_(m + m, 0))^T 0 by rewrite trmx0.
  rewrite (gthen_val 0 0 _ _ sT sT HK _ _ 0 0 c c Ht) /=. congr Some.
  have -> : half * gQ T T K (z *m d) (z *m d) = RtoC q.
    have sK : K^T = K by rewrite /K !trmx_mul trmx_inv sx mulmxA; congr (_ *m invmx _ *m _); rewrite EV linearB linearD /= trmx1 sx.
    have Tk : (T *m K + K) = xi.
      have -> : T *m K + K = (T + 1%:M) *m K by rewrite mulmxDl mul1mx.
      have -> : T + 1%:M = z *m V by rewrite EV mulmxBr mulmxDr zK mulmx1 /T addrAC.
      rewrite /K. have -> : z *m V *m (xi *m invmx V *m xi) = (z *m V *m xi *m invmx V) *m xi by rewrite !mulmxA.
      have zV : z *m V = 1%:M + 1%:M - z by rewrite EV mulmxBr mulmxDr zK mulmx1.
      have -> : z *m V *m xi = V by rewrite zV mulmxBl mulmxDl !mul1mx zK EV.
      by rewrite mulmxV // mul1mx.
    rewrite /gQ sK -!mulmxDl [K + _]addrC Tk trmx_mul sz -Eq. set y := _ *m _. have -> : y = d^T *m z *m d by rewrite /y mulmxA -[d^T *m z *m xi]mulmxA zK mulmx1 mulmxA.
    by rewrite mxE mulrDr -mulrDl half1 mul1r.
  rewrite dD. exact: pur_c.
rewrite /dm_purity L2 Hp. congr Some. rewrite /Re /=. field. split=> //. have := sqrt_lt_R0 _ pv. lra.
Qed.
(** C63, deviation: phase_space returns the coefficient of a pure state as |coeff|^2, not as the coeff given to Ket.from_phase_space *)
Theorem C63_ket_coeff_refuted m (cov : 'M[C]_(m + m)) (means : 'cV[C]_(m + m)) coeff : noise cov -> real means -> pure cov ->
  Rlt threshold (/ Cmod (\det (half *: 1%:M + RtoC (/ hb) *: cov)))%coqR ->
  exists k, ket_from_phase_space cov means coeff None = Base.Ok k /\ ket_phase_space R0 k = Some (cov, means, Cconj coeff * coeff).
Proof.
move=> nc rm pc H. case: (C63_pure coeff nc rm pc) => k [E [sk Ed]]. exists k. split=> //. rewrite C63_ket //.
case: (C63_roundtrip (Cconj coeff * coeff) R0 nc rm) => rho []. rewrite Ed => -[<-] ->. case: Rlt_dec => // H1. congr (Some (_, _, _)). by rewrite Rmult_0_l scale0r subr0.
Qed.
(** C63: Ket.from_phase_space with atol_purity raises ValueError exactly when the purity of the density matrix with this covariance matrix is below 1 - atol_purity *)
Theorem C63_ket_atol m (cov : 'M[C]_(m + m)) (means : 'cV[C]_(m + m)) (k a : R) : real cov -> pd cov -> real means -> k <> R0 -> a <> R0 ->
  Rlt threshold (/ Cmod (\det (half *: 1%:M + RtoC (/ hb) *: cov)))%coqR ->
  Rlt threshold (Cmod (\det (RtoC (2 / hb)%coqR *: cov)) / (Cmod (\det (half *: 1%:M + RtoC (/ hb) *: cov)) * Cmod (\det (half *: 1%:M + RtoC (/ hb) *: cov))))%coqR ->
  exists rho p, from_phase_space cov means (RtoC k) = Base.Ok rho /\ dm_purity rho = Some p /\
    (ket_from_phase_space cov means (RtoC k) (Some a) = Base.Err Base.ValueError <-> Rlt p (1 - a)%coqR).
Proof.
move=> rc pc rm k0 a0 H1 H2. case: (C63_purity rc pc rm k0 H1 H2) => rho [E1 E2]. exists rho, (gpurity cov). split=> //. split=> //. split.
- rewrite /ket_from_phase_space. case: Req_EM_T => // Ha. case: Rlt_dec => // Hb. rewrite /wigner_to_bargmann_psi.
  have P := xi_pd hb0 (real_nil _) (pd_psd pc). case: (wig_val rc rm (pd_unit P)) => t [-> _]. by [].
- move=> H. rewrite /ket_from_phase_space. case: Req_EM_T => // Ha. by case: Rlt_dec.
Qed.
(** a squeezed covariance matrix, hbar/2 diag(4, 1/4), meets the hypotheses of the theorems above *)
Definition sq_cov : 'M[C]_(1 + 1) := RtoC (hb / 2)%coqR *: block_mx (RtoC 4)%:M 0 0 (RtoC (/ 4))%:M.
Lemma sq_V : RtoC (2 / hb)%coqR *: sq_cov = block_mx (RtoC 4)%:M 0 0 (RtoC (/ 4))%:M.
Proof. rewrite /sq_cov scalerA CmulE -RtoC_mult. have -> : (2 / hb * (hb / 2))%coqR = R1 by change R1 with (IZR 1); field; lra. by rewrite scale1r. Qed.
Lemma sq_xi : half *: 1%:M + RtoC (/ hb) *: sq_cov = block_mx (RtoC (5 / 2))%:M 0 0 (RtoC (5 / 8))%:M :> 'M[C]_(1 + 1).
Proof.
have -> : 1%:M = block_mx 1%:M 0 0 1%:M :> 'M[C]_(1 + 1) by rewrite -scalar_mx_block.
rewrite /sq_cov scalerA CmulE -RtoC_mult !scale_block_mx add_block_mx !scaler0 !addr0. congr block_mx.
all: rewrite !scale_scalar_mx -raddfD /= /half; congr (_%:M).
all: rewrite ?CmulE ?CaddE ?C1E -?RtoC_mult -?RtoC_plus; congr RtoC; change R1 with (IZR 1); field; lra.
Qed.
Lemma diag_pd (a b : R) : Rlt R0 a -> Rlt R0 b -> pd (block_mx (RtoC a)%:M 0 0 (RtoC b)%:M : 'M[C]_(1 + 1)).
Proof.
move=> a0 b0. set G := block_mx (RtoC (sqrt a))%:M 0 0 (RtoC (sqrt b))%:M : 'M[C]_(1 + 1).
have UG : G \in unitmx.
  rewrite unitmxE unitfE det_ublock !det_scalar !expr1. apply/eqP. rewrite CmulE -RtoC_mult C0E => /RtoC_inj. have := sqrt_lt_R0 _ a0. have := sqrt_lt_R0 _ b0. nra.
have -> : block_mx (RtoC a)%:M 0 0 (RtoC b)%:M = G *m 1%:M *m adj G.
  rewrite mulmx1 /adj /G map_block_mx tr_block_mx !map_mx0 !trmx0 !map_scalar_mx !tr_scalar_mx /= !conjR mulmx_block ?(mul0mx, mulmx0, addr0, add0r) -!scalar_mxM !CmulE -!RtoC_mult !sqrt_sqrt //; lra.
apply: pd_conj => //. exact: pd1.
Qed.
Theorem C63_example : [/\ real sq_cov, pd sq_cov, noise sq_cov, pure sq_cov & gpurity sq_cov = R1] /\
  Rlt threshold (/ Cmod (\det (half *: 1%:M + RtoC (/ hb) *: sq_cov)))%coqR /\
  Rlt threshold (Cmod (\det (RtoC (2 / hb)%coqR *: sq_cov)) / (Cmod (\det (half *: 1%:M + RtoC (/ hb) *: sq_cov)) * Cmod (\det (half *: 1%:M + RtoC (/ hb) *: sq_cov))))%coqR.
Proof.
have rc : real sq_cov by apply: realZ; rewrite /real map_block_mx !map_mx0 !map_scalar_mx /= !conjR.
have pc : pd sq_cov by apply: pdZ; [lra|apply: diag_pd; lra].
have dV : \det (RtoC (2 / hb)%coqR *: sq_cov) = RtoC R1 by rewrite sq_V det_ublock !det_scalar !expr1 CmulE -RtoC_mult; congr RtoC; change R1 with (IZR 1); field.
have dX : \det (half *: 1%:M + RtoC (/ hb) *: sq_cov) = RtoC (25 / 16)%coqR by rewrite sq_xi det_ublock !det_scalar !expr1 CmulE -RtoC_mult; congr RtoC; field.
have t0 : Rle threshold (/ 10)%coqR.
  rewrite /threshold. apply: Rinv_le_contravar; first lra. have := pow_R1_Rle 10 11. change (10 ^ 12)%coqR with (10 * 10 ^ 11)%coqR. lra.
split; [|split].
- split=> //; first by split=> //; exact: pd_psd.
  + rewrite /pure sq_V /J !mulmx_block ?(mul0mx, mulmx0, addr0, add0r) !mulmxN !mulNmx !mulmx1 -!scalar_mxM !CmulE -!RtoC_mult.
    have -> : (4 * / 4)%coqR = R1 by change R1 with (IZR 1); field. have -> : (/ 4 * 4)%coqR = R1 by change R1 with (IZR 1); field. by [].
  + rewrite /gpurity dV /Re /= sqrt_1 Rinv_1. by [].
- rewrite dX Cmod_R Rabs_pos_eq; lra.
- rewrite dV dX !Cmod_R !Rabs_pos_eq; lra.
Qed.
End HB.
Print Assumptions C63_roundtrip.
Print Assumptions C63_complete.
Print Assumptions C63_gaussian.
Print Assumptions C63_ket.
Print Assumptions C63_pure.
Print Assumptions C63_purity.
Print Assumptions C63_ket_coeff_refuted.
Print Assumptions C63_ket_atol.
Print Assumptions C63_example.
