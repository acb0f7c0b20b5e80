(** The physicality tests of Gaussian channels and density matrices.  Claim C45.
    Model of mrmustard/lab/transformations/base.py:376-457 (Channel.is_CP, is_TP, is_physical) and mrmustard/lab/states/dm.py:53-100 (DM.is_positive), for a single Gaussian term without derived variables
    (the other cases raise NotImplementedError).  math.eigvals is the set of eigenvalues; math.inv raises on a singular matrix. *)
From Coq Require Import Reals Lra.
From Coquelicot Require Import Complex.
From mathcomp Require Import all_ssreflect all_algebra.
From Verif Require Import CMat Optimizer GateSym BargSym CExp Compose ChanAlg ChanHat PosDef Channels ChanLaws.
Require Verif.Base.
Set Implicit Arguments. Unset Strict Implicit. Unset Printing Implicit Defensive.
Import GRing.Theory.
Local Open Scope ring_scope.
Delimit Scope R_scope with coqR.

(** base.py:398-400 and dm.py:77-79: the bra-ket block *)
Definition gammaA n (A : 'M[C]_(n + n)) : 'M[C]_n := ursubmx A.
Definition lambdaA n (A : 'M[C]_(n + n)) : 'M[C]_n := drsubmx A.
Definition eigenvalue_of n (A : 'M[C]_n) (l : C) : Prop := exists v : 'cV[C]_n, v <> 0 /\ A *m v = l *: v.
(** base.py:402-409: is_CP returns True *)
Definition is_CP (atol : R) n (A : 'M[C]_(n + n)) : Prop :=
  ~ Rlt atol (fnorm (gammaA A - adj (gammaA A))) /\ forall l, eigenvalue_of (gammaA A) l -> Rlt (- atol)%coqR (Re l).
(** dm.py:81-87: is_positive returns True; the comparison is not strict *)
Definition is_positive (atol : R) n (A : 'M[C]_(n + n)) : Prop :=
  ~ Rlt atol (fnorm (gammaA A - adj (gammaA A))) /\ forall l, eigenvalue_of (gammaA A) l -> Rle (- atol)%coqR (Re l).
(** base.py:432-444 *)
Definition is_TP (atol : R) n (A : 'M[C]_(n + n)) : Base.result bool :=
  Base.bind (inv (1%:M - (gammaA A)^T)) (fun V =>
  let temp := gammaA A + adj (lambdaA A) *m V *m lambdaA A in
  Base.Ok (if Rlt_dec (fnorm (temp - 1%:M)) atol then true else false)).

(** ** the specification *)
(** the symplectic form *)
Definition Om m : 'M[C]_(m + m) := block_mx 0 1%:M (- 1%:M) 0.
(** complete positivity of the channel (X, Y): Y + i hbar/2 (Omega - X Omega X^T) >= 0 *)
Definition CP (hb : R) m (X Y : 'M[C]_(m + m)) : Prop := psd (RtoC (/ hb) *: Y + (Ci * half) *: (Om m - X *m Om m *m X^T)).
(** the uncertainty relation: cov + i hbar/2 Omega >= 0 *)
Definition uncertainty (hb : R) m (cov : 'M[C]_(m + m)) : Prop := psd (RtoC (/ hb) *: cov + (Ci * half) *: Om m).

Lemma herm_test atol n (A : 'M[C]_n) : Rle R0 atol -> herm A -> ~ Rlt atol (fnorm (A - adj A)).
Proof. move=> H ->. rewrite subrr fnorm0. exact: Rle_not_lt. Qed.

(** ** the ket rows of R *)
Section HB.
Variable hb : R.
Hypothesis hb0 : Rlt R0 hb.
Definition ru m : 'M[C]_(m, m + m) := rr *: row_mx 1%:M (Ci *: 1%:M).
Definition rd m : 'M[C]_(m, m + m) := rr *: row_mx 1%:M (- Ci *: 1%:M).
Lemma rot_rows m : rotmat m = col_mx (ru m) (rd m).
Proof. by rewrite /rotmat /ru /rd block_mxEv scale_col_mx. Qed.
Lemma conj_ru m : conj (ru m) = rd m.
Proof. by rewrite /ru /rd map_mxZ map_row_mx map_mxZ !map_mx1 /= conj_rr conjI. Qed.
Lemma conj_rd m : conj (rd m) = ru m. Proof. by rewrite -conj_ru conjmxK. Qed.
Lemma rd_unit m : rd m *m adj (rd m) = 1%:M /\ ru m *m adj (ru m) = 1%:M /\ ru m *m adj (rd m) = 0 /\ rd m *m adj (ru m) = 0.
Proof.
have [_ U] := rot_unitary m. move: U. rewrite rot_rows /adj map_col_mx tr_col_mx mul_col_mx !mul_mx_row -block_mxEv scalar_mx_block => /eq_block_mx[-> -> -> ->]. by [].
Qed.
Lemma rd_gram m : adj (rd m) *m rd m = half *: 1%:M - (Ci * half) *: Om m.
Proof.
have E1 : adj (row_mx 1%:M (- Ci *: 1%:M) : 'M[C]_(m, m + m)) = col_mx 1%:M (Ci *: 1%:M).
  by rewrite /adj map_row_mx tr_row_mx map_mx1 map_mxZ map_mx1 trmx1 linearZ /= trmx1 rmorphN /= conjI opprK.
rewrite /rd adjZ E1 -scalemxAl -scalemxAr scalerA conj_rr rr2 mul_col_mx !mul_mx_row -block_mxEv !mul1mx !mulmx1 -!scalemxAl mul1mx scalerA /Om scalar_mx_block.
rewrite !scale_block_mx opp_block_mx add_block_mx !scaler0 !oppr0 !addr0 !add0r scalerN opprK !scalerA. 
have -> : half * (Ci * - Ci) = half by rewrite mulrN CiCi opprK mulr1.
have -> : half * - Ci = - (Ci * half) by rewrite mulrN mulrC. rewrite scaleNr. by rewrite [half * Ci]mulrC.
Qed.
Lemma ru_gram m : adj (ru m) *m ru m = half *: 1%:M + (Ci * half) *: Om m.
Proof.
have := congr1 conj (rd_gram m). rewrite conj_mul /adj -conj_tr conjmxK conj_rd -{1}conj_ru -/(adj (ru m)) => ->.
rewrite map_mxB !map_mxZ map_mx1 /= rmorphM /= conjI half_R conjR mulNr scaleNr opprK. congr (_ + _ *: _).
by rewrite /Om map_block_mx !map_mx0 map_mxN !map_mx1.
Qed.
Definition Rb m : 'M[C]_(m + m, (m + m) + (m + m)) := block_mx (ru m) 0 0 (rd m).
Definition Rk m : 'M[C]_(m + m, (m + m) + (m + m)) := block_mx (rd m) 0 0 (ru m).
Lemma Rlib_rows m : Rlib m = col_mx (Rb m) (Rk m).
Proof.
have E (u v : C) : rr *: row_mx (block_mx 1%:M (u *: 1%:M) 0 0) (block_mx 0 0 1%:M (v *: 1%:M)) = block_mx (rr *: row_mx 1%:M (u *: 1%:M)) 0 0 (rr *: row_mx 1%:M (v *: 1%:M)) :> 'M[C]_(m + m, (m + m) + (m + m)).
  rewrite [RHS]block_mxEh scale_row_mx !block_mxEv !row_mx0 !scale_col_mx !scaler0. by [].
by rewrite /Rlib /Rb /Rk block_mxEv scale_col_mx !E.
Qed.
Lemma Rk_unit m : Rk m *m adj (Rk m) = 1%:M /\ Rb m *m adj (Rk m) = 0.
Proof.
have [U1 [U2 [U3 U4]]] := rd_unit m. rewrite /Rk /Rb adj_block !adj0 !mulmx_block ?(mul0mx, mulmx0, addr0, add0r) U1 U2 U3 U4. split; first by rewrite -scalar_mx_block. exact: block_mx0.
Qed.
Lemma conj_Rk m : conj (Rk m) = Rb m. Proof. by rewrite /Rk /Rb map_block_mx !map_mx0 conj_ru conj_rd. Qed.
Lemma Rk_gram m : adj (Rk m) *m Rk m = block_mx (half *: 1%:M - (Ci * half) *: Om m) 0 0 (half *: 1%:M + (Ci * half) *: Om m).
Proof. by rewrite /Rk adj_block !adj0 mulmx_block ?(mul0mx, mulmx0, addr0, add0r) rd_gram ru_gram. Qed.
Definition GG m (X : 'M[C]_(m + m)) : 'M[C]_((m + m) + (m + m), m + m) := col_mx 1%:M (- X^T).
Definition Fk m (X : 'M[C]_(m + m)) := Rk m *m GG X.
Definition Fb m (X : 'M[C]_(m + m)) := Rb m *m GG X.
Lemma real_GG m (X : 'M[C]_(m + m)) : real X -> real (GG X).
Proof. move=> H. by rewrite /real /GG map_col_mx map_mx1 map_mxN conj_tr H. Qed.
Lemma conj_Fk m (X : 'M[C]_(m + m)) : real X -> conj (Fk X) = Fb X.
Proof. move=> H. by rewrite /Fk conj_mul conj_Rk (real_GG H). Qed.
Lemma F_gram m (X : 'M[C]_(m + m)) : real X -> adj (Fk X) *m Fk X = half *: 1%:M + half *: (X *m X^T) - (Ci * half) *: (Om m - X *m Om m *m X^T).
Proof.
move=> H. rewrite /Fk adj_prod -mulmxA [adj (Rk m) *m _]mulmxA Rk_gram {2}/GG mul_block_col !mul0mx addr0 add0r mulmx1 (adj_real (real_GG H)) /GG tr_col_mx mul_row_col trmx1 mul1mx linearN /= trmxK !mulmxN !mulNmx opprK.
rewrite mulmxDl mulmxDr -!scalemxAl -!scalemxAr mul1mx scalerBr !mulmxA opprB.
move: (half *: 1%:M) (half *: (X *m X^T)) => a b. move: (_ *: Om m) (_ *: (X *m Om m *m X^T)) => c d. rewrite [LHS]addrACA. congr (_ + _). by rewrite addrC.
Qed.
(** A of a channel *)
Lemma A_val m (X Y : 'M[C]_(m + m)) t : XY_to_channel hb X Y DNone = Base.Ok t -> xiM hb X Y \in unitmx /\
  gammaA (cA t) = 1%:M - Fk X *m invmx (xiM hb X Y) *m (GG X)^T *m adj (Rk m) /\ lambdaA (cA t) = - (Fb X *m invmx (xiM hb X Y) *m (GG X)^T *m adj (Rk m)).
Proof.
rewrite /XY_to_channel /= /inv. case: ifP => // U [<-] /=. split=> //. set V := invmx _. clearbody V.
have -> : block_mx (1%:M - V) (V *m X) (X^T *m V) (1%:M - X^T *m V *m X) = 1%:M - GG X *m V *m (GG X)^T.
  rewrite /GG tr_col_mx trmx1 linearN /= trmxK mul_col_mx mul1mx mul_col_mx !mul_mx_row !mulmx1 -block_mxEv [in RHS](scalar_mx_block (m + m) (m + m)) opp_block_mx add_block_mx !mulmxN !mulNmx !opprK !add0r. by [].
have -> : BargSym.X (m + m) *m Rlib m = col_mx (Rk m) (Rb m) by rewrite Rlib_rows /BargSym.X mul_block_col !mul0mx !mul1mx addr0 add0r.
have -> : adj (Rlib m) = row_mx (adj (Rb m)) (adj (Rk m)) by rewrite Rlib_rows /adj map_col_mx tr_col_mx.
have [U1 U2] := Rk_unit m. rewrite /Fk /Fb. move: (Rk m) (Rb m) (GG X) U1 U2 => rk rb G U1 U2.
rewrite mul_col_mx mul_col_mx !mul_mx_row -block_mxEv /gammaA /lambdaA block_mxKur block_mxKdr.
rewrite !mulmxBr !mulmx1 !mulmxBl U1 U2 sub0r !mulmxA. by [].
Qed.
Lemma A_F m (X Y : 'M[C]_(m + m)) t : real X -> XY_to_channel hb X Y DNone = Base.Ok t -> xiM hb X Y \in unitmx /\
  gammaA (cA t) = 1%:M - Fk X *m invmx (xiM hb X Y) *m adj (Fk X) /\ lambdaA (cA t) = - (Fb X *m invmx (xiM hb X Y) *m adj (Fk X)).
Proof.
move=> H /A_val[U [-> ->]]. split=> //. rewrite /Fk adj_prod (adj_real (real_GG H)) !mulmxA. by [].
Qed.
Definition CPmat m (X Y : 'M[C]_(m + m)) : 'M[C]_(m + m) := RtoC (/ hb) *: Y + (Ci * half) *: (Om m - X *m Om m *m X^T).
Lemma schur_t n k (Q : 'M[C]_n) (E : 'M[C]_(n, k)) t : Rle R0 t -> pd Q ->
  psd (1%:M - adj E *m invmx Q *m E + RtoC t *: 1%:M) <-> psd (Q - E *m adj E + RtoC t *: Q).
Proof.
move=> t0 P. have U := pd_unit P. have t1 : Rlt R0 (1 + t)%coqR by lra. have P' : pd (RtoC (1 + t) *: Q) by exact: pdZ.
have Nt : RtoC (1 + t) != 0 by apply/eqP; rewrite C0E => /RtoC_inj; lra.
have E1 : RtoC (1 + t) *: Q = Q + RtoC t *: Q by rewrite RtoC_plus -CaddE scalerDl -C1E scale1r.
have EI : invmx (RtoC (1 + t) *: Q) = RtoC (/ (1 + t)) *: invmx Q.
  rewrite invmxZ //; last by rewrite unitmxZ // unitfE. congr (_ *: _). rewrite CinvE RtoC_inv //. lra.
have EL : 1%:M - adj E *m invmx Q *m E + RtoC t *: 1%:M = RtoC (1 + t) *: (1%:M - adj E *m invmx (RtoC (1 + t) *: Q) *m E).
  rewrite EI -scalemxAr -scalemxAl scalerBr scalerA. have -> : RtoC (1 + t) * RtoC (/ (1 + t)) = 1.
    rewrite CmulE -RtoC_mult Rinv_r //. lra.
  rewrite scale1r RtoC_plus -CaddE scalerDl -C1E scale1r. by rewrite addrAC.
have := schur E P'. rewrite E1. have -> : Q + RtoC t *: Q - E *m adj E = Q - E *m adj E + RtoC t *: Q by rewrite addrAC.
move=> HS. rewrite HS EL -E1. split=> H; last by apply: psdZ => //; lra.
have -> : 1%:M - adj E *m invmx (RtoC (1 + t) *: Q) *m E = RtoC (/ (1 + t)) *: (RtoC (1 + t) *: (1%:M - adj E *m invmx (RtoC (1 + t) *: Q) *m E)).
  rewrite scalerA. have -> : RtoC (/ (1 + t)) * RtoC (1 + t) = 1 by rewrite CmulE -RtoC_mult Rinv_l //; lra. by rewrite scale1r.
apply: psdZ => //. apply/Rlt_le/Rinv_0_lt_compat. lra.
Qed.
Lemma xi_F m (X Y : 'M[C]_(m + m)) : real X -> xiM hb X Y - adj (Fk X) *m adj (adj (Fk X)) = CPmat X Y.
Proof.
move=> H. rewrite adjKr (F_gram H) /xiM /CPmat. move: (half *: 1%:M) (half *: (X *m X^T)) (RtoC (/ hb) *: Y) (_ *: (Om m - _)) => a b c d.
by rewrite opprB addrCA [a + b + c]addrC addrK addrC.
Qed.
Lemma gamma_schur m (X Y : 'M[C]_(m + m)) t s : real X -> noise Y -> XY_to_channel hb X Y DNone = Base.Ok t -> Rle R0 s ->
  herm (gammaA (cA t)) /\ (psd (gammaA (cA t) + RtoC s *: 1%:M) <-> psd (CPmat X Y + RtoC s *: xiM hb X Y)).
Proof.
move=> H [rY nY] E s0. have P := xi_pd hb0 H nY. case: (A_F H E) => U [-> _]. have [Hx _] := pd_inv P. split.
  move: (Fk X) => f. rewrite /herm adjB adj1 !adj_prod adjKr Hx mulmxA. by [].
have := schur_t (adj (Fk X)) s0 P. rewrite (xi_F _ H) adjKr. by [].
Qed.
Lemma psd_limit n (A : 'M[C]_n) : herm A -> (forall t, Rlt R0 t -> psd (A + RtoC t *: 1%:M)) -> psd A.
Proof.
move=> HA H. split=> // v. case: (Rle_lt_dec 0 (qf A v)) => // Hv. have Hn := nv_ge0 v.
set t := (- qf A v / (2 * (nv v + 1)))%coqR. have t0 : Rlt R0 t by apply: Rdiv_lt_0_compat; lra.
case: (H t t0) => _ /(_ v). rewrite qfD qfZ -/(nv v). have E : (t * (2 * (nv v + 1)) = - qf A v)%coqR by rewrite /t; field; lra. nra.
Qed.
Lemma psd_eig atol n (A : 'M[C]_n) : Rlt R0 atol -> psd A -> forall l, eigenvalue_of A l -> Rlt (- atol)%coqR (Re l).
Proof. move=> H P l [v [N E]]. have := eig_psd P N E. lra. Qed.
(** C45, complete positivity: for every channel of Channel.from_XY with real X and real positive semidefinite Y, of any number of modes,
    is_CP is True when the channel is completely positive; when it is True the condition holds up to atol; it is True for every tolerance exactly when the channel is completely positive *)
Theorem C45_CP m (X Y : 'M[C]_(m + m)) t : real X -> noise Y -> XY_to_channel hb X Y DNone = Base.Ok t ->
  (forall atol, Rlt R0 atol -> CP hb X Y -> is_CP atol (cA t)) /\
  (forall atol, Rlt R0 atol -> is_CP atol (cA t) -> psd (CPmat X Y + RtoC atol *: xiM hb X Y)) /\
  (CP hb X Y <-> forall atol, Rlt R0 atol -> is_CP atol (cA t)).
Proof.
move=> rX nY E. have [HH H0] := gamma_schur rX nY E (Rle_refl R0).
have D : CP hb X Y <-> psd (gammaA (cA t)).
  move: H0. have -> : RtoC R0 = 0 by []. by rewrite !scale0r !addr0 /CP -/(CPmat X Y) => H0; symmetry.
have F atol : Rlt R0 atol -> is_CP atol (cA t) -> psd (gammaA (cA t) + RtoC atol *: 1%:M).
  move=> a0 [_ He]. apply: pd_psd. rewrite scalemx1. apply: eig_pd => // l v N Ev. apply: He. by exists v.
have A atol : Rlt R0 atol -> CP hb X Y -> is_CP atol (cA t).
  move=> a0 /D P. split; first by apply: herm_test => //; exact: Rlt_le. exact: psd_eig.
split=> //. split=> [atol a0 /(F _ a0) P|]; first by have [_ [H1 _]] := gamma_schur rX nY E (Rlt_le _ _ a0); exact: H1.
split=> [P atol a0|P]; first exact: A. apply/D. apply: psd_limit => // s s0. exact: F (P s s0).
Qed.
(** the formula of is_TP on these channels *)
Lemma Fb_adj m (X : 'M[C]_(m + m)) : real X -> (Fk X)^T = adj (Fb X).
Proof. move=> H. by rewrite -(conj_Fk H) /adj conjmxK. Qed.
Theorem C45_TP_XY atol m (X Y : 'M[C]_(m + m)) t : Rlt R0 atol -> real X -> noise Y -> XY_to_channel hb X Y DNone = Base.Ok t ->
  is_TP atol (cA t) = if Fb X \in unitmx then Base.Ok true else Base.Err Base.LinAlgError.
Proof.
move=> a0 rX nY E. have sY := noise_sym nY. case: (A_F rX E) => U [Eg El]. have tV : (invmx (xiM hb X Y))^T = invmx (xiM hb X Y) by rewrite trmx_inv (xi_sym hb X sY).
have [rY _] := nY. have rV := real_invmx (xi_real hb rX rY).
have aV : adj (invmx (xiM hb X Y)) = invmx (xiM hb X Y) by rewrite (adj_real rV).
rewrite /is_TP Eg El. set V := invmx _. rewrite -/V in tV aV.
have UV : V \in unitmx by rewrite unitmx_inv.
have EM : 1%:M - (1%:M - Fk X *m V *m adj (Fk X))^T = Fb X *m V *m adj (Fb X).
  rewrite -(Fb_adj rX) -(conj_Fk rX). move: (Fk X) => f. by rewrite linearB /= trmx1 subKr !trmx_mul tV mulmxA /adj trmxK.
rewrite EM /inv. clearbody V. move: (Fb X) (Fk X) {Eg El EM} => fb fk.
have Ead : (adj fb \in unitmx) = (fb \in unitmx) by rewrite /adj unitmx_tr map_unitmx.
rewrite !unitmx_mul UV Ead andbT andbb. case: ifP => // Ub /=. congr Base.Ok.
have -> : 1%:M - fk *m V *m adj fk + adj (- (fb *m V *m adj fk)) *m invmx (fb *m V *m adj fb) *m - (fb *m V *m adj fk) = 1%:M.
  have EI : fb *m V *m adj fb *m (invmx (adj fb) *m invmx V *m invmx fb) = 1%:M.
    have -> : fb *m V *m adj fb *m (invmx (adj fb) *m invmx V *m invmx fb) = fb *m (V *m (adj fb *m invmx (adj fb)) *m invmx V) *m invmx fb by rewrite !mulmxA.
    by rewrite mulmxV ?Ead // mulmx1 mulmxV // mulmx1 mulmxV.
  have UI : fb *m V *m adj fb \in unitmx by case/mulmx1_unit: EI.
  have -> : invmx (fb *m V *m adj fb) = invmx (adj fb) *m invmx V *m invmx fb by rewrite -[RHS](mulKmx UI) EI mulmx1.
  rewrite adjN !mulmxN !mulNmx opprK !adj_prod adjKr aV.
  have -> : fk *m (V *m adj fb) *m (invmx (adj fb) *m invmx V *m invmx fb) *m (fb *m V *m adj fk) = fk *m (V *m (adj fb *m invmx (adj fb)) *m invmx V) *m (invmx fb *m fb) *m V *m adj fk by rewrite !mulmxA.
  by rewrite mulmxV ?Ead // mulmx1 mulmxV // !mulmx1 mulVmx // mulmx1 subrK.
by rewrite subrr fnorm0 if_yes.
Qed.
(** X proportional to the identity *)
Lemma Fb_scalar m x : (Fb ((RtoC x)%:M : 'M[C]_(m + m)) \in unitmx) = (m == 0%N) || ~~ (RtoC x == 0).
Proof.
have -> : Fb ((RtoC x)%:M : 'M[C]_(m + m)) = block_mx 1%:M 0 0 (- (RtoC x))%:M *m rotmat m.
  rewrite /Fb /GG /Rb rot_rows tr_scalar_mx !mul_block_col ?(mul0mx, addr0, add0r) mulmx1 mul1mx. congr col_mx.
  by rewrite mulmxN mul_mx_scalar mul_scalar_mx scaleNr.
have [R1 _] := rot_unitary m. have UR : rotmat m \in unitmx by case/mulmx1_unit: R1.
rewrite unitmx_mul UR andbT unitmxE det_ublock det1 mul1r det_scalar unitfE. case: m {R1 UR} => [|m] /=; first by rewrite expr0 oner_neq0.
by rewrite expf_eq0 /= oppr_eq0.
Qed.
(** every attenuator with positive transmissivity and every amplifier passes; the attenuator of transmissivity 0 preserves the trace (C55_trace_preserving) but is_TP raises *)
Theorem C45_attenuator atol eta : Rlt R0 atol -> Rle R0 eta -> Rle eta R1 -> exists t, attenuator eta = Base.Ok t /\
  is_CP atol (cA t) /\ is_TP atol (cA t) = (if Req_EM_T eta R0 then Base.Err Base.LinAlgError else Base.Ok true) /\ gtrace (grp t) = Some (BargSym.X 1, 0, 1).
Proof.
move=> a0 H0 H1. rewrite (C42_attenuator_XY hb0 H0 H1). have n1 : noise (sc (hb * (/ 2 * (1 - eta)))) by apply: sc_noise; nra.
case: (C55_trace_preserving hb0 (sc_real (sqrt eta)) n1) => t [E G]. exists t. split=> //. split; [|split].
- have [H _] := C45_CP (sc_real (sqrt eta)) n1 E. apply: H => //. rewrite /CP sc_scale hbhb //.
  have -> : Om 1 - sc (sqrt eta) *m Om 1 *m (sc (sqrt eta))^T = RtoC (1 - eta) *: Om 1.
    rewrite sc_tr /sc mul_scalar_mx mul_mx_scalar scalerA CmulE -RtoC_mult sqrt_sqrt // RtoC_minus. have -> : Cminus (RtoC 1) (RtoC eta) = 1 - RtoC eta by []. by rewrite scalerBl scale1r.
  have -> : sc (/ 2 * (1 - eta)) + (Ci * half) *: (RtoC (1 - eta) *: Om 1) = RtoC (1 - eta) *: (half *: 1%:M + (Ci * half) *: Om 1).
    rewrite scalerDr !scalerA half_R. congr (_ + _ *: _); last by rewrite mulrC. rewrite /sc scalemx1 CmulE -RtoC_mult. congr (RtoC _)%:M. ring.
  apply: psdZ; first lra. rewrite -ru_gram -{2}(adjKr (ru 1)). exact: psd_gram.
- rewrite (C45_TP_XY a0 (sc_real (sqrt eta)) n1 E) /sc Fb_scalar /=. case: Req_EM_T => He.
    have -> : RtoC (sqrt eta) == 0; last by []. apply/eqP. by rewrite (_ : sqrt eta = R0) // He sqrt_0.
  have -> // : RtoC (sqrt eta) == 0 = false. apply/eqP. rewrite C0E => /RtoC_inj. have : Rlt R0 (sqrt eta) by apply: sqrt_lt_R0; lra. lra.
- rewrite G if_yes // xi_sc hbhb // sqrt_sqrt //. have -> : (/ 2 + / 2 * eta + / 2 * (1 - eta) = 1)%coqR by field. rewrite -sc_one det1 C1E Cmod_1 Rinv_1. exact: thr1.
Qed.
Corollary C45_TP_refuted atol : Rlt R0 atol -> exists t, attenuator R0 = Base.Ok t /\ gtrace (grp t) = Some (BargSym.X 1, 0, 1) /\ is_TP atol (cA t) = Base.Err Base.LinAlgError.
Proof.
move=> a0. have [t [E [_ [H G]]]] := C45_attenuator a0 (Rle_refl R0) Rle_0_1. exists t. do 2 (split=> //). rewrite H. by case: Req_EM_T.
Qed.
Lemma gtrace_scale a i (g : gtri (a + a) i) k : gtrace (GTri (gA g) (gb g) (k * gc g)) = omap (fun z => (z.1, k * z.2)) (gtrace g).
Proof. rewrite /gtrace. cbn [gA gb gc]. case: Rlt_dec => // Hd. by rewrite /omap /obind /oapp -!mulrA. Qed.
(** b and c are not looked at: the doubled identity passes, but doubles every trace *)
Theorem C45_TP_refuted_scale atol : Rlt R0 atol -> exists t : ctri 1 1, is_TP atol (cA t) = Base.Ok true /\ is_CP atol (cA t) /\ gtrace (grp t) = Some (BargSym.X 1, 0, RtoC 2).
Proof.
move=> a0. have [t [E [HC [H G]]]] := C45_attenuator a0 Rle_0_1 (Rle_refl R1). exists (CTri (cA t) (cb t) (RtoC 2 * cc t)). split; last split=> //.
  rewrite H /=. case: Req_EM_T => // He. lra.
have -> : grp (CTri (cA t) (cb t) (RtoC 2 * cc t)) = GTri (gA (grp t)) (gb (grp t)) (RtoC 2 * gc (grp t)) by [].
by rewrite gtrace_scale G /= mulr1.
Qed.
(** *** density matrices *)
Theorem C45_positive m (cov : 'M[C]_(m + m)) means s : noise cov -> real means -> wigner_to_bargmann_rho hb cov means = Base.Ok s ->
  (forall atol, Rlt R0 atol -> uncertainty hb cov -> is_positive atol (sA s)) /\
  (uncertainty hb cov <-> forall atol, Rlt R0 atol -> is_positive atol (sA s)).
Proof.
move=> nc rm E. have [rc Nc] := nc. have P := xi_pd hb0 (real_nil _) Nc.
have EA : gammaA (sA s) = 1%:M - rd m *m invmx (xiM hb (nil (m + m)) cov) *m adj (rd m).
  case: (wig_val rc rm (pd_unit P)) => s' []. rewrite E => -[<-] G. rewrite /gammaA. have -> : sA s = ulsubmx (gA (st2g s)) by rewrite /= block_mxKul.
  rewrite G /change /hat /= tr_block_mx !trmx0 !mulmx_block ?(mul0mx, mulmx0, addr0, add0r) block_mxKul. set V := invmx _. clearbody V.
  rewrite rot_rows map_col_mx tr_col_mx conj_ru conj_rd mul_col_mx mul_col_mx !mul_mx_row -block_mxEv block_mxKur.
  have -> : (ru m)^T = adj (rd m) by rewrite /adj conj_rd. have [U _] := rd_unit m. by rewrite mulmxBr mulmxBl mulmx1 U.
have HH : herm (gammaA (sA s)).
  rewrite EA. have [Hx _] := pd_inv P. move: (rd m) => f. by rewrite /herm adjB adj1 !adj_prod adjKr Hx mulmxA.
have D : uncertainty hb cov <-> psd (gammaA (sA s)).
  rewrite EA. have := schur (adj (rd m)) P. rewrite adjKr rd_gram xi_nil => <-. rewrite /uncertainty.
  have -> : half *: 1%:M + RtoC (/ hb) *: cov - (half *: 1%:M - (Ci * half) *: Om m) = RtoC (/ hb) *: cov + (Ci * half) *: Om m; last by [].
  move: (half *: 1%:M) (_ *: cov) (_ *: Om m) => a b c. by rewrite opprB addrCA [a + b]addrC addrK addrC.
have A atol : Rlt R0 atol -> uncertainty hb cov -> is_positive atol (sA s).
  move=> a0 /D Pg. split; first by apply: herm_test => //; exact: Rlt_le. move=> l Hl. apply/Rlt_le. exact: psd_eig Hl.
split=> //. split=> [Hu atol a0|H]; first exact: A. apply/D. apply: psd_limit => // t t0. apply: pd_psd. rewrite scalemx1. apply: eig_pd => // l v N Ev.
have t2 : Rlt R0 (t / 2)%coqR by lra. have [_ /(_ l)] := H _ t2. have He : eigenvalue_of (gammaA (sA s)) l by exists v. move=> /(_ He). lra.
Qed.
End HB.
(** ** is_TP on any Gaussian map with a output and i input modes *)
Section Rank.
Lemma rank_schur n k (A : 'M[C]_n) B D (E : 'M[C]_k) : A \in unitmx -> \rank (block_mx A B D E) = (n + \rank (E - D *m invmx A *m B)%R)%N.
Proof.
move=> U. have Ed : block_mx A B D E = block_mx 1%:M 0 (D *m invmx A) 1%:M *m block_mx A 0 0 (E - D *m invmx A *m B) *m block_mx 1%:M (invmx A *m B) 0 1%:M.
  rewrite !mulmx_block ?(mul0mx, mulmx0, mul1mx, mulmx1, addr0, add0r) !(mulmxKV U) (mulKVmx U) [D *m (_ *m _)]mulmxA [in RHS]addrC subrK. by [].
rewrite Ed mxrankMfree; last by rewrite row_free_unit unitmxE det_ublock !det1 mulr1 unitr1.
rewrite (eqmxMfull _ (_ : row_full _)); last by rewrite row_full_unit unitmxE det_lblock !det1 mulr1 unitr1.
by rewrite rank_diag_block_mx mxrank_unit.
Qed.
Variables a i : nat.
(** a map that sends Hermitian operators to Hermitian operators, with symmetric A *)
Definition hermitian_map (A : 'M[C]_((a + i) + (a + i))) : Prop := exists l g : 'M[C]_(a + i), l^T = l /\ adj g = g /\ A = block_mx (conj l) g g^T l.
(** the matrix of the traced map, gaussian_integrals.py *)
Definition traced (A : 'M[C]_((a + i) + (a + i))) : 'M[C]_(i + i) :=
  let G := group A in drsubmx G - dlsubmx G *m invmx (ulsubmx G - X a) *m ursubmx G.
Definition tempTP (A : 'M[C]_((a + i) + (a + i))) : 'M[C]_(a + i) := gammaA A + adj (lambdaA A) *m invmx (1%:M - (gammaA A)^T) *m lambdaA A.
Lemma PXg : Pm a i *m X (a + i) = block_mx (X a) 0 0 (X i) *m Pm a i.
Proof.
have E : Pm a i *m X (a + i) = block_mx (block_mx 0 0 1%:M 0) (block_mx 1%:M 0 0 0) (block_mx 0 0 0 1%:M) (block_mx 0 1%:M 0 0).
  by rewrite /Pm {1}/X mulmx_block !mulmx0 !mulmx1 !addr0 !add0r.
by rewrite E /Pm /X !mulmx_block !mul0mx !mul1mx ?(addr0, add0r).
Qed.
Lemma P_free : row_free (Pm a i)^T /\ row_full (Pm a i).
Proof.
have H : row_full (Pm a i) by apply/row_fullP; exists (Pm a i)^T; exact: PP.
split=> //. by rewrite /row_free mxrank_tr.
Qed.
(** the two Schur complements of 1 - X A *)
Theorem C45_TP_rank (A : 'M[C]_((a + i) + (a + i))) : hermitian_map A -> 1%:M - (gammaA A)^T \in unitmx -> ulsubmx (group A) - X a \in unitmx ->
  (i + \rank (1%:M - tempTP A)%R = a + \rank (1%:M - X i *m traced A)%R)%N.
Proof.
case=> l [g [sl [hg EA]]] U1 U2.
have r1 : \rank (1%:M - X (a + i) *m A) = (a + i + \rank (1%:M - tempTP A)%R)%N.
  move: U1. rewrite /tempTP /gammaA /lambdaA EA block_mxKur block_mxKdr => U1.
  have -> : 1%:M - X (a + i) *m block_mx (conj l) g g^T l = block_mx (1%:M - g^T) (- l) (- conj l) (1%:M - g).
    rewrite /X mulmx_block !mul0mx !mul1mx !addr0 !add0r [1%:M in LHS](scalar_mx_block (a + i) (a + i)) opp_block_mx add_block_mx !add0r. by [].
  rewrite (rank_schur _ _ _ U1). congr (_ + \rank _)%N. rewrite !mulmxN !mulNmx opprK opprD addrA /adj -conj_tr sl. by [].
have r2 : \rank (1%:M - X (a + i) *m A) = (a + a + \rank (1%:M - X i *m traced A)%R)%N.
  have [F1 F2] := P_free. rewrite -(mxrankMfree _ F1) -(eqmxMfull _ F2) mulmxBl mulmxBr mul1mx [Pm a i *m (_ *m _ *m _)]mulmxA.
  have -> : Pm a i *m (Pm a i)^T = 1%:M.
    rewrite /Pm !tr_block_mx !trmx0 !trmx1 !mulmx_block ?(mul0mx, mulmx0, mul1mx, mulmx1, addr0, add0r) !add_block_mx ?(addr0, add0r). by rewrite !block_mx0 -!scalar_mx_block.
  have -> : Pm a i *m (X (a + i) *m A) *m (Pm a i)^T = block_mx (X a) 0 0 (X i) *m group A by rewrite group_P !mulmxA PXg.
  move: U2. rewrite /traced. set G := group A. clearbody G. rewrite -{2}(submxK G). move: (ulsubmx G) (ursubmx G) (dlsubmx G) (drsubmx G) => oo oi io ii U2.
  rewrite mulmx_block !mul0mx !addr0 !add0r (scalar_mx_block (a + a) (i + i)) opp_block_mx add_block_mx !add0r.
  have EM : 1%:M - X a *m oo = - (X a *m (oo - X a)) by rewrite mulmxBr XX opprB.
  have EI : (1%:M - X a *m oo) *m - (invmx (oo - X a) *m X a) = 1%:M.
    rewrite EM mulmxN mulNmx opprK. have -> : X a *m (oo - X a) *m (invmx (oo - X a) *m X a) = X a *m ((oo - X a) *m invmx (oo - X a)) *m X a by rewrite !mulmxA.
    by rewrite mulmxV // mulmx1 XX.
  have U3 : 1%:M - X a *m oo \in unitmx by case/mulmx1_unit: EI.
  have EV : invmx (1%:M - X a *m oo) = - (invmx (oo - X a) *m X a) by rewrite -[RHS](mulKmx U3) EI mulmx1.
  rewrite (rank_schur _ _ _ U3) EV. congr (_ + \rank _)%N. rewrite mulmxN !mulNmx !mulmxN mulNmx !opprK mulmxBr opprB.
  have -> : X i *m io *m (invmx (oo - X a) *m X a) *m (X a *m oi) = X i *m (io *m invmx (oo - X a) *m oi); last by rewrite -addrA; congr (_ + _); rewrite addrC.
  have -> : X i *m io *m (invmx (oo - X a) *m X a) *m (X a *m oi) = X i *m io *m invmx (oo - X a) *m (X a *m X a) *m oi by rewrite !mulmxA. by rewrite XX mulmx1 !mulmxA.
have := r1. rewrite r2 -!addnA => /addnI. by move=> ->.
Qed.
Lemma big_pos (I : finType) (f : I -> R) : (forall j, Rle R0 (f j)) -> Rle R0 (\big[Rplus/R0]_j f j) /\ forall j, Rle (f j) (\big[Rplus/R0]_j f j).
Proof.
move=> H. have G (s : seq I) : Rle R0 (\big[Rplus/R0]_(j <- s) f j) /\ forall j, j \in s -> Rle (f j) (\big[Rplus/R0]_(j <- s) f j).
  elim: s => [|x s [P Q]]; first by rewrite big_nil; split=> //; exact: Rle_refl.
  rewrite big_cons. have := H x => Hx. split; first lra. move=> j. rewrite inE => /orP[/eqP->|/Q]; lra.
have [P Q] := G (index_enum I). split=> // j. apply: Q. exact: mem_index_enum.
Qed.
Lemma fnorm_small n k (M : 'M[C]_(n, k)) : (forall e, Rlt R0 e -> Rlt (fnorm M) e) -> M = 0.
Proof.
move=> H. have S0 (x : C) : Rle R0 (sq x) by exact: sq_ge0.
have Hrow x := big_pos (fun y => S0 (M x y)). have [P Q] := big_pos (fun x => (Hrow x).1).
have Z : fnorm M = R0.
  case: (Rle_lt_or_eq_dec _ _ (sqrt_pos (\big[Rplus/R0]_x \big[Rplus/R0]_y sq (M x y)))) => [L|L]; last exact: (esym L). have := H _ L. rewrite /fnorm. lra.
have Z2 := sqrt_eq_0 _ P Z. apply/matrixP => x y. rewrite mxE. apply: sq_eq0. apply: Rle_trans ((Hrow x).2 y) _. apply: Rle_trans (Q x) _. rewrite Z2. exact: Rle_refl.
Qed.
Lemma TP_all (A : 'M[C]_((a + i) + (a + i))) : 1%:M - (gammaA A)^T \in unitmx -> (forall atol, Rlt R0 atol -> is_TP atol A = Base.Ok true) <-> tempTP A = 1%:M.
Proof.
move=> U. rewrite /is_TP /inv U /=. split=> [H|H atol a0].
  apply/eqP. rewrite -subr_eq0. apply/eqP. apply: fnorm_small => e e0. have := H e e0. rewrite -/(tempTP A). by case: Rlt_dec.
rewrite -/(tempTP A) H subrr fnorm0. by rewrite if_yes.
Qed.
End Rank.
(** C45, trace preservation: for every Gaussian map with as many output as input modes (Hermiticity preserving, symmetric A) for which the two inverses exist, is_TP is True for every tolerance exactly when
    tracing its output leaves the matrix of the trace *)
Theorem C45_TP a (A : 'M[C]_((a + a) + (a + a))) : hermitian_map A -> 1%:M - (gammaA A)^T \in unitmx -> ulsubmx (group A) - X a \in unitmx ->
  (forall atol, Rlt R0 atol -> is_TP atol A = Base.Ok true) <-> traced A = X a.
Proof.
move=> HA U1 U2. rewrite (TP_all U1). have := C45_TP_rank HA U1 U2 => /addnI E.
have R0 n (M : 'M[C]_n) : \rank (1%:M - M) = 0%N <-> M = 1%:M.
  split=> [/eqP|->]; last by rewrite subrr mxrank0. rewrite mxrank_eq0 subr_eq0 => /eqP <-. by [].
rewrite -R0 E R0. split=> [H|->]; last exact: XX. by rewrite -[traced A]mul1mx -(XX a) -mulmxA H mulmx1.
Qed.
(** with different numbers of output and input modes the test never recognises a trace preserving map *)
Theorem C45_TP_modes_refuted a i (A : 'M[C]_((a + i) + (a + i))) : a <> i -> hermitian_map A -> ulsubmx (group A) - X a \in unitmx -> traced A = X i ->
  1%:M - (gammaA A)^T \notin unitmx \/ tempTP A <> 1%:M.
Proof.
move=> N HA U2 HT. case U1: (1%:M - (gammaA A)^T \in unitmx); last by left. right=> E.
have := C45_TP_rank HA U1 U2. rewrite E HT XX !subrr !mxrank0 !addn0. by move=> H; apply: N.
Qed.
(** every channel of Channel.from_XY is such a map; with the attenuators above, the hypotheses of C45_TP are met *)
Lemma XY_hermitian hb m (Xc Y : 'M[C]_(m + m)) t : real Xc -> real Y -> Y^T = Y -> XY_to_channel hb Xc Y DNone = Base.Ok t -> hermitian_map (cA t).
Proof.
move=> rX rY sY E. case: (A_F rX E) => U [Eg El]. 
have tV : (invmx (xiM hb Xc Y))^T = invmx (xiM hb Xc Y) by rewrite trmx_inv (xi_sym hb Xc sY).
have rV := real_invmx (xi_real hb rX rY). have cF := conj_Fk rX. 
exists (lambdaA (cA t)), (gammaA (cA t)).
have EA : cA t = block_mx (- (Fk Xc *m invmx (xiM hb Xc Y) *m adj (Fb Xc))) (gammaA (cA t)) (1%:M - Fb Xc *m invmx (xiM hb Xc Y) *m adj (Fb Xc)) (lambdaA (cA t)).
  rewrite -[LHS]submxK. rewrite /gammaA /lambdaA. move: E. rewrite /XY_to_channel /= /inv U /= => -[<-] /=.
  set V := invmx _. rewrite -/V in tV rV. clearbody V.
  have -> : block_mx (1%:M - V) (V *m Xc) (Xc^T *m V) (1%:M - Xc^T *m V *m Xc) = 1%:M - GG Xc *m V *m (GG Xc)^T.
    rewrite /GG tr_col_mx trmx1 linearN /= trmxK mul_col_mx mul1mx mul_col_mx !mul_mx_row !mulmx1 -block_mxEv [in RHS](scalar_mx_block (m + m) (m + m)) opp_block_mx add_block_mx !mulmxN !mulNmx !opprK !add0r. by [].
  have -> : X (m + m) *m Rlib m = col_mx (Rk m) (Rb m) by rewrite Rlib_rows /X mul_block_col !mul0mx !mul1mx addr0 add0r.
  have -> : adj (Rlib m) = row_mx (adj (Rb m)) (adj (Rk m)) by rewrite Rlib_rows /adj map_col_mx tr_col_mx.
  have [U1 U2] := Rk_unit m. have Ub : Rb m *m adj (Rb m) = 1%:M by move: (congr1 conj U1); rewrite conj_mul /adj conj_tr !conj_Rk map_mx1.
  have Uc : Rk m *m adj (Rb m) = 0 by move: (congr1 (@adj _ _) U2); rewrite adj_prod adjKr adj0.
  have rG := adj_real (real_GG rX). rewrite /Fk /Fb. move: (Rk m) (Rb m) (GG Xc) rG U1 U2 Ub Uc => rk rb G rG U1 U2 Ub Uc.
  rewrite mul_col_mx mul_col_mx !mul_mx_row -block_mxEv block_mxKul block_mxKur block_mxKdl block_mxKdr. congr block_mx.
  - by rewrite mulmxBr mulmx1 mulmxBl Uc sub0r adj_prod rG !mulmxA.
  - by rewrite mulmxBr mulmx1 mulmxBl Ub adj_prod rG !mulmxA.
move: Eg El EA. set V := invmx _. rewrite -/V in tV rV. clearbody V. move: (Fk Xc) (Fb Xc) cF => fk fb cF Eg El EA.
have cb : conj fb = fk by rewrite -cF conjmxK.
split; last split.
- by rewrite El /adj cF linearN /= !trmx_mul trmxK tV mulmxA.
- by rewrite Eg adjB adj1 !adj_prod adjKr (adj_real rV) tV mulmxA.
- rewrite {1}EA. congr block_mx.
  + rewrite El map_mxN !conj_mul rV cb /adj conj_tr !cF. by [].
  + rewrite Eg linearB /= trmx1 !trmx_mul tV mulmxA /adj trmxK cF cb. by [].
Qed.
