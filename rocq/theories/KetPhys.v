(** The physicality tests of kets and density matrices.  Claim C60.
    Model of mrmustard/lab/states/ket.py:50-88 (Ket.is_physical) and mrmustard/lab/states/dm.py:89-99 (DM.is_physical), for one Gaussian term without derived variables (otherwise NotImplementedError).
    math.eigvals is the set of eigenvalues; math.allclose(probability, 1, ATOL) is |probability - 1| <= tol with tol = ATOL + 1e-5 (backend_manager.py:240-259). *)
From Coq Require Import Reals Lra.
From Coquelicot Require Import Complex.
From mathcomp Require Import all_ssreflect all_algebra.
From Verif Require Import CMat Optimizer GateSym BargSym CExp Compose GateTriples ChanAlg ChanHat PosDef Channels ChanPhys States.
Require Verif.Base.
Set Implicit Arguments. Unset Strict Implicit. Unset Printing Implicit Defensive.
Import GRing.Theory.
Local Open Scope ring_scope.
Delimit Scope R_scope with coqR.
Local Arguments Re : simpl never.

(** ket.py:84-88; an infinite probability is not close to 1 *)
Definition is_physical (tol : R) n (k : ket n) : Prop :=
  (forall l, eigenvalue_of (kA k) l -> Rlt (Cmod l) R1) /\ exists p, probability k = Some p /\ Rle (Rabs (Rminus p R1)) tol.
(** dm.py:99 *)
Definition dm_is_physical (atol tol : R) n (s : stri n) : Prop :=
  is_positive atol (sA s) /\ exists p, dm_probability s = Some p /\ Rle (Rabs (Rminus p R1)) tol.
(** Specification: the Gaussian function exp(z A z / 2 + b z) is normalisable exactly when every singular value of A is less than 1 *)
Definition normalisable n (k : ket n) : Prop := pd (1%:M - kA k *m adj (kA k)).
(** the population of the vacuum, |<0|psi>|^2: the amplitude at zero photons is c *)
Definition vacuum_population n (k : ket n) : R := Rmult (Cmod (kc k)) (Cmod (kc k)).

(** ** lemmas *)
Lemma det_le1 n (A : 'M[C]_n) : pd A -> psd (1%:M - A) -> exists r, (0 < r)%coqR /\ (r <= 1)%coqR /\ \det A = RtoC r.
Proof.
elim: n A => [|n IH] A P; first by exists R1; rewrite det_mx00; split; [lra|split; [lra|]].
move: P. suff key : forall A : 'M[C]_(1 + n), pd A -> psd (1%:M - A) -> exists r, (0 < r)%coqR /\ (r <= 1)%coqR /\ \det A = RtoC r by exact: key.
move=> {}A [HA PA]. move: HA PA. rewrite -(submxK A). move: (ulsubmx A) (ursubmx A) (dlsubmx A) (drsubmx A) => a b b' D {A}. rewrite /herm adj_block => /eq_block_mx [Ha Eb Eb' HD] P.
rewrite scalar_mx_block opp_block_mx add_block_mx => -[_ Q].
have N1 : col_mx 1%:M 0 <> 0 :> 'cV[C]_(1 + n). { move=> E. have := congr1 (@usubmx _ 1 n 1) E; rewrite col_mxKu linear0 => /(congr1 (fun M : 'M[C]_1 => M 0 0)); rewrite !mxE /= C0E C1E => /RtoC_inj; lra. }
have Ea : exists r, (0 < r)%coqR /\ (r <= 1)%coqR /\ a = (RtoC r)%:M.
  have := P _ N1. have := Q (col_mx 1%:M 0).
  rewrite /qf adj_col adj1 adj0 !mul_row_block !mul_row_col !mulmx0 !addr0 !mul0mx !addr0 !mul1mx !mulmx1 => H0 H.
  exists (Re (a 0 0)). split=> //. split; last first.
    rewrite [a]mx11_scalar. congr (_%:M). rewrite mxE eqxx mulr1n.
    have := congr1 (fun M : 'M[C]_1 => M 0 0) Ha. rewrite !mxE. case: (a 0 0) => x y. rewrite /Cconj /RtoC /= => -[Hy]. congr pair. lra.
  move: H0. rewrite !mxE /= mulr1n. case: (a 0 0) => x y. rewrite C1E CaddE CoppE /Cplus /Copp /RtoC /Re /=. lra.
case: Ea => r [Hr [Hr1 Ea]]. have Ur : RtoC r != 0 by apply/eqP; rewrite C0E => /RtoC_inj; lra.
have Ua : a \in unitmx by rewrite Ea unitmxE det_scalar1 unitfE.
have Ed : block_mx a b b' D = block_mx 1%:M 0 (b' *m invmx a) 1%:M *m block_mx a b 0 (D - b' *m invmx a *m b).
  by rewrite mulmx_block ?(mul0mx, mul1mx, mulmx0, addr0) mulmxKV // [_ + (D - _)]addrC subrK.
have Ei : adj (invmx a) = invmx a by rewrite -adj_inv Ha.
have HS : pd (D - b' *m invmx a *m b).
  split.
    by rewrite /herm adjB HD !adj_prod Ei Eb -Eb adjKr mulmxA.
  move=> v N. have N2 : col_mx (- (invmx a *m b *m v)) v <> 0.
    move=> E. apply: N. have := congr1 (@dsubmx _ 1 n 1) E. by rewrite col_mxKd linear0.
  have := P _ N2.
  rewrite /qf. have -> : adj (col_mx (- (invmx a *m b *m v)) v) *m block_mx a b b' D *m col_mx (- (invmx a *m b *m v)) v = adj v *m (D - b' *m invmx a *m b) *m v.
    rewrite -mulmxA mul_block_col. have -> : a *m - (invmx a *m b *m v) + b *m v = 0 by rewrite mulmxN -mulmxA mulKVmx // addNr.
    rewrite adj_col mul_row_col mulmx0 add0r mulmxN -!mulmxA. congr (_ *m _). by rewrite mulmxBl addrC -!mulmxA.
  by [].
have PS : psd (1%:M - (D - b' *m invmx a *m b)).
  have -> : 1%:M - (D - b' *m invmx a *m b) = (1%:M - D) + b' *m invmx a *m adj b' by rewrite opprB addrA addrAC -Eb.
  apply: psdD.
  - split; first by rewrite /herm adjB adj1 HD. move=> v. have := Q (col_mx 0 v). rewrite {1}/qf adj_col adj0 mul_row_block mul_row_col !mul0mx !mulmx0 !add0r. by [].
  - apply: psd_conj. apply/pd_psd/pd_inv. split=> // v Hv. rewrite Ea /qf mul_mx_scalar -scalemxAl mxE ReZ. have := nv_pos Hv. rewrite /nv /qf mulmx1 => H. nra.
case: (IH _ HS PS) => s [Hs [Hs1 Es]]. exists (r * s)%coqR. split; first exact: Rmult_lt_0_compat. split; first nra.
by rewrite Ed det_mulmx det_lblock !det1 !mul1r det_ublock Es Ea det_scalar1 RtoC_mult.
Qed.
Section Phys.
Variables (n : nat) (A : 'M[C]_n) (b : 'cV[C]_n) (c : C).
Hypothesis sA : A^T = A.
Let adjA : adj A = conj A. Proof. by rewrite /adj -conj_tr sA. Qed.
Let adjcA : adj (conj A) = A. Proof. by rewrite /adj conjmxK. Qed.
Let D := 1%:M - A *m conj A.
Let K := invmx D.
Let P := 1%:M - conj A *m A.
Hypothesis pdD' : pd D.
Let uD : D \in unitmx. Proof. exact: pd_unit. Qed.
Let conjD : conj D = P. Proof. by rewrite /D /P map_mxB map_mx1 conj_mul conjmxK. Qed.
Lemma adj_conj m p (M : 'M[C]_(m, p)) : adj (conj M) = conj (adj M). Proof. by rewrite /adj conj_tr. Qed.
Lemma qf_conjM (M : 'M[C]_n) (v : 'cV[C]_n) : qf (conj M) (conj v) = qf M v.
Proof.
rewrite /qf adj_conj -!conj_mul mxE. by case: (_ 0 0).
Qed.
Lemma pdP : psd P.
Proof.
have [H Q] := pd_psd pdD'. split; first by rewrite /herm -conjD adj_conj H. move=> v. rewrite -[v]conjmxK -conjD qf_conjM. exact: Q.
Qed.
Lemma qf_le (u : 'cV[C]_n) : Rle (qf P (conj A *m u)) (qf D u).
Proof.
have [HD _] := pdD'.
  have : qf D u = Rplus (qf P (conj A *m u)) (nv (D *m u)).
    rewrite /nv /qf mulmx1 -ReD. have -> (M1 M2 : 'M[C]_1) : M1 0 0 + M2 0 0 = (M1 + M2) 0 0 by rewrite mxE.
    congr (Re (_ 0 0)). rewrite !adj_prod adjcA HD.
    have -> : adj u *m A *m P *m (conj A *m u) = adj u *m (A *m conj A) *m (D *m u).
      rewrite -!mulmxA. congr (_ *m _). rewrite !mulmxA. congr (_ *m _). by rewrite /P /D mulmxBr mulmx1 mulmxBl mulmxBr mulmx1 !mulmxA.
    rewrite -[adj u *m D *m (D *m u)]mulmxA -[adj u *m (A *m conj A) *m _]mulmxA -mulmxDr. rewrite -[in LHS]mulmxA. congr (_ *m _).
    by rewrite -mulmxDl {2}/D addrC subrK mul1mx.
have := nv_ge0 (D *m u). lra.
Qed.
Lemma g_nonneg g : gQ A (conj A) K b (conj b) = RtoC (Rmult (IZR 2) g) -> Rle R0 g.
Proof.
set u := K *m b. have Eb : b = D *m u by rewrite /u mulKVmx.
have [HD _] := pdD'. have HK : adj K = K by rewrite /K -adj_inv HD.
set w := conj A *m u. set q := qf D u.
have Eq : Re ((adj b *m K *m b) 0 0) = q. { rewrite /q /qf {1}Eb adj_prod HD -!mulmxA -/u. by []. }
have E1 : Re (((conj b)^T *m K *m b) 0 0) = q by rewrite -Eq.
have E2 : Re ((b^T *m conj A *m K *m b) 0 0) = hf P (conj u) w.
  rewrite /hf. have -> : adj (conj u) *m P *m w = (b^T *m conj A *m K *m b)^T.
    have -> : (b^T *m conj A *m K *m b)^T = u^T *m (conj A *m D *m u).
      rewrite -[b^T *m conj A *m K *m b]mulmxA trmx_mul [(b^T *m conj A)^T]trmx_mul trmxK -conj_tr sA -/u -[conj A *m D *m u]mulmxA -Eb. by [].
    rewrite /w /adj conjmxK -mulmxA. congr (_ *m _). rewrite mulmxA. congr (_ *m _). by rewrite /P /D mulmxBl mulmxBr mul1mx mulmx1 mulmxA.
  by rewrite [in RHS]mxE.
have Hx : qf P (conj u) = q by rewrite -conjD qf_conjM.
have Hw : Rle (qf P w) q by exact: qf_le.
have CS := cauchy (conj u) w pdP. rewrite Hx in CS. have [_ Q0] := pdP. have q0 : Rle R0 q by rewrite -Hx.
have L : Rle (- q)%coqR (hf P (conj u) w). { have := Q0 w. move: CS Hw. move: (hf _ _ _) (qf P w) => h z. nra. }
rewrite /gQ => E. have : Re ((b^T *m (conj A *m K *m b + K^T *m conj b) + (conj b)^T *m (K *m b + A *m K^T *m conj b)) 0 0) = Rmult (IZR 2) g by rewrite E.
rewrite !mulmxDr !mulmxA. have -> (M1 M2 M3 M4 : 'M[C]_1) : (M1 + M2 + (M3 + M4)) 0 0 = M1 0 0 + M2 0 0 + (M3 0 0 + M4 0 0) by rewrite !mxE.
rewrite !ReD E1 E2.
have KTc : K^T = conj K by rewrite -[in LHS]HK /adj trmxK.
have tr0 (M : 'M[C]_1) : M 0 0 = M^T 0 0 by rewrite mxE.
have -> : Re ((b^T *m K^T *m conj b) 0 0) = q.
  rewrite tr0 !trmx_mul !trmxK -E1. by rewrite mulmxA.
have -> : Re (((conj b)^T *m A *m K^T *m conj b) 0 0) = hf P (conj u) w.
  rewrite -E2 KTc. have -> : (conj b)^T *m A *m conj K *m conj b = conj (b^T *m conj A *m K *m b) by rewrite !conj_mul conjmxK conj_tr.
  rewrite mxE. by case: (_ 0 0).
lra.
Qed.
End Phys.
(** C60: a normalisable ket passes the eigenvalue test *)
Theorem C60_eigenvalues n (k : ket n) : (kA k)^T = kA k -> normalisable k -> forall l, eigenvalue_of (kA k) l -> Rlt (Cmod l) R1.
Proof.
case: k => A b c /= sA. rewrite /normalisable /=. have adjA : adj A = conj A by rewrite /adj -conj_tr sA. rewrite adjA => PD l [v [N E]].
have Nc : conj v <> 0 by move=> Ec; apply: N; rewrite -[v]conjmxK Ec map_mx0.
have [_ /(_ _ Nc)] := PD. have -> : 1%:M - A *m conj A = conj (1%:M - conj A *m A) by rewrite map_mxB map_mx1 conj_mul conjmxK.
rewrite qf_conjM qfD qfN -/(nv v). have -> : qf (conj A *m A) v = Rmult (Rmult (Cmod l) (Cmod l)) (nv v).
  rewrite /nv /qf mulmx1. have -> : adj v *m (conj A *m A) *m v = adj (A *m v) *m (A *m v) by rewrite adj_prod adjA !mulmxA.
  rewrite E adjZ -scalemxAl -scalemxAr scalerA mxE -ReZ -mulconj [Cconj l * l]mulrC. by [].
have := nv_pos N. have := Cmod_ge_0 l. move: (Cmod l) (nv v) => x y Hx Hy Hz. case: (Rlt_le_dec x R1) => // H1. exfalso. have : Rle R1 (Rmult x x) by nra. move: (Rmult x x) Hz => t *. nra.
Qed.
(** a normalisable ket: probability is at least the population of the vacuum *)
Theorem C60_population n (k : ket n) p : (kA k)^T = kA k -> normalisable k -> probability k = Some p -> Rle (vacuum_population k) p.
Proof.
case: k => A b c /= sA. rewrite /normalisable /=. have adjA : adj A = conj A by rewrite /adj -conj_tr sA. rewrite adjA => PD Hp.
case: (Rlt_dec threshold (Cmod (\det (1%:M - A *m conj A)))) => Ht; last by move: Hp; rewrite /probability (inner_none _ _ _ _ Ht).
have PS : psd (1%:M - (1%:M - A *m conj A)) by rewrite opprB addrC subrK -adjA; exact: psd_gram.
have [d [d0 [d1 Ed]]] := det_le1 PD PS. have [g Eg] := gQ_real b sA. have g0 := g_nonneg sA PD Eg.
move: Hp. rewrite (prob_val c sA Ht Ed Eg). case: Rlt_dec => // _ [<-]. rewrite /vacuum_population /=.
have e1 : Rle (IZR 1) (exp g). { case: g0 => [H|<-]; last by rewrite exp_0; lra. have := exp_ineq1 g. lra. }
have s1 : Rle (IZR 1) (sqrt (Rinv d)). { rewrite -sqrt_1. apply: sqrt_le_1_alt. rewrite -{1}Rinv_1. apply: Rinv_le_contravar; lra. }
have := Cmod_ge_0 c. move: (Cmod c) (sqrt _) (exp g) e1 s1 => x y z *. have : Rle R0 (Rmult x x) by nra. move: (Rmult x x) => t t0. have h1 : Rle t (Rmult t y) by nra. have h2 : Rle (Rmult t y) (Rmult (Rmult t y) z) by nra. lra.
Qed.
(** C60: if is_physical is True and the ket is normalisable, no population exceeds 1 (up to the tolerance); and it is True for every normalisable ket of probability 1 *)
Theorem C60_physical n (k : ket n) tol : (kA k)^T = kA k -> normalisable k ->
  (is_physical tol k <-> exists p, probability k = Some p /\ Rle (Rabs (Rminus p R1)) tol) /\ (is_physical tol k -> Rle (vacuum_population k) (Rplus R1 tol)).
Proof.
move=> sA Hn. split; first split.
- by case.
- move=> H. split=> //. exact: C60_eigenvalues.
- case=> _ [p [Hp Ht]]. have := C60_population sA Hn Hp. move: Ht. rewrite /Rabs. case: Rcase_abs; lra.
Qed.
(** C60: every circuit of Gaussian unitaries on the vacuum gives a normalisable ket, and is_physical is True, above the threshold *)
Theorem C60_circuit n (ts : seq (triple n)) k tol : (forall t, List.In t ts -> unitary_triple t) -> circuit ts = Some k -> Rle R0 tol ->
  normalisable k /\ (kA k)^T = kA k /\ (Rlt threshold (Cmod (\det (1%:M - kA k *m conj (kA k)))) -> is_physical tol k).
Proof.
move=> H E t0. have [u [uu Eu]] := C59_circuit H E. have [ku _] := uu. move: (Eu). rewrite (C59_vacuum (proj1 ku)) => -[Ek].
have [Hn sA] : normalisable k /\ (kA k)^T = kA k.
  rewrite -Ek /normalisable /=. case: (triple_blocks ku) => T [W [V [o [i Eu']]]]. move: ku. rewrite Eu' /= block_mxKul => ku.
  have sT : T^T = T by move: (proj1 ku); rewrite tr_block_mx => /eq_block_mx [? _ _ _]. split=> //.
  have adjT : adj T = conj T by rewrite /adj -conj_tr sT.
  have [h1 _ _ _] := kernel_rel ku. have -> : 1%:M - T *m adj T = W *m 1%:M *m adj W by rewrite mulmx1 adjT; apply/eqP; rewrite subr_eq addrC h1.
  apply: pd_conj; last exact: pd1. by case/kernelP: ku.
split=> //. split=> // Ht. apply/(proj1 (C60_physical tol sA Hn)). exists R1. split; first exact: C59_circuit_norm H E Ht.
have -> : Rminus R1 R1 = R0 by ring. rewrite Rabs_R0. lra.
Qed.
(** one mode: the eigenvalue test is exact *)
Theorem C60_one_mode (k : ket 1) tol : is_physical tol k -> normalisable k.
Proof.
case: k => A b c [/= H _]. rewrite /normalisable /=. have N1 : (1%:M : 'cV[C]_1) <> 0. { move/matrixP/(_ 0 0). rewrite !mxE /= C0E C1E => /RtoC_inj. lra. }
have L : Rlt (Cmod (A 0 0)) R1 by apply: H; exists 1%:M; split=> //; rewrite mulmx1 {1}[A]mx11_scalar scalemx1.
rewrite [A]mx11_scalar. move: (A 0 0) L => a L.
split; first by rewrite /herm adjB adj1 adj_prod adjKr. move=> v N. have -> : 1%:M - a%:M *m adj a%:M = (RtoC (Rminus R1 (Rmult (Cmod a) (Cmod a))))%:M :> 'M[C]_1.
  rewrite /adj map_scalar_mx tr_scalar_mx -scalar_mxM mulconj -raddfB /=. congr _%:M. by rewrite C1E CaddE CoppE -RtoC_opp -RtoC_plus.
rewrite /qf mul_mx_scalar -scalemxAl mxE ReZ. have := nv_pos N. rewrite /nv /qf mulmx1. have := Cmod_ge_0 a. move: (Cmod a) (Re _) L => x y L x0 y0. apply: Rmult_lt_0_compat => //. nra.
Qed.

(** is_physical is not a test of physicality for two modes or more: the four-mode ket with A = diag(B, B), B = [[1, i], [i, -1]], b = 0, c = sqrt 3 has only the eigenvalue 0 and probability 1,
    so is_physical is True for every tolerance, but the population of its vacuum component is 3 *)
Definition Bm : 'M[C]_2 := mx2 1 Ci Ci (- 1).
Definition bad_ket : ket (2 + 2) := Ket (block_mx Bm 0 0 Bm) 0 (RtoC (sqrt (IZR 3))).
Lemma CiCi : Ci * Ci = - 1. Proof. rewrite CmulE CoppE C1E /Ci /Cmult /Copp /RtoC /=. congr pair; ring. Qed.
Lemma BB0 : Bm *m Bm = 0.
Proof. rewrite /Bm mx2_mul CiCi. apply: mx2P; rewrite !mxE /= ?mul1r ?mulr1 ?mulrN1 ?mulN1r ?opprK ?subrr ?addNr //. Qed.
Lemma BBc : Bm *m conj Bm = mx2 (1 + 1) (- (Ci + Ci)) (Ci + Ci) (1 + 1).
Proof.
rewrite /Bm mx2_conj mx2_mul !rmorphN !rmorph1 /= conjI. rewrite !mulrN !mulNr CiCi ?opprK !mul1r !mulr1 ?mulrN ?mulr1 ?opprK ?mulN1r. congr mx2; by rewrite ?opprD // addrC.
Qed.
Lemma det_mx2 a b c d : \det (mx2 a b c d) = a * d - b * c.
Proof.
rewrite (expand_det_row _ 0) !big_ord_recl big_ord0 addr0 /cofactor !det_mx11 !mxE /= expr0 mul1r /bump /= addn0 expr1 mulN1r mulrN. by [].
Qed.
Lemma num33 : (1 - (1 + 1)) * (1 - (1 + 1)) - (0 - - (Ci + Ci)) * (0 - (Ci + Ci)) = - (1 + 1 + 1) :> C.
Proof.
rewrite C0E C1E /Ci !CoppE !CaddE !CmulE /Cplus /Cmult /Copp /RtoC /=. congr pair; ring.
Qed.
Theorem C60_refuted : exists k : ket 4, (kA k)^T = kA k /\ (forall tol, Rle R0 tol -> is_physical tol k) /\ vacuum_population k = IZR 3 /\ ~ normalisable k.
Proof.
exists bad_ket. have sB : Bm^T = Bm by rewrite /Bm mx2_tr. have sA : (kA bad_ket)^T = kA bad_ket by rewrite /= tr_block_mx !trmx0 sB.
have pop : vacuum_population bad_ket = IZR 3. { rewrite /vacuum_population /= Cmod_R Rabs_pos_eq; last exact: sqrt_pos. apply: sqrt_sqrt. lra. }
have Hphys : forall tol, Rle R0 tol -> is_physical tol bad_ket.
  move=> tol t0. split.
  - move=> l [v [N E]]. have E2 : kA bad_ket *m kA bad_ket = 0 by rewrite /= mulmx_block ?(mul0mx, mulmx0, addr0, add0r) BB0 block_mx0.
    have : (l * l) *: v = 0 by rewrite -scalerA -E scalemxAr -E mulmxA E2 mul0mx.
    move/eqP. rewrite scaler_eq0 mulf_eq0 orbb. case/orP => /eqP El; last by case: N. rewrite El C0E Cmod_0. lra.
  - exists R1. have -> : Rminus R1 R1 = R0 by ring. rewrite Rabs_R0. split; last lra.
    have H9 : RtoC (IZR 9) = (1 + 1 + 1) * (1 + 1 + 1) by rewrite C1E !CaddE CmulE -!RtoC_plus -RtoC_mult; congr RtoC; ring.
    have Ed : \det (1%:M - kA bad_ket *m conj (kA bad_ket)) = RtoC (IZR 9).
      rewrite /= map_block_mx !map_mx0 mulmx_block ?(mul0mx, mulmx0, addr0, add0r) scalar_mx_block opp_block_mx add_block_mx oppr0 addr0 det_ublock BBc -mx2_1 mx2_opp mx2_add det_mx2 H9.
      by have -> : (1 - (1 + 1)) * (1 - (1 + 1)) - (0 - - (Ci + Ci)) * (0 - (Ci + Ci)) = - (1 + 1 + 1) :> C; [exact: num33|rewrite mulrNN].
    have Ht : Rlt threshold (Cmod (\det (1%:M - kA bad_ket *m conj (kA bad_ket)))).
      rewrite Ed Cmod_R Rabs_pos_eq; last lra. have := thr_lt1. lra.
    have Eg : gQ (kA bad_ket) (conj (kA bad_ket)) (invmx (1%:M - kA bad_ket *m conj (kA bad_ket))) 0 (conj 0) = RtoC (Rmult (IZR 2) R0).
      by rewrite /gQ map_mx0 !mulmx0 addr0 !mulmx0 addr0 mxE Rmult_0_r.
    have := prob_val (RtoC (sqrt (IZR 3))) sA Ht Ed Eg. rewrite -/bad_ket => ->. congr Some. case: Rlt_dec => H0; last by exfalso; apply: H0; lra.
    have -> : Rmult (Cmod (RtoC (sqrt (IZR 3)))) (Cmod (RtoC (sqrt (IZR 3)))) = IZR 3 by exact: pop.
    have -> : Rinv (IZR 9) = Rmult (Rinv (IZR 3)) (Rinv (IZR 3)) by field. rewrite sqrt_square; last lra. rewrite Rmult_assoc exp_0 Rmult_1_r. apply: Rinv_r. lra.
split=> //. split=> //. split=> // Hn.
have := proj2 (C60_physical R0 sA Hn) (Hphys R0 (Rle_refl _)). rewrite pop. lra.
Qed.
(** density matrices: the density matrix of every ket passes the positivity test, so DM.is_physical of ket.dm() is exactly the test of its probability: it never looks at normalisability *)
Theorem C60_dm n (k : ket n) atol tol : Rle R0 atol ->
  (dm_is_physical atol tol (dm k) <-> exists p, probability k = Some p /\ Rle (Rabs (Rminus p R1)) tol).
Proof.
move=> a0. rewrite /dm_is_physical C59_dm_probability. split; first by case. move=> H. split=> //.
rewrite /is_positive /gammaA /= block_mxKur adj0 subrr. split.
- rewrite fnorm0. lra.
- move=> l [v [N E]]. move: E. rewrite mul0mx => /esym/eqP. rewrite scaler_eq0. case/orP => /eqP El; last by case: N. rewrite El C0E /Re /=. lra.
Qed.
Theorem C60_dm_refuted : exists s : stri 4, (forall atol tol, Rle R0 atol -> Rle R0 tol -> dm_is_physical atol tol s) /\ sc s = RtoC (IZR 3).
Proof.
have [k [_ [H [Hp _]]]] := C60_refuted. exists (dm k). split.
- move=> atol tol a0 t0. apply/C60_dm => //. by case: (H tol t0).
- rewrite /= [Cconj _ * _]mulrC mulconj. congr RtoC. exact: Hp.
Qed.
(** the hypotheses are met by a squeezed state *)
Theorem C60_example : exists k : ket 1, kA k <> 0 /\ normalisable k /\ is_physical R0 k /\ Rlt (vacuum_population k) R1.
Proof.
exists (Ket (RtoC (Ropp q45))%:M 0 (RtoC (sqrt (pow q35 1)))). split.
  move/matrixP/(_ 0 0). rewrite !mxE /= mulr1n => /RtoC_inj. rewrite /q45. lra.
have E : circuit [:: squeezers 1 q45 q35] = Some (Ket (RtoC (Ropp q45))%:M 0 (RtoC (sqrt (pow q35 1)))) by rewrite /circuit /= sqz_state.
have U : forall t, List.In t [:: squeezers 1 q45 q35] -> unitary_triple t by move=> t [<-|[]]; exact: squeezers_unitary qq1 qq0.
have [Hn [_ Hp]] := C60_circuit U E (Rle_refl R0). split=> //. split.
- apply: Hp => /=. rewrite sqz_det Cmod_R Rabs_pos_eq; last by simpl; lra. exact: (@thr_pow 1).
- rewrite /vacuum_population /= Cmod_R Rabs_pos_eq; last exact: sqrt_pos. rewrite sqrt_sqrt /q35; lra.
Qed.
