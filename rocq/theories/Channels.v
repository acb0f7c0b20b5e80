(** Gaussian channels: Channel.from_XY, Channel.XY, composition, action on states and trace preservation.  Claims C44 (channels), C42 (channels) and C54, C55.
    Model of mrmustard/physics/triples.py:938-1005 (XY_to_channel_Abc), mrmustard/physics/bargmann_utils.py:80-96 (wigner_to_bargmann_rho) and 176-238 (XY_of_channel),
    mrmustard/physics/husimi.py:22-39, mrmustard/lab/transformations/base.py:461-543 (Channel.XY, Channel.from_XY), and of the contraction of channels.
    One batch element, exact arithmetic; settings.HBAR is the parameter hb. *)
From Coq Require Import Reals Lra.
From Coquelicot Require Import Complex.
From mathcomp Require Import all_ssreflect all_algebra.
From Verif Require Import CMat Optimizer GateSym BargSym CExp Compose ChanAlg ChanHat PosDef.
Require Verif.Base.
Set Implicit Arguments. Unset Strict Implicit. Unset Printing Implicit Defensive.
Import GRing.Theory.
Local Open Scope ring_scope.
Delimit Scope R_scope with coqR.

(** the triple of a channel with a output and i input modes; variables in the library's order (out bra, in bra, out ket, in ket), Wires.sorted_wires *)
Record ctri a i := CTri { cA : 'M[C]_((a + i) + (a + i)); cb : 'cV[C]_((a + i) + (a + i)); cc : C }.
Arguments CTri {a i}.
(** the triple of a density matrix on a modes; variables (bra, ket) *)
Record stri a := STri { sA : 'M[C]_(a + a); sb : 'cV[C]_(a + a); sc : C }.
Arguments STri {a}.
(** the library's order (ob, ib, ok, ik) rewritten as (ob, ok, ib, ik): the slices of bargmann_utils.py:190-202 *)
Definition group a i (A : 'M[C]_((a + i) + (a + i))) : 'M[C]_((a + a) + (i + i)) :=
  let bb := ulsubmx A in let bk := ursubmx A in let kb := dlsubmx A in let kk := drsubmx A in
  block_mx (block_mx (ulsubmx bb) (ulsubmx bk) (ulsubmx kb) (ulsubmx kk)) (block_mx (ursubmx bb) (ursubmx bk) (ursubmx kb) (ursubmx kk))
           (block_mx (dlsubmx bb) (dlsubmx bk) (dlsubmx kb) (dlsubmx kk)) (block_mx (drsubmx bb) (drsubmx bk) (drsubmx kb) (drsubmx kk)).
Definition groupv a i (b : 'cV[C]_((a + i) + (a + i))) : 'cV[C]_((a + a) + (i + i)) :=
  col_mx (col_mx (usubmx (usubmx b)) (usubmx (dsubmx b))) (col_mx (dsubmx (usubmx b)) (dsubmx (dsubmx b))).
(** the triple in grouped order, outputs first *)
Definition grp a i (t : ctri a i) : gtri (a + a) (i + i) := GTri (group (cA t)) (groupv (cb t)) (cc t).
(** back to the library's order *)
Definition ungroup a i (A : 'M[C]_((a + a) + (i + i))) : 'M[C]_((a + i) + (a + i)) :=
  let oo := ulsubmx A in let oi := ursubmx A in let io := dlsubmx A in let ii := drsubmx A in
  block_mx (block_mx (ulsubmx oo) (ulsubmx oi) (ulsubmx io) (ulsubmx ii)) (block_mx (ursubmx oo) (ursubmx oi) (ursubmx io) (ursubmx ii))
           (block_mx (dlsubmx oo) (dlsubmx oi) (dlsubmx io) (dlsubmx ii)) (block_mx (drsubmx oo) (drsubmx oi) (drsubmx io) (drsubmx ii)).
Definition ungroupv a i (b : 'cV[C]_((a + a) + (i + i))) : 'cV[C]_((a + i) + (a + i)) :=
  col_mx (col_mx (usubmx (usubmx b)) (usubmx (dsubmx b))) (col_mx (dsubmx (usubmx b)) (dsubmx (dsubmx b))).
Definition ungrp a i (t : gtri (a + a) (i + i)) : ctri a i := CTri (ungroup (gA t)) (ungroupv (gb t)) (gc t).
(** ch1 >> ch2: out bra with in bra and out ket with in ket (CircuitComponent.contract, circuit_components.py); None: the infinite result below the threshold *)
Definition cthen k p q (t1 : ctri k p) (t2 : ctri q k) : option (ctri q p) := omap (@ungrp q p) (gthen (grp t1) (grp t2)).
(** rho >> channel *)
Definition st2g a (s : stri a) : gtri (a + a) 0 := GTri (block_mx (sA s) 0 0 0) (col_mx (sb s) 0) (sc s).
Definition g2st a (t : gtri (a + a) 0) : stri a := STri (ulsubmx (gA t)) (usubmx (gb t)) (gc t).
Definition sthen k q (s : stri k) (t : ctri q k) : option (stri q) := omap (@g2st q) (gthen (st2g s) (grp t)).
(** ansatz.trace over pairs of variables (complex_gaussian_integral_1, gaussian_integrals.py:353-401): M = A[idx, idx] - X, c sqrt((-1)^a / det M) exp(-b M^-1 b / 2) *)
Definition gtrace a i (t : gtri (a + a) i) : option ('M[C]_i * 'cV[C]_i * C) :=
  let M := ulsubmx (gA t) - X a in let b := usubmx (gb t) in
  if Rlt_dec threshold (Cmod (\det M)) then
    Some (drsubmx (gA t) - dlsubmx (gA t) *m invmx M *m ursubmx (gA t), dsubmx (gb t) - dlsubmx (gA t) *m (invmx M *m b),
          gc t * csqrt ((-1) ^+ a / \det M) * Cexp (- half * (b^T *m invmx M *m b) 0 0))
  else None.
(** triples.py:960: the argument d, None, a Python list or an array of length 2m >= 2; 'd if d else zeros' raises ValueError for an array *)
Inductive darg n := DNone | DList of 'cV[C]_n | DArray of 'cV[C]_n.
Arguments DNone {n}.
Section HB.
Variable hb : R.
(** triples.py:969 *)
Definition xiM a i (X : 'M[C]_(a, i)) (Y : 'M[C]_a) : 'M[C]_a := half *: 1%:M + half *: (X *m X^T) + RtoC (/ hb) *: Y.
(** triples.py:974-998 *)
Definition Rlib m : 'M[C]_((m + m) + (m + m)) :=
  rr *: block_mx (block_mx 1%:M (Ci *: 1%:M) 0 0) (block_mx 0 0 1%:M (- Ci *: 1%:M)) (block_mx 1%:M (- Ci *: 1%:M) 0 0) (block_mx 0 0 1%:M (Ci *: 1%:M)).
(** triples.py:938-1005; X and Y have the same shape by typing (otherwise ValueError), m is the number of modes *)
Definition XY_to_channel m (Xc Y : 'M[C]_(m + m)) (d : darg (m + m)) : Base.result (ctri m m) :=
  Base.bind (match d with DNone => Base.Ok 0 | DList v => Base.Ok v | DArray _ => Base.Err Base.ValueError end) (fun d =>
  Base.bind (inv (xiM Xc Y)) (fun V =>
  let B := block_mx (1%:M - V) (V *m Xc) (Xc^T *m V) (1%:M - Xc^T *m V *m Xc) in
  Base.Ok (CTri (X (m + m) *m Rlib m *m B *m adj (Rlib m))
                (RtoC (/ sqrt hb) *: (conj (Rlib m) *m col_mx (V *m d) (Xc^T *m V *m d)))
                (Cexp (- half * RtoC (/ hb) * (d^T *m V *m d) 0 0) / csqrt (\det (xiM Xc Y)))))).
(** math.norm: the Frobenius norm *)
Definition fnorm n m (A : 'M[C]_(n, m)) : R := sqrt (\big[Rplus/R0]_i \big[Rplus/R0]_j sq (A i j)).
(** bargmann_utils.py:176-238 *)
Definition XY_of_channel (atol : R) m (A : 'M[C]_((m + m) + (m + m))) : Base.result ('M[C]_(m + m) * 'M[C]_(m + m)) :=
  let A_out := ulsubmx (group A) in let R := ursubmx (group A) in
  Base.bind (inv (1%:M - X m *m A_out)) (fun S =>
  let X_tilde := - S *m X m *m R *m X m in
  let T : 'M[C]_(m + m) := block_mx 1%:M 1%:M (- Ci *: 1%:M) (Ci *: 1%:M) in
  let Xc := half *: (- T *m X_tilde *m (conj T)^T) in
  let N := drsubmx S in let M := ursubmx S in
  let sigma := block_mx (re_mx (N + M)) (im_mx (N + M)) (im_mx (M - N)) (re_mx (N - M)) - half *: 1%:M in
  let Y := sigma - half *: (Xc *m Xc^T) in
  if Rlt_dec atol (fnorm (im_mx Xc)) then Base.Err Base.ValueError else
  if Rlt_dec atol (fnorm (im_mx Y)) then Base.Err Base.ValueError else
  Base.Ok (re_mx Xc, RtoC hb *: re_mx Y)).
(** bargmann_utils.py:80-96 with husimi.py:22-39; cayley(S, 1/2) = solve(S + 1/2, S - 1/2) *)
Definition wigner_to_bargmann_rho m (cov : 'M[C]_(m + m)) (means : 'cV[C]_(m + m)) : Base.result (stri m) :=
  let sig := rotmat m *m (RtoC (/ hb) *: cov) *m adj (rotmat m) in
  let beta := rotmat m *m (RtoC (/ sqrt hb) *: means) in
  let Q := sig + half *: 1%:M in
  Base.bind (inv Q) (fun V => let b := V *m beta in
  Base.Ok (STri (X m *m (V *m (sig - half *: 1%:M))) (conj b) (Cexp (- half * (adj beta *m b) 0 0) / csqrt (\det Q)))).

(** ** lemmas *)
Definition Pm a i : 'M[C]_((a + a) + (i + i), (a + i) + (a + i)) :=
  block_mx (block_mx 1%:M 0 0 0) (block_mx 0 0 1%:M 0) (block_mx 0 1%:M 0 0) (block_mx 0 0 0 1%:M).
Lemma group_P a i (A : 'M[C]_((a + i) + (a + i))) : group A = Pm a i *m A *m (Pm a i)^T.
Proof.
rewrite /group -{17}(submxK A). move: (ulsubmx A) (ursubmx A) (dlsubmx A) (drsubmx A) => bb bk kb kk.
rewrite -{5}(submxK bb) -{5}(submxK bk) -{5}(submxK kb) -{5}(submxK kk).
move: (ulsubmx bb) (ursubmx bb) (dlsubmx bb) (drsubmx bb) (ulsubmx bk) (ursubmx bk) (dlsubmx bk) (drsubmx bk) => b1 b2 b3 b4 c1 c2 c3 c4.
move: (ulsubmx kb) (ursubmx kb) (dlsubmx kb) (drsubmx kb) (ulsubmx kk) (ursubmx kk) (dlsubmx kk) (drsubmx kk) => d1 d2 d3 d4 e1 e2 e3 e4.
rewrite /Pm !tr_block_mx !trmx0 !trmx1 !mulmx_block ?(mul0mx, mulmx0, mul1mx, mulmx1, addr0, add0r) !add_block_mx ?(addr0, add0r).
by rewrite !mulmx_block ?(mul0mx, mulmx0, mul1mx, mulmx1, addr0, add0r) !add_block_mx ?(addr0, add0r).
Qed.
Lemma groupv_P a i (b : 'cV[C]_((a + i) + (a + i))) : groupv b = Pm a i *m b.
Proof.
rewrite /groupv -{5}(vsubmxK b) -{3}(vsubmxK (usubmx b)) -{3}(vsubmxK (dsubmx b)).
move: (usubmx (usubmx b)) (dsubmx (usubmx b)) (usubmx (dsubmx b)) (dsubmx (dsubmx b)) => b1 b2 b3 b4.
by rewrite /Pm !mul_block_col ?(mul0mx, mul1mx, addr0, add0r) !add_col_mx ?(addr0, add0r).
Qed.
Lemma group_ungroup a i (A : 'M[C]_((a + a) + (i + i))) : group (ungroup A) = A.
Proof. by rewrite /group /ungroup ?(block_mxKul, block_mxKur, block_mxKdl, block_mxKdr) ?submxK. Qed.
Lemma ungroup_group a i (A : 'M[C]_((a + i) + (a + i))) : ungroup (group A) = A.
Proof. by rewrite /group /ungroup ?(block_mxKul, block_mxKur, block_mxKdl, block_mxKdr) ?submxK. Qed.
Lemma ungroup_groupv a i (b : 'cV[C]_((a + i) + (a + i))) : ungroupv (groupv b) = b.
Proof. by rewrite /groupv /ungroupv ?(col_mxKu, col_mxKd) ?vsubmxK. Qed.
Lemma ungrp_grp a i (t : ctri a i) : ungrp (grp t) = t.
Proof. case: t => A b c. by rewrite /ungrp /grp /= ungroup_group ungroup_groupv. Qed.
Lemma PR m : Pm m m *m Rlib m = block_mx (rotmat m) 0 0 (conj (rotmat m)).
Proof.
rewrite /Rlib /rotmat map_mxZ /= conj_rr map_block_mx !map_mx1 !map_mxZ !map_mx1 /= rmorphN /= conjI opprK -scalemxAr.
have -> : block_mx (rr *: block_mx 1%:M (Ci *: 1%:M) 1%:M (- Ci *: 1%:M)) 0 0 (rr *: block_mx 1%:M (- Ci *: 1%:M) 1%:M (Ci *: 1%:M)) =
          rr *: block_mx (block_mx 1%:M (Ci *: 1%:M) 1%:M (- Ci *: 1%:M)) 0 0 (block_mx 1%:M (- Ci *: 1%:M) 1%:M (Ci *: 1%:M)) :> 'M[C]_((m + m) + (m + m)).
  by rewrite [RHS]scale_block_mx !scaler0.
congr (_ *: _). rewrite /Pm !mulmx_block ?(mul0mx, mulmx0, mul1mx, mulmx1, addr0, add0r) !add_block_mx ?(addr0, add0r). congr block_mx; exact: block_mx0.
Qed.
Lemma PX m : Pm m m *m X (m + m) = block_mx (X m) 0 0 (X m) *m Pm m m.
Proof.
have E : Pm m m *m X (m + m) = block_mx (block_mx 0 0 1%:M 0) (block_mx 1%:M 0 0 0) (block_mx 0 0 0 1%:M) (block_mx 0 1%:M 0 0).
  by rewrite /Pm {1}/X mulmx_block !mulmx0 !mulmx1 !addr0 !add0r.
by rewrite E /Pm /X !mulmx_block !mul0mx !mul1mx ?(addr0, add0r).
Qed.
Lemma PP a i : (Pm a i)^T *m Pm a i = 1%:M.
Proof.
rewrite /Pm !tr_block_mx !trmx0 !trmx1 !mulmx_block ?(mul0mx, mulmx0, mul1mx, mulmx1, addr0, add0r) !add_block_mx ?(addr0, add0r).
by rewrite !block_mx0 -!scalar_mx_block.
Qed.
Lemma adjPm a i : adj (Pm a i) = (Pm a i)^T.
Proof. apply: adj_real. by rewrite /real /Pm !map_block_mx !map_mx0 !map_mx1. Qed.
Lemma rrT m : conj (rotmat m) *m (rotmat m)^T = 1%:M.
Proof. have [_ U] := rot_unitary m. move: (congr1 conj U). by rewrite conj_mul /adj conj_tr conjmxK map_mx1. Qed.
Lemma Xrot m : X m *m rotmat m = conj (rotmat m). Proof. by rewrite conj_rot. Qed.
Lemma Xcrot m : X m *m conj (rotmat m) = rotmat m. Proof. by rewrite conj_rot mulmxA XX mul1mx. Qed.
(** the triple the code computes, in the grouped order and the quadrature basis; the code's sign of the last block of b is a plus *)
Definition lhat a i (xi : 'M[C]_a) (X : 'M[C]_(a, i)) (d : 'cV[C]_a) : gtri a i :=
  GTri (gA (hat xi X d)) (col_mx (invmx xi *m d) (X^T *m invmx xi *m d)) (gc (hat xi X d)).
Lemma lhat0 a i (xi : 'M[C]_a) (X : 'M[C]_(a, i)) : lhat xi X 0 = hat xi X 0.
Proof. by rewrite /lhat /hat /= !mulmx0 oppr0. Qed.
Hypothesis hb0 : Rlt R0 hb.
Lemma hbq : RtoC (/ sqrt hb) * RtoC (/ sqrt hb) = RtoC (/ hb).
Proof.
rewrite CmulE -RtoC_mult. congr RtoC. have H := sqrt_lt_R0 _ hb0. rewrite -Rinv_mult_distr; try lra. rewrite sqrt_sqrt //. lra.
Qed.
Lemma XY_val m (Xc Y : 'M[C]_(m + m)) v : xiM Xc Y \in unitmx -> exists t, XY_to_channel Xc Y (DList v) = Base.Ok t /\
  grp t = change (conj (rotmat m)) (rotmat m) (lhat (xiM Xc Y) Xc (RtoC (/ sqrt hb) *: v)).
Proof.
move=> U. rewrite /XY_to_channel /= /inv U /=. eexists; split; first reflexivity.
rewrite /grp /= group_P groupv_P /change /lhat /=. set xi := xiM Xc Y. move: xi U => xi U. congr GTri.
- have -> : Pm m m *m (X (m + m) *m Rlib m *m block_mx (1%:M - invmx xi) (invmx xi *m Xc) (Xc^T *m invmx xi) (1%:M - Xc^T *m invmx xi *m Xc) *m adj (Rlib m)) *m (Pm m m)^T =
            (Pm m m *m X (m + m)) *m Rlib m *m block_mx (1%:M - invmx xi) (invmx xi *m Xc) (Xc^T *m invmx xi) (1%:M - Xc^T *m invmx xi *m Xc) *m (adj (Rlib m) *m adj (Pm m m)) by rewrite adjPm !mulmxA.
  rewrite PX -adj_prod -[block_mx (X m) 0 0 (X m) *m _ *m _]mulmxA PR adj_block !adj0. 
  have -> : block_mx (X m) 0 0 (X m) *m block_mx (rotmat m) 0 0 (conj (rotmat m)) = block_mx (conj (rotmat m)) 0 0 (rotmat m).
    by rewrite mulmx_block ?(mul0mx, mulmx0, addr0, add0r) Xrot Xcrot.
  congr (_ *m _). rewrite tr_block_mx !trmx0. congr block_mx. by rewrite /adj conjmxK.
- rewrite -!scalemxAr -scale_col_mx -scalemxAr. congr (_ *: _). rewrite mulmxA. congr (_ *m _).
  have -> : Pm m m *m conj (Rlib m) = conj (Pm m m *m Rlib m) by rewrite conj_mul /Pm !map_block_mx !map_mx0 !map_mx1.
  by rewrite PR map_block_mx !map_mx0 conjmxK.
- congr (Cexp _ / _). rewrite -mulrA -hbq. congr (_ * _). move: (RtoC (/ sqrt hb)) => k.
  have -> : (k *: v)^T = k *: v^T by apply: linearZ.
  by rewrite -!scalemxAl -scalemxAr scalerA [RHS]mxE.
Qed.
Lemma XY_val0 m (Xc Y : 'M[C]_(m + m)) : xiM Xc Y \in unitmx -> exists t, XY_to_channel Xc Y DNone = Base.Ok t /\
  grp t = change (conj (rotmat m)) (rotmat m) (hat (xiM Xc Y) Xc 0).
Proof. move=> U. case: (XY_val 0 U) => t [E G]. exists t. split=> //. by rewrite G scaler0 lhat0. Qed.
Lemma quad_blocks m (a b : 'M[C]_m) :
  block_mx (re_mx (conj a + b)) (im_mx (conj a + b)) (im_mx (b - conj a)) (re_mx (conj a - b)) = adj (rotmat m) *m block_mx a b (conj b) (conj a) *m rotmat m.
Proof.
rewrite adj_rotmat /rotmat -!scalemxAl -scalemxAr scalerA rr2 !mulmx_block -!scalemxAl -!scalemxAr !mul1mx !mulmx1 -?scalemxAr ?mulmx1 scale_block_mx.
congr block_mx; apply/matrixP => i j; rewrite !mxE; move: (a i j) (b i j) => [x y] [z w];
  rewrite ?CaddE ?CmulE ?CoppE /Cplus /Cmult /Copp /Cconj /RtoC /half /Ci /Re /Im /=; congr pair; field.
Qed.
Lemma fnorm0 n m : fnorm (0 : 'M[C]_(n, m)) = R0.
Proof.
rewrite /fnorm. have -> : \big[Rplus/R0]_(i < n) \big[Rplus/R0]_(j < m) sq ((0 : 'M[C]_(n, m)) i j) = R0; last exact: sqrt_0.
apply: (big_ind (fun x => x = R0)) => // [x y -> ->|i _]; first by rewrite Rplus_0_l.
apply: (big_ind (fun x => x = R0)) => // [x y -> ->|j _]; first by rewrite Rplus_0_l. rewrite mxE /sq /=. ring.
Qed.
Lemma im_real n m (A : 'M[C]_(n, m)) : real A -> im_mx A = 0.
Proof.
move=> H. apply/matrixP => i j. rewrite !mxE. have := congr1 (fun M : 'M[C]_(n, m) => M i j) H. rewrite mxE.
case: (A i j) => x y. rewrite /Cconj /RtoC /= => -[Hy]. rewrite C0E /RtoC. congr pair. lra.
Qed.
Lemma realD n m (A B : 'M[C]_(n, m)) : real A -> real B -> real (A + B). Proof. rewrite /real => HA HB. by rewrite map_mxD HA HB. Qed.
Lemma realB n m (A B : 'M[C]_(n, m)) : real A -> real B -> real (A - B). Proof. rewrite /real => HA HB. by rewrite map_mxB HA HB. Qed.
Lemma realM n m p (A : 'M[C]_(n, m)) (B : 'M[C]_(m, p)) : real A -> real B -> real (A *m B). Proof. rewrite /real => HA HB. by rewrite conj_mul HA HB. Qed.
Lemma realT n m (A : 'M[C]_(n, m)) : real A -> real A^T. Proof. rewrite /real => HA. by rewrite conj_tr HA. Qed.
Lemma realZ n m r (A : 'M[C]_(n, m)) : real A -> real (RtoC r *: A). Proof. rewrite /real => HA. by rewrite map_mxZ HA /= conjR. Qed.
Lemma real1 n : real (1%:M : 'M[C]_n). Proof. exact: map_mx1. Qed.
Lemma xi_real a i (Xc : 'M[C]_(a, i)) Y : real Xc -> real Y -> real (xiM Xc Y).
Proof. move=> HX HY. rewrite /xiM. apply: realD; [apply: realD|]; apply: realZ => //; [exact: real1|apply: realM => //; exact: realT]. Qed.
(** physical: Y is symmetric positive semidefinite *)
Lemma half_pos : Rlt R0 (/ 2)%coqR. Proof. lra. Qed.
Lemma xi_pd a i (Xc : 'M[C]_(a, i)) Y : real Xc -> psd Y -> pd (xiM Xc Y).
Proof.
move=> HX HY. apply: pdD; last by apply: psdZ => //; exact/Rlt_le/Rinv_0_lt_compat.
apply: pdD; first by apply: pdZ; [exact: half_pos|exact: pd1]. apply: psdZ; first exact/Rlt_le/half_pos. rewrite -(adj_real HX). exact: psd_gram.
Qed.
Lemma xi_sym a i (Xc : 'M[C]_(a, i)) Y : Y^T = Y -> (xiM Xc Y)^T = xiM Xc Y.
Proof. move=> HY. rewrite /xiM !linearD /= !linearZ /= trmx1 HY trmx_mul trmxK. by []. Qed.

Lemma rr4 : half * (rr + rr) * (rr + rr) = 1.
Proof.
rewrite -mulrA. have -> : (rr + rr) * (rr + rr) = 1 + 1 by rewrite mulrDl !mulrDr !rr2 half1. by rewrite mulrDr mulr1 half1.
Qed.
Lemma yy_add (V : zmodType) (u v w : V) : u + v + w - u - v = w.
Proof. by rewrite -addrA -opprD addrAC subrr add0r. Qed.
Lemma T_sandwich n (T r w : 'M[C]_n) : T = (rr + rr) *: adj r -> adj r *m r = 1%:M -> half *: (- T *m - (r *m w *m adj r) *m adj T) = w.
Proof.
move=> -> R1. rewrite adjZ adjKr rmorphD /= conj_rr mulNmx mulmxN opprK -scalemxAr -!scalemxAl !scalerA. 
have -> : half * ((rr + rr) * (rr + rr)) = 1 by rewrite mulrA rr4. 
by rewrite scale1r !mulmxA R1 mul1mx -mulmxA R1 mulmx1.
Qed.
(** C44, channels: Channel.from_XY(X, Y).XY is (X, Y), for all real X and Y of every size for which the formula has a value *)
Theorem C44_channel atol m (Xc Y : 'M[C]_(m + m)) : Rle R0 atol -> real Xc -> real Y -> xiM Xc Y \in unitmx ->
  Base.bind (XY_to_channel Xc Y DNone) (fun t => XY_of_channel atol (cA t)) = Base.Ok (Xc, Y).
Proof.
move=> Ha HX HY U. case: (XY_val0 U) => t [-> G]. rewrite /= /XY_of_channel.
have -> : group (cA t) = gA (grp t) by []. rewrite {}G /change /hat /=.
have Hr := xi_real HX HY. set xi := xiM Xc Y. have Exi : xi = xiM Xc Y by []. clearbody xi. rewrite -Exi in U Hr *.
have [R1 R2] := rot_unitary m. set r := rotmat m.
rewrite tr_block_mx !trmx0 !mulmx_block ?(mul0mx, mulmx0, addr0, add0r) block_mxKul block_mxKur.
have -> : (conj r)^T = adj r by [].
have ES : 1%:M - X m *m (conj r *m (1%:M - invmx xi) *m adj r) = r *m invmx xi *m adj r.
  rewrite !mulmxA Xcrot -/r mulmxBr mulmx1 mulmxBl R2 subKr. by [].
have UV : r *m invmx xi *m adj r *m (r *m xi *m adj r) = 1%:M.
  have -> : r *m invmx xi *m adj r *m (r *m xi *m adj r) = r *m (invmx xi *m (adj r *m r) *m xi) *m adj r by rewrite !mulmxA.
  by rewrite R1 mulmx1 mulVmx // mulmx1 R2.
have US : r *m invmx xi *m adj r \in unitmx by case/mulmx1_unit: UV.
rewrite ES /inv US /=. have -> : invmx (r *m invmx xi *m adj r) = r *m xi *m adj r by rewrite -[RHS](mulKmx US) UV mulmx1.
have ET : block_mx 1%:M 1%:M (- Ci *: 1%:M) (Ci *: 1%:M) = (rr + rr) *: adj r :> 'M[C]_(m + m).
  rewrite /r adj_rotmat scalerA mulrDl rr2 half1 scale1r. by [].
set T := block_mx 1%:M _ _ _. rewrite -/T in ET. clearbody T.
have EX : half *: (- T *m (- (r *m xi *m adj r) *m X m *m (conj r *m (invmx xi *m Xc) *m r^T) *m X m) *m (conj T)^T) = Xc.
  have -> : (conj T)^T = adj T by [].
  have -> : - (r *m xi *m adj r) *m X m *m (conj r *m (invmx xi *m Xc) *m r^T) *m X m = - (r *m Xc *m adj r).
    have -> : - (r *m xi *m adj r) *m X m *m (conj r *m (invmx xi *m Xc) *m r^T) *m X m = - (r *m xi *m (adj r *m (X m *m conj r)) *m invmx xi *m Xc *m (r^T *m X m)) by rewrite !mulNmx !mulmxA.
    rewrite Xcrot -/r R1 mulmx1 -!mulmxA mulKVmx //. congr (- (_ *m (_ *m _))). by rewrite -[X m]XT -trmx_mul Xrot.
  exact: T_sandwich ET R1.
rewrite EX. case: (cshape_ex Hr) => a [b Eab]. rewrite -/r in Eab. rewrite Eab block_mxKdr block_mxKur quad_blocks -/r -Eab.
have -> : adj r *m (r *m xi *m adj r) *m r = xi by rewrite !mulmxA R1 mul1mx -mulmxA R1 mulmx1.
have EY : xi - half *: 1%:M - half *: (Xc *m Xc^T) = RtoC (/ hb) *: Y.
  rewrite Exi /xiM. exact: yy_add.
rewrite EY (im_real HX) (im_real (realZ _ HY)) fnorm0. have Hn : ~ Rlt atol R0 by exact: Rle_not_lt. have Ed W (x y : W) : (if Rlt_dec atol R0 then x else y) = y by case: (Rlt_dec atol R0) => Hd //; case: (Hn Hd).
rewrite !Ed.
rewrite (re_of_real HX) (re_of_real (realZ _ HY)) scalerA. 
have -> : RtoC hb * RtoC (/ hb) = 1; last by rewrite scale1r. rewrite CmulE -RtoC_mult Rinv_r //. lra.
Qed.
(** in particular for every physical pair: X real, Y real and positive semidefinite *)
Corollary C44_channel_physical atol m (Xc Y : 'M[C]_(m + m)) : Rle R0 atol -> real Xc -> real Y -> psd Y ->
  exists t, XY_to_channel Xc Y DNone = Base.Ok t /\ XY_of_channel atol (cA t) = Base.Ok (Xc, Y).
Proof.
move=> Ha HX HY PY. have U := pd_unit (xi_pd HX PY). have H := C44_channel Ha HX HY U. case: (XY_val0 U) => t [E _]. exists t. split=> //. by move: H; rewrite E.
Qed.
End HB.
