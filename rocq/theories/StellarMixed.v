(** Physical stellar decomposition of Gaussian density matrices into a mixed core and a channel: claim C75.
    Model of mrmustard/lab/states/dm.py:654-799 (physical_stellar_decomposition_mixed), one batch element, no derived variables; conventions of StellarDM.v (core modes first). *)
From Coq Require Import Reals Lra Psatz.
From Coquelicot Require Import Complex.
From mathcomp Require Import all_ssreflect all_algebra.
From Verif Require Import CMat Optimizer GateSym BargSym CExp Compose ChanAlg PosDef Channels States ChanPhys.
From Verif Require Import StellarDM.
Require Verif.Base Verif.Stellar.
Set Implicit Arguments. Unset Strict Implicit. Unset Printing Implicit Defensive.
Import GRing.Theory.
Local Open Scope ring_scope.
Delimit Scope R_scope with coqR.
Local Arguments Re : simpl never.

(** ** Shapes *)
(** numpy broadcasting of one axis *)
Definition bcast (x y : nat) : option nat := if x == y then Some x else if x == 1%N then Some y else if y == 1%N then Some x else None.
(** dm.py:696-743: the shapes of the computation of R_c for M >= 1 core modes and N other modes.  R has 2N rows and 2M columns; sigma = R[M:, :M] and r = R[M:, M:] have
    2N - M rows; r_c_squared adds an N x N matrix and a (2N - M) x (2N - M) matrix; np.block needs rows of equal height and of equal total width *)
Definition rc_shape (M N : nat) : option (nat * nat) :=
  match bcast N (N + N - M) with
  | Some n => let k := minn M n in if (n == N) && (M == n) && ((k + M)%N == (N + k)%N) then Some ((n + M)%N, (k + M)%N) else None
  | None => None
  end.

Section Model.
Variable M : nat.
Implicit Types (rho : ctri M M).
(** dm.py:705-709 *)
Definition sigma rho : 'M[C]_M := dlsubmx (Rm rho).
Definition alpha_m rho : 'M[C]_M := dlsubmx (Am rho).
Definition alpha_n rho : 'M[C]_M := dlsubmx (An rho).
Definition a_n rho : 'M[C]_M := drsubmx (An rho).
(** dm.py:729 *)
Definition reducedA rho : 'M[C]_(M + M) := Rm rho *m invmx (1%:M - X M *m Am rho) *m conj (Rm rho)^T.
(** dm.py:732-734 *)
Definition rc2 rho : 'M[C]_M := drsubmx (reducedA rho) + sigma rho *m invmx (alpha_m rho) *m conj (sigma rho)^T.
(** dm.py:735-740 for N = M: all the eigenvectors, times the complex square roots of the eigenvalues *)
Definition r_c (v : 'M[C]_M) (d : 'I_M -> R) : 'M[C]_M := v *m diag_mx (\row_j csqrt (RtoC (d j))).
(** dm.py:763-768 *)
Definition alpha_core rho : 'M[C]_M := alpha_n rho - sigma rho *m invmx (alpha_m rho) *m conj (sigma rho)^T.
Definition a_core rho : 'M[C]_M := a_n rho + dlsubmx (reducedA rho).
Definition A_core_n rho : 'M[C]_(M + M) := block_mx (conj (a_core rho)) (conj (alpha_core rho)) (alpha_core rho) (a_core rho).
(** dm.py:770-784: the core before the displacements, in grouped order; R_c = db r_c is [temp r_c^T], so gamma, Aphi_in, b_core_m and b_core_n are [Gphi], [Ain], [bcore_m] and
    [bcore_n] of StellarDM for h = r_c^T *)
Definition mcore0 (t : 'M[C]_M) rho : gtri (M + M) (M + M) :=
  GTri (block_mx 0 (db t)^T (db t) (A_core_n rho)) (col_mx (bcore_m t^T rho) (bcore_n t^T rho)) 1.
(** DM.normalize (states/base.py:485-500): self / probability; None: infinite or not a number *)
Definition dm_normalize n (r : ctri n n) : option (ctri n n) :=
  match omap Re (trace r) with Some p => if Req_EM_T p R0 then None else Some (CTri (cA r) (cb r) (cc r / RtoC p)) | None => None end.
(** dm.py:654-799 for N = M.  (v, d) is what eigh returns for r_c_squared.  The pseudo-inverse of R_c is its inverse when it has one; when it has none, gamma = pinv(R_c) R is
    singular and inv(gamma^T) raises LinAlgError (line 774): [inv] of R_c stands for both.  The inverse of Dgate(-alpha) is Dgate(alpha); the rank test (717-725) cannot fail,
    an M x M matrix has rank at most M.  Simplifications as in StellarDM.physical *)
Definition mixed (v : 'M[C]_M) (d : 'I_M -> R) rho : Base.result (option (ctri M M * ctri M M)) :=
  Base.bind (inv (1%:M - X M *m Am rho)) (fun _ =>
  Base.bind (inv (alpha_m rho)) (fun _ =>
  let t := r_c v d in let h := t^T in
  Base.bind (inv (temp h)) (fun _ =>
  Base.bind (inv (Gphi h rho)^T) (fun _ =>
  let be := dsubmx (bcore_m h rho) in
  let dg := displacement (- be) in let dinv := displacement be in
  match gthen (mcore0 t rho) (grp (doubled (tA dg) (tb dg) (tc dg))), gthen (grp (doubled (tA dinv) (tb dinv) (tc dinv))) (phi0 h rho) with
  | Some k, Some p =>
    match dm_normalize (ungrp (GTri (gA k) (gb k) 1)), gthen (GTri (gA p) (gb p) 1) (trace_out M) with
    | Some k, Some t => Base.Ok (Some (k, ungrp (gdiv (GTri (gA p) (gb p) 1) (gc t))))
    | _, _ => Base.Ok None
    end
  | _, _ => Base.Ok None
  end)))).
End Model.

Lemma conj_adj m n (Z : 'M[C]_(m, n)) : conj Z^T = adj Z. Proof. by rewrite /adj conj_T. Qed.
Lemma drD m (A B : 'M[C]_(m + m)) : drsubmx (A + B) = drsubmx A + drsubmx B. Proof. by apply/matrixP => i j; rewrite !mxE. Qed.
Lemma dlD m (A B : 'M[C]_(m + m)) : dlsubmx (A + B) = dlsubmx A + dlsubmx B. Proof. by apply/matrixP => i j; rewrite !mxE. Qed.
Section Algebra.
Variables (M : nat) (rho : ctri M M).
Hypotheses (Hr : hermitian rho) (uD : Am rho - X M \in unitmx).
Lemma unit_XD : (1%:M - X M *m Am rho \in unitmx) = (Am rho - X M \in unitmx).
Proof.
have -> : 1%:M - X M *m Am rho = - (X M *m (Am rho - X M)) by rewrite mulmxBr XX opprB.
rewrite -scaleN1r unitmxZ ?unitrN1 // unitmx_mul. have [u _] := mulmx1_unit (XX M). by rewrite u.
Qed.
Lemma reducedAE : reducedA rho = - (Rm rho *m invmx (Am rho - X M) *m (Rm rho)^T) *m X M.
Proof.
have [_ _ hR _ _] := herm_all Hr. have E : (1%:M - X M *m Am rho) *m - (invmx (Am rho - X M) *m X M) = 1%:M.
  have -> : 1%:M - X M *m Am rho = - (X M *m (Am rho - X M)) by rewrite mulmxBr XX opprB.
  rewrite mulmxN mulNmx opprK mulmxA -(mulmxA (X M)) mulmxV // mulmx1. exact: XX.
have [u _] := mulmx1_unit E. have Ei : invmx (1%:M - X M *m Am rho) = - (invmx (Am rho - X M) *m X M) by apply: (can_inj (mulKmx u)); rewrite E mulmxV.
rewrite /reducedA Ei (hermT hR) mulmxN !mulNmx. congr (- _). have -> : Rm rho *m (invmx (Am rho - X M) *m X M) *m (X M *m (Rm rho)^T *m X M) = Rm rho *m invmx (Am rho - X M) *m (X M *m X M) *m (Rm rho)^T *m X M by rewrite !mulmxA.
by rewrite XX mulmx1.
Qed.
Lemma mulX_blocks (Y : 'M[C]_(M + M)) : dlsubmx (Y *m X M) = drsubmx Y /\ drsubmx (Y *m X M) = dlsubmx Y.
Proof.
rewrite -{1 3}(submxK Y) /X mulmx_block ?(mul0mx, mulmx0, mulmx1, addr0, add0r). by rewrite block_mxKdl block_mxKdr.
Qed.
Variable t : 'M[C]_M.
Hypothesis tsq : t *m adj t = rc2 rho.
(** the core keeps the reduced matrix of rho *)
Lemma mixed_red : reduced rho = A_core_n rho + db t *m X M *m (db t)^T.
Proof.
have [eu er] := herm_blocks (herm_red Hr uD). rewrite -{1}(submxK (reduced rho)) eu er /A_core_n dbT /db /X !mulmx_block ?(mul0mx, mulmx0, mulmx1, addr0, add0r) add_block_mx ?(addr0, add0r).
have [d1 d2] := mulX_blocks (- (Rm rho *m invmx (Am rho - X M) *m (Rm rho)^T)). rewrite -reducedAE in d1 d2.
have Ed : drsubmx (reduced rho) = a_core rho by rewrite /a_core d1 /reduced /a_n drD.
have El : dlsubmx (reduced rho) = alpha_core rho + t *m adj t by rewrite tsq /rc2 /alpha_core addrCA subrK d2 addrC /reduced dlD.
rewrite Ed El -conj_adj. congr block_mx. by rewrite (map_mxD _ (alpha_core rho)) conj_mul conjmxK.
Qed.
Lemma r_c_sq v d : eigh (rc2 rho) v d -> (forall j, Rle R0 (d j)) -> r_c v d *m adj (r_c v d) = rc2 rho.
Proof.
case=> -[U1 U2] E Hd. rewrite {1}E /r_c. have -> : (\row_j csqrt (RtoC (d j))) = \row_j RtoC (sqrt (d j)) by apply/matrixP => i j; rewrite !mxE csqrt_R.
rewrite adj_prod Stellar.adj_diag mulmxA -(mulmxA v) Stellar.diag_mul. congr (_ *m diag_mx _ *m _). apply/matrixP => i j. by rewrite !mxE CmulE -RtoC_mult sqrt_sqrt.
Qed.
End Algebra.
Section Main.
Variables (M : nat) (rho : ctri M M) (t : 'M[C]_M).
Hypotheses (Hr : hermitian rho) (uD : Am rho - X M \in unitmx) (tsq : t *m adj t = rc2 rho).
Let h := t^T.
Hypotheses (uT : temp h \in unitmx) (uG : Gphi h rho \in unitmx).
Definition mcoreA : 'M[C]_((M + M) + (M + M)) := block_mx 0 (db t)^T (db t) (A_core_n rho).
Definition mcoreb : 'cV[C]_((M + M) + (M + M)) := col_mx 0 (dbv (corei rho t^T)).
Lemma dbt : temp h = db t. Proof. by rewrite /temp /h trmxK. Qed.
Lemma mcore_disp : exists c, let dg := displacement (- dsubmx (bcore_m h rho)) in gthen (mcore0 t rho) (grp (doubled (tA dg) (tb dg) (tc dg))) = Some (GTri mcoreA mcoreb c).
Proof.
set be := dsubmx (bcore_m h rho).
have := gthen_core (db t)^T (A_core_n rho) (0 : 'M[C]_(M + M)) 1%:M (dbv be) (bcore_n h rho) (dbv (- be)) (dbv (- conj (- be))) 1 (Cconj (tc (displacement (- be))) * tc (displacement (- be))) (trmx0 _ (M + M) (M + M)).
case=> c' [E _]. exists c'. rewrite /= grp_doubled /mcore0 /= /X !block_mxKul !block_mxKur !block_mxKdl !block_mxKdr !col_mxKu !col_mxKd db0 db1 -/h (be_db Hr uT uG) -/be.
rewrite trmxK trmx1 in E. rewrite {}E. congr (Some (GTri _ (col_mx _ _) _)).
- by rewrite ?(mul0mx, mulmx0, mul1mx, addr0) trmxK.
- by rewrite mul1mx /dbv add_col_mx map_mxN !addNr col_mx0.
- rewrite mul0mx add0r map_mxN opprK dbMv {1}(bn_db Hr uD uT uG) /dbv add_col_mx -map_mxD /corei -/h -/be. by rewrite /h trmxK.
Qed.
Lemma mrecompose c1 c2 : cthen (ungrp (GTri mcoreA mcoreb c1)) (ungrp (GTri (phiA rho h) (phib rho h) c2)) = Some (CTri (cA rho) (cb rho) (c1 * c2)).
Proof.
rewrite /cthen !grp_ungrp /mcoreA /mcoreb /phiA /phib. set be := dsubmx (bcore_m h rho). set G := Gphi h rho.
have [c [E Ec]] := gthen_core (db t)^T (A_core_n rho) (Am rho) G^T 0 (dbv (corei rho h)) (bm rho) (Ain h rho *m dbv be - X M *m dbv be) c1 c2 (sym_Ain h Hr).
rewrite !trmxK in E. rewrite {}E (Ec erefl) /=. congr Some. rewrite -[RHS]ungrp_grp. congr ungrp. have /(congr1 (@gA _ _)) /= EA := grpE Hr. have /(congr1 (@gb _ _)) /= Eb := grpE Hr. rewrite /grp /= EA Eb.
have TGE : db t *m G = Rm rho by rewrite -dbt; exact: TG.
have ER : G^T *m (db t)^T = (Rm rho)^T by rewrite -TGE (trmx_mul (db t) G).
rewrite ER trmxK ?(mulmx0, mul0mx, addr0, add0r). congr (GTri (block_mx _ _ _ _) (col_mx _ _) _).
- rewrite AinE -/G mulmxDr mulmxDl.
  have -> : db t *m (G *m invmx (Am rho - X M) *m G^T) *m (db t)^T = Rm rho *m invmx (Am rho - X M) *m (Rm rho)^T by rewrite -TGE (trmx_mul (db t) G) !mulmxA.
  rewrite addrCA -(mixed_red Hr uD tsq) addrC /reduced subrK. by [].
- rewrite -dbt (corei_db Hr uD uT uG) -/be mulmxBr !mulmxA addrC. exact: cancel4.
Qed.
End Main.

(** ** Positivity *)
Lemma psd_schur a b (P : 'M[C]_a) (F : 'M[C]_(a, b)) (Q : 'M[C]_b) : P \in unitmx -> psd (block_mx P F (adj F) Q) ->
  [/\ psd P, psd (Q - adj F *m invmx P *m F) & psd (block_mx P F (adj F) (adj F *m invmx P *m F))].
Proof.
move=> uP H. have HP : psd P.
  have := psd_conj (row_mx 1%:M 0) H. rewrite /adj map_row_mx tr_row_mx map_mx1 trmx1 map_mx0 trmx0 mul_row_block mul_row_col. by rewrite !mul1mx !mul0mx !addr0 mulmx1 mulmx0 addr0.
have hP : adj P = P by case: HP. have hi : adj (invmx P) = invmx P by rewrite /adj conj_inv trmx_inv -/(adj P) hP.
have aF : adj (adj F *m invmx P) = invmx P *m F by rewrite adj_prod hi adjKr.
split=> //.
- have e : adj (row_mx (- (adj F *m invmx P)) 1%:M) = col_mx (- (invmx P *m F)) 1%:M by rewrite -aF /adj map_row_mx tr_row_mx map_mx1 trmx1 map_mxN linearN.
  have := psd_conj (row_mx (- (adj F *m invmx P)) 1%:M) H. rewrite e mul_row_block mul_row_col !mulNmx !mul1mx mulmxKV // addNr mul0mx add0r mulmx1. by rewrite addrC.
- have e : adj (col_mx 1%:M (adj F *m invmx P)) = row_mx 1%:M (invmx P *m F) by rewrite -aF /adj map_col_mx tr_col_mx map_mx1 trmx1.
  have := psd_conj (col_mx 1%:M (adj F *m invmx P)) HP. rewrite e mul_col_mx mul1mx mulmxKV // mul_col_row !mulmx1 mulKVmx //. by rewrite mulmxA.
Qed.
Section Mixed.
Variables (M : nat) (rho : ctri M M) (v : 'M[C]_M) (d : 'I_M -> R).
Hypotheses (Hr : hermitian rho) (He : eigh (rc2 rho) v d) (Hd : forall j, Rle R0 (d j)).
Let t := r_c v d.
Let core1 : ctri M M := ungrp (GTri (mcoreA rho t) (mcoreb rho t) 1).
Lemma tsq : t *m adj t = rc2 rho. Proof. exact: r_c_sq. Qed.
Lemma mixed_inv core phi : mixed v d rho = Base.Ok (Some (core, phi)) ->
  [/\ [/\ Am rho - X M \in unitmx, alpha_m rho \in unitmx, temp t^T \in unitmx & Gphi t^T rho \in unitmx],
      Rlt threshold (Cmod (\det (1%:M - Am rho *m X M))),
      (exists p, [/\ p <> R0, omap Re (trace core1) = Some p & core = CTri (cA core1) (cb core1) (1 / RtoC p)]) &
      phi = ungrp (GTri (phiA rho t^T) (phib rho t^T) (trc rho)^-1)].
Proof.
rewrite /mixed /inv unit_XD. case: ifP => //= uD. case: ifP => //= ua. rewrite -/t. case: ifP => //= uT. case: ifP => //= uG'.
have uG : Gphi t^T rho \in unitmx by rewrite -unitmx_tr.
have [ck /= ->] := mcore_disp Hr uD uT uG. have [cp -> /=] := chan_disp Hr uT uG. rewrite /dm_normalize /= -/core1.
case Ep : (omap _ _) => [p|] //. case: Req_EM_T => //= p0. case Et : gthen => [t0|] //. case=> <- <-.
have Ht : Rlt threshold (Cmod (\det (1%:M - Am rho *m X M))).
  have TO : trace_out M = GTri (block_mx 0 (0 : 'M[C]_(0, M + M)) (0 : 'M[C]_(0, M + M))^T (X M)) 0 1 by rewrite trmx0.
  move: Et. rewrite TO -{2}(trmxK (Gphi t^T rho)). exact: gthen_thr (sym_Am Hr) (X_T M).
split=> //.
- by exists p.
- have [Z E] := phi_trace Hr uD uT uG 1 Ht. move: Et. rewrite /trace_out in E *. rewrite E => -[<-] /=. by rewrite /gdiv /= !mul1r.
Qed.
Lemma core1_grp : grp core1 = GTri (block_mx 0 (db t)^T (db t) (A_core_n rho)) (col_mx 0 (dbv (corei rho t^T))) 1.
Proof. by rewrite /core1 grp_ungrp. Qed.
Lemma core_pos p : Am rho - X M \in unitmx -> temp t^T \in unitmx -> Gphi t^T rho \in unitmx -> omap Re (trace core1) = Some p -> p <> R0 -> trace core1 = Some (RtoC p) /\ Rlt R0 p.
Proof.
move=> uD uT uG Ep p0. have Er := mixed_red Hr uD tsq. have [i1 u1] := iX1 M. have sX : (0 - X M)^T = 0 - X M by rewrite sub0r linearN /= X_T.
have uS : reduced rho - X M \in unitmx.
  move: Ep. rewrite (trace_schur core1_grp sX u1) /=. have -> : schur (0 - X M) (db t) (A_core_n rho - X M) = reduced rho - X M by rewrite /schur i1 mulmxN mulNmx opprK Er addrAC.
  case: Rlt_dec => //= H _. rewrite unitmxE unitfE. apply/eqP => E. move: H. rewrite E mulr0 C0E Cmod_0 => H. have : Rlt R0 threshold by rewrite /threshold; apply: Rinv_0_lt_compat; apply: pow_lt; lra. lra.
have [eX [x [g [EX eX2 Ex x0 [Eq Tc]]]]] := core_trace Hr uD uT uG core1_grp Er uS.
move: Ep. rewrite {}Tc. case: Rlt_dec => //= Ht2 []. set y := Rinv (Rmult eX x) => Epy.
have y0 : Rlt R0 y.
  apply: Rnot_le_lt => yn. case: (Req_dec y R0) => [e0|n0].
  - move: Epy. rewrite e0 (csqrt_R _ (Rle_refl _)) sqrt_0 mul0r => E0. by case: p0; rewrite -E0.
  - move: Epy. rewrite csqrt_neg; last lra. rewrite CmulE /Cmult /RtoC /Re /= => E0. by apply: p0; lra.
have Ep' : p = Rmult (sqrt y) (exp (- (g / 2))) by rewrite -Epy (csqrt_R _ (Rlt_le _ _ y0)) CmulE -RtoC_mult.
split; last by rewrite Ep'; apply: Rmult_lt_0_compat; [exact: sqrt_lt_R0|exact: exp_pos].
by rewrite Ep' (csqrt_R _ (Rlt_le _ _ y0)) CmulE -RtoC_mult.
Qed.
Lemma trace_scale n (r : ctri n n) k : cc r = 1 -> trace (CTri (cA r) (cb r) k) = omap (fun z => k * z) (trace r).
Proof.
move=> Ec. rewrite /trace. have -> : st2g (STri (cA r) (cb r) k) = GTri (gA (st2g (STri (cA r) (cb r) (cc r)))) (gb (st2g (STri (cA r) (cb r) (cc r)))) (k * gc (st2g (STri (cA r) (cb r) (cc r)))) by rewrite /st2g /= Ec mulr1.
rewrite gtrace_scale. by case: gtrace => [[z1 z]|].
Qed.
(** C75: the core followed by the channel has A and b of rho *)
Theorem C75_recompose core phi : mixed v d rho = Base.Ok (Some (core, phi)) -> exists c, cthen core phi = Some (CTri (cA rho) (cb rho) c).
Proof. case/mixed_inv => -[uD ua uT uG] Ht [p [p0 Ep ->]] ->. eexists. exact: mrecompose Hr uD tsq uT uG (1 / RtoC p) _. Qed.
(** C75: the channel preserves every trace *)
Theorem C75_trace_preserving core phi : mixed v d rho = Base.Ok (Some (core, phi)) -> trace_preserving phi.
Proof.
case/mixed_inv => -[uD ua uT uG] Ht [p [p0 Ep Ec]] ->. rewrite /trace_preserving grp_ungrp.
have [Z E] := phi_trace Hr uD uT uG (trc rho)^-1 Ht. exists Z. by rewrite E mulVf // trc_nz.
Qed.
(** C75: A and b of the core vanish on the core modes, and its trace is one *)
Theorem C75_core core phi : mixed v d rho = Base.Ok (Some (core, phi)) -> [/\ ulsubmx (group (cA core)) = 0, usubmx (groupv (cb core)) = 0 & trace core = Some 1].
Proof.
case/mixed_inv => -[uD ua uT uG] Ht [p [p0 Ep ->]] _. have [Et p1] := core_pos uD uT uG Ep p0. split.
- by rewrite /= group_ungroup /mcoreA block_mxKul.
- by rewrite /= groupv_ungroupv /mcoreb col_mxKu.
- rewrite trace_scale // Et /=. congr Some. rewrite div1r mulVf //. by apply/eqP => -[].
Qed.
(** C75: if the trace of rho is one, core followed by phi is rho, constants included *)
Theorem C75_equal core phi : mixed v d rho = Base.Ok (Some (core, phi)) -> trace rho = Some 1 -> cthen core phi = Some rho.
Proof.
case/mixed_inv => -[uD ua uT uG] Ht [p [p0 Ep ->]] -> Et. have E := mrecompose Hr uD tsq uT uG (1 / RtoC p) (trc rho)^-1.
have Es : CTri (cA core1) (cb core1) (1 / RtoC p) = ungrp (GTri (mcoreA rho t) (mcoreb rho t) (1 / RtoC p)) by [].
rewrite Es {}E. congr Some. apply: trace_inj => //. have [|_ [_ H]] := trace_eq Hr uD uT uG core1_grp (mixed_red Hr uD tsq) Ht Ep p0; first by rewrite Et.
by rewrite div1r.
Qed.
(** it raises LinAlgError when the correlations between core and other modes are not of full rank, or alpha_m is not invertible *)
Theorem C75_singular : Rm rho \notin unitmx \/ alpha_m rho \notin unitmx -> mixed v d rho = Base.Err Base.LinAlgError.
Proof.
rewrite /mixed /inv unit_XD. case: ifP => //= uD. case: ifP => //= ua. case: ifP => //= uT. case=> // /negbTE uR. by rewrite unitmx_tr /Gphi unitmx_mul unitmx_inv uT uR.
Qed.
(** the block of A that decides positivity *)
Lemma ur_rho : ursubmx (cA rho) = block_mx (conj (alpha_m rho)) (sigma rho)^T (adj (sigma rho)^T) (conj (alpha_n rho)).
Proof.
rewrite -{1}[cA rho]ungroup_group /ungroup block_mxKur. have /(congr1 (@gA _ _)) /= -> := grpE Hr. rewrite block_mxKul block_mxKur block_mxKdl block_mxKdr.
have [hA hN hR _ _] := herm_all Hr. have [_ ->] := herm_blocks hA. have [_ ->] := herm_blocks hN. have [_ eR] := herm_blocks hR.
congr block_mx; last by rewrite eR /adj -conj_T trmxK. by rewrite -trmx_dlsub.
Qed.
(** C75: if rho is positive, core and phi are positive *)
Theorem C75_positive core phi : mixed v d rho = Base.Ok (Some (core, phi)) -> psd (ursubmx (cA rho)) -> psd (ursubmx (cA core)) /\ psd (ursubmx (cA phi)).
Proof.
case/mixed_inv => -[uD ua uT uG] Ht [p [p0 Ep ->]] ->. rewrite ur_rho. set P := conj (alpha_m rho). set F := (sigma rho)^T.
have uP : P \in unitmx by rewrite /P conj_unit. case/(psd_schur uP) => HP HS Hphi.
have aF : adj F = conj (sigma rho) by rewrite /adj /F -conj_T trmxK.
have iP : invmx P = conj (invmx (alpha_m rho)) by rewrite conj_inv.
have ES : conj (alpha_core rho) = conj (alpha_n rho) - adj F *m invmx P *m F by rewrite /alpha_core map_mxB !conj_mul conjmxK aF iP.
have ut : t \in unitmx by move: uT; rewrite temp_unit unitmx_tr. split.
- rewrite /= /ungroup block_mxKur /mcoreA block_mxKul block_mxKur block_mxKdl block_mxKdr dbT /db !block_mxKur ES.
  have -> : ursubmx (0 : 'M[C]_(M + M)) = 0 by apply/matrixP => i j; rewrite !mxE.
  apply/psd_diag. split=> //. have := psd_gram (0 : 'M[C]_(M, M)). by rewrite mul0mx.
- pose W := block_mx (1%:M : 'M[C]_M) 0 0 (conj (invmx t)).
  have aW : adj W = block_mx 1%:M 0 0 (invmx t)^T by rewrite /adj /W map_block_mx tr_block_mx !map_mx0 !trmx0 map_mx1 trmx1 conjmxK.
  have iT : invmx (temp t^T) = db (invmx t) by apply: (can_inj (mulKmx uT)); rewrite mulmxV // dbt dbM mulmxV // db1.
  have [_ _ hR _ _] := herm_all Hr. have [hG1 hG2] := herm_blocks (herm_G Hr uT).
  have eG : dlsubmx (Gphi t^T rho) = invmx t *m sigma rho.
    rewrite /Gphi iT /sigma -{1}(submxK (Rm rho)) /db mulmx_block block_mxKdl. by rewrite mul0mx add0r.
  have eI : ursubmx (Ain t^T rho) = conj (invmx t) *m (adj F *m invmx P *m F) *m (invmx t)^T.
    have EA : An rho = temp t^T *m Ain t^T rho *m (temp t^T)^T + A_core_n rho.
      have Er := mixed_red Hr uD tsq. rewrite -dbt in Er. rewrite /Ain mulmxDr mulmxDl -addrA [_ + A_core_n _]addrC -Er /reduced.
      have -> : temp t^T *m (Gphi t^T rho *m invmx (Am rho - X M) *m (Gphi t^T rho)^T) *m (temp t^T)^T = Rm rho *m invmx (Am rho - X M) *m (Rm rho)^T.
        by rewrite -(TG rho uT) (trmx_mul (temp t^T) (Gphi t^T rho)) !mulmxA.
      by rewrite addrC subrK.
    have := congr1 (fun Z : 'M[C]_(M + M) => ursubmx Z) EA. rewrite /= dbt dbT /db -{1}(submxK (Ain t^T rho)) !mulmx_block ?(mul0mx, mulmx0, addr0, add0r) /A_core_n add_block_mx block_mxKur.
    have [_ hN _ _ _] := herm_all Hr. have [_ eN] := herm_blocks hN. rewrite eN -/(alpha_n rho) ES => E. have {}E : conj t *m ursubmx (Ain t^T rho) *m t^T = adj F *m invmx P *m F.
      apply: (addIr (conj (alpha_n rho) - adj F *m invmx P *m F)). by rewrite -E addrCA subrr addr0.
    by rewrite -E !mulmxA -conj_mul mulVmx // map_mx1 mul1mx -mulmxA -trmx_mul mulVmx // trmx1 mulmx1.
  have -> : ursubmx (cA (ungrp (GTri (phiA rho t^T) (phib rho t^T) (trc rho)^-1))) = W *m block_mx P F (adj F) (adj F *m invmx P *m F) *m adj W.
    rewrite aW /ungrp /= /ungroup block_mxKur /phiA block_mxKul block_mxKur block_mxKdl block_mxKdr /W !mulmx_block ?(mul0mx, mulmx0, mul1mx, mulmx1, addr0, add0r). congr block_mx.
    + have [hA _ _ _ _] := herm_all Hr. by have [_ ->] := herm_blocks hA.
    + by rewrite -trmx_dlsub eG trmx_mul.
    + by rewrite hG2 eG conj_mul aF.
    + exact: eI.
  exact: psd_conj.
Qed.
(** C75: it returns numbers when alpha_m, R and A - X are invertible on the core modes, the eigenvalues are positive and both traces are above the threshold *)
Theorem C75_returns x : Am rho - X M \in unitmx -> alpha_m rho \in unitmx -> Rm rho \in unitmx -> (forall j, Rlt R0 (d j)) ->
  Rlt threshold (Cmod (\det (1%:M - Am rho *m X M))) -> \det (1%:M - reduced rho *m X M) = RtoC x -> Rlt threshold x -> exists core phi, mixed v d rho = Base.Ok (Some (core, phi)).
Proof.
move=> uD ua uR Hp Ht Ex Hx. have t0 : Rlt R0 threshold by rewrite /threshold; apply: Rinv_0_lt_compat; apply: pow_lt; lra.
have ut : t \in unitmx.
  case: He => -[_ U2] _. have [u1 u2] := mulmx1_unit U2. rewrite /t /r_c unitmx_mul u1 /= unitmxE det_diag unitfE. apply/prodf_neq0 => j _. rewrite mxE (csqrt_R _ (Hd j)).
  apply/eqP => /(congr1 (@fst R R)) /= E. have := sqrt_lt_R0 _ (Hp j). rewrite E. exact: Rlt_irrefl.
have uT : temp t^T \in unitmx by rewrite temp_unit unitmx_tr. have uG : Gphi t^T rho \in unitmx by rewrite /Gphi unitmx_mul unitmx_inv uT uR.
have Er : \det (1%:M - reduced rho *m X M) = \det (reduced rho - X M) * \det (X M) by rewrite -det_mulmx (mulmxBl (reduced rho)) XX -opprB detN2.
have uS : reduced rho - X M \in unitmx by rewrite unitmxE unitfE; apply/eqP => E0; move: Er; rewrite Ex E0 mul0r => -[]; lra.
have [eX [y [g [EX eX2 Ey y0 [Eq Tc]]]]] := core_trace Hr uD uT uG core1_grp (mixed_red Hr uD tsq) uS.
have Exy : x = Rmult eX y by move: Er; rewrite Ex EX Ey CmulE -RtoC_mult => -[->]; ring.
rewrite /mixed /inv unit_XD uD /= ua /= -/t uT /= unitmx_tr uG /=.
have [ck /= ->] := mcore_disp Hr uD uT uG. have [cp -> /=] := chan_disp Hr uT uG. rewrite /dm_normalize /= -/core1 Tc.
case: (Rlt_dec threshold (Cmod (RtoC eX * RtoC y))) => [Hq|H]; last by case: H; rewrite CmulE -RtoC_mult -Exy Cmod_R Rabs_pos_eq //; lra.
rewrite /= -Exy (csqrt_R _ (Rlt_le _ _ (Rinv_0_lt_compat _ (Rlt_trans _ _ _ t0 Hx)))) CmulE -RtoC_mult.
case: Req_EM_T => [Hq2|Hn2].
  have : Rlt R0 (sqrt (/ x) * exp (- (g / 2)))%coqR by apply: Rmult_lt_0_compat; [apply: sqrt_lt_R0; apply: Rinv_0_lt_compat; exact: Rlt_trans t0 Hx|exact: exp_pos]. have Hq3 : (sqrt (/ x) * exp (- (g / 2)))%coqR = R0 := Hq2. lra.
have [Z E] := phi_trace Hr uD uT uG 1 Ht. rewrite /phiA /phib in E. rewrite E. by eexists; eexists.
Qed.
End Mixed.
(** C75: the density matrix of a ket is never decomposed: alpha_m = 0 *)
Theorem C75_pure_raises M v d (A : 'M[C]_(M.+1 + M.+1)) b c : mixed v d (doubled A b c) = Base.Err Base.LinAlgError.
Proof.
apply: C75_singular. right. have -> : alpha_m (doubled A b c) = 0; last by rewrite unitmxE det0 unitr0.
rewrite /alpha_m /Am. have /(congr1 (@gA _ _)) /= -> := grp_doubled A b c. by rewrite block_mxKul /db block_mxKdl.
Qed.
(** C75: with M core modes and N others, the shapes agree only if N = M *)
Theorem C75_square_only M N : rc_shape M N <> None <-> M = N.
Proof.
rewrite /rc_shape. split.
- case: bcast => // n. case: ifP => // /andP [/andP [/eqP <- /eqP ->] _]. by [].
- move=> <-. by rewrite addnK /bcast eqxx minnn !eqxx.
Qed.

(** ** Example: a correlated, displaced mixed state of two modes, with a mixed core *)
Lemma RtoCM a b : RtoC a * RtoC b = RtoC (a * b)%coqR. Proof. by rewrite CmulE -RtoC_mult. Qed.
Lemma RtoCD a b : RtoC a + RtoC b = RtoC (a + b)%coqR. Proof. by rewrite CaddE -RtoC_plus. Qed.
Lemma RtoCN a : - RtoC a = RtoC (- a)%coqR. Proof. by rewrite CoppE -RtoC_opp. Qed.
Definition circ (a b : R) : 'M[C]_(1 + 1) := (RtoC a)%:M + RtoC b *: X 1.
Lemma circM a b c d : circ a b *m circ c d = circ (a * c + b * d)%coqR (a * d + b * c)%coqR.
Proof.
rewrite /circ mulmxDl !mulmxDr -!scalemxAl -!scalemxAr !mul_scalar_mx !mul_mx_scalar XX scalemx1 !scale_scalar_mx !scalerA -!RtoCD -!RtoCM.
by rewrite raddfD scalerDl (mulrC (RtoC a) (RtoC d)) /= [X in _ + X]addrC addrACA (addrC (_ *: X 1)).
Qed.
Lemma circD a b c d : circ a b + circ c d = circ (a + c)%coqR (b + d)%coqR. Proof. by rewrite /circ -!RtoCD raddfD scalerDl addrACA. Qed.
Lemma circN a b : - circ a b = circ (- a)%coqR (- b)%coqR. Proof. by rewrite /circ -!RtoCN raddfN scaleNr opprD. Qed.
Lemma circX : X 1 = circ R0 R1. Proof. by rewrite /circ raddf0 add0r scale1r. Qed.
Lemma circ1 : 1%:M = circ R1 R0. Proof. by rewrite /circ scale0r addr0. Qed.
Lemma circT a b : (circ a b)^T = circ a b. Proof. by rewrite /circ linearD /= tr_scalar_mx linearZ /= X_T. Qed.
Lemma circC a b : conj (circ a b) = circ a b. Proof. by rewrite /circ map_mxD map_scalar_mx map_mxZ conj_X /= !conjR. Qed.
Lemma circB a b : circ a b = block_mx (RtoC a)%:M (RtoC b)%:M (RtoC b)%:M (RtoC a)%:M.
Proof. by rewrite /circ /X scale_block_mx scalar_mx_block add_block_mx !scaler0 !addr0 !add0r scalemx1. Qed.
Lemma circ_inv a b c d : (a * c + b * d = 1)%coqR -> (a * d + b * c = 0)%coqR -> invmx (circ a b) = circ c d /\ circ a b \in unitmx.
Proof.
move=> E1 E2. have E : circ a b *m circ c d = 1%:M by rewrite circM E1 E2 -circ1. have [u _] := mulmx1_unit E. split=> //. by apply: (can_inj (mulKmx u)); rewrite E mulmxV.
Qed.
Lemma circ_det a b : \det (circ a b) = RtoC (a * a - b * b)%coqR.
Proof.
rewrite circB. case: (Req_dec a 0) => [->|Ha].
- have -> : block_mx (RtoC 0)%:M (RtoC b)%:M (RtoC b)%:M (RtoC 0)%:M = RtoC b *: X 1 :> 'M[C]_(1 + 1) by rewrite /X scale_block_mx !scaler0 !scalemx1 raddf0.
  rewrite scaleX expr1 mulrN1 expr2 RtoCM RtoCN. congr RtoC. ring.
- have nz : RtoC a != 0 by apply/eqP => -[].
  have := @det_N 1 1 (RtoC a)%:M (RtoC b)%:M (RtoC a)%:M. rewrite tr_scalar_mx => ->; last by rewrite unitmxE det_scalar1 unitfE.
  rewrite /schur tr_scalar_mx invmx_scalar -!scalar_mxM -raddfB !det_scalar1 /= CinvE -RtoC_inv // !RtoCM RtoCN RtoCD RtoCM. congr RtoC. by field.
Qed.
Local Notation "'q[' x ]" := (RtoC x%coqR) (at level 0, x at level 200).
Definition ex_g (c : C) : gtri (1 + 1) (1 + 1) := GTri (block_mx (circ 0 (1 / 2)) (circ (1 / 4) (1 / 8)) (circ (1 / 4) (1 / 8)) (circ 0 (3 / 32))) (col_mx (dbv 1%:M) 0) c.
Definition exm c : ctri 1 1 := ungrp (ex_g c).
Lemma exm_blocks c : [/\ Am (exm c) = circ 0 (1 / 2), Rm (exm c) = circ (1 / 4) (1 / 8) & An (exm c) = circ 0 (3 / 32)].
Proof. by rewrite /Am /Rm /An /exm /ungrp /= !group_ungroup block_mxKul block_mxKdl block_mxKdr. Qed.
Lemma circXX a b : X 1 *m circ a b *m X 1 = circ a b. Proof. rewrite !circX !circM. congr circ; ring. Qed.
Lemma exm_hermitian c : hermitian (exm c).
Proof.
apply: hermitian_ungrp => /=.
- by rewrite tr_block_mx !circT.
- by rewrite map_block_mx !circC !mulmx_block ?(mul0mx, mulmx0, addr0, add0r) !circXX.
- by rewrite map_col_mx map_mx0 mul_block_col ?(mul0mx, mulmx0, addr0, add0r) X_dbv /dbv map_col_mx conjmxK.
Qed.
Ltac circ_c := rewrite ?circX ?circ1 ?circT ?circC; repeat (rewrite circM || rewrite circD || rewrite circN); congr circ; lra.
Lemma exm_reduced c : reduced (exm c) = circ (1 / 8) (1 / 4).
Proof.
have [e1 e2 e3] := exm_blocks c. rewrite /reduced e1 e2 e3. have -> : circ 0 (1 / 2) - X 1 = circ 0 (- (1 / 2)) by circ_c.
have [|| -> _] := @circ_inv 0 (- (1 / 2)) 0 (- 2); [lra|lra|]. circ_c.
Qed.
Lemma exm_rc2 c : rc2 (exm c) = q[3 / 16]%:M.
Proof.
have [e1 e2 e3] := exm_blocks c. rewrite /rc2 /reducedA /sigma /alpha_m e1 e2. have -> : 1%:M - X 1 *m circ 0 (1 / 2) = circ (1 / 2) 0 by circ_c.
have [|| -> _] := @circ_inv (1 / 2) 0 2 0; [lra|lra|].
have -> : circ (1 / 4) (1 / 8) *m circ 2 0 *m conj (circ (1 / 4) (1 / 8))^T = circ (5 / 32) (1 / 8) by circ_c.
rewrite !circB block_mxKdr !block_mxKdl tr_scalar_mx map_scalar_mx /= conjR invmx_scalar -!scalar_mxM -raddfD. congr (_ %:M). rewrite CinvE -RtoC_inv; last lra. rewrite /= !RtoCM RtoCD. congr RtoC. field.
Qed.
Lemma exm_trace : exists c, trace (exm c) = Some 1.
Proof.
have sD : (circ 0 (1 / 2) - X 1)^T = circ 0 (1 / 2) - X 1 by rewrite circX circN circD circT.
have eD : circ 0 (1 / 2) - X 1 = circ 0 (- (1 / 2)) by circ_c. have [||_ uD] := @circ_inv 0 (- (1 / 2)) 0 (- 2); [lra|lra|]. rewrite -eD in uD.
have Eg c : grp (exm c) = GTri (block_mx (circ 0 (1 / 2)) (circ (1 / 4) (1 / 8))^T (circ (1 / 4) (1 / 8)) (circ 0 (3 / 32))) (col_mx (dbv 1%:M) 0) c by rewrite /exm grp_ungrp /ex_g circT.
have ES : schur (circ 0 (1 / 2) - X 1) (circ (1 / 4) (1 / 8)) (circ 0 (3 / 32) - X 1) = circ (1 / 8) (- (3 / 4)).
  have [e1 e2 e3] := exm_blocks 0. have H := exm_reduced 0. rewrite /reduced e1 e2 e3 in H. rewrite /schur addrAC H. circ_c.
have T c := trace_schur (Eg c) sD uD. cbv zeta in T.
set z := csqrt ((-1) ^+ (1 + 1) / (\det (circ 0 (1 / 2) - X 1) * \det (schur (circ 0 (1 / 2) - X 1) (circ (1 / 4) (1 / 8)) (circ 0 (3 / 32) - X 1)))) in T.
set w := Cexp _ in T. have z0 : z != 0.
  apply/eqP => E. have := csqrt_sq ((-1) ^+ (1 + 1) / (\det (circ 0 (1 / 2) - X 1) * \det (schur (circ 0 (1 / 2) - X 1) (circ (1 / 4) (1 / 8)) (circ 0 (3 / 32) - X 1)))).
  rewrite -/z E -CmulE mulr0 m12 div1r ES eD !circ_det RtoCM => /esym/eqP. rewrite invr_eq0 => /eqP []. lra.
have w0 : w != 0 by apply/eqP; exact: Cexp_nz.
exists ((z * w)^-1). rewrite T ES eD !circ_det RtoCM. case: Rlt_dec => [Ht|H]; last first.
  case: H. rewrite Cmod_R Rabs_pos_eq; last lra. apply: Stellar.thr_small. lra.
by rewrite -mulrA mulVf // mulf_neq0.
Qed.
Theorem C75_example : let d := fun _ => (3 / 16)%coqR in exists rho core phi : ctri 1 1,
  [/\ [/\ hermitian rho, eigh (rc2 rho) 1%:M d, trace rho = Some 1 & psd (ursubmx (cA rho))],
      mixed 1%:M d rho = Base.Ok (Some (core, phi)), cthen core phi = Some rho, psd (ursubmx (cA core)) /\ psd (ursubmx (cA phi)) & ursubmx (cA core) <> 0 /\ cb rho <> 0].
Proof.
move=> d. have [c Et] := exm_trace. have Hh := exm_hermitian c. have [e1 e2 e3] := exm_blocks c. have Er := exm_reduced c.
have D1 (x : R) : diag_mx (\row_(j < 1) RtoC x) = (RtoC x)%:M by apply/matrixP => i j; rewrite !mxE.
have a1 : adj (1%:M : 'M[C]_1) = 1%:M by rewrite /adj map_mx1 trmx1.
have He : eigh (rc2 (exm c)) 1%:M d by split; [split; rewrite a1 mul1mx|rewrite exm_rc2 a1 mulmx1 mul1mx /d D1].
have Hd (j : 'I_1) : Rle R0 (d j) by rewrite /d; lra.
have Ea : [/\ alpha_m (exm c) = q[1 / 2]%:M, sigma (exm c) = q[1 / 8]%:M & alpha_n (exm c) = q[3 / 32]%:M] by rewrite /alpha_m /sigma /alpha_n e1 e2 e3 !circB !block_mxKdl.
have [a3 a4 a5] := Ea.
have Hp : psd (ursubmx (cA (exm c))).
  rewrite (ur_rho Hh) a3 a4 a5 tr_scalar_mx.
  have aq x : adj ((RtoC x)%:M : 'M[C]_1) = (RtoC x)%:M by rewrite /adj map_scalar_mx /= conjR tr_scalar_mx.
  have cq x : conj ((RtoC x)%:M : 'M[C]_1) = (RtoC x)%:M by rewrite map_scalar_mx /= conjR.
  pose s x : 'M[C]_1 := (RtoC x)%:M.
  have -> : block_mx (conj (s (1 / 2)%coqR)) (s (1 / 8)%coqR) (adj (s (1 / 8)%coqR)) (conj (s (3 / 32)%coqR)) =
    block_mx (s (1 / 2)%coqR) (s (1 / 2)%coqR) (s (1 / 8)%coqR) (s (1 / 8)%coqR) *m adj (block_mx (s (1 / 2)%coqR) (s (1 / 2)%coqR) (s (1 / 8)%coqR) (s (1 / 8)%coqR)) +
    block_mx (0 : 'M[C]_1) 0 0 (s (1 / 4)%coqR) *m adj (block_mx (0 : 'M[C]_1) 0 0 (s (1 / 4)%coqR)).
    rewrite /s aq !cq /adj !map_block_mx !cq !map_mx0 !tr_block_mx !tr_scalar_mx !trmx0 !mulmx_block ?(mul0mx, mulmx0, addr0, add0r) add_block_mx ?(addr0, add0r) -!scalar_mxM -!raddfD /= !RtoCM !RtoCD.
    congr block_mx; congr (_ %:M); congr RtoC; field.
  exact: psdD (psd_gram _) (psd_gram _).
have nz x : x <> R0 -> (RtoC x)%:M \in @unitmx _ 1 by move=> h; rewrite unitmxE det_scalar1 unitfE; apply/eqP => -[].
have [core [phi E]] : exists core phi, mixed 1%:M d (exm c) = Base.Ok (Some (core, phi)).
  apply: (C75_returns Hh He Hd (x := (35 / 64)%coqR)).
  - rewrite e1. have -> : circ 0 (1 / 2) - X 1 = circ 0 (- (1 / 2)) by circ_c. have [||_ u] := @circ_inv 0 (- (1 / 2)) 0 (- 2); [lra|lra|exact: u].
  - rewrite a3. apply: nz. lra.
  - rewrite e2. have [||_ u] := @circ_inv (1 / 4) (1 / 8) (16 / 3) (- (8 / 3)); [lra|lra|exact: u].
  - move=> j. rewrite /d. lra.
  - rewrite e1. have -> : 1%:M - circ 0 (1 / 2) *m X 1 = circ (1 / 2) 0 by circ_c. rewrite circ_det Cmod_R Rabs_pos_eq; last lra. apply: Stellar.thr_small. lra.
  - rewrite Er. have -> : 1%:M - circ (1 / 8) (1 / 4) *m X 1 = circ (3 / 4) (- (1 / 8)) by circ_c. rewrite circ_det. congr RtoC. field.
  - apply: Stellar.thr_small. lra.
exists (exm c), core, phi. split=> //; first exact: (C75_equal Hh He Hd).
- by apply: (C75_positive Hh He Hd E).
- have [_ _ [p [_ _ ->]] _] := mixed_inv Hh E. split.
  + rewrite /= /ungroup block_mxKur /mcoreA block_mxKul block_mxKur block_mxKdl block_mxKdr /A_core_n block_mxKur => /(congr1 (fun Z : 'M[C]_(1 + 1) => drsubmx Z 0 0)). rewrite block_mxKdr /alpha_core a3 a4 a5 tr_scalar_mx map_scalar_mx /= conjR invmx_scalar -!scalar_mxM -raddfB /= map_scalar_mx !mxE /= CinvE -RtoC_inv; last lra.
    rewrite !RtoCM RtoCN RtoCD conjR => -[]. lra.
  + have -> : cb (exm c) = ungroupv (col_mx (dbv 1%:M) 0) by [].
    move=> /(congr1 (fun Z : 'cV[C]_((1 + 1) + (1 + 1)) => usubmx (usubmx Z) 0 0)). have z : usubmx (usubmx (0 : 'cV[C]_((1 + 1) + (1 + 1)))) 0 0 = 0 by rewrite !mxE.
    rewrite z /ungroupv !col_mxKu ?/dbv ?col_mxKu map_mx1 mxE /= => /eqP. by rewrite oner_eq0.
Qed.
