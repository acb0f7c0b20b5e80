(** Positive (semi)definite Hermitian matrices over C: the linear algebra needed for the physicality tests of channels and states.
    Nothing here models code of /repo. *)
From Coq Require Import Reals Lra ClassicalEpsilon.
From Coquelicot Require Import Complex.
From mathcomp Require Import all_ssreflect all_algebra.
From Verif Require Import CMat Expm Optimizer GateSym BargSym Compose.
Set Implicit Arguments. Unset Strict Implicit. Unset Printing Implicit Defensive.
Import GRing.Theory.
Local Open Scope ring_scope.
Delimit Scope R_scope with coqR.

Definition herm n (A : 'M[C]_n) : Prop := adj A = A.
(** v^dagger A v *)
Definition qf n (A : 'M[C]_n) (v : 'cV[C]_n) : R := Re ((adj v *m A *m v) 0 0).
Definition psd n (A : 'M[C]_n) : Prop := herm A /\ forall v, Rle R0 (qf A v).
Definition pd n (A : 'M[C]_n) : Prop := herm A /\ forall v, v <> 0 -> Rlt R0 (qf A v).
(** squared norm *)
Definition nv n (v : 'cV[C]_n) : R := qf 1%:M v.

Lemma ReD (x y : C) : Re (x + y) = (Re x + Re y)%coqR. Proof. by []. Qed.
Lemma ReN (x : C) : Re (- x) = (- Re x)%coqR. Proof. by []. Qed.
Lemma ReZ r (x : C) : Re (RtoC r * x) = (r * Re x)%coqR. Proof. case: x => a b. rewrite CmulE /Cmult /RtoC /Re /=. ring. Qed.
Lemma adjD n m (A B : 'M[C]_(n, m)) : adj (A + B) = adj A + adj B. Proof. by rewrite /adj map_mxD linearD. Qed.
Lemma adjN n m (A : 'M[C]_(n, m)) : adj (- A) = - adj A. Proof. by rewrite /adj map_mxN linearN. Qed.
Lemma adjB n m (A B : 'M[C]_(n, m)) : adj (A - B) = adj A - adj B. Proof. by rewrite adjD adjN. Qed.
Lemma adjZ n m k (A : 'M[C]_(n, m)) : adj (k *: A) = Cconj k *: adj A. Proof. by rewrite /adj map_mxZ linearZ. Qed.
Lemma adj1 n : adj (1%:M : 'M[C]_n) = 1%:M. Proof. by rewrite /adj map_mx1 trmx1. Qed.
Lemma adj0 n m : adj (0 : 'M[C]_(n, m)) = 0. Proof. by rewrite /adj map_mx0 trmx0. Qed.
Lemma adj_real n m (A : 'M[C]_(n, m)) : real A -> adj A = A^T. Proof. by rewrite /adj => ->. Qed.
Lemma adj_block a b c d (A : 'M[C]_(a, c)) (B : 'M[C]_(a, d)) (E : 'M[C]_(b, c)) (D : 'M[C]_(b, d)) : adj (block_mx A B E D) = block_mx (adj A) (adj E) (adj B) (adj D).
Proof. by rewrite /adj map_block_mx tr_block_mx. Qed.
Lemma adj_col a b (x : 'cV[C]_a) (y : 'cV[C]_b) : adj (col_mx x y) = row_mx (adj x) (adj y).
Proof. by rewrite /adj map_col_mx tr_col_mx. Qed.
Lemma adjKr n m (A : 'M[C]_(n, m)) : adj (adj A) = A.
Proof. by rewrite /adj conj_tr conjmxK trmxK. Qed.
Lemma adj_inj n m (A B : 'M[C]_(n, m)) : adj A = adj B -> A = B.
Proof. move=> /(congr1 (@adj _ _)). by rewrite !adjKr. Qed.

Lemma qfD n (A B : 'M[C]_n) v : qf (A + B) v = (qf A v + qf B v)%coqR.
Proof. by rewrite /qf mulmxDr mulmxDl mxE ReD. Qed.
Lemma qfN n (A : 'M[C]_n) v : qf (- A) v = (- qf A v)%coqR.
Proof. by rewrite /qf mulmxN mulNmx mxE ReN. Qed.
Lemma qfZ n r (A : 'M[C]_n) v : qf (RtoC r *: A) v = (r * qf A v)%coqR.
Proof. by rewrite /qf -scalemxAr -scalemxAl mxE ReZ. Qed.
Lemma qf0 n (A : 'M[C]_n) : qf A 0 = R0.
Proof. by rewrite /qf mulmx0 mxE. Qed.
Lemma qf_conj n m (A : 'M[C]_n) (B : 'M[C]_(m, n)) v : qf (B *m A *m adj B) v = qf A (adj B *m v).
Proof. by rewrite /qf adj_prod adjKr !mulmxA. Qed.
Lemma nv_row n (v : 'cV[C]_n) : exists r, (adj v *m v) 0 0 = RtoC r /\ Rle R0 r /\ forall j, Rle (sq (v j 0)) r.
Proof.
case: (norm_row (adj v)) => r. rewrite adjKr => -[E [H0 H]]. exists r. split=> //. split=> // j. have := H j. rewrite !mxE. case: (v j 0) => x y. rewrite /sq /Cconj /Re /Im /=. lra.
Qed.
Lemma nv_ge0 n (v : 'cV[C]_n) : Rle R0 (nv v).
Proof. rewrite /nv /qf mulmx1. by case: (nv_row v) => r [-> [H _]]. Qed.
Lemma nv_entry n (v : 'cV[C]_n) j : Rle (sq (v j 0)) (nv v).
Proof. rewrite /nv /qf mulmx1. by case: (nv_row v) => r [-> [_ H]]. Qed.
Lemma nv_eq0 n (v : 'cV[C]_n) : Rle (nv v) R0 -> v = 0.
Proof. move=> H. apply/matrixP => i j. rewrite ord1 [RHS]mxE. apply: sq_eq0. have := nv_entry v i. lra. Qed.
Lemma nv_pos n (v : 'cV[C]_n) : v <> 0 -> Rlt R0 (nv v).
Proof. move=> H. case: (Rlt_le_dec R0 (nv v)) => // L. by case: H; apply: nv_eq0. Qed.

Lemma herm1 n : herm (1%:M : 'M[C]_n). Proof. exact: adj1. Qed.
Lemma hermD n (A B : 'M[C]_n) : herm A -> herm B -> herm (A + B). Proof. rewrite /herm => HA HB. by rewrite adjD HA HB. Qed.
Lemma hermZ n r (A : 'M[C]_n) : herm A -> herm (RtoC r *: A). Proof. rewrite /herm => HA. by rewrite adjZ HA conjR. Qed.
Lemma herm_conj n m (A : 'M[C]_n) (B : 'M[C]_(m, n)) : herm A -> herm (B *m A *m adj B).
Proof. rewrite /herm => HA. by rewrite !adj_prod adjKr HA mulmxA. Qed.
Lemma herm_gram n m (B : 'M[C]_(m, n)) : herm (B *m adj B).
Proof. by rewrite /herm adj_prod adjKr. Qed.
Lemma pd1 n : pd (1%:M : 'M[C]_n). Proof. split; [exact: herm1|exact: nv_pos]. Qed.
Lemma dec0 n (v : 'cV[C]_n) : v = 0 \/ v <> 0.
Proof. by case: (@eqP _ v 0); [left|right]. Qed.
Lemma pd_psd n (A : 'M[C]_n) : pd A -> psd A.
Proof.
case=> H P. split=> // v. case: (dec0 v) => [->|N]; [by rewrite qf0; exact: Rle_refl|exact/Rlt_le/P].
Qed.
Lemma psd_gram n m (B : 'M[C]_(m, n)) : psd (B *m adj B).
Proof. split; first exact: herm_gram. move=> v. have -> : B *m adj B = B *m 1%:M *m adj B by rewrite mulmx1. rewrite qf_conj. exact: nv_ge0. Qed.
Lemma psdD n (A B : 'M[C]_n) : psd A -> psd B -> psd (A + B).
Proof. case=> HA PA [HB PB]. split; first exact: hermD. move=> v. rewrite qfD. have := PA v. have := PB v. lra. Qed.
Lemma pdD n (A B : 'M[C]_n) : pd A -> psd B -> pd (A + B).
Proof. case=> HA PA [HB PB]. split; first exact: hermD. move=> v N. rewrite qfD. have := PA v N. have := PB v. lra. Qed.
Lemma psdZ n r (A : 'M[C]_n) : Rle R0 r -> psd A -> psd (RtoC r *: A).
Proof. move=> Hr [HA PA]. split; first exact: hermZ. move=> v. rewrite qfZ. exact: Rmult_le_pos. Qed.
Lemma pdZ n r (A : 'M[C]_n) : Rlt R0 r -> pd A -> pd (RtoC r *: A).
Proof. move=> Hr [HA PA]. split; first exact: hermZ. move=> v N. rewrite qfZ. apply: Rmult_lt_0_compat => //. exact: PA. Qed.
Lemma psd_conj n m (A : 'M[C]_n) (B : 'M[C]_(m, n)) : psd A -> psd (B *m A *m adj B).
Proof. case=> HA PA. split; first exact: herm_conj. move=> v. rewrite qf_conj. exact: PA. Qed.
Lemma psd_conj_iff n (A B : 'M[C]_n) : B \in unitmx -> psd (B *m A *m adj B) <-> psd A.
Proof.
move=> U. split; last exact: psd_conj. move=> H. have := psd_conj (invmx B) H.
have Ud : adj B \in unitmx by rewrite adj_unit.
by rewrite -adj_inv -!mulmxA mulmxV // mulmx1 mulmxA mulVmx // mul1mx.
Qed.
Lemma pd_conj n (A B : 'M[C]_n) : B \in unitmx -> pd A -> pd (B *m A *m adj B).
Proof.
move=> U [HA PA]. split; first exact: herm_conj. move=> v N. rewrite qf_conj. apply: PA => E. apply: N.
have Ud : adj B \in unitmx by rewrite adj_unit. by rewrite -[v](mulKmx Ud) E mulmx0.
Qed.
Lemma ker_unit n (A : 'M[C]_n) : (forall v : 'cV[C]_n, A *m v = 0 -> v = 0) -> A \in unitmx.
Proof.
move=> H. rewrite -unitmx_tr -row_free_unit -kermx_eq0. apply/eqP/row_matrixP => i. rewrite row0. set v := row i (kermx _).
have Hv : v *m A^T = 0 by rewrite /v -row_mul mulmx_ker row0.
have : v^T = 0 by apply: H; rewrite -[A]trmxK -trmx_mul Hv trmx0. by move=> /(congr1 trmx); rewrite trmxK trmx0.
Qed.
Lemma unit_ker n (A : 'M[C]_n) : (A \in unitmx) = false -> exists v : 'cV[C]_n, v <> 0 /\ A *m v = 0.
Proof.
move=> U. apply: NNPP => N. have : A \in unitmx; last by rewrite U. apply: ker_unit => v E.
case: (dec0 v) => // D. by case: N; exists v.
Qed.
Lemma pd_unit n (A : 'M[C]_n) : pd A -> A \in unitmx.
Proof.
case=> _ P. apply: ker_unit => v E. case: (dec0 v) => // N. have := P v N. rewrite /qf -mulmxA E mulmx0 mxE /=. lra.
Qed.
Lemma pd_inv n (A : 'M[C]_n) : pd A -> pd (invmx A).
Proof.
move=> P. have U := pd_unit P. have := pd_conj (B := invmx A) _ P. rewrite unitmx_inv U => /(_ isT).
rewrite -adj_inv. case: (P) => -> _. by rewrite -mulmxA mulmxV // mulmx1.
Qed.
Lemma qf_col a b (A : 'M[C]_a) (D : 'M[C]_b) x y : qf (block_mx A 0 0 D) (col_mx x y) = (qf A x + qf D y)%coqR.
Proof. by rewrite /qf adj_col mul_row_block !mulmx0 addr0 add0r mul_row_col mxE ReD. Qed.
Lemma psd_diag a b (A : 'M[C]_a) (D : 'M[C]_b) : psd (block_mx A 0 0 D) <-> psd A /\ psd D.
Proof.
split.
- case. rewrite /herm adj_block !adj0 => /eq_block_mx [HA _ _ HD] P. split; split=> // v.
  + have := P (col_mx v 0). rewrite qf_col qf0. lra.
  + have := P (col_mx 0 v). rewrite qf_col qf0. lra.
- case=> -[HA PA] [HD PD]. split; first by rewrite /herm adj_block !adj0 HA HD. move=> v. rewrite -(vsubmxK v) qf_col.
  have := PA (usubmx v). have := PD (dsubmx v). lra.
Qed.
Lemma det_pos_ex n (A : 'M[C]_n) : pd A -> exists r, Rlt R0 r /\ \det A = RtoC r.
Proof.
elim: n A => [|n IH] A P; first by exists R1; rewrite det_mx00; split; [lra|].
suff key : forall A : 'M[C]_(1 + n), pd A -> exists r, Rlt R0 r /\ \det A = RtoC r by exact: key.
move=> {P} {}A [HA PA]. move: HA PA. rewrite -(submxK A). move: (ulsubmx A) (ursubmx A) (dlsubmx A) (drsubmx A) => a b b' D {A}. rewrite /herm adj_block => /eq_block_mx [Ha Eb _ HD] P.
have Ea : exists r, Rlt R0 r /\ a = (RtoC r)%:M.
  have N1 : col_mx 1%:M 0 <> 0 :> 'cV[C]_(1 + n). { move=> E. have := congr1 (@usubmx _ 1 n 1) E; rewrite col_mxKu linear0 => /(congr1 (fun M : 'M[C]_1 => M 0 0)); rewrite !mxE /= C0E C1E => /RtoC_inj; lra. }
  have := P _ N1.
  rewrite /qf adj_col adj1 adj0 mul_row_block mul_row_col !mulmx0 addr0 !mul0mx addr0 mul1mx mulmx1 => H.
  exists (Re (a 0 0)). split=> //. rewrite [a]mx11_scalar. congr (_%:M). rewrite mxE eqxx mulr1n.
  have := congr1 (fun M : 'M[C]_1 => M 0 0) Ha. rewrite !mxE. case: (a 0 0) => x y. rewrite /Cconj /RtoC /= => -[Hy]. congr pair. lra.
case: Ea => r [Hr Ea]. have Ur : RtoC r != 0 by apply/eqP; rewrite C0E => /RtoC_inj; lra.
have Ua : a \in unitmx by rewrite Ea unitmxE det_scalar1 unitfE.
have Ed : block_mx a b b' D = block_mx 1%:M 0 (b' *m invmx a) 1%:M *m block_mx a b 0 (D - b' *m invmx a *m b).
  by rewrite mulmx_block ?(mul0mx, mul1mx, mulmx0, addr0) mulmxKV // [_ + (D - _)]addrC subrK.
have HS : pd (D - b' *m invmx a *m b).
  have Ei : adj (invmx a) = invmx a by rewrite -adj_inv Ha.
  split.
    by rewrite /herm adjB HD !adj_prod Ei Eb -Eb adjKr mulmxA.
  move=> v N. have N1 : col_mx (- (invmx a *m b *m v)) v <> 0.
    move=> E. apply: N. have := congr1 (@dsubmx _ 1 n 1) E. by rewrite col_mxKd linear0.
  have := P _ N1.
  rewrite /qf. have -> : adj (col_mx (- (invmx a *m b *m v)) v) *m block_mx a b b' D *m col_mx (- (invmx a *m b *m v)) v = adj v *m (D - b' *m invmx a *m b) *m v.
    rewrite -mulmxA mul_block_col. have -> : a *m - (invmx a *m b *m v) + b *m v = 0 by rewrite mulmxN -mulmxA mulKVmx // addNr.
    rewrite adj_col mul_row_col mulmx0 add0r mulmxN -!mulmxA. congr (_ *m _). by rewrite mulmxBl addrC -!mulmxA.
  by [].
case: (IH _ HS) => s [Hs Es]. exists (r * s)%coqR. split; first exact: Rmult_lt_0_compat.
by rewrite Ed det_mulmx det_lblock !det1 !mul1r det_ublock Es Ea det_scalar1 RtoC_mult.
Qed.
(** Q - E E^dagger >= 0 exactly when 1 - E^dagger Q^-1 E >= 0 *)
Lemma schur n m (Q : 'M[C]_n) (E : 'M[C]_(n, m)) : pd Q -> psd (Q - E *m adj E) <-> psd (1%:M - adj E *m invmx Q *m E).
Proof.
move=> P. have U := pd_unit P. have [HQ _] := P.
have Ei : adj (invmx Q) = invmx Q by rewrite -adj_inv HQ.
have L1 : block_mx 1%:M 0 (adj E *m invmx Q) 1%:M *m block_mx Q 0 0 (1%:M - adj E *m invmx Q *m E) *m adj (block_mx 1%:M 0 (adj E *m invmx Q) 1%:M) = block_mx Q E (adj E) 1%:M.
  rewrite adj_block !adj1 !adj0 adj_prod adjKr Ei !mulmx_block ?(mul0mx, mulmx0, mul1mx, mulmx1, addr0, add0r) mulmxA mulmxV // mul1mx mulmxKV //.
  by rewrite [_ + (1%:M - _)]addrC -mulmxA subrK.
have L2 : block_mx 1%:M E 0 1%:M *m block_mx (Q - E *m adj E) 0 0 1%:M *m adj (block_mx 1%:M E 0 1%:M) = block_mx Q E (adj E) 1%:M.
  by rewrite adj_block !adj1 !adj0 !mulmx_block ?(mul0mx, mulmx0, mul1mx, mulmx1, addr0, add0r) subrK.
have U1 : block_mx 1%:M 0 (adj E *m invmx Q) 1%:M \in unitmx by rewrite unitmxE det_lblock !det1 mulr1 unitr1.
have U2 : block_mx 1%:M E 0 1%:M \in unitmx by rewrite unitmxE det_ublock !det1 mulr1 unitr1.
have P1 : psd (1%:M : 'M[C]_m) by exact/pd_psd/pd1.
split=> H.
- have : psd (block_mx Q E (adj E) 1%:M) by rewrite -L2; apply/psd_conj; apply/psd_diag.
  rewrite -L1 => /(psd_conj_iff _ U1)/psd_diag []. by [].
- have : psd (block_mx Q E (adj E) 1%:M) by rewrite -L1; apply/psd_conj; apply/psd_diag; split=> //; exact: pd_psd.
  rewrite -L2 => /(psd_conj_iff _ U2)/psd_diag []. by [].
Qed.
(** ** eigenvalues *)
Lemma qf_real n (A : 'M[C]_n) v : herm A -> (adj v *m A *m v) 0 0 = RtoC (qf A v).
Proof.
move=> H. have E : adj (adj v *m A *m v) = adj v *m A *m v by rewrite !adj_prod adjKr H mulmxA.
have := congr1 (fun M : 'M[C]_1 => M 0 0) E. rewrite /qf [LHS]mxE mxE. case: ((_ *m v) 0 0) => x y. rewrite /Cconj /RtoC /= => -[Hy]. congr pair. lra.
Qed.
(** Cauchy-Schwarz *)
Definition hf n (A : 'M[C]_n) (x y : 'cV[C]_n) : R := Re ((adj x *m A *m y) 0 0).
Lemma cauchy n (A : 'M[C]_n) x y : psd A -> (hf A x y * hf A x y <= qf A x * qf A y)%coqR.
Proof.
case=> H P. set p := hf A x y.
have Q t : (0 <= qf A x - 2 * t * p + t * t * qf A y)%coqR.
  have := P (x - RtoC t *: y). rewrite {1}/qf.
  have -> : adj (x - RtoC t *: y) *m A *m (x - RtoC t *: y) = adj x *m A *m x - RtoC t *: (adj x *m A *m y) - RtoC t *: (adj y *m A *m x) + (RtoC t * RtoC t) *: (adj y *m A *m y).
    rewrite adjB adjZ conjR. move: (adj x) (adj y) => x' y'. rewrite !mulmxBl !mulmxBr -?scalemxAl -?scalemxAr -?scalemxAl -?scalemxAr ?scalerA ?opprB.
    rewrite -!addrA. congr (_ + (_ + _)). by rewrite addrC.
  have Es : (adj y *m A *m x) 0 0 = Cconj ((adj x *m A *m y) 0 0).
    have E : adj y *m A *m x = adj (adj x *m A *m y) by rewrite !adj_prod adjKr H mulmxA. by rewrite E [LHS]mxE [LHS]mxE.
  have e4 (M1 M2 M3 M4 : 'M[C]_1) k k' : (M1 - k *: M2 - k *: M3 + k' *: M4) 0 0 = M1 0 0 - k * M2 0 0 - k * M3 0 0 + k' * M4 0 0 by rewrite !mxE.
  rewrite e4 Es (qf_real x H) (qf_real y H). rewrite /p /hf. move: ((adj x *m A *m y) 0 0) => [a b].
  rewrite !CaddE !CoppE !CmulE /Cplus /Copp /Cmult /Cconj /RtoC /Re /=. lra.
case: (Rlt_le_dec R0 (qf A y)) => Hy.
- have := Q (p / qf A y)%coqR. have E : (qf A x - 2 * (p / qf A y) * p + p / qf A y * (p / qf A y) * qf A y = qf A x - p * p / qf A y)%coqR by field; lra.
  rewrite E => H2. have H3 : (p * p / qf A y <= qf A x)%coqR by lra. 
  have H4 := Rmult_le_compat_r _ _ _ (Rlt_le _ _ Hy) H3. move: H4. rewrite /Rdiv Rmult_assoc Rinv_l ?Rmult_1_r //. lra.
- have Hy0 : qf A y = R0 by apply: Rle_antisym => //; exact: P.
  have Hp : p = R0.
    have := Q ((qf A x + 1) / p)%coqR => H2. case: (Req_EM_T p R0) => // Np.
    move: H2. rewrite Hy0. have -> : (qf A x - 2 * ((qf A x + 1) / p) * p + (qf A x + 1) / p * ((qf A x + 1) / p) * 0 = - qf A x - 2)%coqR by field.
    have := P x. lra.
  rewrite Hp Hy0. lra.
Qed.
Lemma psd_unit_pd n (A : 'M[C]_n) : psd A -> A \in unitmx -> pd A.
Proof.
move=> P U. have [H PA] := P. split=> // v N. case: (Rlt_le_dec R0 (qf A v)) => // L.
have E0 : qf A v = R0 by apply: Rle_antisym.
have := cauchy v (A *m v) P. rewrite E0 Rmult_0_l /hf.
have -> : (adj v *m A *m (A *m v)) = adj (A *m v) *m 1%:M *m (A *m v) by rewrite adj_prod H mulmx1.
rewrite -[Re _]/(nv (A *m v)) => H2. have H3 := nv_ge0 (A *m v). have H4 : Rle (nv (A *m v)) R0 by nra.
by case: N; rewrite -[v](mulKmx U) (nv_eq0 H4) mulmx0.
Qed.
Lemma Cmod_le_nv n (v : 'cV[C]_n) i j : Rle (Rmult (Cmod (v i 0)) (Cmod (v j 0))) (nv v).
Proof.
have := nv_entry v i. have := nv_entry v j. rewrite /sq. have := CExp.Cmod2 (v i 0). have := CExp.Cmod2 (v j 0). rewrite /Re /Im.
move: (Cmod _) (Cmod _) => x y. nra.
Qed.
Lemma big_R_mulr (I : finType) (f : I -> R) c : (\big[Rplus/R0]_i f i * c = \big[Rplus/R0]_i (f i * c))%coqR.
Proof. apply: (big_ind2 (fun a b => (a * c = b)%coqR)) => [|a b a' b' <- <-|//]; ring. Qed.
Lemma qf_bound n (A : 'M[C]_n) : exists c, (0 <= c)%coqR /\ forall v, Rle (qf A v) (c * nv v)%coqR /\ Rle (- (c * nv v))%coqR (qf A v).
Proof.
exists (norm1 A). split; first exact: norm1_ge0. move=> v.
suff H : Rle (Cmod ((adj v *m A *m v) 0 0)) (norm1 A * nv v)%coqR.
  have := CExp.Cmod_re ((adj v *m A *m v) 0 0). rewrite /qf /Re. move: (fst _) => x. rewrite /Rabs. case: Rcase_abs => Hx H2; lra.
have -> : (adj v *m A *m v) 0 0 = \sum_(p : 'I_n * 'I_n) Cconj (v p.1 0) * A p.1 p.2 * v p.2 0.
  rewrite mxE. under eq_bigr => j _. rewrite mxE big_distrl /=. under eq_bigr => i _ do rewrite !mxE. over.
  rewrite exchange_big pair_bigA. by [].
apply: Rle_trans. exact: Cmod_sum. rewrite /norm1 big_R_mulr. apply: big_R_le => -[i j] /=.
rewrite !CmulE !Cmod_mult Cmod_conj. have := Cmod_le_nv v i j. have := Cmod_ge_0 (A i j). have := Cmod_ge_0 (v i 0). have := Cmod_ge_0 (v j 0).
move: (Cmod _) (Cmod _) (Cmod _) (nv v) => x y z w. nra.
Qed.
(** the form is bounded below *)
Lemma pd_open n (A : 'M[C]_n) : pd A -> exists e, Rlt R0 e /\ pd (A - (RtoC e)%:M).
Proof.
move=> P. have Pi := pd_inv P. have U := pd_unit P. have [H PA] := P. case: (qf_bound (invmx A)) => c [Hc Bc].
exists (/ (2 * (c + 1)))%coqR. have Hc2 : (0 < / (2 * (c + 1)))%coqR by apply: Rinv_0_lt_compat; lra. split=> //.
have Es : (RtoC (/ (2 * (c + 1))))%:M = RtoC (/ (2 * (c + 1))) *: 1%:M :> 'M[C]_n by rewrite scalemx1.
split.
  rewrite /herm adjB H Es. congr (_ - _). exact/hermZ/herm1.
move=> v N. rewrite Es qfD qfN qfZ -/(nv v).
have := cauchy v (invmx A *m v) (pd_psd P). rewrite /hf.
have -> : adj v *m A *m (invmx A *m v) = adj v *m 1%:M *m v by rewrite mulmxA -(mulmxA (adj v)) mulmxV.
rewrite -[Re _]/(nv v). have -> : qf A (invmx A *m v) = qf (invmx A) v.
  rewrite /qf adj_prod -adj_inv H. congr (Re (fun_of_matrix _ _ _)). by rewrite -!mulmxA (mulmxA A) mulmxV // mul1mx.
have := Bc v => -[B1 _] Hk. have Hn := nv_pos N. have Hq := PA v N.
have H1 : (nv v * nv v <= qf A v * (c * nv v))%coqR by nra.
have H2 : (nv v <= qf A v * c)%coqR by nra.
have H3 : (/ (2 * (c + 1)) * nv v < qf A v)%coqR.
  apply: (Rmult_lt_reg_l (2 * (c + 1))%coqR); first lra. rewrite -Rmult_assoc Rinv_r ?Rmult_1_l; last lra. nra.
lra.
Qed.
(** a Hermitian matrix all of whose eigenvalues are greater than -t: A + t is positive definite *)
Lemma eig_pd n (A : 'M[C]_n) t : herm A ->
  (forall (l : C) (v : 'cV[C]_n), v <> 0 -> A *m v = l *: v -> Rlt (- t)%coqR (Re l)) -> pd (A + (RtoC t)%:M).
Proof.
move=> H He. have Es s : (RtoC s)%:M = RtoC s *: 1%:M :> 'M[C]_n by rewrite scalemx1.
have Hh s : herm (A + (RtoC s)%:M) by rewrite Es; apply: hermD => //; exact/hermZ/herm1.
have Eq s v : qf (A + (RtoC s)%:M) v = (qf A v + s * nv v)%coqR by rewrite Es qfD qfZ.
apply: NNPP => NP.
case: (qf_bound A) => c [Hc Bc].
have up s s' : pd (A + (RtoC s)%:M) -> Rle s s' -> pd (A + (RtoC s')%:M).
  case=> _ P L. split=> // v N. have := P v N. rewrite !Eq. have := nv_ge0 v. nra.
have big : pd (A + (RtoC (c + 1))%:M).
  split=> // v N. rewrite Eq. have [_ B] := Bc v. have := nv_pos N. nra.
(* the infimum, as minus the supremum of the opposite set *)
set S := fun x : R => pd (A + (RtoC (- x))%:M).
have bS : bound S. { exists (- t)%coqR => x Sx. case: (Rle_lt_dec x (- t)) => // L. case: NP. apply: up Sx _. lra. }
have nS : exists x, S x by exists (- (c + 1))%coqR; rewrite /S Ropp_involutive.
case: (completeness S bS nS) => m [ub lub].
have mt : Rle m (- t)%coqR by apply: lub => x Sx; case: (Rle_lt_dec x (- t)) => // L; case: NP; apply: up Sx _; lra.
have Pm : psd (A + (RtoC (- m))%:M).
  split=> // v. rewrite Eq. case: (Rle_lt_dec R0 (qf A v + - m * nv v)) => // L.
  have Hn := nv_ge0 v. have [Hn0|Hn1] : nv v = R0 \/ Rlt R0 (nv v) by lra.
    move: L. have E := nv_eq0 (Req_le _ _ Hn0). by rewrite Hn0 E qf0; lra.
  set d := (- (qf A v + - m * nv v) / (2 * nv v))%coqR. have Hd : Rlt R0 d by apply: Rdiv_lt_0_compat; lra.
  have : ~ is_upper_bound S (m - d)%coqR by move=> B; have := lub _ B; lra.
  case=> x Sx. case: (Rle_lt_dec x (m - d)) => // Lx.
  have N : v <> 0 by move=> E; move: Hn1; rewrite E /nv qf0; lra.
  have [_ P] := Sx. have := P v N. rewrite Eq => Q.
  have : (d * (2 * nv v) = - (qf A v + - m * nv v))%coqR by rewrite /d; field; lra. nra.
case U : (A + (RtoC (- m))%:M \in unitmx).
- case: (pd_open (psd_unit_pd Pm U)) => e [He1 Pe]. have : S (m + e)%coqR.
    rewrite /S. have -> : (RtoC (- (m + e)))%:M = (RtoC (- m))%:M - (RtoC e)%:M :> 'M[C]_n.
      rewrite -raddfB /=. congr (_%:M). rewrite CaddE CoppE -!RtoC_opp -RtoC_plus. congr RtoC. ring.
    by rewrite addrA.
  move/ub. lra.
- case: (unit_ker U) => v [N E]. have : A *m v = RtoC m *: v.
    move/eqP: E. rewrite mulmxDl addr_eq0 => /eqP ->. by rewrite mul_scalar_mx -scaleNr RtoC_opp -CoppE opprK.
  move/(He _ _ N). rewrite /=. lra.
Qed.
Lemma eig_psd n (A : 'M[C]_n) : psd A -> forall (l : C) (v : 'cV[C]_n), v <> 0 -> A *m v = l *: v -> Rle R0 (Re l).
Proof.
move=> [H P] l v N E. have := P v. rewrite /qf -mulmxA E -scalemxAr mxE. have Hn := nv_pos N.
have -> : (adj v *m v) 0 0 = RtoC (nv v) by have := qf_real v (herm1 n); rewrite mulmx1.
rewrite mulrC ReZ => H2. nra.
Qed.
