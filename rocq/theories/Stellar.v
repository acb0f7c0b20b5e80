(** Stellar decompositions of Gaussian kets: claim C46.
    Model of mrmustard/lab/states/ket.py:341-519 (formal_stellar_decomposition, physical_stellar_decomposition), one batch element, no derived variables. *)
From Coq Require Import Reals Lra Psatz.
From Coquelicot Require Import Complex.
From mathcomp Require Import all_ssreflect all_algebra.
From mathcomp Require Import fingroup perm.
From Verif Require Import CMat Optimizer GateSym BargSym CExp Compose ChanAlg PosDef.
Require Verif.Base.
Set Implicit Arguments. Unset Strict Implicit. Unset Printing Implicit Defensive.
Import GRing.Theory.
Local Open Scope ring_scope.
Delimit Scope R_scope with coqR.

(** the triple of a Ket on N modes, variables in the order of its sorted modes *)
Record ket N := Ket { kA : 'M[C]_N; kb : 'cV[C]_N; kc : C }.
Arguments Ket {N}.
(** PolyExpAnsatz.reorder (physics/ansatz/polyexp_ansatz.py:521-535) with order[k] = s k: A[order, :][:, order], b[order] *)
Definition reorder N (s : {perm 'I_N}) (k : ket N) : ket N := Ket (row_perm s (col_perm s (kA k))) (row_perm s (kb k)) (kc k).
Definition as_gtri M n (k : ket (M + n)) : gtri M n := GTri (kA k) (kb k) (kc k).
Definition of_gtri M n (t : gtri M n) : ket (M + n) := Ket (gA t) (gb t) (gc t).
(** core >> t for a transformation t with M inputs and M outputs on the core modes (Ket.__rshift__, ket.py:541-585, and ChanAlg.gthen): the variables of the core modes,
    which are the positions s 0, ..., s (M-1), are contracted with the inputs of t, whose outputs take their place *)
Definition ket_then M n (s : {perm 'I_(M + n)}) (psi : ket (M + n)) (t : triple M) : option (ket (M + n)) :=
  omap (fun g => reorder (s^-1)%g (of_gtri g)) (gthen (as_gtri (reorder s psi)) (of_triple t)).

Section Model.
Variables (M n : nat).
(** new_order = core_indices + other_indices (ket.py:371-374, 452-455): the first M values of s are the positions of the core modes *)
Variable s : {perm 'I_(M + n)}.
(** ket.py:378-388 and 460-465: the blocks of the reordered triple; R = A[M:, :M] *)
Definition Am (psi : ket (M + n)) : 'M[C]_M := ulsubmx (kA (reorder s psi)).
Definition An (psi : ket (M + n)) : 'M[C]_n := drsubmx (kA (reorder s psi)).
Definition Rm (psi : ket (M + n)) : 'M[C]_(n, M) := dlsubmx (kA (reorder s psi)).
Definition bm (psi : ket (M + n)) : 'cV[C]_M := usubmx (kb (reorder s psi)).
Definition bn (psi : ket (M + n)) : 'cV[C]_n := dsubmx (kb (reorder s psi)).
(** ket.py:390-418 *)
Definition formal (psi : ket (M + n)) : ket (M + n) * triple M :=
  (reorder (s^-1)%g (Ket (block_mx 0 (Rm psi)^T (Rm psi) (An psi)) (col_mx 0 (bn psi)) (kc psi)),
   Tri (block_mx (Am psi) 1%:M 1%:M 0) (col_mx (bm psi) 0) 1).

(** numpy.linalg.eigh, specified: unitary eigenvectors and real eigenvalues *)
Definition eigh (G v : 'M[C]_M) (d : 'I_M -> R) : Prop := unitary v /\ G = v *m diag_mx (\row_j RtoC (d j)) *m adj v.
(** ket.py:472-477: einsum("ij,j,kj->ik", evecs, sqrt(evals), conj(evecs)) *)
Definition gamma (v : 'M[C]_M) (d : 'I_M -> R) : 'M[C]_M := v *m diag_mx (\row_j RtoC (sqrt (d j))) *m adj v.
(** ket.py:484-492 *)
Definition bu_in (g : 'M[C]_M) (psi : ket (M + n)) : 'cV[C]_M := - (conj (Am psi) *m (invmx g)^T *m bm psi) - invmx g *m conj (bm psi).
Definition unnormalized (g : 'M[C]_M) (psi : ket (M + n)) : triple M :=
  Tri (block_mx (Am psi) g g^T (- conj (Am psi))) (col_mx (bm psi) (bu_in g psi)) 1.
(** U / x (circuit_components.py, __truediv__): only c changes *)
Definition tdiv (t : triple M) (x : C) : triple M := Tri (tA t) (tb t) (tc t / x).
(** ket.py:467-519. (v, d) is what eigh returns. None: the result contains infinities or nan, because an eigenvalue is negative or the determinant of
    U.contract(U.dual) is below the threshold *)
Definition physical (v : 'M[C]_M) (d : 'I_M -> R) (psi : ket (M + n)) : Base.result (option (ket (M + n) * triple M)) :=
  if [exists j, Rlt_dec (d j) R0] then Base.Ok None else
  let g := gamma v d in let A := Am psi in let r := Rm psi in
  Base.bind (inv g) (fun gi =>
  let U0 := unnormalized g psi in
  Base.bind (inv (conj A)) (fun Ai =>
  Base.bind (inv (Ai - A)) (fun Bi =>
  match then_ U0 (dual U0) with
  | None => Base.Ok None
  | Some u =>
    let U := tdiv U0 (csqrt (tc u)) in
    let core := Ket (block_mx 0 (gi *m r^T) (r *m gi^T) (An psi + r *m Bi *m r^T)) (col_mx 0 (bn psi - r *m gi^T *m bu_in g psi)) (kc psi / tc U) in
    Base.Ok (Some (reorder (s^-1)%g core, U))
  end))).

(** Specification: A and b vanish on the core modes *)
Definition core_state (k : ket (M + n)) : Prop :=
  (forall i j : 'I_M, kA k (s (lshift n i)) (s (lshift n j)) = 0) /\ (forall i : 'I_M, kb k (s (lshift n i)) 0 = 0).
End Model.
Definition symmetric N (k : ket N) : Prop := (kA k)^T = kA k.

Lemma reorderK N (s : {perm 'I_N}) (k : ket N) : reorder s (reorder (s^-1)%g k) = k.
Proof. case: k => A b c. rewrite /reorder /=. congr Ket; apply/matrixP => i j; by rewrite !mxE ?permK. Qed.
Lemma reorderVK N (s : {perm 'I_N}) (k : ket N) : reorder (s^-1)%g (reorder s k) = k.
Proof. case: k => A b c. rewrite /reorder /=. congr Ket; apply/matrixP => i j; by rewrite !mxE ?permKV. Qed.
Lemma reorder_sym N (s : {perm 'I_N}) (k : ket N) : symmetric k -> symmetric (reorder s k).
Proof. rewrite /symmetric /= => H. apply/matrixP => i j. by rewrite !mxE -{1}H mxE. Qed.
Lemma core_reorder M n (s : {perm 'I_(M + n)}) r1 r2 D (b : 'cV[C]_n) c : core_state s (reorder (s^-1)%g (Ket (block_mx 0 r1 r2 D) (col_mx 0 b) c)).
Proof. split=> [i j|i] /=; rewrite !mxE ?permK; by rewrite ?(unsplitK (inl i)) ?(mxE, unsplitK (inl j)) /= ?mxE ?(unsplitK (inl j)) ?mxE. Qed.

Section Ket.
Variables (M n : nat) (s : {perm 'I_(M + n)}) (psi : ket (M + n)).
Hypothesis sy : symmetric psi.
Lemma blocksE : reorder s psi = Ket (block_mx (Am s psi) (Rm s psi)^T (Rm s psi) (An s psi)) (col_mx (bm s psi) (bn s psi)) (kc psi).
Proof.
rewrite /Am /Rm /An /bm /bn. have := reorder_sym s sy. case E : (reorder s psi) => [A b c]. rewrite /symmetric /= => H.
have -> : kc psi = c by case: E. rewrite trmx_dlsub H submxK vsubmxK. by [].
Qed.
Lemma sym_Am : (Am s psi)^T = Am s psi.
Proof. by rewrite /Am trmx_ulsub (reorder_sym s sy). Qed.
(** a core state followed by a transformation whose (symmetric) input block is V *)
Lemma core_then W1 V1 (T W V : 'M[C]_M) (i1 : 'cV[C]_n) (o2 i2 : 'cV[C]_M) c1 c2 : V^T = V ->
  ket_then s (reorder (s^-1)%g (Ket (block_mx 0 W1 W1^T V1) (col_mx 0 i1) c1)) (Tri (block_mx T W W^T V) (col_mx o2 i2) c2) =
  Some (reorder (s^-1)%g (Ket (block_mx T (W *m W1) (W *m W1)^T (V1 + W1^T *m V *m W1)) (col_mx o2 (i1 + W1^T *m i2)) (c1 * c2))).
Proof.
move=> sV. have HK : (1%:M - (0 : 'M[C]_M) *m V) *m 1%:M = 1%:M by rewrite mul0mx subr0 mul1mx.
rewrite /ket_then reorderK /as_gtri /of_triple /= (gthen_val _ _ _ _ (trmx0 _ _ _) sV HK).
  rewrite /= (mul0mx _ V) subr0 det1 invr1 csqrt1 mulr1 /gQ trmx1 trmx0 ?(mulmx0, mul0mx, mulmx1, mul1mx, addr0, add0r) mxE mulr0.
  by rewrite Cexp_0 -C1E mulr1.
rewrite mul0mx subr0 det1 C1E Cmod_1. exact: thr_lt1.
Qed.
(** C46, formal decomposition: for every Gaussian ket and all choices of core modes, core >> t is the ket again (A, b and c exactly), and A and b of the core vanish on
    the core modes *)
Theorem C46_formal : ket_then s (formal s psi).1 (formal s psi).2 = Some psi /\ core_state s (formal s psi).1.
Proof.
rewrite /formal /=. split; last exact: core_reorder.
have H := core_then (Rm s psi)^T (An s psi) (Am s psi) 1%:M (bn s psi) (bm s psi) 0 (kc psi) 1 (trmx0 _ _ _).
rewrite trmxK trmx1 in H. rewrite H ?(mulmx0, mul0mx, addr0, mulr1, mul1mx) trmxK -blocksE reorderVK. by [].
Qed.
End Ket.

(** ** The physical decomposition *)
Section Gamma.
Variable M : nat.
Implicit Types (A v : 'M[C]_M) (d : 'I_M -> R).
Lemma diag_mul (f h : 'I_M -> C) : diag_mx (\row_j f j) *m diag_mx (\row_j h j) = diag_mx (\row_j (f j * h j)).
Proof. rewrite mulmx_diag. congr diag_mx. apply/matrixP => i j. by rewrite !mxE. Qed.
Lemma adj_diag (f : 'I_M -> R) : adj (diag_mx (\row_j RtoC (f j))) = diag_mx (\row_j RtoC (f j)).
Proof. rewrite /adj map_diag_mx tr_diag_mx. congr diag_mx. apply/matrixP => i j. rewrite !mxE. exact: conjR. Qed.
Lemma gamma_psd v d : psd (gamma v d).
Proof.
pose q := v *m diag_mx (\row_j RtoC (sqrt (sqrt (d j)))).
have -> : gamma v d = q *m adj q.
  rewrite /q adj_prod adj_diag mulmxA -(mulmxA v) diag_mul /gamma. congr (_ *m diag_mx _ *m _). apply/matrixP => i j. rewrite !mxE CmulE -RtoC_mult sqrt_sqrt //. exact: sqrt_pos.
exact: psd_gram.
Qed.
Lemma gamma_sq G v d : eigh G v d -> (forall j, Rle R0 (d j)) -> gamma v d *m gamma v d = G.
Proof.
case=> -[U1 U2] -> H. rewrite /gamma. have -> : forall D E : 'M[C]_M, v *m D *m adj v *m (v *m E *m adj v) = v *m (D *m E) *m adj v.
  move=> D E. have -> : v *m D *m adj v *m (v *m E *m adj v) = v *m D *m (adj v *m v) *m E *m adj v by rewrite !mulmxA. by rewrite U1 mulmx1 !mulmxA.
rewrite diag_mul. congr (_ *m diag_mx _ *m _). apply/matrixP => i j. by rewrite !mxE CmulE -RtoC_mult sqrt_sqrt.
Qed.
Lemma qf_conjmx A w : qf (conj A) w = qf A (conj w).
Proof.
rewrite /qf. have -> : adj w *m conj A *m w = conj (adj (conj w) *m A *m conj w).
  by rewrite !conj_mul conjmxK; congr (_ *m _ *m _); rewrite /adj conjmxK -conj_tr. by rewrite mxE.
Qed.
Lemma conj_eq0 m p (Z : 'M[C]_(m, p)) : conj Z = 0 -> Z = 0.
Proof. move=> H. by rewrite -[Z]conjmxK H map_mx0. Qed.
Lemma conj_pd A : pd A -> pd (conj A).
Proof.
case=> H P. split. { rewrite /herm -{2}H /adj. by rewrite conj_tr. }
move=> w N. rewrite qf_conjmx. apply: P => E. apply: N. exact: conj_eq0.
Qed.
Lemma Re_sum_ge (F : 'I_M -> C) : (forall i, Rle R0 (Re (F i))) -> forall j, Rle (Re (F j)) (Re (\sum_i F i)).
Proof.
move=> H j. rewrite (bigD1 j) // ReD. have : Rle R0 (Re (\sum_(i | i != j) F i)).
  apply: (big_ind (fun z : C => Rle R0 (Re z))) => [|x y Hx Hy|i _]; [exact: Rle_refl|rewrite ReD; lra|exact: H].
move: (Re (F j)) (Re _) => a b. lra.
Qed.
(** the Sylvester equation g Z + Z h = 0 with g and h positive definite has only the zero solution *)
Lemma sylvester (g h Z : 'M[C]_M) : pd g -> pd h -> g *m Z + Z *m h = 0 -> Z = 0.
Proof.
move=> Pg Ph E.
have E1 : \tr (adj Z *m g *m Z) + \tr (Z *m h *m adj Z) = 0.
  have -> : \tr (Z *m h *m adj Z) = \tr (adj Z *m (Z *m h)) by rewrite mxtrace_mulC.
  by rewrite -mulmxA -linearD /= -mulmxDr E mulmx0 mxtrace0.
have F1 j : Re ((adj Z *m g *m Z) j j) = qf g (col j Z).
  rewrite /qf. have -> : adj (col j Z) *m g *m col j Z = row j (adj Z *m g *m Z *m delta_mx j 0).
    have -> : adj (col j Z) = row j (adj Z) by rewrite /adj map_col tr_col. by rewrite colE mulmxA -!row_mul.
  by rewrite -colE !mxE.
have F2 i : Re ((Z *m h *m adj Z) i i) = qf h (adj (row i Z)).
  rewrite /qf adjKr. have -> : row i Z *m h *m adj (row i Z) = row i (Z *m h *m adj Z *m delta_mx i 0).
    rewrite -mulmxA !row_mul. have -> : adj (row i Z) = adj Z *m delta_mx i 0 by rewrite /adj map_row tr_row colE. by rewrite !mulmxA.
  by rewrite -colE !mxE.
have [Pg' _] := pd_psd Pg. have Qg := proj2 (pd_psd Pg). have Qh := proj2 (pd_psd Ph).
apply/matrixP => i j. case: (dec0 (col j Z)) => [Z0|N]; first by move/matrixP/(_ i 0): Z0; rewrite !mxE.
exfalso. have H1 := @Re_sum_ge (fun i => (adj Z *m g *m Z) i i) _ j. have H2 := @Re_sum_ge (fun i => (Z *m h *m adj Z) i i) _ j.
have K1 : forall i, Rle R0 (Re ((adj Z *m g *m Z) i i)) by move=> k; rewrite F1; exact: Qg.
have K2 : forall i, Rle R0 (Re ((Z *m h *m adj Z) i i)) by move=> k; rewrite F2; exact: Qh.
move: (H1 K1) (H2 K2). rewrite F1 F2. have := (proj2 Pg) _ N. have := Qh (adj (row j Z)). have := congr1 (@fst R R) E1. rewrite /mxtrace.
move: (\sum_i _) (\sum_i _) => x y. rewrite CaddE /Re /=. lra.
Qed.
End Gamma.

Lemma tele (V : zmodType) (x y : V) : x - y + (y - x) = 0.
Proof. by rewrite addrA subrK subrr. Qed.
Lemma invM m (Y Z : 'M[C]_m) : Y \in unitmx -> Z \in unitmx -> invmx (Y *m Z) = invmx Z *m invmx Y.
Proof.
move=> HY HZ. have U : Y *m Z \in unitmx by rewrite unitmx_mul HY HZ. have H : Y *m Z *m (invmx Z *m invmx Y) = 1%:M by rewrite mulmxA mulmxK // mulmxV.
by rewrite -[RHS](mulKmx U) H mulmx1.
Qed.
Section Abs.
Variables (M : nat) (A g : 'M[C]_M).
Hypothesis sA : A^T = A.
Hypothesis pg : pd g.
Hypothesis gg : g *m g = 1%:M - A *m conj A.
Lemma ug : g \in unitmx. Proof. exact: pd_unit. Qed.
Lemma ucg : conj g \in unitmx. Proof. by rewrite conj_unit ug. Qed.
Lemma hg : adj g = g. Proof. by case: pg. Qed.
Lemma tg : g^T = conj g. Proof. by rewrite -{1}hg /adj trmxK. Qed.
Lemma cgg : conj g *m conj g = 1%:M - conj A *m A.
Proof. have := congr1 conj gg. by rewrite map_mxB map_mx1 !conj_mul conjmxK. Qed.
(** g commutes with A up to conjugation *)
Lemma g_comm : g *m A = A *m conj g.
Proof.
apply/eqP. rewrite -subr_eq0. apply/eqP. apply: (sylvester pg (conj_pd pg)).
rewrite mulmxBr mulmxBl !mulmxA gg. have -> : A *m conj g *m conj g = A *m (conj g *m conj g) by rewrite mulmxA.
rewrite cgg mulmxBl mulmxBr mul1mx mulmx1 mulmxA. exact: tele.
Qed.
Lemma gA : conj g *m conj A = conj A *m g.
Proof. have := congr1 conj g_comm. by rewrite !conj_mul conjmxK. Qed.
Lemma U_kernel : kernel (block_mx A g g^T (- conj A)).
Proof.
apply/kernelP. split=> //; first (by rewrite linearN /= -conj_tr sA); first exact: ug.
  by rewrite hg gg map_mxN conjmxK mulNmx mulmxN opprK subrK.
by rewrite map_mxN conjmxK mulmxN g_comm subrr.
Qed.
Lemma uni_inv : conj A \in unitmx -> invmx (conj A) - A \in unitmx /\ invmx (invmx (conj A) - A) = (invmx g)^T *m conj A *m invmx g.
Proof.
move=> uA.
have E : invmx (conj A) - A = invmx (conj A) *m conj g *m conj g.
  rewrite -mulmxA cgg mulmxBr mulmx1 mulmxA mulVmx // mul1mx. by [].
have H : (invmx (conj A) - A) *m ((invmx g)^T *m conj A *m invmx g) = 1%:M.
  rewrite E trmx_inv tg. have -> : invmx (conj A) *m conj g *m conj g *m (invmx (conj g) *m conj A *m invmx g) = invmx (conj A) *m conj g *m (conj g *m invmx (conj g)) *m conj A *m invmx g by rewrite !mulmxA.
  by rewrite (mulmxV ucg) mulmx1 -(mulmxA _ _ (conj A)) gA !mulmxA mulVmx // mul1mx mulmxV // ug.
have [u _] := mulmx1_unit H. split=> //. by rewrite -[RHS](mulKmx u) H mulmx1.
Qed.
(** the input part of b that makes the transformation unitary *)
Lemma b_unitary (o i : 'cV[C]_M) : col_mx o i = - (block_mx A g g^T (- conj A) *m conj (col_mx o i)) <-> i = - (conj A *m invmx g *m o) - (invmx g)^T *m conj o.
Proof.
rewrite rel_b. have gi : invmx (conj g) *m conj A = conj A *m invmx g.
  apply: (can_inj (mulKmx ucg)). rewrite mulKVmx ?ucg // mulmxA gA -mulmxA mulmxV ?ug // mulmx1. by [].
have -> : (invmx g)^T = invmx (conj g) by rewrite trmx_inv tg.
split.
- case=> r1 _. have := congr1 conj r1. rewrite map_mxN map_mxD !conj_mul !conjmxK => E.
  have E2 : conj g *m i = - (conj A *m o) - conj o by rewrite E opprK addrA addNr add0r.
  by rewrite -[i](mulKmx ucg) E2 mulmxDr !mulmxN !mulmxA gi.
- move=> ->. have Ei : conj (- (conj A *m invmx g *m o) - invmx (conj g) *m conj o) = - (A *m invmx (conj g) *m conj o) - invmx g *m o.
    by rewrite map_mxD !map_mxN !conj_mul !conjmxK !conj_inv conjmxK.
  rewrite Ei. have gi2 : A *m invmx (conj g) = invmx g *m A.
    apply: (can_inj (mulKmx ug)). rewrite mulKVmx ?ug // mulmxA g_comm -mulmxA mulmxV ?ucg // mulmx1. by [].
  split.
  + rewrite mulmxDr !mulmxN gi2 !mulmxA mulmxV ?ug // !mul1mx. rewrite addrA subrr add0r opprK. by [].
  + rewrite mulmxDr !mulmxN !mulNmx !opprK tg. rewrite !mulmxA.
    have -> : conj A *m A *m invmx (conj g) *m conj o = invmx (conj g) *m conj o - conj g *m conj o.
      have -> : conj A *m A = 1%:M - conj g *m conj g by rewrite cgg opprB addrC subrK.
      rewrite !mulmxBl mul1mx. congr (_ - _). rewrite -(mulmxA (conj g)) mulmxV ?ucg // mulmx1. by [].
    move: (conj g *m _) (invmx _ *m _) (conj A *m _ *m _) => x y z. by rewrite addrA [x + (y - x)]addrC subrK [y + z]addrC opprD.
Qed.
(** the prefactor of U.contract(U.dual) when U has prefactor 1 *)
Definition renorm (o : 'cV[C]_M) : C := cc A (conj A) o (conj o) 1 (Cconj 1).
Lemma renorm_val (o i : 'cV[C]_M) : Rlt threshold (Cmod (\det (1%:M - A *m conj A))) ->
  exists u, then_ (Tri (block_mx A g g^T (- conj A)) (col_mx o i) 1) (dual (Tri (block_mx A g g^T (- conj A)) (col_mx o i) 1)) = Some u /\ tc u = renorm o.
Proof.
move=> Ht. rewrite dual_val (then_val U_kernel (dual_kernel U_kernel) _ _ _ _ _ _ Ht). eexists. split; first reflexivity. by [].
Qed.
Lemma then_dual_b (o i : 'cV[C]_M) c t : Rlt threshold (Cmod (\det (1%:M - A *m conj A))) ->
  then_ (Tri (block_mx A g g^T (- conj A)) (col_mx o i) c) (dual (Tri (block_mx A g g^T (- conj A)) (col_mx o i) c)) = Some t ->
  dsubmx (tb t) = i + (conj A *m invmx g *m o + (invmx g)^T *m conj o).
Proof.
move=> Ht. rewrite dual_val (then_val U_kernel (dual_kernel U_kernel) _ _ _ _ _ _ Ht) => -[<-] /=. rewrite col_mxKd /Compose.i. congr (_ + _).
rewrite mulmxDr. have ug' := ug. have uc' := ucg. congr (_ + _).
- rewrite /K -gg invM // tg mulmxA. congr (_ *m _). rewrite !mulmxA gA mulmxK //.
- rewrite /L -cgg invM // tg trmx_inv tg !mulmxA mulmxV // mul1mx. by [].
Qed.
Lemma renorm_nz o : renorm o != 0.
Proof.
rewrite /renorm /cc. have U1 : 1%:M - A *m conj A \in unitmx by rewrite -gg unitmx_mul ug.
rewrite !mulf_neq0 //; try (apply/eqP; exact: Cexp_nz).
- exact: oner_neq0.
- apply/eqP => E; have := congr1 (@fst R R) E; rewrite C1E C0E /=; lra.
- apply/eqP => E. have := csqrt_sq (\det (1%:M - A *m conj A))^-1. rewrite E -CmulE mul0r => /esym/eqP. rewrite invr_eq0 => /eqP E0. move: U1. by rewrite unitmxE unitfE E0 eqxx.
Qed.
End Abs.

Section Phys.
Variables (M n : nat) (s : {perm 'I_(M + n)}) (psi : ket (M + n)) (v : 'M[C]_M) (d : 'I_M -> R).
Hypothesis sy : symmetric psi.
Hypothesis Hv : eigh (1%:M - Am s psi *m conj (Am s psi)) v d.
Lemma neg_eig : [exists j, Rlt_dec (d j) R0 : bool] = false -> forall j, Rle R0 (d j).
Proof. move=> H j. move/existsP: H => H. apply: Rnot_lt_le => L. apply: H. exists j. by case: Rlt_dec. Qed.
Lemma eig_nn : (forall j, Rle R0 (d j)) -> [exists j, Rlt_dec (d j) R0 : bool] = false.
Proof. move=> H. apply/existsP => -[j]. case: Rlt_dec => // L. have := H j. lra. Qed.
Lemma gamma_facts : (forall j, Rle R0 (d j)) -> gamma v d \in unitmx -> pd (gamma v d) /\ gamma v d *m gamma v d = 1%:M - Am s psi *m conj (Am s psi).
Proof. move=> Hd u. split; [exact: psd_unit_pd (gamma_psd v d) u|exact: gamma_sq]. Qed.
(** C46, physical decomposition: whenever it returns finite numbers, core >> U is the ket again, A and b of the core vanish on the core modes, and A of U is that of a
    Gaussian unitary *)
Theorem C46_physical core U : physical s v d psi = Base.Ok (Some (core, U)) ->
  ket_then s core U = Some psi /\ core_state s core /\ kernel (tA U).
Proof.
rewrite /physical. case E : [exists j, _] => //. have Hd := neg_eig E. rewrite /inv. case: ifP => //= ug. case: ifP => //= uA. case: ifP => //= uB.
have [pg gg] := gamma_facts Hd ug. have sA := sym_Am s sy. have [_ EB] := uni_inv pg gg uA. rewrite EB.
move: (gamma v d) ug pg gg EB => g ug pg gg EB. rewrite /unnormalized.
case Et : then_ => [u|] // [<- <-]. split; last by split; [exact: core_reorder|exact: U_kernel].
have Nu : tc u != 0.
  move: Et. case: (Rlt_dec threshold (Cmod (\det (1%:M - Am s psi *m conj (Am s psi))))) => [Ht|Hf].
    have [u' [-> Eu]] := renorm_val sA pg gg (bm s psi) (bu_in s g psi) Ht. case=> <-. rewrite Eu. exact: renorm_nz pg gg _.
  rewrite dual_val /then_ /= !block_mxKul !block_mxKdr. case: Rlt_dec => // Hc. case: Hf. move: Hc.
  by rewrite -det_M CmulE Cmod_mult Cmod_sgn Rmult_1_l.
have Nq : csqrt (tc u) != 0 by apply/eqP => E0; move: Nu; rewrite -(csqrt_sq (tc u)) E0 -CmulE mul0r eqxx.
rewrite /tdiv /=. have sV : (- conj (Am s psi))^T = - conj (Am s psi) by rewrite linearN /= -conj_tr sA.
have H := core_then s (invmx g *m (Rm s psi)^T) (An s psi + Rm s psi *m ((invmx g)^T *m conj (Am s psi) *m invmx g) *m (Rm s psi)^T) (Am s psi) g
  (bn s psi - Rm s psi *m (invmx g)^T *m bu_in s g psi) (bm s psi) (bu_in s g psi) (kc psi / (1 / csqrt (tc u))) (1 / csqrt (tc u)) sV.
rewrite trmx_mul trmxK in H. rewrite H mulKVmx // trmxK subrK mulfVK; last by rewrite div1r invr_eq0.
by rewrite !mulmxN !mulmxA !mulNmx addrK -blocksE // reorderVK.
Qed.
(** it returns finite numbers when A is invertible on the core modes, the eigenvalues of 1 - A conj(A) are positive and their product is above the threshold *)
Theorem C46_physical_returns : Am s psi \in unitmx -> (forall j, Rlt R0 (d j)) -> Rlt threshold (Cmod (\det (1%:M - Am s psi *m conj (Am s psi)))) ->
  exists core U, physical s v d psi = Base.Ok (Some (core, U)).
Proof.
move=> uA Hp Ht. have Hd j : Rle R0 (d j) by apply: Rlt_le. have ug : gamma v d \in unitmx.
  case: Hv => -[_ U2] _. have [u1 u2] := mulmx1_unit U2. rewrite /gamma !unitmx_mul u1 u2 andbT /= unitmxE det_diag unitfE. apply/prodf_neq0 => j _. rewrite mxE.
  apply/eqP => /(congr1 (@fst R R)) /= E. have := sqrt_lt_R0 _ (Hp j). rewrite E. exact: Rlt_irrefl.
have [pg gg] := gamma_facts Hd ug. have sA := sym_Am s sy. have uA' : conj (Am s psi) \in unitmx by rewrite conj_unit.
have [uB _] := uni_inv pg gg uA'. have [u [E _]] := renorm_val sA pg gg (bm s psi) (bu_in s (gamma v d) psi) Ht.
rewrite /physical (eig_nn Hd) /inv ug uA' /= uB /unnormalized E. by eexists; eexists.
Qed.
(** it raises LinAlgError whenever A is singular on the core modes (vacuum, two-mode squeezed vacuum, ...) *)
Theorem C46_physical_singular : (forall j, Rlt R0 (d j)) -> Am s psi \notin unitmx -> physical s v d psi = Base.Err Base.LinAlgError.
Proof.
move=> Hp /negbTE uA. have Hd j : Rle R0 (d j) by apply: Rlt_le. rewrite /physical (eig_nn Hd) /inv conj_unit uA /=. by case: ifP.
Qed.
(** the transformation is a Gaussian unitary exactly when the code's b agrees with the formula in which the inverse of gamma and its transpose are exchanged *)
Theorem C46_physical_unitary core U : physical s v d psi = Base.Ok (Some (core, U)) ->
  unitary_triple U <-> bu_in s (gamma v d) psi = - (conj (Am s psi) *m invmx (gamma v d) *m bm s psi) - (invmx (gamma v d))^T *m conj (bm s psi).
Proof.
rewrite /physical. case E : [exists j, _] => //. have Hd := neg_eig E. rewrite /inv. case: ifP => //= ug. case: ifP => //= uA. case: ifP => //= uB.
have [pg gg] := gamma_facts Hd ug. have sA := sym_Am s sy. move: (gamma v d) ug pg gg => g ug pg gg. rewrite /unnormalized.
case Et : then_ => [u|] // [_ <-]. rewrite -(b_unitary pg gg). split; first by case=> _ [].
move=> r. have k := U_kernel sA pg gg. pose x := Rmult (Cmod (\det g)) (exp (Re (((bm s psi)^T *m invmx g^T *m bu_in s g psi) 0 0))).
have x0 : Rlt R0 x.
  apply: Rmult_lt_0_compat; last exact: exp_pos. apply: (proj1 (Cmod_gt_0 _)) => E0; move: ug; by rewrite unitmxE unitfE E0 eqxx.
have Ht : Rlt threshold (Cmod (\det (1%:M - Am s psi *m conj (Am s psi)))).
  move: Et. rewrite dual_val /then_ /= !block_mxKul !block_mxKdr. case: Rlt_dec => // Hc _. move: Hc.
  by rewrite -det_M CmulE Cmod_mult Cmod_sgn Rmult_1_l.
have m : RtoC (sqrt x) * Cconj (RtoC (sqrt x)) = RtoC x by rewrite conjR CmulE -RtoC_mult sqrt_sqrt //; apply: Rlt_le.
have c1 := inv_c k (proj1 (rel_b _ _ _ _ _) r) m.
have [u' [Eu Ec]] := renorm_val sA pg gg (bm s psi) (bu_in s g psi) Ht. rewrite Eu in Et. case: Et => <-.
have K1 : Cconj 1 = 1 by rewrite C1E conjR.
have Er : RtoC x * renorm (Am s psi) (bm s psi) = 1 by rewrite -c1 /renorm /cc -m K1 !mul1r !mulrA.
have En : renorm (Am s psi) (bm s psi) = RtoC (Rinv x).
  have Nx : RtoC x != 0 by apply/eqP => /(congr1 (@fst R R)) /= E0; move: x0; rewrite E0; exact: Rlt_irrefl.
  apply: (mulfI Nx). rewrite Er CmulE -RtoC_mult Rinv_r //. exact: Rgt_not_eq.
split=> //=. split=> //. rewrite block_mxKur col_mxKu col_mxKd -/x Ec En csqrt_R; last exact/Rlt_le/Rinv_0_lt_compat.
have s0 : Rlt R0 (sqrt (Rinv x)) by apply: sqrt_lt_R0; exact: Rinv_0_lt_compat.
rewrite div1r CinvE -RtoC_inv; last exact: Rgt_not_eq.
rewrite conjR CmulE -RtoC_mult -Rinv_mult_distr; try exact: Rgt_not_eq. rewrite sqrt_sqrt; last exact/Rlt_le/Rinv_0_lt_compat.
by rewrite Rinv_involutive //; exact: Rgt_not_eq.
Qed.
(** in particular for one core mode, for a real gamma, and when b vanishes on the core modes *)
Theorem C46_physical_unitary_cases core U : physical s v d psi = Base.Ok (Some (core, U)) -> M = 1%N \/ real (gamma v d) \/ bm s psi = 0 -> unitary_triple U.
Proof.
move=> E H. apply/(C46_physical_unitary E). rewrite /bu_in. case: H => [H|[H|->]]; last by rewrite map_mx0 !mulmx0.
- have -> : (invmx (gamma v d))^T = invmx (gamma v d). { move: (invmx _). clear -H. subst M. move=> Z. apply/matrixP => i j. by rewrite mxE !ord1. } by [].
- have -> : (invmx (gamma v d))^T = invmx (gamma v d); last by []. rewrite trmx_inv. congr invmx.
  have [Hg _] := gamma_psd v d. by rewrite -{2}Hg /adj H.
Qed.
End Phys.

(** ** Examples *)
Lemma reorder1 N (k : ket N) : reorder 1%g k = k.
Proof. case: k => A b c. rewrite /reorder /=. congr Ket; apply/matrixP => i j; by rewrite !mxE !perm1. Qed.
Lemma diag2 (a b : R) : diag_mx (\row_j RtoC (match split (j : 'I_(1 + 1)) with inl _ => a | inr _ => b end)) = block_mx (RtoC a)%:M 0 0 (RtoC b)%:M.
Proof.
have -> : \row_j RtoC (match split (j : 'I_(1 + 1)) with inl _ => a | inr _ => b end) = row_mx (const_mx (RtoC a)) (const_mx (RtoC b)).
  apply/matrixP => i j. rewrite !mxE. case: splitP => k _; by rewrite mxE.
by rewrite diag_mx_row !diag_const_mx.
Qed.
Section Ex.
Variable n : nat.
(** a ket with two core modes and A = u diag(4/5, 3/5) u^T on them, u = [[1, i], [i, 1]] / sqrt 2, displaced in the first one *)
Definition exA : 'M[C]_(1 + 1) := block_mx (RtoC (1 / 10)%coqR)%:M ((0, 7 / 10)%coqR : C)%:M ((0, 7 / 10)%coqR : C)%:M (RtoC (- (1 / 10))%coqR)%:M.
Definition exo : 'cV[C]_(1 + 1) := col_mx 1%:M 0.
Definition expsi : ket (1 + 1 + n) := Ket (block_mx exA 0 0 0) (col_mx exo 0) 1.
Definition exv : 'M[C]_(1 + 1) := rr *: block_mx 1%:M Ci%:M Ci%:M 1%:M.
Definition exd (a b : R) : 'I_(1 + 1) -> R := fun j => match split j with inl _ => a | inr _ => b end.
Lemma exv_adj : adj exv = rr *: block_mx 1%:M (- Ci)%:M (- Ci)%:M 1%:M.
Proof. rewrite /exv adjZ conj_rr adj_block !adj1. congr (_ *: block_mx _ _ _ _); by rewrite /adj map_scalar_mx tr_scalar_mx /= conjI. Qed.
Lemma pairD (a b c e : R) : ((a, b) : C) + (c, e) = (Rplus a c, Rplus b e). Proof. by []. Qed.
Lemma pairM (a b c e : R) : ((a, b) : C) * (c, e) = ((a * c - b * e)%coqR, (a * e + b * c)%coqR). Proof. by []. Qed.
Lemma pairN (a b : R) : - ((a, b) : C) = (Ropp a, Ropp b). Proof. by []. Qed.
Lemma pair1 : (1 : C) = (R1, R0). Proof. by []. Qed.
Lemma pair0 : (0 : C) = (R0, R0). Proof. by []. Qed.
Lemma pairI : Ci = (R0, R1). Proof. by []. Qed.
Lemma pairR x : RtoC x = (x, R0). Proof. by []. Qed.
Lemma exv_unitary : unitary exv.
Proof.
have H : exv *m adj exv = 1%:M.
  rewrite exv_adj /exv -scalemxAl -scalemxAr scalerA rr2 mulmx_block -!scalar_mxM -!raddfD /= scale_block_mx !scale_scalar_mx scalar_mx_block.
  have Z0 : (0 : 'M[C]_1) = 0%:M by rewrite raddf0. rewrite Z0. congr block_mx; congr scalar_mx; rewrite /half ?(pair1, pair0, pairI, pairR, pairN, pairM, pairD); rewrite /=; congr pair; field.
split=> //. exact: mulmx1C.
Qed.
Lemma ex_sim (a b : R) : exv *m diag_mx (\row_j RtoC (exd a b j)) *m adj exv =
  block_mx (RtoC ((a + b) / 2)%coqR)%:M ((0, (b - a) / 2)%coqR : C)%:M ((0, (a - b) / 2)%coqR : C)%:M (RtoC ((a + b) / 2)%coqR)%:M.
Proof.
rewrite /exd diag2 exv_adj /exv -!scalemxAl -scalemxAr scalerA rr2 !mulmx_block !mulmx0 !addr0 !add0r -!scalar_mxM -!raddfD /= scale_block_mx !scale_scalar_mx.
congr block_mx; congr scalar_mx; rewrite /half ?(pair1, pair0, pairI, pairR, pairN, pairM, pairD); rewrite /=; congr pair; field.
Qed.

Definition exg : 'M[C]_(1 + 1) := block_mx (RtoC (7 / 10)%coqR)%:M ((0, 1 / 10)%coqR : C)%:M ((0, - (1 / 10))%coqR : C)%:M (RtoC (7 / 10)%coqR)%:M.
Definition exgi : 'M[C]_(1 + 1) := block_mx (RtoC (35 / 24)%coqR)%:M ((0, - (5 / 24))%coqR : C)%:M ((0, 5 / 24)%coqR : C)%:M (RtoC (35 / 24)%coqR)%:M.
Lemma sqrt_sq (a b : R) : Rle R0 b -> Rmult b b = a -> sqrt a = b.
Proof. move=> H <-. exact: sqrt_square. Qed.
Lemma ex_gamma : gamma exv (exd (9 / 25)%coqR (16 / 25)%coqR) = exg.
Proof.
rewrite /gamma. have -> : \row_j RtoC (sqrt (exd (9 / 25)%coqR (16 / 25)%coqR j)) = \row_j RtoC (exd (3 / 5)%coqR (4 / 5)%coqR j).
  apply/matrixP => i j. rewrite !mxE /exd. congr RtoC. case: (split j) => _; apply: sqrt_sq; lra.
rewrite ex_sim /exg. congr block_mx; congr scalar_mx; congr pair; field.
Qed.
Lemma ex_gi : exg *m exgi = 1%:M.
Proof.
rewrite /exg /exgi mulmx_block -!scalar_mxM -!raddfD /= scalar_mx_block. have Z0 : (0 : 'M[C]_1) = 0%:M by rewrite raddf0. rewrite Z0.
congr block_mx; congr scalar_mx; rewrite ?(pair1, pair0, pairI, pairR, pairN, pairM, pairD); rewrite /=; congr pair; field.
Qed.
Lemma ex_inv : invmx exg = exgi.
Proof. have [u _] := mulmx1_unit ex_gi. by rewrite -[RHS](mulKmx u) ex_gi mulmx1. Qed.
Lemma exAm : Am 1%g expsi = exA. Proof. by rewrite /Am reorder1 /= block_mxKul. Qed.
Lemma exbm : bm 1%g expsi = exo. Proof. by rewrite /bm reorder1 /= col_mxKu. Qed.
Lemma ex_conjA : conj exA = block_mx (RtoC (1 / 10)%coqR)%:M ((0, - (7 / 10))%coqR : C)%:M ((0, - (7 / 10))%coqR : C)%:M (RtoC (- (1 / 10))%coqR)%:M.
Proof. rewrite /exA map_block_mx !map_scalar_mx /=. congr block_mx; congr scalar_mx; rewrite /Cconj /=; congr pair; ring. Qed.
Lemma ex_eigh : eigh (1%:M - Am 1%g expsi *m conj (Am 1%g expsi)) exv (exd (9 / 25)%coqR (16 / 25)%coqR).
Proof.
split; first exact: exv_unitary. rewrite ex_sim exAm ex_conjA /exA mulmx_block -!scalar_mxM -!raddfD /= scalar_mx_block. have Z0 : (0 : 'M[C]_1) = 0%:M by rewrite raddf0.
rewrite Z0 opp_block_mx add_block_mx -!raddfN -!raddfD /=.
congr block_mx; congr scalar_mx; rewrite ?(pair1, pair0, pairI, pairR, pairN, pairM, pairD); rewrite /=; congr pair; field.
Qed.
Lemma ex_sym : symmetric expsi.
Proof. rewrite /symmetric /= tr_block_mx !trmx0. congr block_mx. by rewrite /exA tr_block_mx !tr_scalar_mx. Qed.
Lemma ex_unit : exA \in unitmx.
Proof.
have H : exA *m (RtoC (- (25 / 12))%coqR *: exA) = 1%:M; last by case/mulmx1_unit: H.
rewrite /exA scale_block_mx !scale_scalar_mx mulmx_block -!scalar_mxM -!raddfD /= scalar_mx_block. have Z0 : (0 : 'M[C]_1) = 0%:M by rewrite raddf0. rewrite Z0.
congr block_mx; congr scalar_mx; rewrite ?(pair1, pair0, pairI, pairR, pairN, pairM, pairD); rewrite /=; congr pair; field.
Qed.
Lemma ex_det : Cmod (\det (1%:M - Am 1%g expsi *m conj (Am 1%g expsi))) = (144 / 625)%coqR.
Proof.
case: ex_eigh => -[_ U] ->. rewrite !det_mulmx mulrAC -det_mulmx U det1 mul1r /exd diag2 det_ublock !det_scalar !expr1 CmulE -RtoC_mult Cmod_R Rabs_pos_eq; [field|lra].
Qed.
Lemma thr_small x : Rlt (IZR 1 / IZR 1000)%coqR x -> Rlt threshold x.
Proof.
move=> H. apply: Rlt_trans H. rewrite /threshold. have -> : (1 / 1000 = / 10 ^ 3)%coqR by field.
apply: Rinv_lt_contravar; last by apply: Rlt_pow; [lra|]; apply/ltP. apply: Rmult_lt_0_compat; apply: pow_lt; lra.
Qed.
(** The decomposition of this ket reconstructs it, but its transformation is not unitary: U >> U.dual is not the identity *)
Theorem C46_physical_unitary_refuted : symmetric expsi /\ eigh (1%:M - Am 1%g expsi *m conj (Am 1%g expsi)) exv (exd (9 / 25)%coqR (16 / 25)%coqR) /\
  exists core U, physical 1%g exv (exd (9 / 25)%coqR (16 / 25)%coqR) expsi = Base.Ok (Some (core, U)) /\ ket_then 1%g core U = Some expsi /\ core_state 1%g core /\
    ~ unitary_triple U /\ forall t, then_ U (dual U) = Some t -> tb t <> 0.
Proof.
have sy := ex_sym. have He := ex_eigh. split=> //. split=> //.
have uA : Am 1%g expsi \in unitmx by rewrite exAm ex_unit.
have Hp j : Rlt R0 (exd (9 / 25)%coqR (16 / 25)%coqR j) by rewrite /exd; case: (split j) => _; lra.
have Ht : Rlt threshold (Cmod (\det (1%:M - Am 1%g expsi *m conj (Am 1%g expsi)))) by rewrite ex_det; apply: thr_small; lra.
have [core [U E]] := C46_physical_returns sy He uA Hp Ht. exists core, U. have [H1 [H2 H3]] := C46_physical sy He E.
do 3 (split=> //).
have D : bu_in 1%g exg expsi + (conj (Am 1%g expsi) *m invmx exg *m bm 1%g expsi + (invmx exg)^T *m conj (bm 1%g expsi)) <> 0.
  rewrite /bu_in exAm exbm ex_inv ex_conjA /exo /exgi tr_block_mx !tr_scalar_mx map_col_mx map_scalar_mx map_mx0 /= !mulmx_block !mul_block_col !mulmx0 !addr0 -!scalar_mxM -!raddfD /=.
  rewrite -?scalar_mxM ?mulmx1 !add_col_mx opp_col_mx add_col_mx -[0]col_mx0 => /eq_col_mx [H _]. move/matrixP/(_ 0 0): H. rewrite !mxE /= => /(congr1 (@fst R R)).
  rewrite /Cconj /RtoC /=. rewrite ?(pair1, pair0, pairI, pairR, pairN, pairM, pairD) /=. lra.
have D2 : bu_in 1%g (gamma exv (exd (9 / 25)%coqR (16 / 25)%coqR)) expsi <> - (conj (Am 1%g expsi) *m invmx (gamma exv (exd (9 / 25)%coqR (16 / 25)%coqR)) *m bm 1%g expsi) - (invmx (gamma exv (exd (9 / 25)%coqR (16 / 25)%coqR)))^T *m conj (bm 1%g expsi).
  rewrite ex_gamma => E0. apply: D. by rewrite E0 -opprD addNr.
split; first by move/(C46_physical_unitary sy He E).
move=> t. move: E. rewrite /physical. case: ifP => // EX. have Hd := neg_eig (negbTE (negbT EX)). rewrite /inv. case: ifP => //= ug. case: ifP => //= uA'. case: ifP => //= uB.
have [pg gg] := gamma_facts He Hd ug. rewrite /unnormalized. case Et : (then_ (Tri _ _ 1) _) => [u|] // [_ <-]. rewrite /tdiv /= => /(then_dual_b (sym_Am 1%g sy) pg gg Ht) E1 E0.
move: E1. rewrite E0 -[0]col_mx0 col_mxKd ex_gamma => E1. by apply: D.
Qed.
End Ex.

(** the two-mode squeezed vacuum (any squeezing), core mode 0: A vanishes on the core mode *)
Definition tmsv (t c : C) : ket (1 + 1) := Ket (block_mx 0 t%:M t%:M 0) 0 c.
Theorem C46_physical_refuted : forall t c (v : 'M[C]_1) d, eigh (1%:M - Am 1%g (tmsv t c) *m conj (Am 1%g (tmsv t c))) v d ->
  symmetric (tmsv t c) /\ physical 1%g v d (tmsv t c) = Base.Err Base.LinAlgError.
Proof.
move=> t c v d H. have E : Am 1%g (tmsv t c) = 0 by rewrite /Am reorder1 /= block_mxKul.
split; first by rewrite /symmetric /= tr_block_mx !trmx0 tr_scalar_mx.
apply: C46_physical_singular; last by rewrite E unitmxE det0 unitr0.
move: H. rewrite E mul0mx subr0 => -[[U1 U2] E1] j.
have E2 : diag_mx (\row_j0 RtoC (d j0)) = 1%:M.
  have := congr1 (fun Z => adj v *m Z *m v) E1. rewrite mulmx1 U1 -!mulmxA U1 mulmx1 mulmxA U1 mul1mx => <-. by [].
move/matrixP/(_ j j): E2. rewrite !mxE eqxx mulr1n mulr1n => /(congr1 (@fst R R)). rewrite /= => ->. exact: Rlt_0_1.
Qed.
(** non-trivial cases of the positive theorems: core mode 1 of the two-mode squeezed vacuum (formal), and a squeezed state entangled with another mode (physical) *)
Definition swap01 : {perm 'I_(1 + 1)} := tperm (lshift 1 0) (rshift 1 0).
Theorem C46_formal_example t c : let '(core, T) := formal swap01 (tmsv t c) in
  ket_then swap01 core T = Some (tmsv t c) /\ kA core (lshift 1 0) (rshift 1 0) = t /\ tb T = 0.
Proof.
have S1 : symmetric (tmsv t c) by rewrite /symmetric /= tr_block_mx !trmx0 tr_scalar_mx.
have [H _] := C46_formal swap01 S1. split; first exact: H. split; last first.
  rewrite /= -[RHS]col_mx0. congr col_mx. apply/matrixP => i j. by rewrite !mxE.
have E : Rm swap01 (tmsv t c) = t%:M.
  apply/matrixP => i j. rewrite !ord1 !mxE /swap01 tpermR tpermL. rewrite (unsplitK (inl (0 : 'I_1))) mxE (unsplitK (inr (0 : 'I_1))). by rewrite mxE.
rewrite /= E tr_scalar_mx !mxE. have -> : (swap01^-1)%g = swap01 by rewrite /swap01 tpermV.
rewrite /swap01 tpermL tpermR (unsplitK (inr (0 : 'I_1))) mxE (unsplitK (inl (0 : 'I_1))) mxE eqxx mulr1n. by [].
Qed.
Definition exk : ket (1 + 1) := Ket (block_mx (RtoC (4 / 5)%coqR)%:M half%:M half%:M 0) (col_mx 1%:M 1%:M) 1.
Theorem C46_physical_example : exists core U, physical 1%g 1%:M (fun _ => (9 / 25)%coqR) exk = Base.Ok (Some (core, U)) /\
  ket_then 1%g core U = Some exk /\ core_state 1%g core /\ unitary_triple U.
Proof.
have sy : symmetric exk by rewrite /symmetric /= tr_block_mx !tr_scalar_mx trmx0.
have EA : Am 1%g exk = (RtoC (4 / 5)%coqR)%:M by rewrite /Am reorder1 /= block_mxKul.
have EM : 1%:M - Am 1%g exk *m conj (Am 1%g exk) = (RtoC (9 / 25)%coqR)%:M.
  rewrite EA map_scalar_mx /= conjR -scalar_mxM -raddfN -raddfD /=. congr scalar_mx. rewrite ?(pair1, pairR, pairM, pairN, pairD) /=. congr pair; field.
have He : eigh (1%:M - Am 1%g exk *m conj (Am 1%g exk)) 1%:M (fun _ => (9 / 25)%coqR).
  rewrite EM. split; first by rewrite /unitary adj1 mulmx1. rewrite adj1 mul1mx mulmx1. have -> : \row__ RtoC (9 / 25)%coqR = const_mx (RtoC (9 / 25)%coqR) :> 'rV[C]_1 by apply/matrixP => i j; rewrite !mxE.
  by rewrite diag_const_mx.
have uA : Am 1%g exk \in unitmx.
  rewrite EA unitmxE det_scalar expr1 unitfE. apply/eqP => /(congr1 (@fst R R)) /=. lra.
have Ht : Rlt threshold (Cmod (\det (1%:M - Am 1%g exk *m conj (Am 1%g exk)))).
  rewrite EM det_scalar expr1 Cmod_R Rabs_pos_eq; [apply: thr_small|]; lra.
have [|core [U E]] := C46_physical_returns sy He uA _ Ht; first by move=> j; lra.
exists core, U. have [H1 [H2 _]] := C46_physical sy He E. do 3 (split=> //). apply: (C46_physical_unitary_cases sy He E). by left.
Qed.

(** ** Density matrices: dm.py:445-522.  The triple of a DM on M + n modes has (M + M) + (n + n) variables; new_order lists the core variables (bra, ket), then the others *)
From Verif Require Import Channels.
(** rho >> phi for a Map phi on the core modes, whose triple is in the library's order (out bra, in bra, out ket, in ket) *)
Definition dm_then M n (s : {perm 'I_((M + M) + (n + n))}) (rho : ket ((M + M) + (n + n))) (t : ctri M M) : option (ket ((M + M) + (n + n))) :=
  omap (fun g => reorder (s^-1)%g (of_gtri g)) (gthen (as_gtri (reorder s rho)) (grp t)).
(** dm.py:474-522: R = A[:2M, 2M:]; the map is built in the order (out bra, out ket, in bra, in ket) and its axes are exchanged by reshape (2, 2, M) and einsum ijk -> jik *)
Definition dm_formal M n (s : {perm 'I_((M + M) + (n + n))}) (rho : ket ((M + M) + (n + n))) : ket ((M + M) + (n + n)) * ctri M M :=
  let A := kA (reorder s rho) in let b := kb (reorder s rho) in let r := ursubmx A in
  (reorder (s^-1)%g (Ket (block_mx 0 r r^T (drsubmx A)) (col_mx 0 (dsubmx b)) (kc rho)),
   CTri (ungroup (block_mx (ulsubmx A) 1%:M 1%:M 0)) (ungroupv (col_mx (usubmx b) 0)) 1).
(** C46, density matrices, formal decomposition *)
Theorem C46_dm_formal M n (s : {perm 'I_((M + M) + (n + n))}) (rho : ket ((M + M) + (n + n))) : symmetric rho ->
  dm_then s (dm_formal s rho).1 (dm_formal s rho).2 = Some rho /\ core_state s (dm_formal s rho).1.
Proof.
move=> sy. have [H _] := C46_formal s sy. split; last exact: core_reorder.
rewrite /dm_then /grp /= group_ungroup. have -> : groupv (ungroupv (col_mx (usubmx (kb (reorder s rho))) (0 : 'cV[C]_(M + M)))) = col_mx (usubmx (kb (reorder s rho))) 0.
  by rewrite /groupv /ungroupv ?(col_mxKu, col_mxKd) ?vsubmxK.
have Er : ursubmx (kA (reorder s rho)) = (Rm s rho)^T by rewrite /Rm trmx_dlsub (reorder_sym s sy).
rewrite Er trmxK. exact: H.
Qed.
