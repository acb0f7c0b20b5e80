(** Bargmann triples of Gaussian unitaries and their symplectic matrices: claim C44 (unitaries) and C43 (gates given by their triples).
    Model of mrmustard/physics/bargmann_utils.py:109-173 (au2Symplectic, symplectic2Au) and of Unitary.symplectic / Unitary.from_symplectic
    (mrmustard/lab/transformations/base.py:222-290).  One batch element, exact arithmetic. *)
From Coq Require Import Reals Lra.
From Coquelicot Require Import Complex.
From mathcomp Require Import all_ssreflect all_algebra.
From Verif Require Import CMat Optimizer GateSym.
Require Verif.Base.
Set Implicit Arguments. Unset Strict Implicit. Unset Printing Implicit Defensive.
Import GRing.Theory.
Local Open Scope ring_scope.

(** math.conj *)
Notation conj := (map_mx Cconj).
(** math.inv: numpy raises LinAlgError on a singular matrix *)
Definition inv n (A : 'M[C]_n) : Base.result 'M[C]_n := if A \in unitmx then Base.Ok (invmx A) else Base.Err Base.LinAlgError.
Definition rr : C := RtoC (sqrt (Rinv (IZR 2))).
(** backend_manager.py:1619-1624 *)
Definition rotmat n : 'M[C]_(n + n) := rr *: block_mx 1%:M (Ci *: 1%:M) 1%:M (- Ci *: 1%:M).
(** bargmann_utils.py:150-173; math.solve(S_1, S_2) is inv(S_1) S_2 *)
Definition symplectic2Au n (S : 'M[C]_(n + n)) : Base.result 'M[C]_(n + n) :=
  let Sc := rotmat n *m S *m adj (rotmat n) in
  let S1 := ulsubmx Sc in let S2 := ursubmx Sc in
  Base.bind (inv S1) (fun V => Base.bind (inv S1^T) (fun VT =>
  Base.Ok (block_mx (S2 *m conj V) (conj VT) (conj VT)^T (- conj (V *m S2))))).
(** bargmann_utils.py:109-147 *)
Definition au2Symplectic n (A : 'M[C]_(n + n)) : Base.result 'M[C]_(n + n) :=
  let u2 := ursubmx A in let u3 := drsubmx A in
  Base.bind (inv u2^T) (fun V =>
  let S1 := conj V in let S2 := - conj (V *m u3) in
  let T := rr *: block_mx 1%:M 1%:M (- Ci *: 1%:M) (Ci *: 1%:M) in
  Base.Ok (re_mx (T *m block_mx S1 S2 (conj S2) (conj S1) *m adj T))).

(** ** lemmas *)
Lemma conj_mul n m p (A : 'M[C]_(n, m)) (B : 'M[C]_(m, p)) : conj (A *m B) = conj A *m conj B.
Proof. exact: map_mxM. Qed.
Lemma conjmxK n m (A : 'M[C]_(n, m)) : conj (conj A) = A.
Proof. apply/matrixP => i j. by rewrite !mxE CconjK. Qed.
Lemma conj_inv n (A : 'M[C]_n) : conj (invmx A) = invmx (conj A).
Proof. exact: map_invmx. Qed.
Lemma conj_unit n (A : 'M[C]_n) : (conj A \in unitmx) = (A \in unitmx).
Proof. exact: map_unitmx. Qed.
Lemma conj_tr n m (A : 'M[C]_(n, m)) : conj A^T = (conj A)^T.
Proof. by rewrite map_trmx. Qed.
Lemma re_of_real n m (A : 'M[C]_(n, m)) : real A -> re_mx A = A.
Proof.
move=> H. apply/matrixP => i j. rewrite !mxE. have := congr1 (fun M : 'M[C]_(n, m) => M i j) H. rewrite mxE.
case: (A i j) => x y. rewrite /Cconj /RtoC /= => -[Hy]. congr pair. lra.
Qed.
Lemma rr2 : rr * rr = half.
Proof. rewrite CmulE /rr /half -RtoC_mult. congr RtoC. apply: sqrt_sqrt. lra. Qed.
Lemma conj_rr : Cconj rr = rr. Proof. exact: conjR. Qed.
Lemma half1 : half + half = 1.
Proof. rewrite CaddE /half -RtoC_plus C1E. congr RtoC. field. Qed.
Lemma conjI : Cconj Ci = - Ci.
Proof. rewrite CoppE /Cconj /Copp /Ci /=. congr pair; ring. Qed.
Lemma adj_rotmat n : adj (rotmat n) = rr *: block_mx 1%:M 1%:M (- Ci *: 1%:M) (Ci *: 1%:M).
Proof.
rewrite /adj /rotmat map_mxZ /= conj_rr linearZ /= map_block_mx !map_mx1 !map_mxZ !map_mx1 /= rmorphN /= conjI opprK tr_block_mx !trmx1 !linearZ /= !trmx1. by [].
Qed.
Lemma rot_unitary n : unitary (rotmat n).
Proof.
have H : adj (rotmat n) *m rotmat n = 1%:M.
  rewrite adj_rotmat /rotmat -scalemxAl -scalemxAr scalerA rr2 !scalemx1 mulmx_block -!scalar_mxM -!raddfD /=.
  rewrite scale_block_mx !scale_scalar_mx !mulNr !mulrN !mul1r !mulr1 CiCi !opprK !addrN !addNr !mulr0 mulrDr mulr1 half1. by rewrite [RHS]scalar_mx_block raddf0.
split=> //. exact: mulmx1C.
Qed.
Lemma JE n : J n = block_mx (0%:M) (1%:M) ((-1)%:M) (0%:M).
Proof. by rewrite /J raddf0 raddfN. Qed.
Lemma rot_J n : rotmat n *m J n *m (rotmat n)^T = - Ci *: J n.
Proof.
rewrite /rotmat JE linearZ /= -!scalemxAl -scalemxAr scalerA rr2 !scalemx1 tr_block_mx !tr_scalar_mx.
rewrite !mulmx_block -!scalar_mxM -!raddfD /= -!scalar_mxM -!raddfD !scale_block_mx !scale_scalar_mx !(mulr0, mulr1, add0r, addr0, mulrN, mul1r, mulNr, opprK, CiCi, addNr, addrN).
have E : half * (Ci + Ci) = Ci by rewrite mulrDr -mulrDl half1 mul1r.
congr block_mx; congr (_%:M). by rewrite -opprD mulrN E. exact: E.
Qed.
Definition X n : 'M[C]_(n + n) := block_mx 0 1%:M 1%:M 0.
Lemma XX n : X n *m X n = 1%:M.
Proof. by rewrite /X mulmx_block !mul0mx !mulmx0 !mulmx1 ?addr0 ?add0r [RHS]scalar_mx_block. Qed.
Lemma conj_rot n : conj (rotmat n) = X n *m rotmat n.
Proof.
rewrite /rotmat map_mxZ /= conj_rr -scalemxAr map_block_mx !map_mx1 !map_mxZ !map_mx1 /= rmorphN /= conjI opprK /X mulmx_block.
by rewrite !mul0mx !mul1mx !add0r !addr0.
Qed.
Lemma XT n : (X n)^T = X n.
Proof. by rewrite /X tr_block_mx !trmx0 !trmx1. Qed.
Lemma conj_adj_rot n : conj (adj (rotmat n)) = adj (rotmat n) *m X n.
Proof. by rewrite /adj conj_tr conjmxK conj_rot trmx_mul XT -mulmxA XX mulmx1. Qed.
(** the shape of a real matrix in the complex basis *)
Lemma cshape n (S : 'M[C]_(n + n)) : real S -> let Sc := rotmat n *m S *m adj (rotmat n) in
  Sc = block_mx (ulsubmx Sc) (ursubmx Sc) (conj (ursubmx Sc)) (conj (ulsubmx Sc)).
Proof.
move=> HR Sc. have E : conj Sc = X n *m Sc *m X n by rewrite /Sc !conj_mul conj_rot HR conj_adj_rot !mulmxA.
move: E. rewrite -{1 2}(submxK Sc). move: (ulsubmx Sc) (ursubmx Sc) (dlsubmx Sc) (drsubmx Sc) (submxK Sc) => a b c d ESc.
rewrite map_block_mx /X !mulmx_block !mul0mx !mulmx0 !mulmx1 !mul1mx !add0r !addr0 => /eq_block_mx [Ea Eb _ _]. by rewrite -ESc Ea Eb.
Qed.
Lemma cshape_ex n (S : 'M[C]_(n + n)) : real S -> exists a b : 'M[C]_n, rotmat n *m S *m adj (rotmat n) = block_mx a b (conj b) (conj a).
Proof. move=> H. do 2 eexists. exact: cshape H. Qed.
Lemma csymp n (S : 'M[C]_(n + n)) : symplectic S -> let Sc := rotmat n *m S *m adj (rotmat n) in Sc *m J n *m Sc^T = J n.
Proof.
case=> _ H. have [U1 U2] := rot_unitary n. have RJ := rot_J n. move: (rotmat n) U1 U2 RJ => R U1 U2 RJ Sc.
have U3 : R^T *m conj R = 1%:M by move: (congr1 trmx U1); rewrite trmx_mul /adj trmxK trmx1.
have E : adj R *m J n *m conj R = Ci *: J n.
  have := congr1 (fun M => Ci *: (adj R *m M *m conj R)) RJ. rewrite !mulmxA U1 mul1mx -mulmxA U3 mulmx1 => ->.
  by rewrite -scalemxAr -scalemxAl scalerA mulrN CiCi opprK scale1r.
have ET : Sc^T = conj R *m S^T *m R^T by rewrite /Sc !trmx_mul /adj trmxK !mulmxA.
have -> : Sc *m J n *m Sc^T = R *m S *m (adj R *m J n *m conj R) *m S^T *m R^T by rewrite ET /Sc !mulmxA.
have -> : R *m S *m (adj R *m J n *m conj R) *m S^T *m R^T = Ci *: (R *m (S *m J n *m S^T) *m R^T).
  by rewrite E -!scalemxAr -!scalemxAl !mulmxA.
by rewrite H RJ scalerA mulrN CiCi opprK scale1r.
Qed.
(** the two relations between the blocks *)
Lemma blocks n (a b : 'M[C]_n) : let Sc := block_mx a b (conj b) (conj a) in Sc *m J n *m Sc^T = J n ->
  a *m adj a = 1%:M + b *m adj b /\ a *m b^T = b *m a^T.
Proof.
move=> Sc. rewrite /Sc /J !mulmx_block tr_block_mx mulmx_block ?mulmx0 ?mulmxN ?mulmx1 ?add0r ?addr0 ?mulNmx => /eq_block_mx [E1 E2 _ _].
split; last by move/eqP: E1; rewrite addrC subr_eq0 => /eqP.
by move/eqP: E2; rewrite addrC subr_eq => /eqP.
Qed.
Definition sq (z : C) : R := Rplus (Rmult (Re z) (Re z)) (Rmult (Im z) (Im z)).
Lemma mul_conj z : z * Cconj z = RtoC (sq z).
Proof. case: z => a b. rewrite CmulE /Cmult /Cconj /RtoC /sq /=. congr pair; ring. Qed.
Lemma sq_ge0 z : Rle R0 (sq z). Proof. rewrite /sq. nra. Qed.
Lemma sq_eq0 z : Rle (sq z) R0 -> z = 0.
Proof. case: z => a b. rewrite /sq /= => H. rewrite C0E /RtoC. congr pair; nra. Qed.
Lemma norm_row n (u : 'rV[C]_n) : exists r, (u *m adj u) 0 0 = RtoC r /\ Rle R0 r /\ forall j, Rle (sq (u 0 j)) r.
Proof.
rewrite mxE. have aux (s : seq 'I_n) : exists r, \sum_(j <- s) u 0 j * adj u j 0 = RtoC r /\ Rle R0 r /\ forall j, j \in s -> Rle (sq (u 0 j)) r.
  elim: s => [|k s [r [E [H0 H]]]]; first by exists R0; rewrite big_nil; split=> //; split=> //; exact: Rle_refl.
  exists (Rplus (sq (u 0 k)) r). rewrite big_cons E !mxE mul_conj CaddE -RtoC_plus. have := sq_ge0 (u 0 k) => Hk. split=> //. split; first lra.
  move=> j. rewrite inE => /orP [/eqP ->|Hj]; first lra. have := H j Hj. lra.
case: (aux (index_enum (ordinal_finType n))) => r [E [H0 H]]. exists r. split=> //. split=> // j. apply: H. by rewrite mem_index_enum.
Qed.
Lemma norm_sum0 n m (v : 'rV[C]_n) (w : 'rV[C]_m) : v *m adj v + w *m adj w = 0 -> v = 0.
Proof.
move=> H. have := congr1 (fun M : 'M[C]_1 => M 0 0) H. rewrite mxE [RHS]mxE.
case: (norm_row v) => r [-> [r0 Hr]]. case: (norm_row w) => r' [-> [r0' _]]. rewrite CaddE -RtoC_plus C0E => /RtoC_inj E.
apply/matrixP => i j. rewrite ord1 [RHS]mxE. apply: sq_eq0. have := Hr j. lra.
Qed.
(** a matrix with a a^dagger = 1 + b b^dagger is invertible *)
Lemma unit_of n m (a : 'M[C]_n) (b : 'M[C]_(n, m)) : a *m adj a = 1%:M + b *m adj b -> a \in unitmx.
Proof.
move=> H. rewrite -row_free_unit -kermx_eq0. apply/eqP/row_matrixP => i. rewrite row0. set v := row i (kermx a).
have Hv : v *m a = 0 by rewrite /v -row_mul mulmx_ker row0.
apply: (@norm_sum0 _ _ _ (v *m b)). have := congr1 (fun M => v *m M *m adj v) H. rewrite mulmxDr mulmx1 mulmxDl !mulmxA Hv !mul0mx => E.
rewrite [RHS]E. congr (_ + _). by rewrite /adj conj_mul trmx_mul !mulmxA.
Qed.

(** C44, unitaries: from_symplectic(S).symplectic is S for every real symplectic matrix of every size; no invertibility has to be assumed *)
Theorem C44_unitary n (S : 'M[C]_(n + n)) : real S -> symplectic S -> Base.bind (symplectic2Au S) (@au2Symplectic n) = Base.Ok S.
Proof.
move=> HR HS. case: (cshape_ex HR) => a [b E]. have HJ := csymp HS. rewrite /= E in HJ. have [H1 H2] := blocks HJ. have Ua := unit_of H1.
rewrite /symplectic2Au E block_mxKul block_mxKur /inv Ua unitmx_tr Ua /= /au2Symplectic block_mxKur block_mxKdr /inv.
have UT : (conj (invmx a^T))^T \in unitmx by rewrite unitmx_tr conj_unit unitmx_inv unitmx_tr.
rewrite UT /=. congr Base.Ok. have E1 : invmx (conj (invmx a^T))^T = conj a by rewrite -conj_tr -conj_inv trmx_inv trmxK invmxK.
rewrite E1 conjmxK mulmxN -conj_mul mulKVmx // map_mxN opprK conjmxK -E.
have [U1 U2] := rot_unitary n. rewrite -adj_rotmat. have -> : adj (adj (rotmat n)) = rotmat n by exact: adjK.
rewrite !mulmxA U1 mul1mx -mulmxA U1 mulmx1. exact: re_of_real.
Qed.

(** ** the kernel of a Gaussian unitary: symmetric, unitary, with an invertible input-output block *)
Definition kernel n (A : 'M[C]_(n + n)) : Prop := A^T = A /\ unitary A /\ ursubmx A \in unitmx.
Lemma kernelP n (T W V : 'M[C]_n) : kernel (block_mx T W W^T V) <->
  [/\ T^T = T, V^T = V, W \in unitmx, adj W *m W + conj V *m V = 1%:M & T *m conj W + W *m conj V = 0].
Proof.
rewrite /kernel block_mxKur. split.
- case=> HT [[_ HU] HW]. move: HT. rewrite tr_block_mx trmxK => /eq_block_mx [ET _ _ EV].
  move: HU. rewrite /adj map_block_mx tr_block_mx conj_tr trmxK mulmx_block scalar_mx_block => /eq_block_mx [_ E1 _ E2].
  split=> //; last by move: E1; rewrite -conj_tr EV.
  move: (congr1 conj E2). by rewrite map_mxD !conj_mul map_mx1 !conj_tr !conjmxK EV.
- case=> ET EV HW E2 E1.
  have HA : (block_mx T W W^T V)^T = block_mx T W W^T V by rewrite tr_block_mx trmxK ET EV.
  split=> //. split=> //.
  have HWc : conj W \in unitmx by rewrite conj_unit.
  (* T = - W conj V (conj W)^-1 *)
  have TE : T = - (W *m conj V *m invmx (conj W)).
    move/eqP: E1. rewrite addr_eq0 => /eqP E1. by rewrite -mulNmx -E1 mulmxK.
  have TE2 : T = - (invmx (adj W) *m conj V *m W^T).
    rewrite -ET TE linearN /= !trmx_mul trmx_inv -/(adj W) -conj_tr EV !mulmxA. by [].
  have HWa : adj W \in unitmx by rewrite /adj unitmx_tr.
  have E3 : T *m conj T + W *m adj W = 1%:M.
    rewrite {1}TE2 TE map_mxN !conj_mul conjmxK mulNmx mulmxN opprK.
    have -> : invmx (adj W) *m conj V *m W^T *m (conj W *m V *m conj (invmx (conj W))) = invmx (adj W) *m (conj V *m (W^T *m conj W) *m V) *m invmx W by rewrite conj_inv conjmxK !mulmxA.
    have F : W^T *m conj W = 1%:M - V *m conj V.
      apply/eqP. rewrite eq_sym subr_eq. move: (congr1 conj E2). rewrite map_mxD !conj_mul map_mx1 /adj conj_tr !conjmxK => ->. by [].
    have G : conj V *m V = 1%:M - adj W *m W by apply/eqP; rewrite eq_sym subr_eq addrC E2.
    have -> : conj V *m (W^T *m conj W) *m V = adj W *m W - adj W *m W *m (adj W *m W).
      have -> : conj V *m (W^T *m conj W) *m V = conj V *m V - conj V *m V *m (conj V *m V) by rewrite F mulmxBr mulmx1 mulmxBl !mulmxA.
      rewrite G. move: (adj W *m W) => Q. by rewrite [(1%:M - Q) *m _]mulmxBr mulmx1 opprB addrC subrK mulmxBl mul1mx.
    rewrite mulmxBr mulmxBl. have -> : invmx (adj W) *m (adj W *m W) *m invmx W = 1%:M by rewrite mulmxA mulVmx // mul1mx mulmxV.
    have -> : invmx (adj W) *m (adj W *m W *m (adj W *m W)) *m invmx W = W *m adj W by rewrite !mulmxA mulVmx // mul1mx -!mulmxA mulmxV // mulmx1.
    by rewrite subrK.
  have E4 : W^T *m conj T + V *m adj W = 0.
    have := congr1 (fun M => (conj M)^T) E1. rewrite map_mxD !conj_mul !conjmxK linearD /= !trmx_mul map_mx0 trmx0 EV -/(adj W). by rewrite -conj_tr ET.
  have HU : block_mx T W W^T V *m adj (block_mx T W W^T V) = 1%:M.
    rewrite /adj map_block_mx tr_block_mx conj_tr trmxK mulmx_block scalar_mx_block -/(adj W) -(conj_tr T) -(conj_tr V) ET EV. congr block_mx => //.
    move: (congr1 conj E2). by rewrite map_mxD !conj_mul map_mx1 /adj conj_tr !conjmxK.
  split=> //. exact: mulmx1C.
Qed.

Lemma kernel_block n (A : 'M[C]_(n + n)) : kernel A -> A = block_mx (ulsubmx A) (ursubmx A) (ursubmx A)^T (drsubmx A).
Proof. case=> HT _. rewrite -{1}(submxK A). congr block_mx. by rewrite trmx_ursub HT. Qed.
(** the kernel obtained from a symplectic matrix *)
Lemma kernel_of n (a b : 'M[C]_n) : a *m adj a = 1%:M + b *m adj b -> a *m b^T = b *m a^T ->
  (let Sc := block_mx a b (conj b) (conj a) in Sc^T *m J n *m Sc = J n) ->
  kernel (block_mx (b *m conj (invmx a)) (conj (invmx a^T)) (conj (invmx a^T))^T (- conj (invmx a *m b))).
Proof.
move=> H1 H2 H3. have Ua := unit_of H1.
have [K1 K2] : a^T *m conj b = adj b *m a /\ adj a *m a - b^T *m conj b = 1%:M.
  move: H3. rewrite /J tr_block_mx !mulmx_block ?mulmx0 ?mulmxN ?mulmx1 ?add0r ?addr0 ?mulNmx => /eq_block_mx [E1 E2 _ _].
  split; first by move/eqP: E1; rewrite addrC subr_eq0 => /eqP.
  move: (congr1 conj E2). by rewrite map_mxD map_mxN !conj_mul !conj_tr !conjmxK map_mx1 addrC.
have Ud : adj a \in unitmx by rewrite /adj unitmx_tr conj_unit.
have Uc : conj a \in unitmx by rewrite conj_unit.
have EW : conj (invmx a^T) = invmx (adj a) by rewrite conj_inv conj_tr.
have K3 : adj a *m b = b^T *m conj a.
  move: (congr1 conj K1). by rewrite !conj_mul !conj_tr !conjmxK.
have ET : b *m conj (invmx a) = invmx (adj a) *m b^T.
  rewrite conj_inv. apply: (canRL (mulKmx Ud)). rewrite mulmxA K3. by rewrite mulmxK.
have EV : invmx a *m b = b^T *m invmx a^T.
  apply: (canLR (mulKmx Ua)). apply/esym. rewrite mulmxA H2. by rewrite mulmxK // unitmx_tr.
rewrite EW. apply/kernelP. split.
- by rewrite {1}ET trmx_mul trmxK trmx_inv /adj trmxK conj_inv.
- by rewrite linearN /= -conj_tr trmx_mul trmx_inv -EV.
- by rewrite unitmx_inv.
- have -> : conj (- conj (invmx a *m b)) *m - conj (invmx a *m b) = invmx a *m (b *m adj b) *m invmx (adj a).
    rewrite map_mxN conjmxK mulNmx mulmxN opprK {2}EV conj_mul conj_inv !conj_tr -/(adj a) -/(adj b). by rewrite !mulmxA.
  have -> : adj (invmx (adj a)) = invmx a by rewrite {1}/adj conj_inv trmx_inv -/(adj (adj a)) adjK.
  have -> : invmx a *m invmx (adj a) = invmx a *m 1%:M *m invmx (adj a) by rewrite mulmx1.
  by rewrite -mulmxDl -mulmxDr -H1 mulmxA mulVmx // mul1mx mulmxV.
- have -> : conj (invmx (adj a)) = invmx a^T by rewrite conj_inv /adj conj_tr conjmxK.
  by rewrite {1}ET map_mxN conjmxK mulmxN -mulmxA -EV subrr.
Qed.
(** the kernel of from_symplectic(S) is that of a unitary *)
Theorem C44_kernel n (S : 'M[C]_(n + n)) : real S -> symplectic S -> exists A, symplectic2Au S = Base.Ok A /\ kernel A.
Proof.
move=> HR HS. case: (cshape_ex HR) => a [b E]. have HJ := csymp HS. rewrite /= E in HJ. have [H1 H2] := blocks HJ. have Ua := unit_of H1.
eexists; split; first by rewrite /symplectic2Au E block_mxKul block_mxKur /inv Ua unitmx_tr Ua /=.
apply: kernel_of => //=. by case: (symp_of HJ).
Qed.
(** the symplectic matrix from the blocks *)
Lemma back_real n (a b : 'M[C]_n) : real (adj (rotmat n) *m block_mx a b (conj b) (conj a) *m rotmat n).
Proof.
rewrite /real !conj_mul conj_adj_rot conj_rot map_block_mx !conjmxK -!mulmxA. congr (_ *m _). rewrite !mulmxA. congr (_ *m _).
by rewrite /X !mulmx_block !mul0mx !mulmx0 !mulmx1 !mul1mx !add0r !addr0.
Qed.
Lemma back_symp n (Sc : 'M[C]_(n + n)) : Sc *m J n *m Sc^T = J n -> symplectic (adj (rotmat n) *m Sc *m rotmat n).
Proof.
move=> H. apply: symp_of. have [U1 U2] := rot_unitary n. have RJ := rot_J n. move: (rotmat n) U1 U2 RJ => R U1 U2 RJ.
have U3 : R^T *m conj R = 1%:M by move: (congr1 trmx U1); rewrite trmx_mul /adj trmxK trmx1.
have E : adj R *m J n *m conj R = Ci *: J n.
  have := congr1 (fun M => Ci *: (adj R *m M *m conj R)) RJ. rewrite !mulmxA U1 mul1mx -mulmxA U3 mulmx1 => ->.
  by rewrite -scalemxAr -scalemxAl scalerA mulrN CiCi opprK scale1r.
have -> : adj R *m Sc *m R *m J n *m (adj R *m Sc *m R)^T = adj R *m Sc *m (R *m J n *m R^T) *m Sc^T *m conj R by rewrite !trmx_mul /adj trmxK !mulmxA.
rewrite RJ -scalemxAr -!scalemxAl -[adj R *m Sc *m J n]mulmxA -[adj R *m _ *m Sc^T]mulmxA H E scalerA mulNr CiCi opprK scale1r. by [].
Qed.
Lemma blocks_conv n (a b : 'M[C]_n) : a *m adj a = 1%:M + b *m adj b -> a *m b^T = b *m a^T ->
  let Sc := block_mx a b (conj b) (conj a) in Sc *m J n *m Sc^T = J n.
Proof.
move=> H1 H2. rewrite /J !mulmx_block tr_block_mx mulmx_block ?mulmx0 ?mulmxN ?mulmx1 ?add0r ?addr0 ?mulNmx -/(adj a) -/(adj b) H2 addNr H1 [1%:M + _]addrC addKr.
have G : conj a *m a^T = 1%:M + conj b *m b^T by move: (congr1 conj H1); rewrite map_mxD map_mx1 !conj_mul /adj !conj_tr !conjmxK.
have G2 : conj a *m adj b = conj b *m adj a by move: (congr1 conj H2); rewrite !conj_mul !conj_tr.
by rewrite G opprD subrK G2 addNr.
Qed.
Section AB.
Variables (n : nat) (T W V : 'M[C]_n).
Hypothesis k : kernel (block_mx T W W^T V).
Definition ka : 'M[C]_n := invmx (adj W).
Definition kb : 'M[C]_n := - (ka *m conj V).
Lemma kernel_ab : ka *m adj ka = 1%:M + kb *m adj kb /\ ka *m kb^T = kb *m ka^T.
Proof.
case/kernelP: k => ET EV HW E2 E1. have Ud : adj W \in unitmx by rewrite /adj unitmx_tr conj_unit.
have adjb : adj kb = - (V *m invmx W).
  rewrite /kb /adj map_mxN linearN /= conj_mul trmx_mul conjmxK EV. congr (- (_ *m _)). by rewrite /ka conj_inv /adj conj_tr conjmxK trmx_inv trmxK.
have adja : adj ka = invmx W by rewrite /ka /adj conj_inv trmx_inv conj_tr conjmxK trmxK.
split.
  rewrite adja adjb /kb mulmxN mulNmx opprK.
  have -> : ka *m conj V *m (V *m invmx W) = ka *m (1%:M - adj W *m W) *m invmx W.
    rewrite -[1%:M - _](_ : conj V *m V = _) ?mulmxA //. apply/eqP. by rewrite eq_sym subr_eq addrC E2.
  rewrite mulmxBr mulmx1 mulmxBl !mulmxA /ka mulVmx // mul1mx mulmxV // addrC subrK. by [].
by rewrite /kb linearN /= trmx_mul mulmxN mulNmx -conj_tr EV mulmxA.
Qed.
Definition kSc : 'M[C]_(n + n) := block_mx ka kb (conj kb) (conj ka).
Lemma kSc_J : kSc *m J n *m kSc^T = J n.
Proof. case: kernel_ab => H1 H2. exact: (blocks_conv H1 H2). Qed.
Lemma au_val : au2Symplectic (block_mx T W W^T V) = Base.Ok (adj (rotmat n) *m kSc *m rotmat n).
Proof.
case/kernelP: k => ET EV HW E2 E1. rewrite /au2Symplectic block_mxKur block_mxKdr /inv unitmx_tr HW /=.
have -> : conj (invmx W^T) = ka by rewrite conj_inv conj_tr.
have -> : - conj (invmx W^T *m V) = kb by rewrite conj_mul conj_inv conj_tr.
by rewrite -adj_rotmat adjK (re_of_real (back_real ka kb)).
Qed.
End AB.
(** C44, the other direction: the symplectic matrix of every kernel is real and symplectic, and gives the kernel back *)
Theorem C44_symplectic n (A : 'M[C]_(n + n)) : kernel A -> exists S, au2Symplectic A = Base.Ok S /\ real S /\ symplectic S /\ symplectic2Au S = Base.Ok A.
Proof.
move=> HA. have EA := kernel_block HA. move: HA. rewrite EA.
move: (ulsubmx A) (ursubmx A) (drsubmx A) {EA} => T W V k. case/kernelP: (k) => ET EV HW E2 E1.
have Ud : adj W \in unitmx by rewrite /adj unitmx_tr conj_unit.
rewrite (au_val k). eexists; split; first reflexivity. split; first exact: back_real. split; first by apply: back_symp; apply: kSc_J k.
have [U1 U2] := rot_unitary n.
have EE : rotmat n *m (adj (rotmat n) *m kSc W V *m rotmat n) *m adj (rotmat n) = kSc W V.
  by rewrite !mulmxA U2 mul1mx -mulmxA U2 mulmx1.
have Ua : ka W \in unitmx by rewrite unitmx_inv.
rewrite /symplectic2Au EE /kSc block_mxKul block_mxKur /inv unitmx_tr Ua /=. congr Base.Ok.
have VT : conj (invmx (ka W)^T) = W by rewrite /ka trmx_inv invmxK /adj trmxK conjmxK.
have IA : invmx (ka W) = adj W by rewrite /ka invmxK.
rewrite VT IA. congr block_mx; last by rewrite /kb mulmxN /ka mulmxA mulmxV // mul1mx map_mxN opprK conjmxK.
have -> : conj (adj W) = W^T by rewrite /adj conj_tr conjmxK.
have F : adj W *m T = - (conj V *m W^T).
  move/eqP: (congr1 trmx E1). rewrite linearD /= !trmx_mul ET -(conj_tr V) EV trmx0 addr_eq0 -/(adj W) => /eqP; exact.
by rewrite /kb /ka -[T](mulKmx Ud) F mulmxN mulmxA mulNmx.
Qed.
(** the hypotheses of C43 and C44 are met by non-trivial matrices *)
Theorem C43_example : symplectic (interferometer_symplectic (rotmat 1)) /\ symplectic (realinterferometer_symplectic (X 1)).
Proof.
split; first by case: (C43_interferometer (rot_unitary 1)).
have O : orthogonal (X 1). { split; first by rewrite /real /X map_block_mx !map_mx0 !map_mx1. by rewrite XT XX. }
by case: (C43_realinterferometer O).
Qed.
Theorem C44_example : Base.bind (symplectic2Au (cxgate_symplectic (RtoC R1))) (@au2Symplectic _) = Base.Ok (cxgate_symplectic (RtoC R1)) /\ kernel (X 2).
Proof.
split; first by case: (C43_cx R1) => S R; exact: C44_unitary R S.
have -> : X 2 = block_mx 0 1%:M (1%:M)^T 0 by rewrite trmx1. apply/kernelP. split; rewrite ?trmx0 ?unitmx1 //.
- by rewrite /adj !map_mx1 trmx1 map_mx0 mulmx1 mulmx0 addr0.
- by rewrite map_mx1 map_mx0 mul0mx mulmx0 addr0.
Qed.
