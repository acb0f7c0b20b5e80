(** Fidelity of Gaussian and of Fock density matrices: claim C76.
    Model of mrmustard/physics/gaussian.py:96-146 (fidelity) and mrmustard/physics/fock_utils.py:72-77 (fidelity). *)
From Coq Require Import Reals Lra Psatz ClassicalEpsilon.
From Coquelicot Require Import Complex Series Hierarchy.
From mathcomp Require Import all_ssreflect all_algebra.
From Verif Require Import CMat Optimizer GateSym BargSym CExp.
Require Verif.Base.
Set Implicit Arguments. Unset Strict Implicit. Unset Printing Implicit Defensive.
Import GRing.Theory.
Local Open Scope ring_scope.
Delimit Scope R_scope with coqR.
Local Arguments Re : simpl never.
Local Notation "'q[' x ]" := (RtoC x%coqR) (at level 0, x at level 200).

(** ** Model *)
Section Model.
Variables (n : nat) (sqrtm : 'M[C]_(n + n) -> 'M[C]_(n + n)) (hb : R).
Implicit Types (mu : 'cV[C]_(n + n)) (cov : 'M[C]_(n + n)).
(** gaussian.py:128-130: V and W, given the inverse of cov1 + cov2 (in units with hbar = 1) *)
Definition fidW (c1 c2 Si : 'M[C]_(n + n)) : 'M[C]_(n + n) :=
  let V := (J n)^T *m Si *m (q[1 / 4] *: J n + c2 *m J n *m c1) in q[-2] *: (V *m (Ci *: J n)).
(** gaussian.py:132-136: the square of f0, given what sqrtm returns *)
Definition fid_top (B W : 'M[C]_(n + n)) : C := \det ((B + 1%:M) *m (W *m (Ci *: J n))).
(** gaussian.py:96-146 *)
Definition gfidelity mu1 cov1 mu2 cov2 : Base.result R :=
  let c1 := RtoC (Rinv hb) *: cov1 in let c2 := RtoC (Rinv hb) *: cov2 in let deltar := RtoC (Rinv (sqrt hb)) *: (mu2 - mu1) in
  Base.bind (inv (c1 + c2)) (fun Si =>
  let W := fidW c1 c2 Si in
  Base.bind (inv W) (fun Wi =>
  let f0 := csqrt (fid_top (sqrtm (1%:M - Wi *m Wi)) W / \det (c1 + c2)) in
  let dot := (deltar^T *m (Si *m deltar)) 0 0 in
  Base.Ok (Re (f0 * Cexp (- half * dot))))).
End Model.
(** fock_utils.py:72-77 *)
Definition ffidelity N (sqrtm : 'M[C]_N -> 'M[C]_N) (A B : 'M[C]_N) : R :=
  let s := sqrtm A in Cmod (Cmult (\tr (sqrtm (s *m B *m s))) (\tr (sqrtm (s *m B *m s)))).

(** ** Specification *)
(** a matrix function of the kind scipy computes: it commutes with similarity and transposition, and on a diagonal matrix it takes the principal root of every entry *)
Definition root_fun N (f : 'M[C]_N -> 'M[C]_N) : Prop :=
  [/\ forall P A, P \in unitmx -> f (P *m A *m invmx P) = P *m f A *m invmx P, forall A, f A^T = (f A)^T & forall l, f (diag_mx l) = diag_mx (map_mx csqrt l)].
Definition diagonalisable N (A : 'M[C]_N) : Prop := exists P l, P \in unitmx /\ A = P *m diag_mx l *m invmx P.
(** the photon number distribution of a thermal state *)
Definition photons (nbar : R) (k : nat) : R := (/ (nbar + 1) * (nbar / (nbar + 1)) ^ k)%coqR.
(** the covariance matrix of thermal modes in the frame S: hbar S diag(nbar + 1/2, nbar + 1/2) S^T *)
Definition dbl n (l : 'I_n -> R) : 'M[C]_(n + n) := block_mx (diag_mx (\row_j RtoC (l j))) 0 0 (diag_mx (\row_j RtoC (l j))).
Definition frame n hb (S : 'M[C]_(n + n)) (nbar : 'I_n -> R) : 'M[C]_(n + n) := RtoC hb *: (S *m dbl (fun j => (nbar j + 1 / 2)%coqR) *m S^T).
Definition Rprod n (f : 'I_n -> R) : R := \big[Rmult/R1]_(j < n) f j.

(** ** The root of a diagonalisable matrix *)
Section Root.
Variables (N : nat).
Implicit Types (A B P : 'M[C]_N).
Lemma inv_uniq A B : A *m B = 1%:M -> invmx A = B /\ A \in unitmx.
Proof. move=> E. have [u _] := mulmx1_unit E. split=> //. by apply: (can_inj (mulKmx u)); rewrite E mulmxV. Qed.
Lemma simM P A B : P \in unitmx -> P *m A *m invmx P *m (P *m B *m invmx P) = P *m (A *m B) *m invmx P.
Proof. move=> u. by rewrite !mulmxA mulmxKV. Qed.
Lemma sim_inv P A : P \in unitmx -> A \in unitmx -> invmx (P *m A *m invmx P) = P *m invmx A *m invmx P /\ P *m A *m invmx P \in unitmx.
Proof. move=> uP uA. apply: inv_uniq. by rewrite simM // mulmxV // mulmx1 mulmxV. Qed.
Lemma sim_unit P A : P \in unitmx -> (P *m A *m invmx P \in unitmx) = (A \in unitmx).
Proof. move=> uP. by rewrite !unitmx_mul uP unitmx_inv uP andbT. Qed.
Lemma det_sim P A : P \in unitmx -> \det (P *m A *m invmx P) = \det A.
Proof. move=> uP. rewrite !det_mulmx mulrAC -det_mulmx mulmxV // det1 mul1r. by []. Qed.
Lemma sim1 P A : P \in unitmx -> 1%:M - P *m A *m invmx P = P *m (1%:M - A) *m invmx P.
Proof. move=> uP. by rewrite mulmxBr mulmxBl mulmx1 mulmxV. Qed.
Lemma sim1D P A : P \in unitmx -> P *m A *m invmx P + 1%:M = P *m (A + 1%:M) *m invmx P.
Proof. move=> uP. by rewrite mulmxDr mulmxDl mulmx1 mulmxV. Qed.
(** the root of P diag(l) P^-1 does not depend on P and l *)
Lemma root_uniq P Q (l m : 'rV[C]_N) : P \in unitmx -> Q \in unitmx -> P *m diag_mx l *m invmx P = Q *m diag_mx m *m invmx Q ->
  P *m diag_mx (map_mx csqrt l) *m invmx P = Q *m diag_mx (map_mx csqrt m) *m invmx Q.
Proof.
move=> uP uQ E. pose T := invmx Q *m P. have ET : T *m diag_mx l = diag_mx m *m T.
  have := congr1 (fun Z => invmx Q *m Z *m P) E. by rewrite /= !mulmxA mulVmx // mul1mx mulmxKV // -!mulmxA.
have ET' : T *m diag_mx (map_mx csqrt l) = diag_mx (map_mx csqrt m) *m T.
  move: T ET => T ET. apply/matrixP => i j. have := congr1 (fun Z : 'M[C]_N => Z i j) ET. rewrite !mul_mx_diag !mul_diag_mx !mxE => Eij.
  case: (eqVneq (T i j) 0) => [->|nz]; first by rewrite mul0r mulr0. rewrite mulrC. congr (csqrt _ * _). apply: (mulIf nz). by rewrite -Eij mulrC.
have := congr1 (fun Z => Q *m Z *m invmx P) ET'. by rewrite /T /= !mulmxA mulmxV // mul1mx mulmxK.
Qed.
Definition the_root A : 'M[C]_N := epsilon (inhabits 0) (fun B => exists P l, [/\ P \in unitmx, A = P *m diag_mx l *m invmx P & B = P *m diag_mx (map_mx csqrt l) *m invmx P]).
Definition prin A : 'M[C]_N := if excluded_middle_informative (diagonalisable A) then the_root A else 0.
Lemma prinE P l : P \in unitmx -> prin (P *m diag_mx l *m invmx P) = P *m diag_mx (map_mx csqrt l) *m invmx P.
Proof.
move=> uP. rewrite /prin. case: excluded_middle_informative => [H|[]]; last by exists P, l.
rewrite /the_root. have [Q [m [uQ E ->]]] := epsilon_spec (inhabits 0) (fun B => exists Q m, [/\ Q \in unitmx, P *m diag_mx l *m invmx P = Q *m diag_mx m *m invmx Q & B = Q *m diag_mx (map_mx csqrt m) *m invmx Q]) (ex_intro _ _ (ex_intro _ P (ex_intro _ l (And3 uP erefl erefl)))).
by apply/esym/root_uniq.
Qed.
Lemma diag_sim P A : P \in unitmx -> diagonalisable A -> diagonalisable (P *m A *m invmx P).
Proof.
move=> uP [Q [l [uQ ->]]]. exists (P *m Q), l. rewrite unitmx_mul uP uQ. split=> //. have [|-> _] := @inv_uniq (P *m Q) (invmx Q *m invmx P); first by rewrite mulmxA mulmxK // mulmxV.
by rewrite !mulmxA.
Qed.
Lemma simK P A : P \in unitmx -> invmx P *m (P *m A *m invmx P) *m invmx (invmx P) = A.
Proof. move=> uP. by rewrite invmxK !mulmxA mulVmx // mul1mx mulmxKV. Qed.
Lemma diag_tr A : diagonalisable A -> diagonalisable A^T.
Proof. case=> P [l [uP ->]]. exists (invmx P)^T, l. rewrite unitmx_tr unitmx_inv uP. split=> //. by rewrite !trmx_mul tr_diag_mx -trmx_inv invmxK mulmxA. Qed.
(** such a function exists *)
Theorem root_fun_exists : exists f, @root_fun N f.
Proof.
exists prin. split.
- move=> P A uP. case: (excluded_middle_informative (diagonalisable A)) => [[Q [l [uQ ->]]]|H].
  + have [|E _] := @inv_uniq (P *m Q) (invmx Q *m invmx P); first by rewrite mulmxA mulmxK // mulmxV.
    have uPQ : P *m Q \in unitmx by rewrite unitmx_mul uP.
    have -> : P *m (Q *m diag_mx l *m invmx Q) *m invmx P = P *m Q *m diag_mx l *m invmx (P *m Q) by rewrite E !mulmxA.
    rewrite !prinE // E. by rewrite !mulmxA.
  + rewrite /prin. case: excluded_middle_informative => [H1|H1]; first by case: H; rewrite -(simK A uP); apply: diag_sim; rewrite ?unitmx_inv.
    case: excluded_middle_informative => // H2. by rewrite mulmx0 mul0mx.
- move=> A. case: (excluded_middle_informative (diagonalisable A)) => [[Q [l [uQ ->]]]|H].
  + have T m : (Q *m diag_mx m *m invmx Q)^T = (invmx Q)^T *m diag_mx m *m invmx (invmx Q)^T by rewrite !trmx_mul tr_diag_mx -trmx_inv invmxK mulmxA.
    rewrite T prinE; last by rewrite unitmx_tr unitmx_inv. by rewrite prinE // T.
  + rewrite /prin. case: excluded_middle_informative => [H1|H1]; first by case: H; rewrite -(trmxK A); apply: diag_tr.
    case: excluded_middle_informative => // H2. by rewrite trmx0.
- move=> l. have := prinE l (unitmx1 _ N). by rewrite invmx1 !mulmx1 !mul1mx.
Qed.
End Root.

(** ** Gaussian fidelity *)
Section Gauss.
Variables (n : nat) (f : 'M[C]_(n + n) -> 'M[C]_(n + n)) (hb : R).
Hypothesis Hf : root_fun f.
Lemma detNN (Z : 'M[C]_(n + n)) : \det (- Z) = \det Z.
Proof. by rewrite -scaleN1r detZ exprD -expr2 sqrr_sign mul1r. Qed.
Lemma unitN (Z : 'M[C]_(n + n)) : (- Z \in unitmx) = (Z \in unitmx).
Proof. by rewrite !unitmxE detNN. Qed.
Lemma invN (Z : 'M[C]_(n + n)) : Z \in unitmx -> invmx (- Z) = - invmx Z.
Proof. move=> u. have [|-> _ //] := @inv_uniq _ (- Z) (- invmx Z). by rewrite mulmxN mulNmx opprK mulmxV. Qed.
Lemma JTJ : (J n)^T *m J n = 1%:M /\ J n *m (J n)^T = 1%:M.
Proof. rewrite JT mulNmx mulmxN JJ opprK. by []. Qed.
(** gaussian.py: the same computation, all in one piece *)
Lemma top_sim (B W B' W' : 'M[C]_(n + n)) : \det (B' + 1%:M) = \det (B + 1%:M) -> \det W' = \det W -> fid_top B' W' = fid_top B W.
Proof. move=> E1 E2. by rewrite /fid_top !det_mulmx E1 E2. Qed.
(** a similarity and possibly a transposition of W *)
Lemma root_sim (P W W' : 'M[C]_(n + n)) : P \in unitmx -> W \in unitmx -> W' = P *m W *m invmx P ->
  W' \in unitmx /\ fid_top (f (1%:M - invmx W' *m invmx W')) W' = fid_top (f (1%:M - invmx W *m invmx W)) W.
Proof.
move=> uP uW ->. have [-> u] := sim_inv uP uW. split=> //. case: Hf => Fs _ _. apply: top_sim; last exact: det_sim.
by rewrite simM // sim1 // Fs // sim1D // det_sim.
Qed.
Lemma root_tr (W : 'M[C]_(n + n)) : W \in unitmx -> fid_top (f (1%:M - invmx W^T *m invmx W^T)) W^T = fid_top (f (1%:M - invmx W *m invmx W)) W.
Proof.
move=> uW. case: Hf => _ Ft _. apply: top_sim; last exact: det_tr. rewrite -trmx_inv -trmx_mul.
have -> : 1%:M - (invmx W *m invmx W)^T = (1%:M - invmx W *m invmx W)^T by rewrite linearB /= trmx1. rewrite Ft. have -> : (f (1%:M - invmx W *m invmx W))^T + 1%:M = (f (1%:M - invmx W *m invmx W) + 1%:M)^T by rewrite linearD /= trmx1. exact: det_tr.
Qed.
Lemma root_opp (W : 'M[C]_(n + n)) : W \in unitmx -> fid_top (f (1%:M - invmx (- W) *m invmx (- W))) (- W) = fid_top (f (1%:M - invmx W *m invmx W)) W.
Proof. move=> uW. rewrite invN // mulmxN mulNmx opprK. apply: top_sim => //. exact: detNN. Qed.
(** exchanging the states transposes W up to a similarity and a sign *)
Lemma W_swap (c1 c2 Si : 'M[C]_(n + n)) : c1^T = c1 -> c2^T = c2 -> c1 + c2 \in unitmx -> Si = invmx (c1 + c2) ->
  let Q := (J n)^T *m Si *m J n in Q \in unitmx /\ fidW c2 c1 Si = - (Q *m (fidW c1 c2 Si)^T *m invmx Q).
Proof.
move=> s1 s2 u ESi Q. rewrite /Q ESi {Q ESi Si}. set Q := (J n)^T *m invmx (c1 + c2) *m J n. have [J1 J2] := JTJ. have [uJT uJ] := mulmx1_unit J1.
have [|EQ uQ] := @inv_uniq _ Q ((J n)^T *m (c1 + c2) *m J n).
  rewrite /Q. have -> : (J n)^T *m invmx (c1 + c2) *m J n *m ((J n)^T *m (c1 + c2) *m J n) = (J n)^T *m (invmx (c1 + c2) *m (J n *m (J n)^T) *m (c1 + c2)) *m J n by rewrite !mulmxA.
  by rewrite J2 mulmx1 mulVmx // mulmx1.
split=> //. rewrite EQ /fidW /Q. set Si := invmx (c1 + c2). have sS : Si^T = Si by rewrite /Si trmx_inv linearD /= s1 s2.
set N := q[1 / 4] *: J n + c2 *m J n *m c1. have NT : N^T = - (q[1 / 4] *: J n + c1 *m J n *m c2).
  by rewrite /N linearD /= linearZ /= (trmx_mul (c2 *m J n)) (trmx_mul c2) s1 s2 JT scalerN mulNmx mulmxN mulmxA opprD.
have -> : q[1 / 4] *: J n + c1 *m J n *m c2 = - N^T by rewrite NT opprK.
have WE (N0 : 'M[C]_(n + n)) : q[-2] *: ((J n)^T *m Si *m N0 *m (Ci *: J n)) = (q[-2] * Ci) *: ((J n)^T *m Si *m N0 *m J n) by rewrite -scalemxAr scalerA.
rewrite !WE linearZ /= -scalemxAr -scalemxAl -scalerN mulmxN mulNmx. congr (_ *: - _). rewrite !trmx_mul trmxK sS.
have -> : (J n)^T *m Si *m J n *m ((J n)^T *m (N^T *m (Si *m J n))) *m ((J n)^T *m (c1 + c2) *m J n) = (J n)^T *m Si *m (J n *m (J n)^T) *m N^T *m (Si *m (J n *m (J n)^T) *m (c1 + c2)) *m J n by rewrite !mulmxA.
by rewrite J2 !mulmx1 mulVmx // mulmx1.
Qed.
(** C76: the fidelity is symmetric *)
Theorem C76_symmetric mu1 cov1 mu2 cov2 : cov1^T = cov1 -> cov2^T = cov2 -> gfidelity f hb mu1 cov1 mu2 cov2 = gfidelity f hb mu2 cov2 mu1 cov1.
Proof.
move=> s1 s2. rewrite /gfidelity [RtoC (/ hb) *: cov2 + _]addrC. set c1 := RtoC (/ hb) *: cov1. set c2 := RtoC (/ hb) *: cov2.
have t1 : c1^T = c1 by rewrite /c1 linearZ /= s1. have t2 : c2^T = c2 by rewrite /c2 linearZ /= s2. rewrite /inv. case: ifP => uS; last by []. cbn [Base.bind].
have [uQ EW] := W_swap t1 t2 uS erefl. set W := fidW c1 c2 _ in EW *. set Q := _ *m _ *m J n in uQ EW.
have uT : (W^T \in unitmx) = (W \in unitmx) by rewrite unitmx_tr. have uE : (- (Q *m W^T *m invmx Q) \in unitmx) = (W \in unitmx) by rewrite -uT -(sim_unit W^T uQ); exact: unitN.
rewrite EW uE. case: ifP => uW; last by []. cbn [Base.bind]. have uW2 : W^T \in unitmx by rewrite uT.
have [uW' E1] := root_sim uQ uW2 erefl. rewrite (root_opp uW') E1 (root_tr uW).
have -> : mu1 - mu2 = - (mu2 - mu1) by rewrite opprB. by rewrite scalerN linearN /= mulNmx !mulmxN opprK.
Qed.
(** a symplectic change of frame is a similarity of W *)
Lemma W_frame (S c1 c2 : 'M[C]_(n + n)) : symplectic S -> c1 + c2 \in unitmx ->
  fidW (S *m c1 *m S^T) (S *m c2 *m S^T) (invmx (S *m (c1 + c2) *m S^T)) = S *m fidW c1 c2 (invmx (c1 + c2)) *m invmx S.
Proof.
move=> [h1 h2] u. have [J1 J2] := JTJ. have [J3 J4] := J_inv n. have E1 : S *m (J n *m S^T *m - J n) = 1%:M by rewrite !mulmxA h2.
have [iS uS] := inv_uniq E1. have uT : S^T \in unitmx by rewrite unitmx_tr.
have [|iC _] := @inv_uniq _ (S *m (c1 + c2) *m S^T) (invmx S^T *m invmx (c1 + c2) *m invmx S).
  rewrite !mulmxA mulmxK // mulmxK // mulmxV //.
rewrite iC /fidW.
have EN : q[1 / 4] *: J n + S *m c2 *m S^T *m J n *m (S *m c1 *m S^T) = S *m (q[1 / 4] *: J n + c2 *m J n *m c1) *m S^T.
  rewrite mulmxDr mulmxDl -scalemxAr -scalemxAl h2. congr (_ + _). have -> : S *m c2 *m S^T *m J n *m (S *m c1 *m S^T) = S *m c2 *m (S^T *m J n *m S) *m c1 *m S^T by rewrite !mulmxA. by rewrite h1 !mulmxA.
rewrite EN. set N := q[1 / 4] *: J n + _. have e1 : (J n)^T *m invmx S^T = S *m (J n)^T.
  apply: (can_inj (mulmxK uT)). rewrite mulmxKV // JT mulmxN mulNmx. by rewrite h2.
have e2 : S^T *m J n = J n *m invmx S by apply: (can_inj (mulmxK uS)); rewrite mulmxKV.
have WE (N0 : 'M[C]_(n + n)) : q[-2] *: (N0 *m (Ci *: J n)) = (q[-2] * Ci) *: (N0 *m J n) by rewrite -scalemxAr scalerA.
rewrite !WE -scalemxAr -scalemxAl. congr (_ *: _). set Si := invmx (c1 + c2).
have -> : (J n)^T *m (invmx S^T *m Si *m invmx S) *m (S *m N *m S^T) *m J n = (J n)^T *m invmx S^T *m Si *m (invmx S *m S) *m N *m (S^T *m J n) by rewrite !mulmxA.
by rewrite e1 mulVmx // mulmx1 e2 !mulmxA.
Qed.
(** C76: it is unchanged when both states undergo the same Gaussian unitary: a symplectic matrix and a displacement *)
Theorem C76_invariant S d mu1 cov1 mu2 cov2 : symplectic S ->
  gfidelity f hb (S *m mu1 + d) (S *m cov1 *m S^T) (S *m mu2 + d) (S *m cov2 *m S^T) = gfidelity f hb mu1 cov1 mu2 cov2.
Proof.
move=> HS. have [h1 h2] := HS. have [J3 J4] := J_inv n. have E1 : S *m (J n *m S^T *m - J n) = 1%:M by rewrite !mulmxA h2.
have [iS uS] := inv_uniq E1. have uT : S^T \in unitmx by rewrite unitmx_tr. rewrite /gfidelity.
have Es cov : RtoC (/ hb) *: (S *m cov *m S^T) = S *m (RtoC (/ hb) *: cov) *m S^T by rewrite -scalemxAr -scalemxAl. rewrite !Es. set c1 := _ *: cov1. set c2 := _ *: cov2.
rewrite -mulmxDl -mulmxDr /inv. have -> : (S *m (c1 + c2) *m S^T \in unitmx) = (c1 + c2 \in unitmx) by rewrite !unitmx_mul uS uT andbT. case: ifP => uC; last by []. cbn [Base.bind].
rewrite (W_frame HS uC). set W := fidW c1 c2 _. rewrite (sim_unit W uS). case: ifP => uW; last by []. cbn [Base.bind]. have [_ ->] := root_sim uS uW erefl.
have dS : \det S * \det S = 1.
  have := congr1 determinant h2. rewrite !det_mulmx det_tr mulrAC => E. have [uJ _] := mulmx1_unit J3. have nz : \det (J n) != 0 by move: uJ; rewrite unitmxE unitfE. by apply: (mulIf nz); rewrite mul1r.
rewrite !det_mulmx det_tr mulrAC dS mul1r.
have -> : S *m mu2 + d - (S *m mu1 + d) = S *m (mu2 - mu1) by rewrite opprD addrACA addrN addr0 mulmxBr.
rewrite scalemxAr. set de := _ *: (mu2 - mu1).
have [|-> _] := @inv_uniq _ (S *m (c1 + c2) *m S^T) (invmx S^T *m invmx (c1 + c2) *m invmx S); first by rewrite !mulmxA mulmxK // mulmxK // mulmxV.
rewrite trmx_mul. have -> : de^T *m S^T *m (invmx S^T *m invmx (c1 + c2) *m invmx S *m (S *m de)) = de^T *m (S^T *m invmx S^T) *m invmx (c1 + c2) *m (invmx S *m S) *m de by rewrite !mulmxA.
by rewrite mulmxV // mulVmx // !mulmx1 -mulmxA.
Qed.
(** ** states with the same frame *)
Implicit Types (a b : 'I_n -> R).
Lemma dblM a b : dbl a *m dbl b = dbl (fun j => (a j * b j)%coqR).
Proof.
rewrite /dbl mulmx_block !mul0mx !mulmx0 !addr0 !add0r. have -> : diag_mx (\row_j RtoC (a j)) *m diag_mx (\row_j RtoC (b j)) = diag_mx (\row_j RtoC (a j * b j)%coqR); last by [].
apply/matrixP => i j. rewrite mul_diag_mx !mxE. case: eqP => [->|_]; by rewrite ?mulr0n ?mulr0 // !mulr1n RtoC_mult CmulE.
Qed.
Lemma dblZ x a : RtoC x *: dbl a = dbl (fun j => (x * a j)%coqR).
Proof.
rewrite /dbl scale_block_mx !scaler0. have -> : RtoC x *: diag_mx (\row_j RtoC (a j)) = diag_mx (\row_j RtoC (x * a j)%coqR); last by [].
apply/matrixP => i j. rewrite !mxE mulrnAr. by rewrite RtoC_mult CmulE.
Qed.
Lemma dblD a b : dbl a + dbl b = dbl (fun j => (a j + b j)%coqR).
Proof.
rewrite /dbl add_block_mx !addr0. have -> : diag_mx (\row_j RtoC (a j)) + diag_mx (\row_j RtoC (b j)) = diag_mx (\row_j RtoC (a j + b j)%coqR); last by [].
apply/matrixP => i j. rewrite !mxE -mulrnDl. by rewrite RtoC_plus CaddE.
Qed.
Lemma dbl_ext a b : (forall j, a j = b j) -> dbl a = dbl b.
Proof. move=> E. rewrite /dbl. have -> : \row_j RtoC (a j) = \row_j RtoC (b j) by apply/matrixP => i j; rewrite !mxE E. by []. Qed.
Lemma dbl1 : 1%:M = dbl (fun _ : 'I_n => R1).
Proof. rewrite /dbl. have -> : diag_mx (\row__ RtoC R1) = 1%:M :> 'M[C]_n by apply/matrixP => i j; rewrite !mxE. exact: scalar_mx_block. Qed.
Lemma dblJ a : dbl a *m J n = J n *m dbl a.
Proof. by rewrite /dbl /J !mulmx_block ?(mul0mx, mulmx0, addr0, add0r, mulmx1, mul1mx, mulNmx, mulmxN). Qed.
Lemma dbl_det a : \det (dbl a) = RtoC (Rprod a * Rprod a)%coqR.
Proof.
rewrite /dbl det_ublock !det_diag RtoC_mult. have -> : \prod_i (\row_j RtoC (a j)) 0 i = RtoC (Rprod a); last by rewrite CmulE.
rewrite /Rprod (big_morph RtoC (id1 := 1) (op1 := *%R)) //; first by apply: eq_bigr => j _; rewrite mxE. by move=> x y; rewrite RtoC_mult CmulE.
Qed.
Lemma dbl_diag a : dbl a = diag_mx (row_mx (\row_j RtoC (a j)) (\row_j RtoC (a j))).
Proof. by rewrite diag_mx_row. Qed.
Lemma dbl_root a : (forall j, Rle R0 (a j)) -> f (dbl a) = dbl (fun j => sqrt (a j)).
Proof.
move=> Ha. case: Hf => _ _ Fd. rewrite dbl_diag Fd map_row_mx diag_mx_row /dbl.
have -> : map_mx csqrt (\row_j RtoC (a j)) = \row_j RtoC (sqrt (a j)); last by []. apply/matrixP => i j. by rewrite !mxE csqrt_R.
Qed.
Lemma Ci2 : Ci * Ci = -1. Proof. rewrite CmulE C1E CoppE /Ci /Cmult /Copp /RtoC /=. congr pair; ring. Qed.
Definition Rsum (g : 'I_n -> R) : R := \big[Rplus/R0]_(j < n) g j.
Definition rvec (x p : 'I_n -> R) : 'cV[C]_(n + n) := col_mx (\col_j RtoC (x j)) (\col_j RtoC (p j)).
Lemma Rsum_scale c (g : 'I_n -> R) : (c * \big[Rplus/R0]_(j < n) g j)%coqR = \big[Rplus/R0]_(j < n) (c * g j)%coqR.
Proof. apply: (big_rec2 (fun x y => (c * x)%coqR = y)); [ring|]. move=> j x y _ <-. ring. Qed.
Lemma rvec_quad a x p : ((rvec x p)^T *m (dbl a *m rvec x p)) 0 0 = RtoC (Rsum (fun j => a j * (x j * x j + p j * p j))%coqR).
Proof.
rewrite /rvec /dbl mul_block_col !mul0mx addr0 add0r tr_col_mx mul_row_col mxE.
have E y : ((\col_j RtoC (y j))^T *m (diag_mx (\row_j RtoC (a j)) *m (\col_j RtoC (y j) : 'cV[C]_n))) 0 0 = \sum_j RtoC (a j * (y j * y j))%coqR.
  rewrite mxE. apply: eq_bigr => j _. rewrite mul_diag_mx !mxE !CmulE -!RtoC_mult. congr RtoC. ring.
rewrite !E -big_split /= /Rsum (big_morph RtoC (id1 := 0) (op1 := +%R)) //; last by move=> y z; rewrite RtoC_plus CaddE.
apply: eq_bigr => j _. by rewrite CaddE -RtoC_plus Rmult_plus_distr_l.
Qed.
(** the overlap of one mode, a and b are the variances in units of hbar *)
Definition wv (a b : R) : R := ((1 / 4 + b * a) * 2 / (a + b))%coqR.
Definition ov (a b : R) : R := ((sqrt (1 - / (wv a b * wv a b)) + 1) * wv a b / (a + b))%coqR.
Lemma wv_ge (a b : R) : Rle (1 / 2) a -> Rle (1 / 2) b -> Rle R1 (wv a b).
Proof.
move=> ha hb'. rewrite /wv. apply: (Rmult_le_reg_r (a + b)); first lra. have -> : ((1 / 4 + b * a) * 2 / (a + b) * (a + b) = (1 / 4 + b * a) * 2)%coqR by field; lra.
have : Rle 0 ((a - 1 / 2) * (b - 1 / 2)) by apply: Rmult_le_pos; lra. lra.
Qed.
Lemma Rprod_M (g h : 'I_n -> R) : Rprod (fun j => g j * h j)%coqR = (Rprod g * Rprod h)%coqR.
Proof. rewrite /Rprod. apply: (big_rec3 (fun x y z => x = (y * z)%coqR)); [ring|]. move=> j x y z _ ->. ring. Qed.
Lemma Rprod_pos (g : 'I_n -> R) : (forall j, Rlt 0 (g j)) -> Rlt 0 (Rprod g).
Proof. move=> H. rewrite /Rprod. apply: (big_ind (fun x => Rlt 0 x)) => //; [lra|exact: Rmult_lt_0_compat]. Qed.
Lemma Rprod_ext (g h : 'I_n -> R) : (forall j, g j = h j) -> Rprod g = Rprod h.
Proof. move=> E. by apply: eq_bigr. Qed.
Lemma diag_fid_gen (g : 'M[C]_(n + n) -> 'M[C]_(n + n)) a b mu x p (s : 'I_n -> R) : Rlt 0 hb -> (forall j, Rle (1 / 2) (a j)) -> (forall j, Rle (1 / 2) (b j)) -> (forall j, Rle 0 (s j)) ->
  g (dbl (fun j => 1 - Rinv (wv (a j) (b j) * wv (a j) (b j)))%coqR) = dbl s ->
  gfidelity g hb mu (RtoC hb *: dbl a) (mu + rvec x p) (RtoC hb *: dbl b) =
  Base.Ok (Rprod (fun j => (s j + 1) * wv (a j) (b j) / (a j + b j)) * exp (- (1 / 2) * Rsum (fun j => (x j * x j + p j * p j) / (hb * (a j + b j)))))%coqR.
Proof.
move=> h0 Ha Hb s0 Gs. have hn : hb <> R0 by lra. rewrite /gfidelity. have Es c : RtoC (/ hb) *: (RtoC hb *: dbl c) = dbl c by rewrite scalerA CmulE -RtoC_mult Rinv_l // scale1r.
rewrite !Es. have [J1 J2] := JTJ. have ab j : Rlt 0 (a j + b j) by have := Ha j; have := Hb j; lra.
have [|iS uS] := @inv_uniq _ (dbl a + dbl b) (dbl (fun j => Rinv (a j + b j))).
  rewrite dblD dblM dbl1. apply: dbl_ext => j. apply: Rinv_r. have := ab j. lra.
rewrite /inv uS. cbn [Base.bind]. pose w j := wv (a j) (b j). have w1 j : Rle R1 (w j) := wv_ge (Ha j) (Hb j).
have EW : fidW (dbl a) (dbl b) (invmx (dbl a + dbl b)) = (- Ci) *: (dbl w *m J n).
  rewrite /fidW iS. have -> : q[1 / 4] *: J n + dbl b *m J n *m dbl a = dbl (fun j => (1 / 4 + b j * a j)%coqR) *m J n.
    rewrite -mulmxA -dblJ mulmxA dblM -dblD mulmxDl. congr (_ + _). have -> : dbl (fun _ : 'I_n => (1 / 4)%coqR) = q[1 / 4] *: (1%:M : 'M[C]_(n + n)) by rewrite dbl1 dblZ; apply: dbl_ext => j; ring. by rewrite -scalemxAl mul1mx.
  have JTd c : (J n)^T *m dbl c = dbl c *m (J n)^T by rewrite JT mulNmx mulmxN dblJ.
  rewrite JTd !mulmxA -[_ *m (J n)^T *m dbl _]mulmxA JTd !mulmxA dblM -[_ *m (J n)^T *m J n]mulmxA J1 mulmx1 -scalemxAr scalerA -mulrC mulrC -scalerA.
  rewrite scalerA mulrC -scalerA scaleNr -scalerN scalemxAl dblZ -mulNmx -scaleN1r. have -> : (-1 : C) = RtoC (-1)%coqR by rewrite C1E CoppE RtoC_opp.
  rewrite dblZ. congr (_ *: (_ *m _)). apply: dbl_ext => j. rewrite /w /wv. field. have := ab j. lra.
rewrite EW. set W := _ *: _. have WW : W *m W = dbl (fun j => (w j * w j)%coqR).
  rewrite /W -scalemxAl -scalemxAr scalerA mulrNN Ci2 mulmxA -(mulmxA (dbl w)) -dblJ !mulmxA dblM -mulmxA JJ mulmxN mulmx1 scaleN1r opprK. by [].
have w0 j : Rlt 0 (w j) by have := w1 j; lra.
have ww j : (w j * w j)%coqR <> R0 by have := Rmult_lt_0_compat _ _ (w0 j) (w0 j); lra.
have dW c : dbl c *m W = W *m dbl c by rewrite /W -scalemxAr -scalemxAl -mulmxA -dblJ !mulmxA !dblM; congr (_ *: (_ *m _)); apply: dbl_ext => j; ring.
have [|iW uW] := @inv_uniq _ W (W *m dbl (fun j => Rinv (w j * w j))).
  rewrite mulmxA WW dblM dbl1. apply: dbl_ext => j. by apply: Rinv_r.
have iWW : invmx W *m invmx W = dbl (fun j => Rinv (w j * w j)).
  have -> : invmx W *m invmx W = dbl (fun j => Rinv (w j * w j)) *m (W *m W) *m dbl (fun j => Rinv (w j * w j)) by rewrite iW -{1}dW !mulmxA.
  rewrite WW !dblM. apply: dbl_ext => j. field. have := w0 j. lra.
rewrite uW. cbn [Base.bind]. rewrite iWW.
have -> : g (1%:M - dbl (fun j => Rinv (w j * w j))) = dbl s.
  rewrite -Gs. congr g. rewrite dbl1 -scaleN1r. have -> : (-1 : C) = RtoC (-1)%coqR by rewrite C1E CoppE RtoC_opp. rewrite dblZ dblD. apply: dbl_ext => j. rewrite /w. ring.
have -> : fid_top (dbl s) W = RtoC (Rprod (fun j => (s j + 1) * w j) * Rprod (fun j => (s j + 1) * w j))%coqR.
  rewrite /fid_top dbl1 dblD. have -> : W *m (Ci *: J n) = - dbl w.
    by rewrite /W -scalemxAl -scalemxAr scalerA mulNr Ci2 opprK scale1r -mulmxA JJ mulmxN mulmx1.
  by rewrite mulmxN detNN dblM dbl_det.
have -> : mu + rvec x p - mu = rvec x p by rewrite addrC addKr.
have -> : ((RtoC (/ sqrt hb) *: rvec x p)^T *m (invmx (dbl a + dbl b) *m (RtoC (/ sqrt hb) *: rvec x p))) 0 0 = RtoC (Rsum (fun j => (x j * x j + p j * p j) / (hb * (a j + b j)))%coqR).
  rewrite iS linearZ /= -!scalemxAr -scalemxAl scalerA mxE rvec_quad. rewrite !CmulE -!RtoC_mult. congr RtoC.
  have sq0 := sqrt_lt_R0 _ h0. rewrite -Rinv_mult_distr; [|lra..]. rewrite sqrt_sqrt; last lra. rewrite /Rsum Rsum_scale. apply: eq_bigr => j _. field. have := ab j. lra.
rewrite dblD dbl_det. set P := Rprod (fun j => ((s j + 1) * w j)%coqR). set Q := Rprod (fun j => (a j + b j)%coqR).
have P0 : Rlt 0 P by apply: Rprod_pos => j; apply: Rmult_lt_0_compat; have := w0 j; have := s0 j; lra.
have Q0 : Rlt 0 Q by exact: Rprod_pos.
have -> : csqrt (RtoC (P * P) / RtoC (Q * Q)) = RtoC (P / Q).
  have QQ := Rmult_lt_0_compat _ _ Q0 Q0. rewrite CinvE -RtoC_inv; last lra. rewrite CmulE -RtoC_mult. have -> : (P * P * / (Q * Q) = (P / Q) * (P / Q))%coqR by field; lra.
  rewrite csqrt_R; last by apply: Rle_0_sqr. rewrite sqrt_square //. apply: Rlt_le. by apply: Rdiv_lt_0_compat.
have -> : (P / Q)%coqR = Rprod (fun j => (s j + 1) * wv (a j) (b j) / (a j + b j))%coqR.
  have Qn : Q <> R0 by lra. apply: (Rmult_eq_reg_r Q) => //. rewrite {1}/Q. have -> : (P / Q * Rprod (fun j => a j + b j) = P)%coqR by rewrite -/Q; field.
  rewrite /Q -Rprod_M. apply: Rprod_ext => j. rewrite -/(w j). field. have := ab j. lra.
rewrite /half !CmulE CoppE -RtoC_opp -RtoC_mult Cexp_R -RtoC_mult /Re /=. congr Base.Ok. congr (_ * exp (_ * _))%coqR. lra.
Qed.

Lemma diag_fid a b mu x p : Rlt 0 hb -> (forall j, Rle (1 / 2) (a j)) -> (forall j, Rle (1 / 2) (b j)) ->
  gfidelity f hb mu (RtoC hb *: dbl a) (mu + rvec x p) (RtoC hb *: dbl b) =
  Base.Ok (Rprod (fun j => ov (a j) (b j)) * exp (- (1 / 2) * Rsum (fun j => (x j * x j + p j * p j) / (hb * (a j + b j)))))%coqR.
Proof.
move=> h0 Ha Hb. apply: diag_fid_gen => //; first by move=> j; exact: sqrt_pos. apply: dbl_root => j. set w := wv _ _. have w1 : Rle R1 w by exact: wv_ge.
have : Rle (Rinv (w * w)) 1; last lra. rewrite -Rinv_1. apply: Rinv_le_contravar; [lra|have := Rmult_le_compat 1 w 1 w; lra].
Qed.
(** the overlap is the square of the Bhattacharyya coefficient of the photon number distributions *)
Lemma overlap_coef (n1 n2 be : R) : Rle 0 n1 -> Rle 0 n2 -> is_series (fun k => sqrt (photons n1 k * photons n2 k)) be ->
  ov (n1 + 1 / 2) (n2 + 1 / 2) = (be * be)%coqR /\ Rlt 0 be /\ Rle be 1.
Proof.
move=> h1 h2 Hs. pose X := sqrt ((n1 + 1) * (n2 + 1)). pose Y := sqrt (n1 * n2).
have p1 : Rlt 0 ((n1 + 1) * (n2 + 1)) by apply: Rmult_lt_0_compat; lra. have p2 : Rle 0 (n1 * n2) by apply: Rmult_le_pos.
have XX : (X * X = (n1 + 1) * (n2 + 1))%coqR by apply: sqrt_sqrt; lra. have YY : (Y * Y = n1 * n2)%coqR by exact: sqrt_sqrt.
have X0 : Rlt 0 X by exact: sqrt_lt_R0. have Y0 : Rle 0 Y by exact: sqrt_pos.
have XY : Rle (1 + Y) X.
  apply: Rsqr_incr_0_var; last lra. have Y2 : Rle Y ((n1 + n2) / 2).
    apply: Rsqr_incr_0_var; last lra. rewrite /Rsqr YY. have : Rle 0 ((n1 - n2) * (n1 - n2)) by exact: Rle_0_sqr. lra.
  have -> : Rsqr X = ((n1 + 1) * (n2 + 1))%coqR by []. have -> : Rsqr (1 + Y) = (1 + 2 * Y + Y * Y)%coqR by rewrite /Rsqr; ring. rewrite YY. lra.
have sX : sqrt (/ ((n1 + 1) * (n2 + 1))) = (/ X)%coqR by rewrite sqrt_inv.
have q0 : Rle 0 (Y / X) by apply: Rmult_le_pos => //; apply: Rlt_le; exact: Rinv_0_lt_compat.
have E k : sqrt (photons n1 k * photons n2 k) = (/ X * (Y / X) ^ k)%coqR.
  have -> : (photons n1 k * photons n2 k = (/ X * (Y / X) ^ k) * (/ X * (Y / X) ^ k))%coqR.
    rewrite /photons. have -> : (/ X * (Y / X) ^ k * (/ X * (Y / X) ^ k) = / (X * X) * ((Y * Y) / (X * X)) ^ k)%coqR.
      have -> : (Y * Y / (X * X) = Y / X * (Y / X))%coqR by field; lra. rewrite Rpow_mult_distr. field. lra.
    rewrite XX YY. have -> : (n1 * n2 / ((n1 + 1) * (n2 + 1)) = n1 / (n1 + 1) * (n2 / (n2 + 1)))%coqR by field; lra. rewrite Rpow_mult_distr. field. lra.
  apply: sqrt_square. apply: Rmult_le_pos; first by apply: Rlt_le; exact: Rinv_0_lt_compat. exact: pow_le.
have Hb : be = (/ (X - Y))%coqR.
  rewrite -(is_series_unique _ _ Hs) (Series_ext _ _ E) Series_scal_l Series_geom. field. lra.
  rewrite Rabs_pos_eq //. apply: (Rmult_lt_reg_r X) => //. have -> : (Y / X * X = Y)%coqR by field; lra. lra.
rewrite Hb. split; last first.
  split; first by apply: Rinv_0_lt_compat; lra. rewrite -Rinv_1. apply: Rinv_le_contravar; lra.
set a := (n1 + 1 / 2)%coqR. set b := (n2 + 1 / 2)%coqR. have ab : (a + b = (X - Y) * (X + Y))%coqR by have -> : ((X - Y) * (X + Y) = X * X - Y * Y)%coqR by [ring|]; rewrite XX YY /a /b; field.
have sp : Rlt 0 (a + b) by rewrite /a /b; lra.
have w1 : Rle R1 (wv a b) by apply: wv_ge; rewrite /a /b; lra. 
have Ew : (wv a b = (X * X + Y * Y) / (a + b))%coqR by rewrite /wv XX YY /a /b; field; lra.
have D : sqrt (1 - / (wv a b * wv a b)) = (2 * X * Y / (X * X + Y * Y))%coqR.
  have z0 : Rlt 0 (X * X + Y * Y) by rewrite XX YY; lra.
  have -> : (1 - / (wv a b * wv a b) = (2 * X * Y / (X * X + Y * Y)) * (2 * X * Y / (X * X + Y * Y)))%coqR.
    rewrite Ew ab. field. split; first lra. split; lra.
  apply: sqrt_square. apply: Rmult_le_pos; last by apply: Rlt_le; exact: Rinv_0_lt_compat. apply: Rmult_le_pos; lra.
rewrite /ov D Ew ab. field. split; first lra. split; first lra. have : Rlt 0 (X * X + Y * Y) by rewrite XX YY; lra. lra.
Qed.

Lemma Rprod_le1 (g : 'I_n -> R) : (forall j, Rlt 0 (g j) /\ Rle (g j) 1) -> Rle (Rprod g) 1.
Proof.
move=> H. rewrite /Rprod. suff : Rle 0 (\big[Rmult/R1]_(j < n) g j) /\ Rle (\big[Rmult/R1]_(j < n) g j) 1 by case.
apply: (big_ind (fun x => Rle 0 x /\ Rle x 1)); [lra| |by move=> j _; have := H j; lra].
move=> x y [x0 x1] [y0 y1]. split; first exact: Rmult_le_pos. have := Rmult_le_compat x 1 y 1 x0 y0 x1 y1. lra.
Qed.
Lemma Rsum_pos (g : 'I_n -> R) : (forall j, Rle 0 (g j)) -> Rle 0 (Rsum g).
Proof. move=> H. rewrite /Rsum. apply: (big_ind (fun x => Rle 0 x)) => //; [lra|exact: Rplus_le_le_0_compat]. Qed.
(** C76: two states that are thermal in the same frame, displaced with respect to each other: the square of the Bhattacharyya coefficient of
    their photon number distributions, times a Gaussian function of the displacement seen in that frame *)
Theorem C76_common_frame S mu (nbar1 nbar2 x p be : 'I_n -> R) : symplectic S -> Rlt 0 hb -> (forall j, Rle 0 (nbar1 j)) -> (forall j, Rle 0 (nbar2 j)) ->
  (forall j, is_series (fun k => sqrt (photons (nbar1 j) k * photons (nbar2 j) k)) (be j)) ->
  gfidelity f hb mu (frame hb S nbar1) (mu + S *m rvec x p) (frame hb S nbar2) =
  Base.Ok (Rprod be * Rprod be * exp (- (1 / 2) * Rsum (fun j => (x j * x j + p j * p j) / (hb * (nbar1 j + nbar2 j + 1)))))%coqR.
Proof.
move=> HS h0 h1 h2 Hb. have [h1' h2'] := HS. have [J3 J4] := J_inv n. have E1 : S *m (J n *m S^T *m - J n) = 1%:M by rewrite !mulmxA h2'.
have [iS uS] := inv_uniq E1. have Em : mu = S *m (invmx S *m mu) + 0 by rewrite addr0 mulmxA mulmxV // mul1mx. set m0 := invmx S *m mu in Em.
have Em2 : mu + S *m rvec x p = S *m (m0 + rvec x p) + 0 by rewrite mulmxDr {1}Em !addr0. rewrite Em2 {1}Em /frame.
have Ef nb : RtoC hb *: (S *m dbl (fun j => (nb j + 1 / 2)%coqR) *m S^T) = S *m (RtoC hb *: dbl (fun j => (nb j + 1 / 2)%coqR)) *m S^T by rewrite -scalemxAr -scalemxAl.
rewrite !Ef (C76_invariant 0 m0 _ _ _ HS) diag_fid //; [|by move=> j; have := h1 j; lra|by move=> j; have := h2 j; lra]. rewrite -Rprod_M. congr Base.Ok.
have -> : Rprod (fun j => ov (nbar1 j + 1 / 2) (nbar2 j + 1 / 2)) = Rprod (fun j => (be j * be j)%coqR) by apply: Rprod_ext => j; have [] := overlap_coef (h1 j) (h2 j) (Hb j).
congr (_ * exp (_ * _))%coqR. apply: eq_bigr => j _. congr (_ / (_ * _))%coqR. field.
Qed.
(** C76: it lies in (0, 1] *)
Theorem C76_range S mu (nbar1 nbar2 x p be : 'I_n -> R) : symplectic S -> Rlt 0 hb -> (forall j, Rle 0 (nbar1 j)) -> (forall j, Rle 0 (nbar2 j)) ->
  (forall j, is_series (fun k => sqrt (photons (nbar1 j) k * photons (nbar2 j) k)) (be j)) ->
  exists r, [/\ gfidelity f hb mu (frame hb S nbar1) (mu + S *m rvec x p) (frame hb S nbar2) = Base.Ok r, Rlt 0 r & Rle r 1].
Proof.
move=> HS h0 h1 h2 Hb. rewrite (C76_common_frame mu x p HS h0 h1 h2 Hb). set Sm := Rsum _. have S0 : Rle 0 Sm.
  apply: Rsum_pos => j. apply: Rmult_le_pos; first by apply: Rplus_le_le_0_compat; exact: Rle_0_sqr. apply: Rlt_le. apply: Rinv_0_lt_compat. apply: Rmult_lt_0_compat => //. have := h1 j. have := h2 j. lra.
have B0 : Rlt 0 (Rprod be) by apply: Rprod_pos => j; have [_ []] := overlap_coef (h1 j) (h2 j) (Hb j).
have B1 : Rle (Rprod be) 1 by apply: Rprod_le1 => j; have [_ []] := overlap_coef (h1 j) (h2 j) (Hb j).
have e0 := exp_pos (- (1 / 2) * Sm). have e1 : Rle (exp (- (1 / 2) * Sm)) 1.
  suff : Rle (exp (- (1 / 2) * Sm)) (exp 0) by rewrite exp_0.
  have [E0|lt] : (- (1 / 2) * Sm = 0 \/ - (1 / 2) * Sm < 0)%coqR by lra.
    rewrite E0. lra.
  by apply: Rlt_le; exact: exp_increasing.
have BB := Rmult_lt_0_compat _ _ B0 B0. have BB1 := Rmult_le_compat _ _ _ _ (Rlt_le _ _ B0) (Rlt_le _ _ B0) B1 B1.
eexists. split; first by []. exact: Rmult_lt_0_compat. have := Rmult_le_compat _ _ _ _ (Rlt_le _ _ BB) (Rlt_le _ _ e0) BB1 e1. lra.
Qed.
Lemma photons_sum nbar : Rle 0 nbar -> is_series (photons nbar) 1%coqR.
Proof.
move=> h. have q1 : Rle 0 (nbar / (nbar + 1)) by apply: Rmult_le_pos => //; apply: Rlt_le; apply: Rinv_0_lt_compat; lra.
have q2 : Rlt (Rabs (nbar / (nbar + 1))) 1 by rewrite Rabs_pos_eq //; apply: (Rmult_lt_reg_r (nbar + 1)); [lra|]; have -> : (nbar / (nbar + 1) * (nbar + 1) = nbar)%coqR by [field; lra|]; lra.
have := is_series_scal (/ (nbar + 1))%coqR _ _ (is_series_geom _ q2). have -> : scal (/ (nbar + 1))%coqR (/ (1 - nbar / (nbar + 1)))%coqR = 1%coqR by rewrite /scal /= /mult /=; field; lra. by [].
Qed.
Lemma photons_pos nbar k : Rle 0 nbar -> Rle 0 (photons nbar k).
Proof. move=> h. have i0 : Rle 0 (/ (nbar + 1)) by apply: Rlt_le; apply: Rinv_0_lt_compat; lra. apply: Rmult_le_pos => //. apply: pow_le. exact: Rmult_le_pos. Qed.
Lemma Rprod_1 : Rprod (fun _ : 'I_n => R1) = R1.
Proof. rewrite /Rprod. apply: (big_ind (fun x => x = R1)) => //. move=> x y -> ->. ring. Qed.
Lemma Rsum_0 (g : 'I_n -> R) : (forall j, g j = R0) -> Rsum g = R0.
Proof. move=> H. rewrite /Rsum. apply: (big_ind (fun x => x = R0)) => //. move=> x y -> ->. ring. Qed.
(** C76: the fidelity of a physical state with itself is 1 *)
Theorem C76_self S mu (nbar : 'I_n -> R) : symplectic S -> Rlt 0 hb -> (forall j, Rle 0 (nbar j)) ->
  gfidelity f hb mu (frame hb S nbar) mu (frame hb S nbar) = Base.Ok R1.
Proof.
move=> HS h0 h1. have := @C76_common_frame S mu nbar nbar (fun _ => R0) (fun _ => R0) (fun _ => R1) HS h0 h1 h1. have -> : rvec (fun _ => R0) (fun _ => R0) = 0 :> 'cV[C]_(n + n).
  apply/matrixP => i j. rewrite !mxE. case: split => k; by rewrite mxE.
rewrite mulmx0 addr0 => ->.
  rewrite Rprod_1 Rsum_0; first by rewrite Rmult_0_r exp_0 !Rmult_1_r.
  move=> j. rewrite Rmult_0_l Rplus_0_l /Rdiv Rmult_0_l. by [].
move=> j. apply: is_series_ext (photons_sum (h1 j)) => k. by rewrite sqrt_square //; apply: photons_pos.
Qed.
(** C76: coherent states: |<alpha|beta>|^2 = exp(-|alpha - beta|^2), the means being sqrt(2 hbar) times the real and imaginary parts *)
Theorem C76_coherent (re1 im1 re2 im2 : 'I_n -> R) : Rlt 0 hb ->
  let mean re im := rvec (fun j => sqrt (2 * hb) * re j)%coqR (fun j => sqrt (2 * hb) * im j)%coqR in
  let vacuum := RtoC (hb / 2)%coqR *: (1%:M : 'M[C]_(n + n)) in
  gfidelity f hb (mean re1 im1) vacuum (mean re2 im2) vacuum = Base.Ok (exp (- Rsum (fun j => (re1 j - re2 j) * (re1 j - re2 j) + (im1 j - im2 j) * (im1 j - im2 j))))%coqR.
Proof.
move=> h0 mean vac. pose dx j := (sqrt (2 * hb) * (re2 j - re1 j))%coqR. pose dp j := (sqrt (2 * hb) * (im2 j - im1 j))%coqR.
have HS : symplectic (1%:M : 'M[C]_(n + n)) by split; rewrite trmx1 mulmx1 mul1mx.
have Ev : vac = frame hb 1%:M (fun _ : 'I_n => R0) by rewrite /vac /frame trmx1 mulmx1 mul1mx dblZ dbl1 dblZ; apply: dbl_ext => j; field.
have Em : mean re2 im2 = mean re1 im1 + 1%:M *m rvec dx dp.
  rewrite mul1mx /mean /rvec add_col_mx. congr col_mx; apply/matrixP => i j; rewrite !mxE CaddE -RtoC_plus; congr RtoC; rewrite /dx /dp; ring.
rewrite Em Ev (@C76_common_frame 1%:M _ _ _ dx dp (fun _ => R1) HS h0) //; try (by move=> j; lra); last first.
  move=> j. apply: is_series_ext (photons_sum (Rle_refl 0)) => k. by rewrite sqrt_square //; apply: photons_pos; lra.
rewrite Rprod_1 !Rmult_1_l. congr Base.Ok. congr exp. rewrite -[in RHS](Rmult_1_l (Rsum _)) -Ropp_mult_distr_l_reverse /Rsum !Rsum_scale. apply: eq_bigr => j _.
have sq : (sqrt (2 * hb) * sqrt (2 * hb) = 2 * hb)%coqR by apply: sqrt_sqrt; lra.
have -> : (dx j * dx j + dp j * dp j = (sqrt (2 * hb) * sqrt (2 * hb)) * ((re1 j - re2 j) * (re1 j - re2 j) + (im1 j - im2 j) * (im1 j - im2 j)))%coqR by rewrite /dx /dp; ring.
rewrite sq. field. lra.
Qed.

Lemma f0 : f 0 = 0.
Proof.
case: Hf => _ _ Fd. have -> : (0 : 'M[C]_(n + n)) = diag_mx 0 by apply/matrixP => i j; rewrite !mxE mul0rn. rewrite Fd. congr diag_mx.
apply/matrixP => i j. rewrite !mxE. have -> : (0 : C) = RtoC R0 by rewrite C0E. rewrite csqrt_R; last lra. by rewrite sqrt_0.
Qed.
(** C76: when one of the states is pure, whatever the other one, it is their overlap: hbar^n / sqrt(det(cov1 + cov2)) exp(-1/2 d^T (cov1 + cov2)^-1 d) *)
Theorem C76_pure S mu1 mu2 cov2 D q : symplectic S -> Rlt 0 hb -> let cov1 := frame hb S (fun _ => R0) in
  \det (cov1 + cov2) = RtoC D -> Rlt 0 D -> ((mu2 - mu1)^T *m invmx (cov1 + cov2) *m (mu2 - mu1)) 0 0 = RtoC q ->
  gfidelity f hb mu1 cov1 mu2 cov2 = Base.Ok (hb ^ n / sqrt D * exp (- (1 / 2) * q))%coqR.
Proof.
move=> HS h0 cov1 HD D0 Hq. have hn : hb <> R0 by lra. have [h1 h2] := HS. have [J1 J2] := JTJ. have [J3 J4] := J_inv n.
have E1 : S *m (J n *m S^T *m - J n) = 1%:M by rewrite !mulmxA h2. have [iS uS] := inv_uniq E1.
have dS : \det S * \det S = 1.
  have := congr1 determinant h2. rewrite !det_mulmx det_tr mulrAC => E. have [uJ _] := mulmx1_unit J3. have nz : \det (J n) != 0 by move: uJ; rewrite unitmxE unitfE. by apply: (mulIf nz); rewrite mul1r.
have Ec : RtoC (/ hb) *: cov1 = RtoC (1 / 2)%coqR *: (S *m S^T).
  rewrite /cov1 /frame. have -> : dbl (fun _ : 'I_n => (0 + 1 / 2)%coqR) = RtoC (1 / 2)%coqR *: (1%:M : 'M[C]_(n + n)) by rewrite dbl1 dblZ; apply: dbl_ext => j; field.
  rewrite -scalemxAr mulmx1 -scalemxAl !scalerA. congr (_ *: _). rewrite !CmulE -!RtoC_mult. congr RtoC. by field.
rewrite /gfidelity Ec. set c1 := RtoC (1 / 2)%coqR *: _ in Ec *. set c2 := RtoC (/ hb) *: cov2.
have Es : c1 + c2 = RtoC (/ hb) *: (cov1 + cov2) by rewrite scalerDr Ec.
have Hd : \det (c1 + c2) = RtoC (D / (hb ^ n * hb ^ n))%coqR.
  rewrite Es detZ HD. have -> : RtoC (/ hb) ^+ (n + n) = RtoC (/ (hb ^ n * hb ^ n))%coqR.
    rewrite exprD. have -> : RtoC (/ hb) ^+ n = RtoC (/ hb ^ n)%coqR; last by rewrite CmulE -RtoC_mult Rinv_mult_distr //; apply: pow_nonzero.
    rewrite Rinv_pow //. elim: (n) => [|k IH]; first by rewrite expr0 C1E. by rewrite exprS IH CmulE -RtoC_mult.
  rewrite CmulE -RtoC_mult. congr RtoC. rewrite /Rdiv. ring.
have P0 := pow_lt _ n h0. have PP := Rmult_lt_0_compat _ _ P0 P0. have Dp : Rlt 0 (D / (hb ^ n * hb ^ n)) by apply: Rdiv_lt_0_compat.
have uC : c1 + c2 \in unitmx.
  rewrite unitmxE Hd unitfE. apply/eqP => E. rewrite C0E in E. injection E => E2. lra.
rewrite /inv uC. cbn [Base.bind]. have c1J : c1 *m J n *m c1 = q[1 / 4] *: J n.
  rewrite /c1 -scalemxAl -scalemxAl -scalemxAr scalerA. have -> : S *m S^T *m J n *m (S *m S^T) = S *m (S^T *m J n *m S) *m S^T by rewrite !mulmxA. rewrite h1 h2. congr (_ *: _). rewrite !CmulE -!RtoC_mult. congr RtoC. field.
have EW : fidW c1 c2 (invmx (c1 + c2)) = (q[-2] * Ci) *: (c1 *m J n).
  rewrite /fidW -c1J -!mulmxDl -!mulmxA mulKmx // !mulmxA J1 mul1mx -scalemxAr scalerA. by [].
rewrite EW. set W := _ *: _. have Cs : (q[-2] * Ci) * (q[-2] * Ci) = RtoC (-4)%coqR.
  rewrite mulrACA Ci2 !CmulE C1E CoppE -RtoC_opp -!RtoC_mult. congr RtoC. ring.
have WW : W *m W = 1%:M.
  rewrite /W -scalemxAl -scalemxAr scalerA Cs mulmxA c1J -!scalemxAl scalerA JJ -scaleN1r scalerA. rewrite -[RHS]scale1r. congr (_ *: _). rewrite !CmulE C1E CoppE -!RtoC_opp -!RtoC_mult. congr RtoC. field.
have [iW uW] := inv_uniq WW. rewrite uW. cbn [Base.bind]. rewrite iW WW subrr f0.
have -> : fid_top 0 W = 1.
  rewrite /fid_top add0r mul1mx. have -> : W *m (Ci *: J n) = RtoC (-1)%coqR *: (S *m S^T).
    rewrite /W -scalemxAl -scalemxAr scalerA -(mulrA _ Ci) Ci2 -mulmxA JJ mulmxN mulmx1 /c1 -scaleN1r !scalerA. congr (_ *: _). rewrite !CmulE C1E CoppE -!RtoC_opp -!RtoC_mult. congr RtoC. field.
  rewrite detZ det_mulmx det_tr dS mulr1. rewrite exprD. have -> : RtoC (-1)%coqR = -1 by rewrite C1E CoppE -RtoC_opp.
  by rewrite -expr2 sqrr_sign.
rewrite Hd mul1r CinvE -RtoC_inv; last lra. rewrite csqrt_R; last by apply: Rlt_le; exact: Rinv_0_lt_compat.
have -> : sqrt (/ (D / (hb ^ n * hb ^ n))) = (hb ^ n / sqrt D)%coqR.
  rewrite sqrt_inv // sqrt_div ?sqrt_square; [|lra..]. have := sqrt_lt_R0 _ D0. move=> ?. field. lra.
have -> : ((RtoC (/ sqrt hb) *: (mu2 - mu1))^T *m (invmx (c1 + c2) *m (RtoC (/ sqrt hb) *: (mu2 - mu1)))) 0 0 = RtoC q.
  rewrite Es. set de := mu2 - mu1 in Hq *. have uu : cov1 + cov2 \in unitmx by rewrite unitmxE HD unitfE; apply/eqP => E; rewrite C0E in E; injection E => E2; lra.
  have [|-> _] := @inv_uniq _ (RtoC (/ hb) *: (cov1 + cov2)) (RtoC hb *: invmx (cov1 + cov2)).
    rewrite -scalemxAl -scalemxAr mulmxV // scalerA CmulE -RtoC_mult Rinv_l // scale1r. by [].
  rewrite linearZ /= -!(scalemxAl, scalemxAr) !scalerA mulmxA mxE Hq !CmulE -!RtoC_mult. congr RtoC. have sq := sqrt_sqrt hb (Rlt_le _ _ h0). have sp := sqrt_lt_R0 _ h0.
  have -> : (/ sqrt hb * (hb * / sqrt hb) * q = hb / (sqrt hb * sqrt hb) * q)%coqR by field; lra. rewrite sq. field. lra.
rewrite /half !CmulE CoppE -RtoC_opp -RtoC_mult Cexp_R -RtoC_mult /Re /=. congr Base.Ok. congr (_ * exp (_ * _))%coqR. lra.
Qed.
(** backend_numpy.py:357-362: sqrtm returns the zero matrix when every entry is within 1e-8 of zero *)
Definition np_sqrtm (g : 'M[C]_(n + n) -> 'M[C]_(n + n)) (A : 'M[C]_(n + n)) : 'M[C]_(n + n) :=
  if excluded_middle_informative (forall i j, Rle (Cmod (A i j)) (1 / 100000000)) then 0 else g A.
(** C76, deviation: because of that shortcut the fidelity of a nearly pure state with itself is not 1: thermal modes with nbar = 1/100000 in any frame *)
Theorem C76_near_pure_refuted S mu : symplectic S -> Rlt 0 hb -> (0 < n)%N -> S *m S^T = 1%:M ->
  exists r, gfidelity (np_sqrtm f) hb mu (frame hb S (fun _ => (1 / 100000)%coqR)) mu (frame hb S (fun _ => (1 / 100000)%coqR)) = Base.Ok r /\ Rlt r (1 - 1 / 100000).
Proof.
move=> HS h0 n0 SS. set e := (1 / 100000)%coqR. have -> : frame hb S (fun _ => e) = RtoC hb *: dbl (fun _ : 'I_n => (e + 1 / 2)%coqR).
  rewrite /frame. have -> : dbl (fun _ : 'I_n => (e + 1 / 2)%coqR) = RtoC (e + 1 / 2)%coqR *: (1%:M : 'M[C]_(n + n)) by rewrite dbl1 dblZ; apply: dbl_ext => j; ring.
  by rewrite -scalemxAr -scalemxAl mulmx1 SS.
set a := (e + 1 / 2)%coqR. have e0 : (e = 1 / 100000)%coqR by []. set w := wv a a. have Ew : (w = 1 + e * e / a)%coqR by rewrite /w /wv /a; field; lra.
have ha : Rle (1 / 2) a by rewrite /a; lra. have w1 : Rle R1 w by exact: wv_ge.
have Hs : np_sqrtm f (dbl (fun _ : 'I_n => 1 - Rinv (w * w))%coqR) = dbl (fun _ : 'I_n => R0).
  have d0 : dbl (fun _ : 'I_n => R0) = 0.
    rewrite /dbl. have -> : diag_mx (\row__ RtoC R0) = 0 :> 'M[C]_n by apply/matrixP => i j; rewrite !mxE C0E mul0rn. by rewrite block_mx0.
  rewrite /np_sqrtm d0. case: excluded_middle_informative => [//|[]] i j. have y0 : Rle 0 (1 - / (w * w)).
    have : Rle (Rinv (w * w)) 1; last lra. rewrite -Rinv_1. apply: Rinv_le_contravar; [lra|have := Rmult_le_compat 1 w 1 w; lra].
  have y1 : Rle (1 - / (w * w)) (1 / 100000000).
    have wb : Rle (w * w) (1 + 1 / 100000000).
      have : Rle w (1 + 2 * e * e); last by rewrite e0; nra. rewrite Ew. have : Rle (e * e / a) (2 * e * e); last lra. apply: (Rmult_le_reg_r a); first lra. have -> : (e * e / a * a = e * e)%coqR by field; lra. have := Rmult_le_compat_l (e * e) (1 / 2) a. rewrite e0. lra.
    have i1 : Rle (/ (1 + 1 / 100000000)) (/ (w * w)) by apply: Rinv_le_contravar => //; nra. lra.
  rewrite dbl_diag !mxE. case: (i == j); last by rewrite mulr0n C0E Cmod_0; lra. rewrite mulr1n. by case: split => k; rewrite mxE Cmod_R Rabs_pos_eq.
have := @diag_fid_gen (np_sqrtm f) (fun _ => a) (fun _ => a) mu (fun _ => R0) (fun _ => R0) (fun _ => R0) h0 (fun _ => ha) (fun _ => ha) (fun _ => Rle_refl 0) Hs.
have -> : rvec (fun _ => R0) (fun _ => R0) = 0 :> 'cV[C]_(n + n) by apply/matrixP => i j; rewrite !mxE; case: split => k; rewrite mxE.
rewrite addr0 => ->. eexists. split; first by []. rewrite (@Rsum_0 (fun _ => _)); last by move=> j; rewrite Rmult_0_l Rplus_0_l /Rdiv Rmult_0_l.
rewrite Rmult_0_r exp_0 Rmult_1_r -/w. have Ev : ((0 + 1) * w / (a + a) = 1 / 2 + 1 / (8 * a * a))%coqR by rewrite /w /wv; field; lra. rewrite Ev. set v := (1 / 2 + _)%coqR.
have aa : Rle (1 / (8 * a * a)) (1 / 2 - 3 / 2 * e).
  apply: (Rmult_le_reg_r (8 * a * a)); first nra. have -> : (1 / (8 * a * a) * (8 * a * a) = 1)%coqR by field; lra. rewrite /a e0. lra.
have v0 : Rle 0 v by rewrite /v; have : Rlt 0 (1 / (8 * a * a)); [apply: Rdiv_lt_0_compat; nra|lra]. have v1 : Rle v (1 - 3 / 2 * e) by rewrite /v; lra.
case: (n) n0 => [//|k] _. rewrite /Rprod big_ord_recl. have L : forall k, Rle 0 (\big[Rmult/R1]_(j < k) v) /\ Rle (\big[Rmult/R1]_(j < k) v) 1.
  move=> l. apply: (big_ind (fun y => Rle 0 y /\ Rle y 1)); [lra| |move=> *; lra]. move=> y z [y0 y1] [z0 z1]. split; first exact: Rmult_le_pos. have := Rmult_le_compat y 1 z 1 y0 z0 y1 z1. lra.
have [L0 L1] := L k. have := Rmult_le_compat v (1 - 3 / 2 * e) _ 1 v0 L0 v1 L1. rewrite e0. lra.
Qed.
End Gauss.

(** ** Fock fidelity *)
Section Fock.
Variables (N : nat) (f : 'M[C]_N -> 'M[C]_N).
Hypothesis Hf : root_fun f.
Implicit Types (A B P U : 'M[C]_N).
Lemma trM A B : \tr (A *m B) = \tr (B *m A). Proof. exact: mxtrace_mulC. Qed.
Lemma tr_sim P A : P \in unitmx -> \tr (P *m A *m invmx P) = \tr A.
Proof. move=> u. by rewrite trM mulmxA mulVmx // mul1mx. Qed.
(** C76: it does not depend on the basis: in particular not on a unitary applied to both states *)
Theorem C76_fock_invariant P A B : P \in unitmx -> ffidelity f (P *m A *m invmx P) (P *m B *m invmx P) = ffidelity f A B.
Proof. move=> u. case: Hf => Fs _ _. by rewrite /ffidelity Fs // !simM // Fs // tr_sim. Qed.
(** C76: nor on which of the two indices is the bra *)
Theorem C76_fock_transpose A B : ffidelity f A^T B^T = ffidelity f A B.
Proof. case: Hf => _ Ft _. rewrite /ffidelity Ft. have -> : (f A)^T *m B^T *m (f A)^T = (f A *m B *m f A)^T by rewrite !trmx_mul mulmxA. by rewrite Ft mxtrace_tr. Qed.
Definition dg (p : 'I_N -> R) : 'M[C]_N := diag_mx (\row_j RtoC (p j)).
Lemma dgM p q : dg p *m dg q = dg (fun j => (p j * q j)%coqR).
Proof. apply/matrixP => i j. rewrite mul_diag_mx !mxE. case: eqP => [->|_]; by rewrite ?mulr0n ?mulr0 // !mulr1n RtoC_mult CmulE. Qed.
Lemma dg_ext p q : (forall j, p j = q j) -> dg p = dg q.
Proof. move=> E. rewrite /dg. congr diag_mx. apply/matrixP => i j. by rewrite !mxE E. Qed.
Lemma dg_root p : (forall j, Rle 0 (p j)) -> f (dg p) = dg (fun j => sqrt (p j)).
Proof. move=> H. case: Hf => _ _ Fd. rewrite /dg Fd. congr diag_mx. apply/matrixP => i j. by rewrite !mxE csqrt_R. Qed.
Lemma dg_tr p : \tr (dg p) = RtoC (Rsum p).
Proof. rewrite mxtrace_diag /Rsum (big_morph RtoC (id1 := 0) (op1 := +%R)) //; last by move=> x y; rewrite RtoC_plus CaddE. by apply: eq_bigr => j _; rewrite mxE. Qed.
(** C76: two states with the same eigenvectors: the square of the Bhattacharyya coefficient of their spectra *)
Theorem C76_fock_commuting U p q : U \in unitmx -> (forall j, Rle 0 (p j)) -> (forall j, Rle 0 (q j)) ->
  ffidelity f (U *m dg p *m invmx U) (U *m dg q *m invmx U) = (Rsum (fun j => sqrt (p j * q j)) * Rsum (fun j => sqrt (p j * q j)))%coqR.
Proof.
move=> u hp hq. rewrite C76_fock_invariant // /ffidelity dg_root // !dgM.
have E j : (sqrt (p j) * q j * sqrt (p j) = p j * q j)%coqR by rewrite -{3}(sqrt_sqrt (p j) (hp j)); ring.
rewrite (dg_ext E) dg_root; last by move=> j; apply: Rmult_le_pos. rewrite dg_tr -RtoC_mult Cmod_R Rabs_pos_eq //. exact: Rle_0_sqr.
Qed.
(** C76: the fidelity of a state with itself is the square of its trace, so 1 when it is normalised *)
Theorem C76_fock_self U p : U \in unitmx -> (forall j, Rle 0 (p j)) -> ffidelity f (U *m dg p *m invmx U) (U *m dg p *m invmx U) = (Rsum p * Rsum p)%coqR.
Proof.
move=> u hp. rewrite C76_fock_commuting //. have -> : Rsum (fun j => sqrt (p j * p j)) = Rsum p; last by []. apply: eq_bigr => j _. exact: sqrt_square.
Qed.
(** ** a pure state against any other *)
Lemma idem_diag A : A *m A = A -> exists U l, [/\ U \in unitmx, A = U *m diag_mx l *m invmx U & forall j, l 0 j = 0 \/ l 0 j = 1].
Proof.
move=> AA. have [P uP /(diagonalizable_forLR uP) [l]] : diagonalizable A.
  apply/diagonalizablePeigen. exists [:: 0; 1]; first by rewrite /= inE eq_sym oner_eq0. rewrite big_cons big_seq1. apply/eqmxP. rewrite submx1 /=.
  apply/row_subP => i. set v := row i 1%:M. have -> : v = (v - v *m A) + v *m A by rewrite subrK. apply: addmx_sub_adds; apply/eigenspaceP.
  - by rewrite mulmxBl -mulmxA AA subrr scale0r.
  - by rewrite -mulmxA AA scale1r.
rewrite conjumx ?unitmx_inv // => E. exists (invmx P), l. rewrite unitmx_inv. split=> // j.
have : diag_mx l *m diag_mx l = diag_mx l.
  have -> : diag_mx l = P *m A *m invmx P by rewrite E invmxK !mulmxA mulmxV // mul1mx mulmxK.
  by rewrite simM // AA.
move/matrixP => /(_ j j). rewrite mul_diag_mx !mxE eqxx !mulr1n => Ej. case: (eqVneq (l 0 j) 0) => [|nz]; [by left|right]. by apply: (mulfI nz); rewrite mulr1.
Qed.
Lemma idem_root A (c : R) : A *m A = A -> Rle 0 c -> f (RtoC c *: A) = RtoC (sqrt c) *: A.
Proof.
move=> AA hc. have [U [l [uU -> Hl]]] := idem_diag AA. case: Hf => Fs _ Fd.
have Es x : RtoC x *: (U *m diag_mx l *m invmx U) = U *m diag_mx (RtoC x *: l) *m invmx U by rewrite scalemxAl scalemxAr; congr (_ *m _ *m _); apply/matrixP => i j; rewrite !mxE mulrnAr.
rewrite !Es Fs // Fd. congr (_ *m diag_mx _ *m _). apply/matrixP => i j. rewrite !mxE (ord1 i). case: (Hl j) => ->; last by rewrite !mulr1 csqrt_R.
have C0 : (0 : C) = RtoC R0 by rewrite C0E. rewrite !mulr0 C0 csqrt_R; last lra. by rewrite sqrt_0.
Qed.
(** C76: a pure state psi (a unit vector) against any other state B: the fidelity is <psi|B|psi> *)
Theorem C76_fock_pure (psi : 'cV[C]_N) B c : (adj psi *m psi) 0 0 = 1 -> (adj psi *m B *m psi) 0 0 = RtoC c -> Rle 0 c ->
  ffidelity f (psi *m adj psi) B = c.
Proof.
move=> n1 Hc c0. have E1 : adj psi *m psi = 1%:M by apply/matrixP => i j; rewrite !ord1 n1 !mxE eqxx.
have Ec : adj psi *m B *m psi = (RtoC c)%:M by apply/matrixP => i j; rewrite !ord1 Hc !mxE eqxx.
set A := psi *m adj psi. have AA : A *m A = A by rewrite /A mulmxA -(mulmxA psi) E1 mulmx1.
have fA : f A = A by have := idem_root AA Rle_0_1; rewrite sqrt_1 -C1E !scale1r.
have EB : A *m B *m A = RtoC c *: A.
  have -> : A *m B *m A = psi *m (adj psi *m B *m psi) *m adj psi by rewrite /A !mulmxA. by rewrite Ec mul_mx_scalar -scalemxAl.
rewrite /ffidelity fA EB idem_root // linearZ /= /A mxtrace_mulC E1 mxtrace1 mulr1 -RtoC_mult sqrt_sqrt // Cmod_R Rabs_pos_eq //.
Qed.
(** ** symmetry *)
Lemma char_cancel A B : char_poly (A *m B) = char_poly (B *m A).
Proof.
rewrite /char_poly /char_poly_mx !map_mxM. set a := map_mx polyC A. set b := map_mx polyC B.
have E1 : block_mx 'X%:M a b 1%:M *m block_mx 1%:M 0 (- b) 1%:M = block_mx ('X%:M - a *m b) a 0 1%:M :> 'M[{poly C}]_(N + N).
  rewrite mulmx_block !mulmx1 !mulmx0 !add0r !mulmxN mul1mx. by rewrite subrr.
have E2 : block_mx 'X%:M a b 1%:M *m block_mx 1%:M (- a) 0 'X%:M = block_mx 'X%:M 0 b ('X%:M - b *m a) :> 'M[{poly C}]_(N + N).
  rewrite mulmx_block !mulmx1 !mulmx0 !addr0 !mulmxN mul1mx. congr block_mx; first by rewrite mul_mx_scalar mul_scalar_mx addrC subrr. by rewrite addrC.
have := congr1 determinant E1. have := congr1 determinant E2. rewrite !det_mulmx !det_ublock !det_lblock !det1 !mulr1 mul1r det_scalar => F2 F1.
rewrite F1 mulrC in F2. apply: (mulfI _ F2). by rewrite expf_neq0 // polyX_eq0.
Qed.
Lemma char_sim P (l : 'rV[C]_N) : P \in unitmx -> char_poly (P *m diag_mx l *m invmx P) = \prod_i ('X - (l 0 i)%:P).
Proof.
move=> u. rewrite -mulmxA char_cancel mulmxKV // char_poly_trig ?diag_mx_is_trig //. apply: eq_bigr => i _. by rewrite mxE eqxx mulr1n.
Qed.
Lemma same_roots (s t : seq C) : \prod_(x <- s) ('X - x%:P) = \prod_(x <- t) ('X - x%:P) -> perm_eq s t.
Proof.
elim: s t => [|x s IH] t E.
  case: t E => [//|y t] E. have : size (\prod_(x <- [::]) ('X - x%:P) : {poly C}) = size (\prod_(x <- y :: t) ('X - x%:P)) by rewrite E. by rewrite !size_prod_XsubC.
have xt : x \in t by rewrite -root_prod_XsubC -E root_prod_XsubC mem_head.
have pe := perm_to_rem xt. rewrite (perm_big _ pe) /= !big_cons in E. have nz : 'X - x%:P != 0 :> {poly C} by rewrite polyXsubC_eq0.
have E2 := mulfI nz E. apply: (@perm_trans _ (x :: rem x t)); last by rewrite perm_sym.
rewrite perm_cons. exact: IH.
Qed.
Lemma same_spectrum P Q (l m : 'rV[C]_N) : P \in unitmx -> Q \in unitmx -> char_poly (P *m diag_mx l *m invmx P) = char_poly (Q *m diag_mx m *m invmx Q) ->
  \sum_i csqrt (l 0 i) = \sum_i csqrt (m 0 i).
Proof.
move=> uP uQ. rewrite !char_sim // => E. have B (g : 'rV[C]_N) : \prod_i ('X - (g 0 i)%:P) = \prod_(x <- map (fun i => g 0 i) (enum 'I_N)) ('X - x%:P) by rewrite big_map big_enum.
rewrite !B in E. have pe := same_roots E. have D (g : 'rV[C]_N) : \sum_i csqrt (g 0 i) = \sum_(x <- map (fun i => g 0 i) (enum 'I_N)) csqrt x by rewrite big_map big_enum.
by rewrite !D; apply: perm_big.
Qed.
Lemma f_sq A : diagonalisable A -> f A *m f A = A.
Proof.
case=> P [l [u ->]]. case: Hf => Fs _ Fd. rewrite Fs // Fd simM //. congr (_ *m _ *m _). apply/matrixP => i j. rewrite mul_diag_mx !mxE. case: eqP => [->|_]; by rewrite ?mulr0n ?mulr0 // !mulr1n CmulE csqrt_sq.
Qed.
(** C76: it is symmetric, the two states and the two products under the root being diagonalisable *)
Theorem C76_fock_symmetric A B : diagonalisable A -> diagonalisable B -> diagonalisable (f A *m B *m f A) -> diagonalisable (f B *m A *m f B) ->
  ffidelity f A B = ffidelity f B A.
Proof.
move=> dA dB [P [l [uP E1]]] [Q [m [uQ E2]]]. case: Hf => Fs _ Fd. rewrite /ffidelity E1 E2 !Fs // !Fd !tr_sim // !mxtrace_diag.
have -> : \sum_i map_mx csqrt l 0 i = \sum_i csqrt (l 0 i) by apply: eq_bigr => i _; rewrite mxE.
have -> : \sum_i map_mx csqrt m 0 i = \sum_i csqrt (m 0 i) by apply: eq_bigr => i _; rewrite mxE.
rewrite (same_spectrum (l := l) (m := m) uP uQ) // -E1 -E2.
have -> : f A *m B *m f A = (f A *m f B) *m (f B *m f A) by rewrite -{1}(f_sq dB) !mulmxA.
have -> : f B *m A *m f B = (f B *m f A) *m (f A *m f B) by rewrite -{1}(f_sq dA) !mulmxA. exact: char_cancel.
Qed.
End Fock.

(** ** Examples *)
(** the vacuum and three thermal photons, both in the same squeezed frame, displaced by 1 along the squeezed position *)
Example C76_example f : root_fun f ->
  let S := block_mx (RtoC 2)%:M 0 0 (RtoC (1 / 2)%coqR)%:M : 'M[C]_(1 + 1) in
  gfidelity f 2%coqR 0 (frame 2%coqR S (fun _ => R0)) (S *m rvec (fun _ => R1) (fun _ => R0)) (frame 2%coqR S (fun _ => 3%coqR)) = Base.Ok (1 / 4 * exp (- (1 / 16)))%coqR.
Proof.
move=> Hf S. have HS : symplectic S.
  have e : RtoC 2 * RtoC (1 / 2)%coqR = 1 by rewrite CmulE -RtoC_mult C1E; congr RtoC; field.
  have e' : RtoC (1 / 2)%coqR * RtoC 2 = 1 by rewrite mulrC.
  split; rewrite /S /J tr_block_mx !trmx0 !tr_scalar_mx !mulmx_block ?(mul0mx, mulmx0, mulmx1, addr0, add0r, mulmxN, mulNmx) -!scalar_mxM ?e ?e' ?oppr0 //.
rewrite -[S *m _]add0r (@C76_common_frame 1 f 2%coqR Hf S 0 _ _ _ _ (fun _ => (1 / 2)%coqR) HS); try (by move=> *; lra); last first.
  move=> _. have E k : sqrt (photons 0 k * photons 3 k) = (1 / 2 * 0 ^ k)%coqR.
    rewrite /photons. case: k => [|k] /=; last by rewrite /Rdiv !Rmult_0_l !Rmult_0_r Rmult_0_l sqrt_0.
    have -> : (/ (0 + 1) * 1 * (/ (3 + 1) * 1) = (1 / 2) * (1 / 2))%coqR by field. rewrite sqrt_square; lra.
  have q0 : Rlt (Rabs 0) 1 by rewrite Rabs_R0; lra.
  have := is_series_scal (1 / 2)%coqR _ _ (is_series_geom _ q0). have -> : scal (1 / 2)%coqR (/ (1 - 0))%coqR = (1 / 2)%coqR by rewrite /scal /= /mult /=; field.
  move=> H. apply: is_series_ext H => k. by rewrite E.
rewrite /Rprod /Rsum !big_ord_recl !big_ord0. congr Base.Ok. have -> : (- (1 / 2) * ((1 * 1 + 0 * 0) / (2 * (0 + 3 + 1)) + 0) = - (1 / 16))%coqR by field. field.
Qed.
(** the maximally mixed state of two levels against a basis state *)
Example C76_fock_example (f : 'M[C]_2 -> 'M[C]_2) (U : 'M[C]_2) : root_fun f -> U \in unitmx ->
  ffidelity f (U *m dg (fun _ => (1 / 2)%coqR) *m invmx U) (U *m dg (fun j => if j == ord0 then R1 else R0) *m invmx U) = (1 / 2)%coqR.
Proof.
move=> Hf u. rewrite C76_fock_commuting //; [|by move=> *; lra|by move=> j; case: ifP => _; lra].
rewrite /Rsum !big_ord_recl !big_ord0 /=. have -> : ((1 / 2) * R0 = 0)%coqR by ring. rewrite sqrt_0 Rmult_1_r !Rplus_0_r. apply: sqrt_sqrt. lra.
Qed.
