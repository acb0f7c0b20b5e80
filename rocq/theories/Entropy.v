(** Symplectic eigenvalues, von Neumann entropy, separability and photon numbers of Gaussian states: claim C78.
    Model of mrmustard/physics/gaussian.py:25-93 (number_means, symplectic_eigenvals, von_neumann_entropy) and of State.is_separable (lab/states/base.py:113-138).
    math.eigvals is a function eig that lists the eigenvalues with multiplicity; real arithmetic. *)
From Coq Require Import Reals Lra Psatz.
From Coquelicot Require Import Complex Series Hierarchy PSeries Rcomplements ElemFct.
From mathcomp Require Import all_ssreflect all_algebra.
From Verif Require Import CMat Optimizer GateSym BargSym CExp PosDef Fidelity.
Require Verif.Base.
Set Implicit Arguments. Unset Strict Implicit. Unset Printing Implicit Defensive.
Import GRing.Theory.
Local Open Scope ring_scope.
Delimit Scope R_scope with coqR.
Local Arguments Re : simpl never.

(** ** Model *)
(** gaussian.py:25-42, entry j; real matrices are embedded in the complex ones *)
Definition number_means n (hb : R) (cov : 'M[C]_(n + n)) (mu : 'cV[C]_(n + n)) (j : 'I_n) : C :=
  (mu (lshift n j) 0 ^+ 2 + mu (rshift n j) 0 ^+ 2 + ulsubmx cov j j + drsubmx cov j j - RtoC hb) / RtoC (2 * hb)%coqR.
(** math.sort and vals[::2] *)
Definition Rleb (x y : R) : bool := if Rle_dec x y then true else false.
Fixpoint evens (l : seq R) : seq R := match l with x :: _ :: l' => x :: evens l' | _ => l end.
(** gaussian.py:67-68 *)
Definition sympM n (hb : R) (cov : 'M[C]_(n + n)) : 'M[C]_(n + n) := (Ci *: J n) *m (RtoC (2 / hb)%coqR *: cov).
(** gaussian.py:57-72 *)
Definition symplectic_eigenvals n (eig : 'M[C]_(n + n) -> seq C) hb cov : seq R := evens (sort Rleb (map Cmod (eig (sympM hb cov)))).
(** scipy.special.xlogy on real arguments with y > 0 or x = 0 *)
Definition xlogy (x y : R) : R := if Req_EM_T x R0 then R0 else (x * ln y)%coqR.
(** gaussian.py:89-90 *)
Definition entropy_g (x : R) : R := (xlogy ((x + 1) / 2) ((x + 1) / 2) - xlogy ((x - 1) / 2) ((x - 1) / 2 + / 10 ^ 9))%coqR.
(** gaussian.py:75-93 *)
Definition von_neumann_entropy n (eig : 'M[C]_(n + n) -> seq C) hb cov : R := \big[Rplus/R0]_(x <- symplectic_eigenvals eig hb cov) entropy_g x.
(** base.py:132-133: the covariance of rho[mode], i.e. rows and columns j and n + j *)
Definition mode_cov n (cov : 'M[C]_(n + n)) (j : 'I_n) : 'M[C]_(1 + 1) :=
  block_mx (ulsubmx cov j j)%:M (ursubmx cov j j)%:M (dlsubmx cov j j)%:M (drsubmx cov j j)%:M.
(** base.py:113-138 on the covariance of phase_space(0); math.allclose(d, 0) has atol 1e-9 and its rtol multiplies 0 *)
Definition is_separable n (eig : forall k, 'M[C]_(k + k) -> seq C) hb (cov : 'M[C]_(n + n)) : bool :=
  if n == 1%N then true else
  Rleb (Rabs (- von_neumann_entropy (@eig n) hb cov + Rsum (fun j : 'I_n => von_neumann_entropy (@eig 1%N) hb (mode_cov cov j))))%coqR (/ 10 ^ 9)%coqR.

(** ** Specification *)
(** L lists the eigenvalues of A with multiplicity *)
Definition eigenvalues N (A : 'M[C]_N) (L : seq C) : Prop := char_poly A = \prod_(x <- L) ('X - x%:P).
(** the entropy of a probability distribution on the natural numbers *)
Definition entropy_of (p : nat -> R) (s : R) : Prop := is_series (fun k => (- (p k * ln (p k)))%coqR) s.
(** its mean *)
Definition mean_of (p : nat -> R) (s : R) : Prop := is_series (fun k => (INR k * p k)%coqR) s.
Definition poisson (x : R) (k : nat) : R := (exp (- x) * (x ^ k / INR (Factorial.fact k)))%coqR.
(** no correlations between different modes *)
Definition uncorrelated n (cov : 'M[C]_(n + n)) : Prop := forall j k : 'I_n, j <> k ->
  [/\ ulsubmx cov j k = 0, ursubmx cov j k = 0, dlsubmx cov j k = 0 & drsubmx cov j k = 0].
(** a real single-mode covariance matrix with variances p, r and covariance q that satisfies the uncertainty relation *)
Definition physical1 (hb : R) (c : 'M[C]_(1 + 1)) (p q r : R) : Prop :=
  [/\ c = block_mx (RtoC p)%:M (RtoC q)%:M (RtoC q)%:M (RtoC r)%:M, Rlt R0 p & Rle (hb * hb / 4) (p * r - q * q)]%coqR.

(** ** Sums of reals, sorting *)
Lemma RaddA : associative Rplus. Proof. move=> x y z. ring. Qed.
Lemma RaddC : commutative Rplus. Proof. exact: Rplus_comm. Qed.
Lemma Radd0 : left_id R0 Rplus. Proof. exact: Rplus_0_l. Qed.
Lemma Raddr0 : right_id R0 Rplus. Proof. exact: Rplus_0_r. Qed.
Canonical Rplus_law := Monoid.Law RaddA Radd0 Raddr0.
Canonical Rplus_com := Monoid.ComLaw RaddC.
Lemma R_eqP : Equality.axiom (fun x y : R => if Req_EM_T x y then true else false).
Proof. move=> x y. by case: Req_EM_T => H; constructor. Qed.
Canonical R_eqType := Eval hnf in EqType R (EqMixin R_eqP).
Lemma RlebP x y : reflect (Rle x y) (Rleb x y).
Proof. rewrite /Rleb. by case: Rle_dec => H; constructor. Qed.
Lemma Rleb_total : total Rleb. Proof. move=> x y. apply/orP. case: (Rle_lt_dec x y) => H; [left|right]; apply/RlebP => //. exact: Rlt_le. Qed.
Lemma Rleb_trans : transitive Rleb. Proof. move=> y x z /RlebP H /RlebP H'. apply/RlebP. exact: Rle_trans H H'. Qed.
Lemma Rleb_anti : antisymmetric Rleb. Proof. move=> x y /andP [/RlebP H /RlebP H']. exact: Rle_antisym. Qed.
Fixpoint dupl (l : seq R) : seq R := if l is x :: l' then x :: x :: dupl l' else [::].
Lemma evens_dupl l : evens (dupl l) = l.
Proof. elim: l => //= x l ->. by []. Qed.
Lemma dupl_perm l : perm_eq (dupl l) (l ++ l).
Proof.
elim: l => //= x l IH. rewrite perm_cons perm_sym -[l ++ x :: l]/(l ++ [:: x] ++ l) (perm_catCA l [:: x] l) /= perm_cons perm_sym. exact: IH.
Qed.
Lemma dupl_sorted l : sorted Rleb l -> sorted Rleb (dupl l).
Proof.
case: l => //= x l. have r y : Rleb y y by apply/RlebP; exact: Rle_refl. rewrite r /=. elim: l x => //= y l IH x /andP [H P]. by rewrite H r /= IH.
Qed.
Lemma sort_dup l : sort Rleb (l ++ l) = dupl (sort Rleb l).
Proof.
apply: (sorted_eq Rleb_trans Rleb_anti); [exact: sort_sorted Rleb_total _|apply: dupl_sorted; exact: sort_sorted Rleb_total _|].
rewrite perm_sort. rewrite perm_sym. apply: (perm_trans (dupl_perm _)). apply: perm_cat; by rewrite perm_sort.
Qed.
Lemma sort_perm_eq (l m : seq R) : perm_eq l m -> sort Rleb l = sort Rleb m.
Proof. move=> H. apply/(perm_sortP Rleb_total Rleb_trans Rleb_anti). exact: H. Qed.

(** ** The symplectic eigenvalues *)
Section Spec.
Variables (n : nat) (hb : R).
Hypothesis hb0 : Rlt R0 hb.
Implicit Types (S cov : 'M[C]_(n + n)).
Lemma char_conj (P A : 'M[C]_(n + n)) : P \in unitmx -> char_poly (P *m A *m invmx P) = char_poly A.
Proof. move=> u. by rewrite char_cancel mulmxA mulVmx // mul1mx. Qed.
Lemma symp_inv S : symplectic S -> S \in unitmx.
Proof.
move=> [h1 h2]. have E1 : S *m (J n *m S^T *m - J n) = 1%:M by rewrite !mulmxA h2; case: (J_inv n).
by have [] := inv_uniq E1.
Qed.
Lemma sympM_conj S cov : symplectic S -> sympM hb (S *m cov *m S^T) = invmx S^T *m sympM hb cov *m invmx (invmx S^T).
Proof.
move=> HS. have u := symp_inv HS. have [h1 h2] := HS. have ut : S^T \in unitmx by rewrite unitmx_tr. rewrite invmxK /sympM.
have E : J n *m S = invmx S^T *m J n by rewrite -{2}h1 !mulmxA mulVmx // mul1mx.
have -> : (Ci *: J n) *m (RtoC (2 / hb)%coqR *: (S *m cov *m S^T)) = (Ci * RtoC (2 / hb)%coqR) *: (J n *m S *m cov *m S^T) by rewrite -scalemxAr -scalemxAl scalerA mulrC !mulmxA.
have -> : (Ci *: J n) *m (RtoC (2 / hb)%coqR *: cov) = (Ci * RtoC (2 / hb)%coqR) *: (J n *m cov) by rewrite -scalemxAr -scalemxAl scalerA mulrC.
by rewrite E -scalemxAr -scalemxAl !mulmxA.
Qed.
(** C78: the symplectic eigenvalues and the entropy do not change under symplectic maps, whatever the covariance *)
Lemma char_symp S cov : symplectic S -> char_poly (sympM hb (S *m cov *m S^T)) = char_poly (sympM hb cov).
Proof. move=> HS. rewrite sympM_conj // char_conj // unitmx_inv unitmx_tr. exact: symp_inv. Qed.
Theorem C78_invariant (eig : 'M[C]_(n + n) -> seq C) S cov : symplectic S ->
  eigenvalues (sympM hb cov) (eig (sympM hb cov)) -> eigenvalues (sympM hb (S *m cov *m S^T)) (eig (sympM hb (S *m cov *m S^T))) ->
  symplectic_eigenvals eig hb (S *m cov *m S^T) = symplectic_eigenvals eig hb cov /\ von_neumann_entropy eig hb (S *m cov *m S^T) = von_neumann_entropy eig hb cov.
Proof.
move=> HS E1 E2. have E : symplectic_eigenvals eig hb (S *m cov *m S^T) = symplectic_eigenvals eig hb cov.
  rewrite /symplectic_eigenvals. congr evens. apply: sort_perm_eq. apply: perm_map. apply: same_roots. by rewrite -E1 -E2 char_symp.
by rewrite /von_neumann_entropy E.
Qed.
Definition nus (nu : 'I_n -> R) : seq R := map nu (enum 'I_n).
Lemma char_dbl (nu : 'I_n -> R) : eigenvalues ((Ci *: J n) *m dbl nu) (map RtoC (nus nu) ++ map (fun x => - RtoC x) (nus nu)).
Proof.
pose Q : 'M[C]_(n + n) := block_mx 1%:M 1%:M (- Ci *: 1%:M) (Ci *: 1%:M).
pose Qi : 'M[C]_(n + n) := half *: block_mx 1%:M (Ci *: 1%:M) 1%:M (- Ci *: 1%:M).
pose v : 'rV[C]_n := \row_j RtoC (nu j).
have cc : Ci * Ci = - 1 by rewrite CmulE C1E CoppE /Ci /Cmult /Copp /RtoC /=; congr pair; ring.
have h2 : half + half = 1 :> C by rewrite /half CaddE -RtoC_plus C1E; congr RtoC; field.
have EQ : Q *m Qi = 1%:M.
  have e1 : (- Ci *: 1%:M) *m (Ci *: 1%:M) = 1%:M :> 'M[C]_n by rewrite -scalemxAl mul1mx scalerA mulNr cc opprK scale1r.
  have e2 : (Ci *: 1%:M) *m (- Ci *: 1%:M) = 1%:M :> 'M[C]_n by rewrite -scalemxAl mul1mx scalerA mulrN cc opprK scale1r.
  rewrite /Q /Qi -scalemxAr mulmx_block !mulmx1 !mul1mx e1 e2 !scaleNr !subrr !addNr scale_block_mx !scaler0 scalerDr -scalerDl h2 scale1r. by rewrite scalar_mx_block.
have [_ uQ] := inv_uniq EQ.
have EA : (Ci *: J n) *m dbl nu = Q *m diag_mx (row_mx v (- v)) *m invmx Q.
  suff H : (Ci *: J n) *m dbl nu *m Q = Q *m diag_mx (row_mx v (- v)) by rewrite -H mulmxK.
  have dN : diag_mx (- v) = - diag_mx v by apply/matrixP => i j; rewrite !mxE mulNrn.
  rewrite diag_mx_row dN /dbl -/v /Q /J scale_block_mx !scaler0 !mulmx_block. move: (diag_mx v) => D.
  have f1 (M : 'M[C]_n) : (Ci *: 1%:M) *m M = Ci *: M by rewrite -scalemxAl mul1mx.
  have f2 (M : 'M[C]_n) : (Ci *: - 1%:M) *m M = - (Ci *: M) by rewrite -scalemxAl mulNmx mul1mx scalerN.
  have f3 x (M : 'M[C]_n) : M *m (x *: 1%:M) = x *: M by rewrite -scalemxAr mulmx1.
  have f4 x (M : 'M[C]_n) : x *: 1%:M *m M = x *: M by rewrite -scalemxAl mul1mx.
  rewrite ?(mul0mx, mulmx0, addr0, add0r, mulmx1, mul1mx) f1 f2 !f3 !f4 !scalerN !scalerA !mulNr !cc !opprK !scaleNr !scale1r. by rewrite ?mulmxN ?mulNmx ?scalerN ?scaleNr ?mulmx1 ?f4 ?opprK ?mul1mx.
have B (g : R -> C) : \prod_(x <- map g (nus nu)) ('X - x%:P) = \prod_(j < n) ('X - (g (nu j))%:P) by rewrite /nus -map_comp big_map big_enum.
rewrite /eigenvalues EA char_sim // big_cat !B big_split_ord /=. congr (_ * _); apply: eq_bigr => j _.
  by rewrite row_mxEl mxE.
by rewrite row_mxEr !mxE.
Qed.
Lemma sympM_frame S nbar : symplectic S ->
  exists P, P \in unitmx /\ sympM hb (frame hb S nbar) = P *m ((Ci *: J n) *m dbl (fun j => (2 * nbar j + 1)%coqR)) *m invmx P.
Proof.
move=> HS. exists (invmx S^T). split; first by rewrite unitmx_inv unitmx_tr; exact: symp_inv.
rewrite /frame. set D := dbl _. have -> : RtoC hb *: (S *m D *m S^T) = S *m (RtoC hb *: D) *m S^T by rewrite -scalemxAr -scalemxAl.
rewrite sympM_conj // /sympM scalerA /D CmulE -RtoC_mult dblZ. congr (_ *m (_ *m _) *m _). apply: dbl_ext => j. field. lra.
Qed.
(** eigenvalues exist for every physical Gaussian state (Williamson) *)
Theorem C78_eigenvalues_exist S nbar : symplectic S -> exists L, eigenvalues (sympM hb (frame hb S nbar)) L.
Proof.
move=> HS. have [P [u E]] := sympM_frame nbar HS. eexists. rewrite /eigenvalues E char_conj //. exact: char_dbl.
Qed.
(** C78: the symplectic eigenvalues of thermal modes with mean photon numbers nbar in any symplectic frame are the numbers 2 nbar + 1 in increasing order *)
Theorem C78_symplectic_eigenvalues (eig : 'M[C]_(n + n) -> seq C) S nbar : symplectic S -> (forall j, Rle R0 (nbar j)) ->
  eigenvalues (sympM hb (frame hb S nbar)) (eig (sympM hb (frame hb S nbar))) ->
  symplectic_eigenvals eig hb (frame hb S nbar) = sort Rleb (map (fun j => (2 * nbar j + 1)%coqR) (enum 'I_n)).
Proof.
move=> HS h0 HL. have [P [u E]] := sympM_frame nbar HS. rewrite /symplectic_eigenvals. move: (eig _) HL => L. rewrite /eigenvalues E char_conj // char_dbl => /esym /same_roots HL.
pose l := map (fun j => (2 * nbar j + 1)%coqR) (enum 'I_n). rewrite -/l. have A : perm_eq (map Cmod L) (l ++ l).
  apply: (perm_trans (perm_map Cmod HL)). rewrite map_cat. have B (g : R -> C) : (forall x, Cmod (g x) = Rabs x) -> map Cmod (map g (nus (fun j => (2 * nbar j + 1)%coqR))) = l.
    move=> Hg. rewrite /nus /l. rewrite -map_comp. rewrite -map_comp. apply: eq_map => j /=. rewrite Hg Rabs_pos_eq //. have := h0 j. lra.
  rewrite !B //; by move=> x /=; rewrite ?CoppE ?Cmod_opp Cmod_R.
by rewrite (sort_perm_eq A) sort_dup evens_dupl.
Qed.
Lemma entropy_frame (eig : 'M[C]_(n + n) -> seq C) S nbar : symplectic S -> (forall j, Rle R0 (nbar j)) ->
  eigenvalues (sympM hb (frame hb S nbar)) (eig (sympM hb (frame hb S nbar))) ->
  von_neumann_entropy eig hb (frame hb S nbar) = Rsum (fun j => entropy_g (2 * nbar j + 1)%coqR).
Proof.
move=> HS h0 HL. rewrite /von_neumann_entropy (C78_symplectic_eigenvalues HS h0 HL).
rewrite (perm_big (map (fun j => (2 * nbar j + 1)%coqR) (enum 'I_n))) /=; last by rewrite perm_sort. by rewrite big_map big_enum.
Qed.
End Spec.

(** ** Entropy *)
Lemma ln_1p (x : R) : Rlt (- 1) x -> Rle (ln (1 + x)) x.
Proof. move=> h. rewrite -{2}(ln_exp x). case: (exp_ineq1_le x) => [l|<-]; last exact: Rle_refl. apply: Rlt_le. apply: ln_increasing => //. lra. Qed.
Lemma xlogyE x y : xlogy x y = (x * ln y)%coqR.
Proof. rewrite /xlogy. case: Req_EM_T => [E|nE] //=. by rewrite E Rmult_0_l. Qed.
Definition h_of (nbar : R) : R := ((nbar + 1) * ln (nbar + 1) - nbar * ln nbar)%coqR.
Lemma photons_mean nbar : Rle 0 nbar -> mean_of (photons nbar) nbar.
Proof.
move=> h. set r := (nbar / (nbar + 1))%coqR. have r0 : Rle 0 r by apply: Rmult_le_pos => //; apply: Rlt_le; apply: Rinv_0_lt_compat; lra.
have r1 : Rlt (Rabs r) 1 by rewrite Rabs_pos_eq //; apply: (Rmult_lt_reg_r (nbar + 1)); [lra|]; have -> : (r * (nbar + 1) = nbar)%coqR by [rewrite /r; field; lra|]; lra.
have G := is_series_geom _ r1. have Ga : ex_series (fun k => Rabs (r ^ k)%coqR).
  exists (/ (1 - r))%coqR. apply: is_series_ext G => k. rewrite Rabs_pos_eq //. exact: pow_le.
have M := is_series_mult _ _ _ _ G G Ga Ga. have {}M : is_series (fun k => (INR (S k) * r ^ k)%coqR) (/ (1 - r) * / (1 - r))%coqR.
  apply: is_series_ext M => k. rewrite (PartSum.sum_eq _ (fun _ => (r ^ k)%coqR)); first by rewrite sum_cte Rmult_comm.
  move=> i Hi. rewrite -pow_add. congr (_ ^ _)%coqR. rewrite /Nat.add. exact: Minus.le_plus_minus_r.
have := is_series_minus _ _ _ _ M G. move=> /(is_series_scal (/ (nbar + 1))%coqR). rewrite /mean_of.
have -> : scal (/ (nbar + 1))%coqR (minus (/ (1 - r) * / (1 - r)) (/ (1 - r)))%coqR = nbar.
  rewrite /scal /minus /plus /opp /= /mult /= /r. field. split; lra.
apply: is_series_ext => k. rewrite /photons -/r S_INR /scal /minus /plus /opp /= /mult /=. ring.
Qed.
Lemma thermal_entropy nbar : Rle 0 nbar -> entropy_of (photons nbar) (h_of nbar).
Proof.
move=> h. case: (Req_EM_T nbar 0) => [->|n0].
  rewrite /entropy_of /h_of Rplus_0_l ln_1 Rmult_0_r Rmult_0_l Rminus_0_r. have E : is_series (fun _ : nat => 0%coqR) 0%coqR.
    have q0 : Rlt (Rabs 0) 1 by rewrite Rabs_R0; lra. have := is_series_scal 0%coqR _ _ (is_series_geom _ q0). have -> : scal 0%coqR (/ (1 - 0))%coqR = 0%coqR by rewrite /scal /= /mult /=; ring.
    apply: is_series_ext => k. rewrite /scal /= /mult /=. ring.
  apply: is_series_ext E => k. rewrite /photons. case: k => [|k] /=.
    have -> : (/ (0 + 1) * 1 = 1)%coqR by field. rewrite ln_1. ring.
  rewrite /Rdiv Rmult_0_l Rmult_0_l Rmult_0_r Rmult_0_l. ring.
have np : Rlt 0 nbar by lra. set r := (nbar / (nbar + 1))%coqR. have r0 : Rlt 0 r by apply: Rdiv_lt_0_compat; lra.
have A := is_series_scal (ln (nbar + 1)) _ _ (photons_sum h). have B := is_series_scal (- ln r)%coqR _ _ (photons_mean h).
have := is_series_plus _ _ _ _ A B. have -> : (plus (scal (ln (nbar + 1)) 1%coqR) (scal (- ln r)%coqR nbar) : R) = h_of nbar.
  rewrite /plus /scal /= /mult /= /h_of /r ln_div; lra.
apply: is_series_ext => k. rewrite /plus /scal /= /mult /=. have -> : ln (photons nbar k) = (- ln (nbar + 1) + INR k * ln r)%coqR.
  rewrite /photons -/r ln_mult; [|by apply: Rinv_0_lt_compat; lra|exact: pow_lt]. rewrite ln_Rinv; last lra. by rewrite ln_pow.
ring.
Qed.
Lemma g_bound nbar : Rle 0 nbar -> Rle (h_of nbar - / 10 ^ 9) (entropy_g (2 * nbar + 1)) /\ Rle (entropy_g (2 * nbar + 1)) (h_of nbar).
Proof.
move=> h. rewrite /entropy_g. have -> : ((2 * nbar + 1 + 1) / 2 = nbar + 1)%coqR by field. have -> : ((2 * nbar + 1 - 1) / 2 = nbar)%coqR by field.
set e := (/ 10 ^ 9)%coqR. have e0 : Rlt 0 e by rewrite /e; apply: Rinv_0_lt_compat; lra. rewrite !xlogyE /h_of. case: (Req_EM_T nbar 0) => [->|n0]; first by rewrite !Rmult_0_l; lra.
have np : Rlt 0 nbar by lra. have E : ln (nbar + e) = (ln nbar + ln (1 + e / nbar))%coqR.
  rewrite -ln_mult //; last by have := Rdiv_lt_0_compat _ _ e0 np; lra. congr ln. field. lra.
have q0 := Rdiv_lt_0_compat _ _ e0 np. have l0 : Rlt 0 (ln (1 + e / nbar)) by rewrite -ln_1; apply: ln_increasing; lra.
have l1 : Rle (ln (1 + e / nbar)) (e / nbar) by apply: ln_1p; lra. have := Rmult_le_compat_l _ _ _ h l1. have -> : (nbar * (e / nbar) = e)%coqR by field.
have := Rmult_lt_0_compat _ _ np l0. rewrite E Rmult_plus_distr_l. lra.
Qed.
Lemma g_1 : entropy_g 1 = 0%coqR.
Proof.
rewrite /entropy_g. have -> : ((1 + 1) / 2 = 1)%coqR by field. have -> : ((1 - 1) / 2 = 0)%coqR by field.
rewrite !xlogyE ln_1. ring.
Qed.
Lemma entropy_of_uniq f s t : entropy_of f s -> entropy_of f t -> s = t.
Proof. move=> H1 H2. by rewrite -(is_series_unique _ _ H1) (is_series_unique _ _ H2). Qed.
Lemma Rsum_le n (f g : 'I_n -> R) : (forall j, Rle (f j) (g j)) -> Rle (Rsum f) (Rsum g).
Proof. move=> H. apply: (big_ind2 (fun x y => Rle x y)) => //; [lra|move=> *; lra]. Qed.
Lemma Rsum_const n (c : R) : Rsum (fun _ : 'I_n => c) = (INR n * c)%coqR.
Proof. elim: n => [|n IH]; first by rewrite /Rsum big_ord0 Rmult_0_l. rewrite /Rsum big_ord_recl. move: IH. rewrite /Rsum => ->. rewrite S_INR. ring. Qed.
Lemma Rsum_sub n (f : 'I_n -> R) c : Rsum (fun j => f j - c)%coqR = (Rsum f - INR n * c)%coqR.
Proof.
rewrite -Rsum_const /Rsum /Rminus big_split /=. congr (_ + _)%coqR. apply: (big_rec2 (fun x y => x = - y)%coqR); [ring|]. move=> k x y _ ->. ring.
Qed.
Section Ent.
Variables (n : nat) (hb : R).
Hypothesis hb0 : Rlt R0 hb.
(** C78: the entropy of a Gaussian state is the sum of the entropies of the photon number distributions of its thermal modes, up to 1e-9 per mode *)
Theorem C78_entropy (eig : 'M[C]_(n + n) -> seq C) S nbar (s : 'I_n -> R) : symplectic S -> (forall j, Rle R0 (nbar j)) ->
  eigenvalues (sympM hb (frame hb S nbar)) (eig (sympM hb (frame hb S nbar))) -> (forall j, entropy_of (photons (nbar j)) (s j)) ->
  (Rsum s - INR n * / 10 ^ 9 <= von_neumann_entropy eig hb (frame hb S nbar) <= Rsum s)%coqR.
Proof.
move=> HS h0 HL Hs. rewrite (entropy_frame hb0 HS h0 HL). have E j : s j = h_of (nbar j) by apply: entropy_of_uniq (Hs j) _; exact: thermal_entropy.
split; last by apply: Rsum_le => j; rewrite E; case: (g_bound (h0 j)).
rewrite -Rsum_sub. apply: Rsum_le => j. rewrite E. by case: (g_bound (h0 j)).
Qed.
(** C78: such entropies exist *)
Theorem C78_thermal_entropy nbar : Rle 0 nbar -> entropy_of (photons nbar) ((nbar + 1) * ln (nbar + 1) - nbar * ln nbar)%coqR.
Proof. exact: thermal_entropy. Qed.
(** C78: the entropy of a pure Gaussian state is exactly 0 *)
Theorem C78_pure (eig : 'M[C]_(n + n) -> seq C) S : symplectic S ->
  eigenvalues (sympM hb (RtoC (hb / 2)%coqR *: (S *m S^T))) (eig (sympM hb (RtoC (hb / 2)%coqR *: (S *m S^T)))) -> von_neumann_entropy eig hb (RtoC (hb / 2)%coqR *: (S *m S^T)) = R0.
Proof.
move=> HS. have -> : RtoC (hb / 2)%coqR *: (S *m S^T) = frame hb S (fun _ => R0).
  rewrite /frame. have -> : dbl (fun _ : 'I_n => (0 + 1 / 2)%coqR) = RtoC (1 / 2)%coqR *: 1%:M by rewrite dbl1 dblZ; apply: dbl_ext => j; ring.
  rewrite -scalemxAr -scalemxAl mulmx1 scalerA CmulE -RtoC_mult. congr (RtoC _ *: _). field.
move=> HL. rewrite (entropy_frame hb0 HS _ HL); last by move=> j; lra. apply: Rsum_0 => j. apply: etrans g_1. congr entropy_g. ring.
Qed.
End Ent.

(** ** Separability *)
Definition blk n (p q r : 'I_n -> R) : 'M[C]_(n + n) :=
  block_mx (diag_mx (\row_j RtoC (p j))) (diag_mx (\row_j RtoC (q j))) (diag_mx (\row_j RtoC (q j))) (diag_mx (\row_j RtoC (r j))).
Definition tri n (a c d : 'I_n -> R) : 'M[C]_(n + n) :=
  block_mx (diag_mx (\row_j RtoC (a j))) 0 (diag_mx (\row_j RtoC (c j))) (diag_mx (\row_j RtoC (d j))).
Definition rd n (a : 'I_n -> R) : 'M[C]_n := diag_mx (\row_j RtoC (a j)).
Lemma rdM n (a b : 'I_n -> R) : rd a *m rd b = rd (fun j => a j * b j)%coqR.
Proof. apply/matrixP => i j. rewrite mul_diag_mx !mxE. case: eqP => [->|_]; by rewrite ?mulr0n ?mulr0 // !mulr1n RtoC_mult CmulE. Qed.
Lemma rdD n (a b : 'I_n -> R) : rd a + rd b = rd (fun j => a j + b j)%coqR.
Proof. apply/matrixP => i j. by rewrite !mxE -mulrnDl RtoC_plus CaddE. Qed.
Lemma rdN n (a : 'I_n -> R) : - rd a = rd (fun j => - a j)%coqR.
Proof. apply/matrixP => i j. by rewrite !mxE -mulNrn RtoC_opp CoppE. Qed.
Lemma rdE n (a b : 'I_n -> R) : (forall j, a j = b j) -> rd a = rd b.
Proof. move=> E. congr diag_mx. apply/matrixP => i j. by rewrite !mxE E. Qed.
Lemma rd1 n : 1%:M = rd (fun _ : 'I_n => R1).
Proof. apply/matrixP => i j. by rewrite !mxE. Qed.
Lemma tri_symp n (a c d : 'I_n -> R) : (forall j, a j * d j = 1)%coqR -> symplectic (tri a c d).
Proof.
move=> H. rewrite /tri -!/(rd _) /symplectic /J !tr_block_mx !trmx0 !mulmx_block ?(mulmx0, mul0mx, mulmx1, mul1mx, addr0, add0r, mulmxN, mulNmx) /rd !tr_diag_mx -!/(rd _) !rdM.
have e1 : rd (fun j => a j * d j)%coqR = 1%:M by rewrite rd1; apply: rdE.
have e2 : rd (fun j => d j * a j)%coqR = 1%:M by rewrite rd1; apply: rdE => j; rewrite Rmult_comm.
have cm (x y : 'I_n -> R) : rd (fun j => x j * y j)%coqR = rd (fun j => y j * x j)%coqR by apply: rdE => j; ring.
split; rewrite ?mulNmx ?mulmxN ?rdM e1 e2 ?oppr0.
  by rewrite (cm c a) addNr.
by rewrite (cm c d) addNr.
Qed.
(** every single-mode covariance matrix that satisfies the uncertainty relation is thermal in some frame, and so are several of them side by side *)
Definition occ (hb p q r : R) : R := (sqrt (p * r - q * q) / hb - 1 / 2)%coqR.
Lemma blk_frame n hb (p q r : 'I_n -> R) : Rlt R0 hb -> (forall j, Rlt R0 (p j)) -> (forall j, Rle (hb * hb / 4) (p j * r j - q j * q j))%coqR ->
  exists S, symplectic S /\ blk p q r = frame hb S (fun j => occ hb (p j) (q j) (r j)).
Proof.
move=> h0 hp hd. pose nu j := sqrt (p j * r j - q j * q j)%coqR. have nu0 j : Rlt R0 (nu j) by apply: sqrt_lt_R0; have := hd j; have := Rmult_lt_0_compat _ _ h0 h0; lra.
have nu2 j : (nu j * nu j = p j * r j - q j * q j)%coqR by apply: sqrt_sqrt; have := hd j; have := Rmult_lt_0_compat _ _ h0 h0; lra.
pose a j := sqrt (p j / nu j). have pn j := Rdiv_lt_0_compat _ _ (hp j) (nu0 j). have a0 j : Rlt R0 (a j) by apply: sqrt_lt_R0.
have a2 j : (a j * a j = p j / nu j)%coqR by apply: sqrt_sqrt; have := pn j; lra.
exists (tri a (fun j => q j / (nu j * a j))%coqR (fun j => / a j)%coqR). split.
  apply: tri_symp => j. have := a0 j. move=> ?. field. lra.
rewrite /frame /tri /dbl tr_block_mx !trmx0 !mulmx_block ?(mulmx0, mul0mx, addr0, add0r) !tr_diag_mx scale_block_mx -!/(rd _).
rewrite !rdM !rdD. have Z (x : R) (g : 'I_n -> R) : RtoC x *: rd g = rd (fun j => x * g j)%coqR by apply/matrixP => i j; rewrite !mxE mulrnAr RtoC_mult CmulE.
rewrite !Z /blk -!/(rd _). have ho j : (occ hb (p j) (q j) (r j) + 1 / 2 = nu j / hb)%coqR by rewrite /occ -/(nu j); ring.
congr block_mx; apply: rdE => j; have n0 := nu0 j; have aa := a0 j; rewrite ho.
- have -> : (hb * (a j * (nu j / hb) * a j) = nu j * (a j * a j))%coqR by field; lra. rewrite a2. field. lra.
- field. lra.
- field. lra.
- have -> : (hb * (q j / (nu j * a j) * (nu j / hb) * (q j / (nu j * a j)) + / a j * (nu j / hb) * / a j) = (q j * q j + nu j * nu j) / (nu j * (a j * a j)))%coqR by field; lra.
  rewrite nu2 a2. have := hp j. move=> ?. field. lra.
Qed.
Lemma occ_ge hb p q r : Rlt R0 hb -> Rle (hb * hb / 4)%coqR (p * r - q * q)%coqR -> Rle R0 (occ hb p q r).
Proof.
move=> h0 hd. rewrite /occ. have E : Rle (hb / 2) (sqrt (p * r - q * q)).
  have -> : (hb / 2 = sqrt (hb / 2 * (hb / 2)))%coqR by rewrite sqrt_square; lra. apply: sqrt_le_1_alt. lra.
have := Rmult_le_compat_r (/ hb) _ _ (Rlt_le _ _ (Rinv_0_lt_compat _ h0)) E. have -> : (hb / 2 * / hb = 1 / 2)%coqR by field; lra. rewrite /Rdiv. lra.
Qed.
Lemma mode_blk n (cov : 'M[C]_(n + n)) (p q r : 'I_n -> R) hb : uncorrelated cov -> (forall j, physical1 hb (mode_cov cov j) (p j) (q j) (r j)) -> cov = blk p q r.
Proof.
move=> H0 H1. have X (j : 'I_n) : [/\ ulsubmx cov j j = RtoC (p j), ursubmx cov j j = RtoC (q j), dlsubmx cov j j = RtoC (q j) & drsubmx cov j j = RtoC (r j)].
  have [E _ _] := H1 j. rewrite /mode_cov in E. have [e1 e2 e3 e4] := eq_block_mx E.
  have Y (x y : C) : x%:M = y%:M :> 'M[C]_1 -> x = y by move=> /matrixP /(_ 0 0); rewrite !mxE.
  split; exact: Y.
rewrite -[cov]submxK /blk. congr block_mx; apply/matrixP => i j; rewrite !mxE; case: eqP => [->|ne]; rewrite ?mulr1n ?mulr0n.
all: try by (have [e1 e2 e3 e4] := X j; move: e1 e2 e3 e4; rewrite !mxE).
all: by have [e1 e2 e3 e4] := H0 _ _ ne; move: e1 e2 e3 e4; rewrite !mxE.
Qed.
Section Sep.
Variables (hb : R) (eig : forall k, 'M[C]_(k + k) -> seq C).
Hypothesis hb0 : Rlt R0 hb.
Definition eig_ok n (cov : 'M[C]_(n + n)) : Prop := eigenvalues (sympM hb cov) (@eig n (sympM hb cov)).
Lemma mode_entropy (c : 'M[C]_(1 + 1)) p q r : physical1 hb c p q r -> eig_ok c -> von_neumann_entropy (@eig 1%N) hb c = entropy_g (2 * occ hb p q r + 1)%coqR.
Proof.
move=> [E p0 hd] HL. have B : c = blk (fun _ : 'I_1 => p) (fun _ => q) (fun _ => r).
  rewrite E /blk. congr block_mx; apply/matrixP => i j; by rewrite !mxE.
have [|S [HS F]] := @blk_frame 1 hb (fun _ => p) (fun _ => q) (fun _ => r) hb0 (fun _ => p0); first by [].
rewrite /eig_ok B F in HL *. rewrite (entropy_frame hb0 HS _ HL); last by move=> j; exact: occ_ge.
rewrite /Rsum big_ord_recl big_ord0. ring.
Qed.
(** C78: a product state is reported separable *)
Theorem C78_product n (cov : 'M[C]_(n + n)) (p q r : 'I_n -> R) : uncorrelated cov -> (forall j, physical1 hb (mode_cov cov j) (p j) (q j) (r j)) ->
  eig_ok cov -> (forall j, eig_ok (mode_cov cov j)) -> is_separable eig hb cov.
Proof.
move=> H0 H1 HL HLj. rewrite /is_separable. case: eqP => // _. have B := mode_blk H0 H1.
have [||S [HS F]] := @blk_frame n hb p q r hb0; [by move=> j; case: (H1 j)|by move=> j; case: (H1 j)|].
have F' : cov = frame hb S (fun j => occ hb (p j) (q j) (r j)) by rewrite B.
have -> : von_neumann_entropy (@eig n) hb cov = Rsum (fun j => entropy_g (2 * occ hb (p j) (q j) (r j) + 1)%coqR).
  move: HL. rewrite /eig_ok F' => HL. apply: entropy_frame => //. move=> j. apply: occ_ge => //. by case: (H1 j).
have -> : Rsum (fun j => von_neumann_entropy (@eig 1%N) hb (mode_cov cov j)) = Rsum (fun j => entropy_g (2 * occ hb (p j) (q j) (r j) + 1)%coqR).
  apply: eq_bigr => j _. apply: mode_entropy => //.
apply/RlebP. rewrite Rplus_opp_l Rabs_R0. apply: Rlt_le. apply: Rinv_0_lt_compat. lra.
Qed.
(** the eigenvalues of a product state and of its modes exist *)
Theorem C78_product_eigenvalues n (cov : 'M[C]_(n + n)) (p q r : 'I_n -> R) : uncorrelated cov -> (forall j, physical1 hb (mode_cov cov j) (p j) (q j) (r j)) ->
  (exists L, eigenvalues (sympM hb cov) L) /\ forall j, exists L, eigenvalues (sympM hb (mode_cov cov j)) L.
Proof.
move=> H0 H1. split.
  rewrite (mode_blk H0 H1). have [||S [HS ->]] := @blk_frame n hb p q r hb0; [by move=> j; case: (H1 j)|by move=> j; case: (H1 j)|]. exact: C78_eigenvalues_exist.
move=> j. have [E p0 hd] := H1 j. have -> : mode_cov cov j = blk (fun _ : 'I_1 => p j) (fun _ => q j) (fun _ => r j).
  rewrite E /blk. congr block_mx; apply/matrixP => i k; by rewrite !mxE.
have [|S [HS ->]] := @blk_frame 1 hb (fun _ => p j) (fun _ => q j) (fun _ => r j) hb0 (fun _ => p0); first by []. exact: C78_eigenvalues_exist.
Qed.
Lemma g_lower x : Rle R0 x -> Rle (x / (1 + x))%coqR (entropy_g (2 * x + 1)).
Proof.
move=> h. rewrite /entropy_g. have -> : ((2 * x + 1 + 1) / 2 = x + 1)%coqR by field. have -> : ((2 * x + 1 - 1) / 2 = x)%coqR by field. rewrite !xlogyE.
set e := (/ 10 ^ 9)%coqR. have e0 : Rlt 0 e by rewrite /e; apply: Rinv_0_lt_compat; lra. have e1 : Rle e 1 by rewrite /e; lra.
have L : Rle (ln (x + e)) (ln (x + 1)) by case: e1 => [l|->]; [apply: Rlt_le; apply: ln_increasing; lra|exact: Rle_refl].
have M := Rmult_le_compat_l _ _ _ h L. have K : Rle (x / (1 + x)) (ln (x + 1)).
  have -> : ln (x + 1) = (- ln (1 + - (x / (1 + x))))%coqR.
    rewrite -ln_Rinv; last by have -> : (1 + - (x / (1 + x)) = / (1 + x))%coqR by [field; lra|]; apply: Rinv_0_lt_compat; lra. congr ln. field. lra.
  have h1 : Rlt (-1) (- (x / (1 + x))). have -> : (- (x / (1 + x)) = / (1 + x) - 1)%coqR by field; lra. have := Rinv_0_lt_compat (1 + x). move=> HH. have := HH ltac:(lra). lra.
  have := ln_1p h1. lra.
lra.
Qed.
(** C78: a pure state on several modes that is reported separable has all its modes pure up to 1e-8: sqrt(det) of every reduced covariance is hbar/2 *)
Theorem C78_pure_separable n S (p q r : 'I_n -> R) : (1 < n)%N -> symplectic S -> let cov := RtoC (hb / 2)%coqR *: (S *m S^T) in
  (forall j, physical1 hb (mode_cov cov j) (p j) (q j) (r j)) -> eig_ok cov -> (forall j, eig_ok (mode_cov cov j)) ->
  is_separable eig hb cov -> forall j, (sqrt (p j * r j - q j * q j) <= hb / 2 * (1 + / 10 ^ 8))%coqR.
Proof.
move=> n1 HS cov H1 HL HLj. rewrite /is_separable. case: eqP => [E|_]; first by rewrite E in n1. rewrite (C78_pure hb0 HS HL).
have -> : Rsum (fun j => von_neumann_entropy (@eig 1%N) hb (mode_cov cov j)) = Rsum (fun j => entropy_g (2 * occ hb (p j) (q j) (r j) + 1)%coqR).
  apply: eq_bigr => j _. by apply: mode_entropy.
have o0 j : Rle R0 (occ hb (p j) (q j) (r j)) by apply: occ_ge => //; case: (H1 j).
have g0 j : Rle R0 (entropy_g (2 * occ hb (p j) (q j) (r j) + 1)).
  apply: Rle_trans (g_lower (o0 j)). apply: Rmult_le_pos => //. apply: Rlt_le. apply: Rinv_0_lt_compat. have := o0 j. lra.
move/RlebP. rewrite Ropp_0 Rplus_0_l Rabs_pos_eq; last exact: Rsum_pos. move=> HB j. have := o0 j. have := g_lower (o0 j).
have : Rle (entropy_g (2 * occ hb (p j) (q j) (r j) + 1)) (Rsum (fun j => entropy_g (2 * occ hb (p j) (q j) (r j) + 1)%coqR)).
  rewrite /Rsum (bigD1 j) //=. set T := \big[_/_]_(_ < _ | _) _. have T0 : Rle R0 T by apply: (big_ind (fun x => Rle R0 x)) => //; [exact: Rle_refl|exact: Rplus_le_le_0_compat]. lra.
set x := occ _ _ _ _. move=> h1 h2 h3. have h4 : Rle (x / (1 + x)) (/ 10 ^ 9) by lra.
have h5 : Rle x (/ 10 ^ 9 * (1 + x)). { have := Rmult_le_compat_r (1 + x) _ _ ltac:(lra) h4. have -> : (x / (1 + x) * (1 + x) = x)%coqR by field; lra. by []. }
have Ex : (sqrt (p j * r j - q j * q j) = hb * (x + 1 / 2))%coqR by rewrite /x /occ; field; lra.
rewrite Ex. have h6 : Rle (x + 1 / 2) (1 / 2 * (1 + / 10 ^ 8)) by lra. have := Rmult_le_compat_l _ _ _ (Rlt_le _ _ hb0) h6. lra.
Qed.
End Sep.

(** ** A separable state that is reported entangled *)
Section Mixed.
Variables (hb : R) (eig : forall k, 'M[C]_(k + k) -> seq C).
Hypothesis hb0 : Rlt R0 hb.
Definition m2 (x y z w : R) : 'M[C]_2 := \matrix_(i, j) RtoC (if (i == ord0) then (if j == ord0 then x else y) else (if j == ord0 then z else w)).
Lemma m2M x y z w x' y' z' w' : m2 x y z w *m m2 x' y' z' w' = m2 (x * x' + y * z')%coqR (x * y' + y * w')%coqR (z * x' + w * z')%coqR (z * y' + w * w')%coqR.
Proof.
apply/matrixP => i j. rewrite !mxE !big_ord_recl big_ord0 addr0 !mxE /= !CmulE !CaddE -!RtoC_mult -RtoC_plus. congr RtoC.
by case: (i == ord0); case: (j == ord0).
Qed.
Lemma m2T x y z w : (m2 x y z w)^T = m2 x z y w.
Proof. apply/matrixP => i j. rewrite !mxE. by case: (i == ord0); case: (j == ord0). Qed.
Lemma m2_ext x y z w x' y' z' w' : x = x' -> y = y' -> z = z' -> w = w' -> m2 x y z w = m2 x' y' z' w'.
Proof. by move=> -> -> -> ->. Qed.
Lemma m2_1 : m2 R1 R0 R0 R1 = 1%:M.
Proof. apply/matrixP => i j. rewrite !mxE. case: (i =P j) => [->|]; first by case: (j == ord0). case: i => [[|[|i]] hi]; case: j => [[|[|j]] hj] //= ne; by case: ne; apply: val_inj. Qed.
Lemma m2Z k x y z w : RtoC k *: m2 x y z w = m2 (k * x)%coqR (k * y)%coqR (k * z)%coqR (k * w)%coqR.
Proof. apply/matrixP => i j. rewrite !mxE CmulE -RtoC_mult. by case: (i == ord0); case: (j == ord0). Qed.
Lemma m2D x y z w x' y' z' w' : m2 x y z w + m2 x' y' z' w' = m2 (x + x')%coqR (y + y')%coqR (z + z')%coqR (w + w')%coqR.
Proof. apply/matrixP => i j. rewrite !mxE CaddE -RtoC_plus. by case: (i == ord0); case: (j == ord0). Qed.
(** both modes have variances 3/2 and are positively correlated in both quadratures *)
Definition mixed : 'M[C]_(2 + 2) := RtoC hb *: block_mx (m2 (3 / 2) 1 1 (3 / 2))%coqR 0 0 (m2 (3 / 2) 1 1 (3 / 2))%coqR.
Definition bs2 : 'M[C]_(2 + 2) := let s := (/ sqrt 2)%coqR in block_mx (m2 s (- s) s s)%coqR 0 0 (m2 s (- s) s s)%coqR.
Definition occ2 (j : 'I_2) : R := if j == ord0 then 2%coqR else 0%coqR.
Lemma s22 : (/ sqrt 2 * / sqrt 2 = 1 / 2)%coqR.
Proof. have s2 := sqrt_sqrt 2 ltac:(lra). have s0 := sqrt_lt_R0 2 ltac:(lra). rewrite -Rinv_mult_distr; [|lra..]. rewrite s2. field. Qed.
Lemma bs2_symp : symplectic bs2.
Proof.
have h := s22. have E1 : m2 (/ sqrt 2) (- / sqrt 2) (/ sqrt 2) (/ sqrt 2) *m (m2 (/ sqrt 2) (- / sqrt 2) (/ sqrt 2) (/ sqrt 2))^T = 1%:M by rewrite m2T m2M -m2_1; apply: m2_ext; lra.
have E2 := mulmx1C E1. split; rewrite /bs2 /J tr_block_mx !trmx0 !mulmx_block ?(mulmx0, mul0mx, mulmx1, mul1mx, addr0, add0r, mulmxN, mulNmx) ?E1 ?E2 ?oppr0 ?add0r //.
Qed.
Lemma mixed_frame : mixed = frame hb bs2 occ2.
Proof.
have h := s22. rewrite /mixed /frame /bs2 /dbl tr_block_mx !trmx0 !mulmx_block ?(mulmx0, mul0mx, addr0, add0r). congr (_ *: _).
have -> : diag_mx (\row_j RtoC (occ2 j + 1 / 2)%coqR) = m2 (5 / 2)%coqR R0 R0 (1 / 2)%coqR.
  apply/matrixP => i j. rewrite !mxE /occ2. case: (i =P j) => [<-|]; last by case: i => [[|[|i]] hi]; case: j => [[|[|j]] hj] //= ne; case: ne; apply: val_inj.
  rewrite mulr1n. congr RtoC. case: (i == ord0); field.
rewrite m2T !m2M. by congr block_mx; apply: m2_ext; lra.
Qed.
(** C78: this state is a mixture of coherent states (its covariance exceeds that of the vacuum), hence separable; is_separable returns False *)
Theorem C78_mixed_refuted : psd (mixed - RtoC (hb / 2)%coqR *: 1%:M) /\ (eig_ok hb eig mixed -> (forall j, eig_ok hb eig (mode_cov mixed j)) -> is_separable eig hb mixed = false).
Proof.
split.
  have E : mixed - RtoC (hb / 2)%coqR *: 1%:M = RtoC hb *: (block_mx (m2 1 0 1 0)%coqR 0 0 (m2 1 0 1 0)%coqR *m adj (block_mx (m2 1 0 1 0)%coqR 0 0 (m2 1 0 1 0)%coqR)).
    have rl x y z w : map_mx Cconj (m2 x y z w) = m2 x y z w by apply/matrixP => i j; rewrite !mxE /Cconj /RtoC /= Ropp_0.
    rewrite /adj map_block_mx !raddf0 !rl tr_block_mx !trmx0 !m2T mulmx_block ?(mulmx0, mul0mx, addr0, add0r) !m2M /mixed.
    have -> : RtoC (hb / 2)%coqR = RtoC hb * RtoC (1 / 2)%coqR by rewrite CmulE -RtoC_mult; congr RtoC; field.
    rewrite -scalerA -scalerBr. congr (_ *: _). rewrite scalar_mx_block -m2_1 scale_block_mx !scaler0 opp_block_mx add_block_mx !oppr0 !addr0 -!scaleNr.
    have -> : - RtoC (1 / 2)%coqR = RtoC (- (1 / 2))%coqR by rewrite CoppE RtoC_opp. rewrite !m2Z !m2D. by congr block_mx; apply: m2_ext; lra.
  rewrite E. apply: psdZ; first lra. exact: psd_gram.
move=> HL HLj. rewrite /is_separable /=. have o0 j : Rle R0 (occ2 j) by rewrite /occ2; case: ifP => _; lra.
move: HL. rewrite {1}/eig_ok mixed_frame => HL. rewrite (entropy_frame hb0 bs2_symp o0 HL) -mixed_frame.
have P j : physical1 hb (mode_cov mixed j) (3 / 2 * hb)%coqR 0 (3 / 2 * hb)%coqR.
  split; [|lra|have := Rmult_lt_0_compat _ _ hb0 hb0; lra]. rewrite /mode_cov /mixed scale_block_mx !scaler0 block_mxKul block_mxKur block_mxKdl block_mxKdr m2Z !mxE.
  have -> : (if j == ord0 then if j == ord0 then (hb * (3 / 2))%coqR else (hb * 1)%coqR else if j == ord0 then (hb * 1)%coqR else (hb * (3 / 2))%coqR) = (3 / 2 * hb)%coqR by case: (j == ord0); ring. by [].
have -> : Rsum (fun j => von_neumann_entropy (@eig 1%N) hb (mode_cov mixed j)) = (2 * entropy_g 3)%coqR.
  have E j : von_neumann_entropy (@eig 1%N) hb (mode_cov mixed j) = entropy_g 3.
    rewrite (mode_entropy hb0 (P j)) //. congr entropy_g. rewrite /occ. have -> : (3 / 2 * hb * (3 / 2 * hb) - 0 * 0 = 3 / 2 * hb * (3 / 2 * hb))%coqR by ring.
    rewrite sqrt_square; last lra. field. lra.
  rewrite /Rsum !big_ord_recl big_ord0 !E. ring.
rewrite /Rsum !big_ord_recl big_ord0 /occ2 /=. have -> : (2 * 0 + 1 = 1)%coqR by ring. have -> : (2 * 2 + 1 = 5)%coqR by ring. rewrite g_1.
set e := (/ 10 ^ 9)%coqR. have e0 : Rlt 0 e by rewrite /e; apply: Rinv_0_lt_compat; lra. have e1 : Rle e (1 / 100) by rewrite /e; lra.
have [a1 _] := @g_bound 1 ltac:(lra). have [_ a2] := @g_bound 2 ltac:(lra). rewrite /h_of in a1 a2. have e3 : (2 * 1 + 1 = 3)%coqR by ring. have e5 : (2 * 2 + 1 = 5)%coqR by ring. rewrite e3 -/e in a1. rewrite e5 in a2.
have t2 : (1 + 1 = 2)%coqR by ring. have t3 : (2 + 1 = 3)%coqR by ring. rewrite t2 ln_1 in a1. rewrite t3 in a2.
have L : Rle (1 / 4) (2 * ln 2 - ln 3).
  have -> : (2 * ln 2 - ln 3 = - ln (1 + - (1 / 4)))%coqR.
    have -> : (1 + - (1 / 4) = 3 / (2 * 2))%coqR by field. rewrite ln_div; [|lra..]. rewrite ln_mult; [|lra..]. ring.
  have := @ln_1p (- (1 / 4)) ltac:(lra). lra.
apply/negbTE/negP => /RlebP. rewrite Rabs_pos_eq; lra.
Qed.
End Mixed.

(** ** Photon numbers *)
Lemma poisson_mean x : mean_of (poisson x) x.
Proof.
have H : is_series (fun k => (/ INR (Factorial.fact k) * x ^ k)%coqR) (exp x).
  have := is_exp_Reals x. rewrite /is_pseries. apply: is_series_ext => k. rewrite /scal /= /mult /= pow_n_pow. ring.
have := is_series_scal (exp (- x) * x)%coqR _ _ H. have -> : (scal (exp (- x) * x)%coqR (exp x) : R) = x.
  rewrite /scal /= /mult /=. have -> : (exp (- x) * x * exp x = (exp (- x) * exp x) * x)%coqR by ring. rewrite -exp_plus Rplus_opp_l exp_0. ring.
move=> K. apply: is_series_decr_1. have -> : plus x (opp (INR 0 * poisson x 0)%coqR) = x :> R by rewrite /plus /opp /= Rmult_0_l Ropp_0 Rplus_0_r.
apply: is_series_ext K => k. rewrite /scal /mult [LHS]/= /poisson fact_simpl mult_INR -[(x ^ k.+1)%coqR]/(x * x ^ k)%coqR.
have f0 := INR_fact_neq_0 k. have k0 : INR k.+1 <> R0 by apply: not_0_INR. move: (INR k.+1) k0 => y y0. match goal with |- @eq _ ?u ?v => change (@eq R u v) end. cbn. field. by split.
Qed.
Section Num.
Variables (n : nat) (hb : R).
Hypothesis hb0 : Rlt R0 hb.
(** C78: the mean photon number of a displaced thermal state is the mean of its thermal distribution plus that of the Poisson distribution of the displacement alpha = x + i p *)
Theorem C78_number_means (nbar x p : 'I_n -> R) j t a : Rle R0 (nbar j) -> mean_of (photons (nbar j)) t -> mean_of (poisson (x j * x j + p j * p j)) a ->
  number_means hb (frame hb 1%:M nbar) (RtoC (sqrt (2 * hb)) *: rvec x p) j = RtoC (t + a)%coqR.
Proof.
move=> h0 Ht Ha. have U f u v : mean_of f u -> mean_of f v -> u = v by move=> H1 H2; rewrite -(is_series_unique _ _ H1) (is_series_unique _ _ H2).
rewrite (U _ _ _ Ht (photons_mean h0)).
rewrite (U _ _ _ Ha (@poisson_mean (x j * x j + p j * p j)%coqR)).
have s2 := sqrt_sqrt (2 * hb) ltac:(lra).
rewrite /number_means /frame trmx1 mulmx1 mul1mx /dbl scale_block_mx block_mxKul block_mxKdr /rvec scale_col_mx col_mxEu col_mxEd !mxE eqxx mulr1n !expr2 !CmulE !CaddE !CoppE CinvE.
rewrite -RtoC_inv; last lra. rewrite -!RtoC_mult -!RtoC_plus -RtoC_opp -!RtoC_plus -RtoC_mult. congr RtoC.
have E (y : R) : (sqrt (2 * hb) * y * (sqrt (2 * hb) * y) = 2 * hb * (y * y))%coqR by rewrite -{3}s2; ring.
rewrite !E. field. lra.
Qed.
(** C78: a passive Gaussian unitary keeps the total mean photon number, whatever the state *)
Theorem C78_number_passive (O cov : 'M[C]_(n + n)) mu : O^T *m O = 1%:M ->
  \sum_j number_means hb (O *m cov *m O^T) (O *m mu) j = \sum_j number_means hb cov mu j.
Proof.
move=> HO. have E (c : 'M[C]_(n + n)) (m : 'cV[C]_(n + n)) : \sum_j number_means hb c m j = (\tr (m *m m^T) + \tr c - RtoC hb *+ n) / RtoC (2 * hb)%coqR.
  rewrite /number_means -mulr_suml !big_split /= sumrN sumr_const card_ord. congr ((_ - _) / _).
  rewrite -addrA. congr (_ + _); rewrite [in RHS]/mxtrace big_split_ord /=; congr (_ + _); apply: eq_bigr => j _; rewrite !mxE //.
  - by rewrite big_ord1 !mxE expr2.
  - by rewrite big_ord1 !mxE expr2.
rewrite !E. congr ((_ + _ - _) / _).
  by rewrite trmx_mul mulmxA mxtrace_mulC !mulmxA HO mul1mx.
by rewrite mxtrace_mulC mulmxA HO mul1mx.
Qed.
End Num.

(** ** Examples *)
(** the symplectic eigenvalues of the state above are 1 and 5 *)
Example C78_example hb (eig : 'M[C]_(2 + 2) -> seq C) : Rlt R0 hb -> eigenvalues (sympM hb (mixed hb)) (eig (sympM hb (mixed hb))) ->
  symplectic_eigenvals eig hb (mixed hb) = [:: 1%coqR; 5%coqR].
Proof.
move=> h0. rewrite mixed_frame => HL. rewrite (C78_symplectic_eigenvalues h0 bs2_symp _ HL); last by move=> j; rewrite /occ2; case: ifP => _; lra.
rewrite !enum_ordSl enum_ord0 /= /occ2 /=. have -> : (2 * 2 + 1 = 5)%coqR by ring. have -> : (2 * 0 + 1 = 1)%coqR by ring.
apply: (sorted_eq Rleb_trans Rleb_anti); first exact: sort_sorted Rleb_total _.
  rewrite /= andbT. apply/RlebP. lra.
rewrite perm_sort. by rewrite -[[:: 1%coqR; 5%coqR]]/([:: 1%coqR] ++ [:: 5%coqR]) perm_sym perm_catC.
Qed.
(** the modes of the vacuum satisfy the hypothesis of C78_product and C78_pure_separable *)
Example C78_vacuum n hb (j : 'I_n) : Rlt R0 hb -> let cov := RtoC (hb / 2)%coqR *: ((1%:M : 'M[C]_(n + n)) *m 1%:M^T) in
  uncorrelated cov /\ physical1 hb (mode_cov cov j) (hb / 2)%coqR 0 (hb / 2)%coqR.
Proof.
move=> h0 cov. have E : cov = block_mx (RtoC (hb / 2)%coqR *: 1%:M) 0 0 (RtoC (hb / 2)%coqR *: 1%:M) by rewrite /cov trmx1 mulmx1 scalar_mx_block scale_block_mx !scaler0.
rewrite E. split.
  move=> i k ne. rewrite block_mxKul block_mxKur block_mxKdl block_mxKdr !mxE. by case: eqP => //; rewrite mulr0.
split; [|lra|have := Rmult_lt_0_compat _ _ h0 h0; lra]. by rewrite /mode_cov block_mxKul block_mxKur block_mxKdl block_mxKdr !mxE eqxx mulr1.
Qed.
