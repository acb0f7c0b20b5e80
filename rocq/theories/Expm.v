(** The matrix exponential of complex matrices of any size, as the (entrywise convergent) power series, and the identities used for the optimizer.
    It is the contract of math.expm (jax.scipy.linalg.expm), which the code calls and does not implement. *)
From Coq Require Import Reals Lra.
From Coquelicot Require Import Rbar Hierarchy Series PSeries ElemFct Complex.
From mathcomp Require Import all_ssreflect all_algebra.
From Verif Require Import CMat.
Set Implicit Arguments. Unset Strict Implicit. Unset Printing Implicit Defensive.
Import GRing.Theory.
Local Open Scope ring_scope.

(** sums of complex series *)
Definition cser (a : nat -> C) : C := (Series (fun k => fst (a k)), Series (fun k => snd (a k))).
Definition aconv (a : nat -> C) : Prop := ex_series (fun k => Cmod (a k)).
Lemma Rabs_fst (z : C) : Rle (Rabs (fst z)) (Cmod z).
Proof. apply: Rle_trans (Rmax_Cmod z). exact: Rmax_l. Qed.
Lemma Rabs_snd (z : C) : Rle (Rabs (snd z)) (Cmod z).
Proof. apply: Rle_trans (Rmax_Cmod z). exact: Rmax_r. Qed.
Lemma aconv_fst a : aconv a -> ex_series (fun k => Rabs (fst (a k))).
Proof. move=> H. apply: (@ex_series_le R_AbsRing R_CompleteNormedModule _ (fun k => Cmod (a k))) => // k. change (Rle (Rabs (Rabs (fst (a k)))) (Cmod (a k))). rewrite Rabs_Rabsolu. exact: Rabs_fst. Qed.
Lemma aconv_snd a : aconv a -> ex_series (fun k => Rabs (snd (a k))).
Proof. move=> H. apply: (@ex_series_le R_AbsRing R_CompleteNormedModule _ (fun k => Cmod (a k))) => // k. change (Rle (Rabs (Rabs (snd (a k)))) (Cmod (a k))). rewrite Rabs_Rabsolu. exact: Rabs_snd. Qed.
Lemma aconv_f a : aconv a -> ex_series (fun k => fst (a k)).
Proof. by move=> H; apply: ex_series_Rabs; apply: aconv_fst. Qed.
Lemma aconv_s a : aconv a -> ex_series (fun k => snd (a k)).
Proof. by move=> H; apply: ex_series_Rabs; apply: aconv_snd. Qed.
Lemma aconv_le a (b : nat -> R) : (forall k, Rle (Cmod (a k)) (b k)) -> ex_series b -> aconv a.
Proof. move=> H E. apply: (@ex_series_le R_AbsRing R_CompleteNormedModule _ b) => // k. change (Rle (Rabs (Cmod (a k))) (b k)). rewrite Rabs_pos_eq //. exact: Cmod_ge_0. Qed.
Lemma aconv_add a b : aconv a -> aconv b -> aconv (fun k => a k + b k).
Proof. move=> H1 H2. apply: (@aconv_le _ (fun k => Rplus (Cmod (a k)) (Cmod (b k)))) => [k|]; [exact: Cmod_triangle|exact: (@ex_series_plus R_AbsRing R_NormedModule)]. Qed.
Lemma aconv_scal c a : aconv a -> aconv (fun k => c * a k).
Proof. move=> H. apply: (@aconv_le _ (fun k => Rmult (Cmod c) (Cmod (a k)))) => [k|]; [rewrite Cmod_mult; exact: Rle_refl|exact: (@ex_series_scal R_AbsRing R_NormedModule)]. Qed.
Lemma aconv_ext a b : (forall k, a k = b k) -> aconv a -> aconv b.
Proof. move=> E H. apply: ex_series_ext H => k. by rewrite E. Qed.
Lemma aconv_0 : aconv (fun _ => 0).
Proof. exists R0. apply: (@is_series_ext _ _ (fun _ => R0)) => [k|]; first by rewrite (_ : Cmod 0 = R0) //; exact: Cmod_0.
apply: (filterlim_ext (fun _ => R0)) => [n|]; last exact: filterlim_const. elim: n => [|n IH]; [by rewrite sum_O|]. rewrite sum_Sn -IH. by rewrite plus_zero_r. Qed.
Lemma cser_ext a b : (forall k, a k = b k) -> cser a = cser b.
Proof. move=> E. rewrite /cser. congr pair; apply: Series_ext => k; by rewrite E. Qed.
Lemma cser_add a b : aconv a -> aconv b -> cser (fun k => a k + b k) = cser a + cser b.
Proof. move=> H1 H2. rewrite /cser /GRing.add /= /Cplus /=. congr pair; apply: Series_plus; by [apply: aconv_f|apply: aconv_s]. Qed.
Lemma cser_scal c a : aconv a -> cser (fun k => c * a k) = c * cser a.
Proof.
move=> H. rewrite /cser /GRing.mul /= /Cmult /=. move: (aconv_f H) (aconv_s H) => Hf Hs.
have S1 : forall x, ex_series (fun k => Rmult x (fst (a k))) by move=> x; apply: (@ex_series_scal R_AbsRing R_NormedModule).
have S2 : forall x, ex_series (fun k => Rmult x (snd (a k))) by move=> x; apply: (@ex_series_scal R_AbsRing R_NormedModule).
congr pair; [rewrite Series_minus // !Series_scal_l //|rewrite Series_plus // !Series_scal_l //].
Qed.
Lemma Series_delta (r : R) : Series (fun k => if k is 0%N then r else R0) = r.
Proof. apply: is_series_unique. apply: (filterlim_ext (fun _ => r)) => [m|]; last exact: filterlim_const. elim: m => [|m IH]; [by rewrite sum_O|]. by rewrite sum_Sn -IH plus_zero_r. Qed.
Lemma Series_zero : Series (fun _ => R0) = R0.
Proof. rewrite -[RHS](Series_delta R0). apply: Series_ext => -[|k] //. Qed.
Lemma cser_0 : cser (fun _ => 0) = 0.
Proof. rewrite /cser /=. by rewrite !Series_zero. Qed.
Lemma aconv_sum (I : finType) (a : I -> nat -> C) : (forall i, aconv (a i)) -> aconv (fun k => \sum_i a i k).
Proof.
move=> H. have E : forall s, aconv (fun k => \sum_(i <- s) a i k).
  elim=> [|i s IH]; [apply: aconv_ext aconv_0 => k; by rewrite big_nil|]. apply: aconv_ext (aconv_add (H i) IH) => k. by rewrite big_cons.
exact: E.
Qed.
Lemma cser_sum (I : finType) (a : I -> nat -> C) : (forall i, aconv (a i)) -> cser (fun k => \sum_i a i k) = \sum_i cser (a i).
Proof.
move=> H. have E : forall s, aconv (fun k => \sum_(i <- s) a i k) /\ cser (fun k => \sum_(i <- s) a i k) = \sum_(i <- s) cser (a i).
  elim=> [|i s [I1 I2]]; [split; [apply: aconv_ext aconv_0 => k; by rewrite big_nil|rewrite big_nil -[RHS]cser_0; apply: cser_ext => k; by rewrite big_nil]|].
  split; [apply: aconv_ext (aconv_add (H i) I1) => k; by rewrite big_cons|]. rewrite big_cons -I2 -cser_add //. apply: cser_ext => k. by rewrite big_cons.
exact: (E _).2.
Qed.
(** Cauchy product *)
Lemma sum_pair (a b : nat -> C) n : \sum_(k < n.+1) a k * b (n - k)%N =
  (Rminus (sum_f_R0 (fun k => Rmult (fst (a k)) (fst (b (n - k)%coq_nat))) n) (sum_f_R0 (fun k => Rmult (snd (a k)) (snd (b (n - k)%coq_nat))) n),
   Rplus (sum_f_R0 (fun k => Rmult (fst (a k)) (snd (b (n - k)%coq_nat))) n) (sum_f_R0 (fun k => Rmult (snd (a k)) (fst (b (n - k)%coq_nat))) n)).
Proof.
have G : forall (f g : nat -> R), forall m, \sum_(k < m.+1) ((f k, g k) : C) = (sum_f_R0 f m, sum_f_R0 g m).
  move=> f g. elim=> [|m IH]; [by rewrite big_ord1|]. by rewrite big_ord_recr IH.
rewrite -minus_sum -plus_sum -G. apply: eq_bigr => k _. by [].
Qed.
Lemma cser_mult a b : aconv a -> aconv b -> cser a * cser b = cser (fun n => \sum_(k < n.+1) a k * b (n - k)%N).
Proof.
move=> Ha Hb. move: (aconv_f Ha) (aconv_s Ha) (aconv_f Hb) (aconv_s Hb) (aconv_fst Ha) (aconv_snd Ha) (aconv_fst Hb) (aconv_snd Hb) => a1 a2 b1 b2 A1 A2 B1 B2.
rewrite (cser_ext (sum_pair a b)). rewrite /cser /GRing.mul /= /Cmult /=.
have M : forall f g : nat -> R, ex_series f -> ex_series g -> ex_series (fun k => Rabs (f k)) -> ex_series (fun k => Rabs (g k)) ->
  is_series (fun n => sum_f_R0 (fun k => Rmult (f k) (g (n - k)%coq_nat)) n) (Rmult (Series f) (Series g)).
  move=> f g h1 h2 h3 h4. apply: is_series_mult => //; exact: Series_correct.
have E : forall f g : nat -> R, forall l, is_series (fun n => sum_f_R0 (fun k => Rmult (f k) (g (n - k)%coq_nat)) n) l -> ex_series (fun n => sum_f_R0 (fun k => Rmult (f k) (g (n - k)%coq_nat)) n) by move=> f g l h; exists l.
congr pair.
- rewrite Series_minus; [|exact: (E _ _ _ (M _ _ a1 b1 A1 B1))|exact: (E _ _ _ (M _ _ a2 b2 A2 B2))]. by rewrite (is_series_unique _ _ (M _ _ a1 b1 A1 B1)) (is_series_unique _ _ (M _ _ a2 b2 A2 B2)).
- rewrite Series_plus; [|exact: (E _ _ _ (M _ _ a1 b2 A1 B2))|exact: (E _ _ _ (M _ _ a2 b1 A2 B1))]. by rewrite (is_series_unique _ _ (M _ _ a1 b2 A1 B2)) (is_series_unique _ _ (M _ _ a2 b1 A2 B1)).
Qed.
Lemma Cmod_big (a b : nat -> C) n : Rle (Cmod (\sum_(k < n.+1) a k * b (n - k)%N)) (sum_f_R0 (fun k => Rmult (Cmod (a k)) (Cmod (b (n - k)%coq_nat))) n).
Proof.
have G : forall (f : nat -> C), forall m, Rle (Cmod (\sum_(k < m.+1) f k)) (sum_f_R0 (fun k => Cmod (f k)) m).
  move=> f. elim=> [|m IH]; [rewrite big_ord1; exact: Rle_refl|]. rewrite big_ord_recr. apply: Rle_trans (Cmod_triangle _ _) _. apply: Rplus_le_compat_r. exact: IH.
apply: Rle_trans (G (fun k => a k * b (n - k)%N) n) _. apply: Req_le. apply: PartSum.sum_eq => k _. exact: Cmod_mult.
Qed.
Lemma aconv_mult a b : aconv a -> aconv b -> aconv (fun n => \sum_(k < n.+1) a k * b (n - k)%N).
Proof.
move=> Ha Hb. apply: (aconv_le (Cmod_big a b)). exists (Rmult (Series (fun k => Cmod (a k))) (Series (fun k => Cmod (b k)))).
exact: (is_series_mult_pos _ _ _ _ (Series_correct _ Ha) (Series_correct _ Hb) (fun k => Cmod_ge_0 _) (fun k => Cmod_ge_0 _)).
Qed.
Lemma cser_conj a : cser (fun k => Cconj (a k)) = Cconj (cser a).
Proof. rewrite /cser /Cconj /=. congr pair. exact: Series_opp. Qed.

(** ** powers and the exponential *)
Section Expm.
Variable n : nat.
Implicit Types X Y A : 'M[C]_n.
Definition mpow X (k : nat) : 'M[C]_n := iter k (mulmx X) 1%:M.
Definition rfact (k : nat) : C := RtoC (Rinv (INR (fact k))).
Definition term X i j k : C := rfact k * mpow X k i j.
Definition expm X : 'M[C]_n := \matrix_(i, j) cser (term X i j).
Definition norm1 X : R := \big[Rplus/R0]_(p : 'I_n * 'I_n) Cmod (X p.1 p.2).
Lemma Cmod_sum (I : finType) (f : I -> C) : Rle (Cmod (\sum_i f i)) (\big[Rplus/R0]_i Cmod (f i)).
Proof.
apply: (big_ind2 (fun z r => Rle (Cmod z) r)); [rewrite (_ : Cmod 0 = R0); [exact: Rle_refl|exact: Cmod_0]| |move=> i _; exact: Rle_refl].
move=> z1 r1 z2 r2 H1 H2. apply: Rle_trans (Cmod_triangle _ _) _. exact: Rplus_le_compat.
Qed.
Lemma big_R_ge0 (I : Type) (s : seq I) (f : I -> R) : (forall i, Rle 0 (f i)) -> Rle 0 (\big[Rplus/R0]_(i <- s) f i).
Proof. move=> H. apply: big_ind => //; [exact: Rle_refl|move=> x y; exact: Rplus_le_le_0_compat]. Qed.
Lemma big_R_le (I : finType) (f g : I -> R) : (forall i, Rle (f i) (g i)) -> Rle (\big[Rplus/R0]_i f i) (\big[Rplus/R0]_i g i).
Proof. move=> H. apply: (big_ind2 (fun x y => Rle x y)) => //; [exact: Rle_refl|move=> *; exact: Rplus_le_compat]. Qed.
Lemma RplusA : associative Rplus. Proof. move=> x y z. by rewrite Rplus_assoc. Qed.
Canonical Rplus_monoid := Monoid.Law RplusA Rplus_0_l Rplus_0_r.
Canonical Rplus_comoid := Monoid.ComLaw Rplus_comm.
Lemma row_le_norm X i : Rle (\big[Rplus/R0]_j Cmod (X i j)) (norm1 X).
Proof.
rewrite /norm1 (eq_bigr (fun p => (fun i j => Cmod (X i j)) p.1 p.2)) // -(pair_bigA _ (fun i j => Cmod (X i j))) /= [Z in Rle _ Z](bigD1 i) //=.
have H : forall a b, Rle R0 b -> Rle a (Rplus a b) by move=> a b Hb; lra. apply: H. rewrite big_mkcond. apply: big_R_ge0 => k. case: ifP => _; [|exact: Rle_refl]. apply: big_R_ge0 => j. exact: Cmod_ge_0.
Qed.
Lemma norm1_ge0 X : Rle 0 (norm1 X).
Proof. apply: big_R_ge0 => p. exact: Cmod_ge_0. Qed.
Lemma mpow_bound X k i j : Rle (Cmod (mpow X k i j)) (pow (norm1 X) k).
Proof.
elim: k i j => [|k IH] i j; first by rewrite /= mxE; case: (i == j); rewrite ?mulr1n ?mulr0n; [rewrite (_ : Cmod 1 = R1); [exact: Rle_refl|exact: Cmod_1]|rewrite (_ : Cmod 0 = R0); [exact: Rle_0_1|exact: Cmod_0]].
rewrite /mpow iterS mxE. apply: Rle_trans (Cmod_sum _) _. apply: Rle_trans (big_R_le (g := fun l => Rmult (Cmod (X i l)) (pow (norm1 X) k)) _) _.
- move=> l. change (Cmod (X i l * iter k (mulmx X) 1%:M l j)) with (Cmod (Cmult (X i l) (mpow X k l j))). rewrite Cmod_mult. apply: Rmult_le_compat_l; [exact: Cmod_ge_0|exact: IH].
- have E : forall s : seq 'I_n, \big[Rplus/R0]_(l <- s) Rmult (Cmod (X i l)) (pow (norm1 X) k) = Rmult (\big[Rplus/R0]_(l <- s) Cmod (X i l)) (pow (norm1 X) k).
    elim=> [|l s IHs]; rewrite ?big_nil ?big_cons; [by rewrite Rmult_0_l|by rewrite IHs Rmult_plus_distr_r].
  rewrite E /=. apply: Rmult_le_compat_r; [apply: pow_le; exact: norm1_ge0|exact: row_le_norm].
Qed.
Lemma term_aconv X i j : aconv (term X i j).
Proof.
apply: (@aconv_le _ (fun k => Rmult (pow (norm1 X) k) (Rinv (INR (fact k))))) => [k|].
- rewrite /term /rfact. change (Rle (Cmod (Cmult (RtoC (Rinv (INR (fact k)))) (mpow X k i j))) (Rmult (pow (norm1 X) k) (Rinv (INR (fact k))))). rewrite Cmod_mult Cmod_R Rabs_pos_eq; last by apply: Rlt_le; apply: Rinv_0_lt_compat; exact: INR_fact_lt_0.
  rewrite Rmult_comm. apply: Rmult_le_compat_r; [by apply: Rlt_le; apply: Rinv_0_lt_compat; exact: INR_fact_lt_0|exact: mpow_bound].
- exists (exp (norm1 X)). have := is_exp_Reals (norm1 X). rewrite /is_pseries. apply: is_series_ext => k. by rewrite pow_n_pow.
Qed.
Lemma mpowSr X k : mpow X k.+1 = mpow X k *m X.
Proof. elim: k => [|k IH]; [by rewrite /mpow /= mulmx1 mul1mx|]. by rewrite -[LHS]/(X *m mpow X k.+1) [in LHS]IH mulmxA. Qed.
Lemma mpow_tr X k : mpow X^T k = (mpow X k)^T.
Proof. elim: k => [|k IH]; [by rewrite /mpow /= trmx1|]. by rewrite {1}/mpow iterS -/(mpow X^T k) IH -trmx_mul mpowSr. Qed.
Lemma expm_tr X : expm X^T = (expm X)^T.
Proof. apply/matrixP => i j. rewrite !mxE. apply: cser_ext => k. by rewrite /term mpow_tr mxE. Qed.
Lemma Cconj_R r : Cconj (RtoC r) = RtoC r.
Proof. rewrite /Cconj /RtoC /=. by rewrite Ropp_0. Qed.
Lemma mpow_conj X k : mpow (map_mx Cconj X) k = map_mx Cconj (mpow X k).
Proof. elim: k => [|k IH]; [by rewrite /mpow /= map_mx1|]. by rewrite {1}/mpow iterS -/(mpow (map_mx Cconj X) k) IH -map_mxM. Qed.
Lemma expm_conj X : expm (map_mx Cconj X) = map_mx Cconj (expm X).
Proof. apply/matrixP => i j. rewrite !mxE -cser_conj. apply: cser_ext => k. rewrite /term mpow_conj mxE. have -> : forall z w : C, Cconj (z * w) = Cconj z * Cconj w by exact: (rmorphM Cconj_rmorphism). by rewrite /rfact Cconj_R. Qed.
Lemma mpow_sim A B X k : B *m A = 1%:M -> A *m B = 1%:M -> mpow (A *m X *m B) k = A *m mpow X k *m B.
Proof.
move=> BA AB. elim: k => [|k IH]; [by rewrite /mpow /= mulmx1 AB|]. rewrite {1}/mpow iterS -/(mpow _ k) IH. rewrite /mpow iterS -/(mpow X k) !mulmxA. by rewrite -(mulmxA _ B A) BA mulmx1.
Qed.
Lemma expm_sim A B X : B *m A = 1%:M -> A *m B = 1%:M -> expm (A *m X *m B) = A *m expm X *m B.
Proof.
move=> BA AB. apply/matrixP => i j. rewrite [LHS]mxE.
transitivity (cser (fun k => \sum_l \sum_m (A i m * B l j) * term X m l k)).
- apply: cser_ext => k. rewrite /term mpow_sim // mxE big_distrr. apply: eq_bigr => l _ /=. rewrite mxE big_distrl big_distrr. apply: eq_bigr => m _ /=. rewrite mulrCA -!mulrA. congr (_ * _). by rewrite mulrCA [_ * B l j]mulrC mulrCA.
- rewrite cser_sum => [|l]; last by apply: aconv_sum => m; apply: aconv_scal; exact: term_aconv. rewrite mxE. apply: eq_bigr => l _. rewrite cser_sum => [|m]; last by apply: aconv_scal; exact: term_aconv.
  rewrite mxE big_distrl. apply: eq_bigr => m _ /=. rewrite cser_scal; last exact: term_aconv. by rewrite mxE mulrAC.
Qed.
Lemma expm0 : expm 0 = 1%:M.
Proof.
apply/matrixP => i j. rewrite mxE. transitivity (cser (fun k => if k is 0%N then (1%:M : 'M[C]_n) i j else 0)).
- apply: cser_ext => -[|k]; rewrite /term /=; [rewrite /rfact /= (_ : RtoC (Rinv R1) = 1) ?mul1r //; by rewrite Rinv_1|by rewrite mul0mx mxE mulr0].
- rewrite /cser. rewrite [RHS]surjective_pairing -[in RHS](Series_delta (fst _)) -[in RHS](Series_delta (snd _)). congr pair; apply: Series_ext => -[|k] //.
Qed.
(** commuting matrices *)
Lemma mpow_comm X Y k : X *m Y = Y *m X -> X *m mpow Y k = mpow Y k *m X.
Proof. move=> XY. elim: k => [|k IH]; [by rewrite /mpow /= mulmx1 mul1mx|]. rewrite -[mpow Y k.+1]/(Y *m mpow Y k). by rewrite mulmxA XY -mulmxA IH mulmxA. Qed.
Lemma mpow_add X Y m : X *m Y = Y *m X -> mpow (X + Y) m = \sum_(k < m.+1) (mpow X k *m mpow Y (m - k)) *+ 'C(m, k).
Proof.
move=> XY. elim: m => [|m IH]; first by rewrite big_ord1 /mpow /= mulmx1 mulr1n.
rewrite -[LHS]/((X + Y) *m mpow (X + Y) m) IH mulmxDl.
have R1' : X *m (\sum_(k < m.+1) (mpow X k *m mpow Y (m - k)) *+ 'C(m, k)) = \sum_(k < m.+2) (mpow X k *m mpow Y (m.+1 - k)) *+ (if k == 0%N :> nat then 0%N else 'C(m, k.-1)).
  rewrite [RHS]big_ord_recl /= mulr0n add0r mulmx_sumr. apply: eq_bigr => k _. rewrite /bump /= add1n subSS. by rewrite -!scaler_nat -scalemxAr mulmxA.
have R2' : Y *m (\sum_(k < m.+1) (mpow X k *m mpow Y (m - k)) *+ 'C(m, k)) = \sum_(k < m.+2) (mpow X k *m mpow Y (m.+1 - k)) *+ 'C(m, k).
  rewrite [RHS]big_ord_recr /= bin_small // mulr0n addr0 mulmx_sumr. apply: eq_bigr => k _. rewrite subSn; last by rewrite -ltnS.
  rewrite -!scaler_nat -scalemxAr mulmxA. rewrite (@mpow_comm Y X k (esym XY)). by rewrite -mulmxA.
rewrite R1' R2' -big_split /=. apply: eq_bigr => -[[|k] Hk] _ /=; [by rewrite mulr0n add0r !bin0|]. by rewrite -mulrnDr binS addnC.
Qed.
Lemma fact_E k : fact k = k`!.
Proof. elim: k => [|k IH] //. by rewrite factS -IH. Qed.
Lemma INR_C k : (k%:R : C) = RtoC (INR k).
Proof. elim: k => [|k IH] //. rewrite S_INR -addn1 natrD IH RtoC_plus. by []. Qed.
Lemma rfact_bin m k : (k <= m)%N -> rfact k * rfact (m - k) = rfact m * ('C(m, k))%:R.
Proof.
move=> km. have nz : forall j, INR (fact j) <> R0 by exact: INR_fact_neq_0.
have E : 'C(m, k)%:R * ((k`!)%:R * ((m - k)`!)%:R) = (m`!)%:R :> C by rewrite -!natrM bin_fact.
rewrite /rfact. rewrite !INR_C -!fact_E in E *. move: E. rewrite /GRing.mul /= -!RtoC_mult => E. congr RtoC. move: E. case=> E.
apply: (Rmult_eq_reg_r (INR (fact m))); last exact: nz. rewrite -{1}E. have := nz k. have := nz (m - k)%N. have := nz m. move=> h1 h2 h3. by field.
Qed.
Lemma expm_add X Y : X *m Y = Y *m X -> expm X *m expm Y = expm (X + Y).
Proof.
move=> XY. apply/matrixP => i j. rewrite !mxE.
transitivity (\sum_l cser (fun m => \sum_(k < m.+1) term X i l k * term Y l j (m - k)%N)).
  apply: eq_bigr => l _. rewrite !mxE. apply: cser_mult; exact: term_aconv.
rewrite -cser_sum => [|l]; last by apply: aconv_mult; exact: term_aconv.
apply: cser_ext => m. rewrite /term mpow_add // exchange_big /= summxE big_distrr. apply: eq_bigr => k _ /=.
rewrite -scaler_nat !mxE mulrA big_distrr /= -rfact_bin; last by rewrite -ltnS. apply: eq_bigr => l _. by rewrite mulrACA.
Qed.
Lemma expmN X : expm X *m expm (- X) = 1%:M.
Proof. rewrite expm_add ?subrr ?expm0 //. by rewrite mulmxN mulNmx. Qed.
Lemma expmNl X : expm (- X) *m expm X = 1%:M.
Proof. by rewrite -{2}[X]opprK expmN. Qed.
End Expm.
