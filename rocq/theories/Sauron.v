(** Sauron states: a ring of n + 1 coherent states that approximates the Fock state n.  Claim C79.
    Model of mrmustard/physics/triples.py:293-321 (sauron_state_Abc), of the state built from it in mrmustard/lab/states/sauron.py:57-72 (a linear superposition, lin_sup), of its probability
    (lab/states/base.py:140-158: the sum of all pairwise overlaps) and of its Fock amplitudes (the arrays of all terms summed, circuit_components.py:526-531).  Exact complex arithmetic. *)
From Coq Require Import Reals Lra Psatz Lia.
From Coquelicot Require Import Complex Series Hierarchy Rcomplements PSeries ElemFct.
From mathcomp Require Import all_ssreflect all_algebra.
From Verif Require Import CMat Optimizer GateSym BargSym CExp Compose GateTriples ChanAlg States Fidelity Entropy.
Require Verif.Base Verif.QuadWave Verif.RingSeries.
Set Implicit Arguments. Unset Strict Implicit. Unset Printing Implicit Defensive.
Import GRing.Theory.
Local Open Scope ring_scope.
Delimit Scope R_scope with coqR.
Local Arguments Re : simpl never.

(** ** Model *)
(** entry k of np.linspace(0, stop, n + 1): k times the step stop / n; a single point is 0 *)
Definition linspace0 (stop : R) (n k : nat) : R := if n is n'.+1 then (INR k * (stop / INR n))%coqR else R0.
(** triples.py:306-309 *)
Definition ring_phase (n k : nat) : R := linspace0 (2 * PI * (1 - 1 / INR n.+1))%coqR n k.
Definition ring_ket (n : nat) (eps : R) (k : nat) : ket 1 := let c := eit (ring_phase n k) in Ket 0 (RtoC eps * c)%:M c.
Definition ring (n : nat) (eps : R) : seq (ket 1) := [seq ring_ket n eps k | k <- iota 0 n.+1].
(** np.sum over an array of results *)
Fixpoint osum (l : seq (option C)) : option C := if l is o :: l' then obind (fun x => omap (fun y => x + y) (osum l')) o else Some 0.
(** triples.py:312-318 and the L2 norm of a superposition: complex_gaussian_integral_2 without batch_string pairs every term with every term *)
Definition overlap_sum (ks : seq (ket 1)) : option C := osum [seq inner k j | j <- ks, k <- ks].
(** triples.py:319-321; None: the division by zero that leaves nan *)
Definition sauron (n : nat) (eps : R) : option (seq (ket 1)) :=
  obind (fun pr => if pr == 0 then None else Some [seq Ket (kA k) (kb k) (kc k / csqrt pr) | k <- ring n eps]) (overlap_sum (ring n eps)).
(** entry p of the Fock array of a superposition with the given cutoff *)
Definition fock_amp (ks : seq (ket 1)) (cutoff p : nat) : C := \sum_(k <- ks) QuadWave.hermite1 (kA k 0 0) (kb k 0 0) (kc k) cutoff p.

(** ** Specification *)
(** photon number p occurs in the state only if n + 1 divides p + 1: p = n, 2 n + 1, 3 n + 2, ... *)
Definition on_ring (n p : nat) : bool := (n.+1 %| p.+1)%N.
Definition ring_weight (n : nat) (eps : R) (p : nat) : R := if on_ring n p then (eps ^ (2 * p) / INR (Factorial.fact p))%coqR else R0.
(** the amplitudes of a state whose photon numbers are restricted to the ring and are otherwise distributed as in a coherent state *)
Definition ring_amplitude (n : nat) (eps w : R) (p : nat) : R :=
  if on_ring n p then (eps ^ p / sqrt (INR (Factorial.fact p) * w))%coqR else R0.

(** ** Roots of unity *)
Lemma eit_0 : eit R0 = 1.
Proof. rewrite /eit /Cexp /Cmult /Ci /RtoC /=. have -> : (0 * 0 - 1 * 0)%coqR = R0 by ring. have -> : (0 * 0 + 1 * 0)%coqR = R0 by ring. by rewrite exp_0 cos_0 sin_0 Rmult_1_l Rmult_0_r. Qed.
Lemma eit_pow x k : eit (INR k * x)%coqR = eit x ^+ k.
Proof.
elim: k => [|k IH]; first by rewrite Rmult_0_l eit_0 expr0. rewrite exprS -IH eit_add. congr eit. rewrite S_INR. ring.
Qed.
Lemma eitE x : eit x = (cos x, sin x).
Proof. rewrite /eit /Cexp /Cmult /Ci /RtoC /=. have -> : (0 * x - 1 * 0)%coqR = R0 by ring. have -> : (0 * 0 + 1 * x)%coqR = x by ring. by rewrite exp_0 !Rmult_1_l. Qed.
Definition zeta n : C := eit (2 * PI / INR n.+1)%coqR.
Lemma SN0 (n : nat) : INR n.+1 <> R0. Proof. by apply: not_0_INR. Qed.
Arguments SN0 : clear implicits.
Lemma ring_phaseE n k : (k <= n)%N -> ring_phase n k = (INR k * (2 * PI / INR n.+1))%coqR.
Proof.
case: n => [|n] H; first by have -> : k = 0%N; [case: k H|rewrite /ring_phase /= Rmult_0_l].
rewrite /ring_phase /linspace0. have a := SN0 n. have b := SN0 n.+1. rewrite (S_INR n.+1) in b *. field. by split.
Qed.
Lemma ring_c n k : (k <= n)%N -> eit (ring_phase n k) = zeta n ^+ k.
Proof. move=> H. by rewrite ring_phaseE // eit_pow. Qed.
Lemma root_N n : zeta n ^+ n.+1 = 1.
Proof.
rewrite -eit_pow eitE. have -> : (INR n.+1 * (2 * PI / INR n.+1))%coqR = (2 * PI)%coqR by field; exact: SN0. by rewrite cos_2PI sin_2PI.
Qed.
Lemma root_1 n m : (zeta n ^+ m == 1) = (n.+1 %| m)%N.
Proof.
apply/eqP/idP => [|/dvdnP [q ->]]; last by rewrite mulnC exprM root_N expr1n.
rewrite -eit_pow eitE => H. have Hc : cos (INR m * (2 * PI / INR n.+1))%coqR = R1 by injection H.
have [z E] := RingSeries.cos_1 _ Hc. have Pn := PI_neq0. have nz := SN0 n.
have E2 : (INR m = IZR z * INR n.+1)%coqR.
  have -> : (INR m = INR m * (2 * PI / INR n.+1) * INR n.+1 / (2 * PI))%coqR by field. rewrite E. by field.
rewrite !INR_IZR_INZ -mult_IZR in E2. have E3 := eq_IZR _ _ E2. have z0 : Z.le Z0 z.
  case: z E3 {E E2} => [|q|q] E3; [exact: Z.le_refl|by []|]. have A := Nat2Z.is_nonneg m. have B : Z.lt (Z.of_nat m) Z0 by rewrite E3; apply: Z.mul_neg_pos. by move: (Z.lt_le_trans _ _ _ B A); case/Z.lt_irrefl.
apply/dvdnP. exists (Z.to_nat z). apply/Nat2Z.inj. by rewrite E3 -multE Nat2Z.inj_mul Z2Nat.id.
Qed.
Lemma nat_C m : m%:R = RtoC (INR m) :> C.
Proof. elim: m => // m IH. by rewrite S_INR RtoC_plus mulrS IH addrC. Qed.
(** the sum of the powers of a root of unity *)
Lemma root_sum n m : \sum_(k < n.+1) (zeta n ^+ m) ^+ k = if (n.+1 %| m)%N then RtoC (INR n.+1) else 0.
Proof.
rewrite -root_1. case: eqP => [->|H].
  have -> : \sum_(k < n.+1) (1 : C) ^+ k = \sum_(k < n.+1) 1 by apply: eq_bigr => i _; exact: expr1n.
  by rewrite sumr_const card_ord nat_C.
have K := subrX1 (zeta n ^+ m) n.+1. rewrite -exprM mulnC exprM root_N expr1n subrr in K.
move/esym/eqP: K. rewrite mulf_eq0 subr_eq0. case/orP => /eqP E; [by case: H|exact: E].
Qed.

(** ** Overlaps *)
Lemma osum_some (X : Type) (s : seq X) (f : X -> option C) (g : X -> C) : (forall x, f x = Some (g x)) -> osum [seq f x | x <- s] = Some (\sum_(x <- s) g x).
Proof. move=> H. elim: s => [|x s IH] /=; first by rewrite big_nil. by rewrite H /= IH big_cons. Qed.
Lemma osum_cat l m x y : osum l = Some x -> osum m = Some y -> osum (l ++ m) = Some (x + y).
Proof.
elim: l x => [|o l IH] x /= => [[<-] ->|]; first by rewrite add0r. case: o => //= a. case E: (osum l) => [z|] //= [<-] H. by rewrite (IH _ E H) /= addrA.
Qed.
Lemma inner_ring b1 b2 c1 c2 : inner (Ket 0 b1%:M c1 : ket 1) (Ket 0 b2%:M c2) = Some (c1 * Cconj c2 * Cexp (b1 * Cconj b2)).
Proof.
have K : (1%:M - 0 *m conj (0 : 'M[C]_1)) *m 1%:M = 1%:M by rewrite mul0mx subr0 mulmx1.
have d1 : \det (1%:M - 0 *m conj (0 : 'M[C]_1)) = 1 by rewrite mul0mx subr0 det1.
have T : Rlt threshold (Cmod (\det (1%:M - 0 *m conj (0 : 'M[C]_1)))).
  by rewrite d1 C1E Cmod_1; exact: thr_lt1.
rewrite (inner_val b1%:M b2%:M c1 c2 (trmx0 _ _ _) (trmx0 _ _ _) K T) d1 invr1.
have -> : csqrt 1 = 1 by rewrite C1E csqrt_R ?sqrt_1 //; lra.
congr Some. rewrite mulr1. congr (_ * Cexp _). rewrite /gQ map_mx0 trmx1 !mul0mx add0r addr0 !mul1mx map_scalar_mx !tr_scalar_mx -!scalar_mxM !mxE /= !mulr1n [Cconj b2 * b1]mulrC.
case: (b1 * Cconj b2) => u v. rewrite /half CmulE CaddE /Cmult /Cplus /RtoC /=. congr pair; field.
Qed.
Lemma osum_flatten (X : Type) (s : seq X) (h : X -> seq (option C)) (g : X -> C) :
  (forall x, osum (h x) = Some (g x)) -> osum (flatten [seq h x | x <- s]) = Some (\sum_(x <- s) g x).
Proof. move=> H. elim: s => [|x s IH] /=; first by rewrite big_nil. rewrite big_cons. exact: osum_cat. Qed.
Lemma overlap_val (s : seq nat) (b c : nat -> C) :
  overlap_sum [seq (Ket 0 (b k)%:M (c k) : ket 1) | k <- s] = Some (\sum_(j <- s) \sum_(k <- s) c k * Cconj (c j) * Cexp (b k * Cconj (b j))).
Proof.
rewrite /overlap_sum -map_comp. apply: osum_flatten => j. rewrite -map_comp /=. apply: osum_some => k /=. exact: inner_ring.
Qed.

(** ** The sum of all overlaps *)
Definition pr (n : nat) (eps : R) : C := \sum_(j < n.+1) \sum_(k < n.+1) zeta n ^+ k * Cconj (zeta n ^+ j) * Cexp (RtoC eps * zeta n ^+ k * Cconj (RtoC eps * zeta n ^+ j)).
Lemma ring_map n eps : ring n eps = [seq (Ket 0 (RtoC eps * zeta n ^+ k)%:M (zeta n ^+ k) : ket 1) | k <- iota 0 n.+1].
Proof. apply/eq_in_map => k. rewrite mem_iota add0n ltnS => /andP [_ H]. by rewrite /ring_ket ring_c. Qed.
Lemma iota_sum (n : nat) (F : nat -> C) : \sum_(k <- iota 0 n.+1) F k = \sum_(k < n.+1) F k.
Proof. rewrite -[iota 0 n.+1]/(index_iota 0 n.+1). exact: big_mkord. Qed.
Lemma ring_overlap n eps : overlap_sum (ring n eps) = Some (pr n eps).
Proof.
rewrite ring_map (overlap_val _ (fun k => RtoC eps * zeta n ^+ k) (fun k => zeta n ^+ k)). congr Some. rewrite iota_sum.
apply: eq_bigr => j _. by rewrite iota_sum.
Qed.
Lemma pr_real n eps : pr n eps = RtoC (Re (pr n eps)).
Proof.
have E : Cconj (pr n eps) = pr n eps.
  rewrite /pr rmorph_sum [RHS]exchange_big /=. apply: eq_bigr => j _. rewrite rmorph_sum. apply: eq_bigr => k _.
  rewrite rmorphM /= -Cexp_conj !rmorphM /= !CconjK. by rewrite [Cconj _ * _]mulrC [X in Cexp X]mulrC.
case: (pr n eps) E => a b H. have Hb : (- b)%coqR = b by injection H. rewrite /Re /RtoC /=. congr pair. lra.
Qed.
Lemma Re_sum (I : Type) (s : seq I) (F : I -> C) : Re (\sum_(i <- s) F i) = \big[Rplus/R0]_(i <- s) Re (F i).
Proof. exact: (big_morph Re (fun _ _ => erefl) erefl). Qed.
Lemma pair_series n eps (j k : 'I_n.+1) :
  is_series (fun p => ((eps * eps) ^ p / INR (Factorial.fact p) * Re ((zeta n ^+ p.+1) ^+ k * Cconj ((zeta n ^+ p.+1) ^+ j))%R)%coqR)
    (Re (zeta n ^+ k * Cconj (zeta n ^+ j) * Cexp (RtoC eps * zeta n ^+ k * Cconj (RtoC eps * zeta n ^+ j)))).
Proof.
set x := (2 * PI / INR n.+1)%coqR. set phi := (INR k * x - INR j * x)%coqR.
have Ep q : (zeta n ^+ q) ^+ k * Cconj ((zeta n ^+ q) ^+ j) = eit (INR q * phi)%coqR.
  rewrite -!exprM ![(q * _)%N]mulnC !exprM -!eit_pow eit_conj eit_add. congr eit. rewrite /phi /x. ring.
have := RingSeries.ring_series phi (eps * eps)%coqR.
rewrite (_ : Re (_ * _) = (exp (eps * eps * cos phi) * cos (phi + eps * eps * sin phi))%coqR).
  move=> H. apply: is_series_ext H => p. by rewrite Ep eitE.
have E1 : zeta n ^+ k * Cconj (zeta n ^+ j) = eit phi by rewrite -[phi]Rmult_1_l -(Ep 1%N) expr1.
rewrite rmorphM /= conjR mulrACA E1 eitE. rewrite /Cexp !CmulE /Cmult /RtoC /Re /=.
have -> : ((eps * eps - 0 * 0) * cos phi - (eps * 0 + 0 * eps) * sin phi)%coqR = (eps * eps * cos phi)%coqR by ring.
have -> : ((eps * eps - 0 * 0) * sin phi + (eps * 0 + 0 * eps) * cos phi)%coqR = (eps * eps * sin phi)%coqR by ring.
rewrite cos_plus. ring.
Qed.
Lemma series_sum (I : Type) (s : seq I) (a : I -> nat -> R) (l : I -> R) :
  (forall i, is_series (a i) (l i)) -> is_series (fun p => \big[Rplus/R0]_(i <- s) a i p) (\big[Rplus/R0]_(i <- s) l i).
Proof.
move=> H. elim: s => [|i s IH].
  rewrite big_nil. apply: (filterlim_ext (fun=> R0)); last exact: filterlim_const.
  move=> p. rewrite (sum_n_ext _ (fun=> R0)) => [|q]; last by rewrite big_nil. by rewrite sum_n_const Rmult_0_r.
rewrite big_cons. apply: is_series_ext (is_series_plus _ _ _ _ (H i) IH) => p. by rewrite big_cons.
Qed.
Definition tw (n : nat) (eps : R) (p : nat) : R := (INR n.+1 * INR n.+1 * ring_weight n eps p)%coqR.
Lemma Rsum_scal (I : Type) (s : seq I) (a : R) (F : I -> R) : \big[Rplus/R0]_(i <- s) (a * F i)%coqR = (a * \big[Rplus/R0]_(i <- s) F i)%coqR.
Proof. elim: s => [|i s IH]; first by rewrite !big_nil Rmult_0_r. rewrite !big_cons IH. ring. Qed.
Lemma pr_series n eps : is_series (tw n eps) (Re (pr n eps)).
Proof.
rewrite /pr Re_sum. under eq_bigr => j _ do rewrite Re_sum.
have H := @series_sum _ (index_enum (ordinal_finType n.+1)) _ _ (fun j : 'I_n.+1 => @series_sum _ (index_enum (ordinal_finType n.+1)) _ _ (fun k : 'I_n.+1 => @pair_series n eps j k)).
apply: is_series_ext H => p. under eq_bigr => j _ do rewrite Rsum_scal -Re_sum. rewrite Rsum_scal -Re_sum.
have -> : \sum_(j < n.+1) \sum_(k < n.+1) (zeta n ^+ p.+1) ^+ k * Cconj ((zeta n ^+ p.+1) ^+ j) = (\sum_(k < n.+1) (zeta n ^+ p.+1) ^+ k) * Cconj (\sum_(j < n.+1) (zeta n ^+ p.+1) ^+ j).
  rewrite rmorph_sum mulr_sumr. apply: eq_bigr => j _. by rewrite mulr_suml.
rewrite root_sum /tw /ring_weight /on_ring. case: ifP => _; last by rewrite mul0r /Re /=; ring.
rewrite conjR CmulE -RtoC_mult /Re /=. rewrite pow_mult /= Rmult_1_r. rewrite /Rdiv. ring.
Qed.
Lemma sq_nonneg x p : Rle R0 (x ^ (2 * p))%coqR. Proof. rewrite pow_mult. apply: pow_le. rewrite /= Rmult_1_r. exact: Rle_0_sqr. Qed.
Lemma weight_nonneg n eps p : Rle R0 (ring_weight n eps p).
Proof.
rewrite /ring_weight. case: ifP => _; last exact: Rle_refl. apply: Rmult_le_pos; first exact: sq_nonneg.
apply: Rlt_le. apply: Rinv_0_lt_compat. exact: INR_fact_lt_0.
Qed.
Lemma series_term (a : nat -> R) l k : (forall p, Rle R0 (a p)) -> is_series a l -> Rle (a k) l.
Proof.
move=> H Hl. have M p : Rle (sum_n a p) l.
  apply: (Lim_seq.is_lim_seq_incr_compare (sum_n a) l Hl) => q. rewrite sum_Sn /plus /=. have := H (Datatypes.S q). lra.
apply: Rle_trans (M k). have N q : Rle R0 (sum_n a q).
  elim: q => [|q IH]; first by rewrite sum_O. rewrite sum_Sn /plus /=. have := H (Datatypes.S q). lra.
case: k => [|k]; first by rewrite sum_O; exact: Rle_refl. rewrite sum_Sn /plus /=. have := N k. lra.
Qed.
Arguments pr_series : clear implicits. Arguments series_term : clear implicits.
Definition wt n eps : R := (Re (pr n eps) / (INR n.+1 * INR n.+1))%coqR.
Lemma wt_series n eps : is_series (ring_weight n eps) (wt n eps).
Proof.
have H := is_series_scal (/ (INR n.+1 * INR n.+1))%coqR _ _ (pr_series n eps). have a := SN0 n.
rewrite (_ : wt n eps = scal (/ (INR n.+1 * INR n.+1))%coqR (Re (pr n eps))); last by rewrite /wt /scal /= /mult /= /Rdiv Rmult_comm.
apply: is_series_ext H => p. rewrite /tw /scal /= /mult /=. rewrite -[INR_]/(INR n.+1) || idtac. field. exact: a.
Qed.
Arguments wt_series : clear implicits.
Lemma pr_wt n eps : Re (pr n eps) = (INR n.+1 * INR n.+1 * wt n eps)%coqR.
Proof. rewrite /wt. field. exact: SN0. Qed.
Lemma on_ring_n n : on_ring n n. Proof. exact: dvdnn. Qed.
Lemma wt_pos n eps : n = 0%N \/ eps <> R0 -> Rlt R0 (wt n eps).
Proof.
move=> H. apply: Rlt_le_trans (series_term _ _ n (weight_nonneg n eps) (wt_series n eps)).
rewrite /ring_weight on_ring_n. apply: Rmult_lt_0_compat; last by apply: Rinv_0_lt_compat; exact: INR_fact_lt_0.
case: H => [->|H]; first by rewrite /=; exact: Rlt_0_1. rewrite pow_mult. apply: pow_lt. rewrite /= Rmult_1_r. exact: Rsqr_pos_lt.
Qed.
Lemma wt_zero n : wt n.+1 R0 = R0.
Proof.
have H := wt_series n.+1 R0. rewrite -(is_series_unique _ _ H). apply: is_series_unique. apply: (filterlim_ext (fun=> R0)); last exact: filterlim_const.
move=> p. rewrite (sum_n_ext _ (fun=> R0)) => [|q]; first by rewrite sum_n_const Rmult_0_r.
rewrite /ring_weight. case: ifP => // /dvdnP [[|m]] //; rewrite mulSn => -[E]. by rewrite E -multE /= !Rmult_0_l /Rdiv Rmult_0_l.
Qed.
Lemma SN_pos n : Rlt R0 (INR n.+1). Proof. exact: lt_0_INR (Nat.lt_0_succ n). Qed.

(** ** Amplitudes *)
Lemma cpowE t k : QuadWave.cpow t k = t ^+ k. Proof. elim: k => //= k ->. by rewrite exprS. Qed.
Lemma hermite_coh b c cutoff p : (p < cutoff)%N -> QuadWave.hermite1 0 b c cutoff p = c * b ^+ p * RtoC (/ sqrt (INR (Factorial.fact p)))%coqR.
Proof.
move=> H. apply: (@QuadWave.rec1_unique 0 b c cutoff _ (fun p => c * b ^+ p * RtoC (/ sqrt (INR (Factorial.fact p)))%coqR)); last exact/ltP.
  apply: QuadWave.hermite1_rec. apply/ltP. exact: leq_ltn_trans H.
split=> [|q _]; first by rewrite /= sqrt_1 Rinv_1 expr0 !mulr1.
have P := QuadWave.sqrt_fact_pos q. have Q := sqrt_lt_R0 _ (SN_pos q).
have E : (sqrt (INR q.+1) * / sqrt (INR (Factorial.fact q.+1)) = / sqrt (INR (Factorial.fact q)))%coqR.
  rewrite QuadWave.fact_sqrt_S. field. split; exact: Rgt_not_eq.
rewrite (_ : Cplus _ _ = b * (c * b ^+ q * RtoC (/ sqrt (INR (Factorial.fact q)))%coqR)); last by case: (q) => [|r]; rewrite -CaddE -!CmulE ?mul0r addr0.
rewrite -E RtoC_mult exprS /ComplexRF.csq. set u := RtoC (sqrt _). set v := RtoC (/ _)%coqR. set z := b ^+ q. rewrite !CmulE. ring.
Qed.
Lemma amp_val n (f : C) eps cutoff p : (p < cutoff)%N ->
  fock_amp [seq (Ket 0 (RtoC eps * zeta n ^+ k)%:M (zeta n ^+ k / f) : ket 1) | k <- iota 0 n.+1] cutoff p
  = RtoC (eps ^ p / sqrt (INR (Factorial.fact p)))%coqR / f * (if on_ring n p then RtoC (INR n.+1) else 0).
Proof.
move=> H. rewrite /fock_amp big_map /= (iota_sum n (fun k => QuadWave.hermite1 ((0 : 'M[C]_1) 0 0) (((RtoC eps * zeta n ^+ k)%:M : 'M[C]_1) 0 0) (zeta n ^+ k / f) cutoff p)).
rewrite -root_sum mulr_sumr. apply: eq_bigr => k _. rewrite !mxE eqxx mulr1n hermite_coh // exprMn.
have -> : RtoC (eps ^ p / sqrt (INR (Factorial.fact p)))%coqR = RtoC eps ^+ p * RtoC (/ sqrt (INR (Factorial.fact p)))%coqR.
  by rewrite /Rdiv RtoC_mult -cpowE; congr (_ * _); elim: (p) => //= q <-; rewrite -RtoC_mult.
rewrite -exprM mulnC exprM exprS. set a := zeta n ^+ k. set e := RtoC eps ^+ p. set g := RtoC _. set d := a ^+ p. set h := f^-1. rewrite !CmulE. ring.
Qed.
Lemma pr_nonneg n eps : Rle R0 (Re (pr n eps)).
Proof.
rewrite pr_wt. apply: Rmult_le_pos; first by apply: Rmult_le_pos; apply: Rlt_le; exact: SN_pos.
exact: Rle_trans (weight_nonneg n eps n) (series_term _ _ n (weight_nonneg n eps) (wt_series n eps)).
Qed.
Lemma sauron_val n eps : sauron n eps = if pr n eps == 0 then None else
  Some [seq (Ket 0 (RtoC eps * zeta n ^+ k)%:M (zeta n ^+ k / RtoC (sqrt (Re (pr n eps)))) : ket 1) | k <- iota 0 n.+1].
Proof.
rewrite /sauron ring_overlap ring_map /Option.bind /Option.apply. case: eqP => // H. congr Some. rewrite -map_comp. apply: eq_map => k /=. congr Ket. congr (_ / _).
by rewrite pr_real csqrt_R //; exact: pr_nonneg.
Qed.
Lemma pr_nz n eps : n = 0%N \/ eps <> R0 -> pr n eps == 0 = false.
Proof.
move=> H. apply/eqP => E. have P := wt_pos H. have Q := SN_pos n. have K := pr_wt n eps. rewrite E {1}/Re /= in K.
have := Rmult_lt_0_compat _ _ (Rmult_lt_0_compat _ _ Q Q) P. rewrite -K. exact: Rlt_irrefl.
Qed.
Lemma amp_ring n eps cutoff p : n = 0%N \/ eps <> R0 -> (p < cutoff)%N ->
  fock_amp [seq (Ket 0 (RtoC eps * zeta n ^+ k)%:M (zeta n ^+ k / RtoC (sqrt (Re (pr n eps)))) : ket 1) | k <- iota 0 n.+1] cutoff p = RtoC (ring_amplitude n eps (wt n eps) p).
Proof.
move=> H Hp. rewrite amp_val // /ring_amplitude. case: ifP => _; last by rewrite mulr0.
have P := wt_pos H. have Q := SN_pos n. have F := INR_fact_lt_0 p.
rewrite !CmulE CinvE -RtoC_inv; last by apply: Rgt_not_eq; apply: sqrt_lt_R0; rewrite pr_wt; apply: Rmult_lt_0_compat => //; exact: Rmult_lt_0_compat.
rewrite -!RtoC_mult. congr RtoC. rewrite pr_wt sqrt_mult; [|by apply: Rlt_le; exact: Rmult_lt_0_compat|exact: Rlt_le]. rewrite sqrt_square; last exact: Rlt_le.
rewrite sqrt_mult; [|exact: Rlt_le|exact: Rlt_le]. have a := sqrt_lt_R0 _ P. have b := sqrt_lt_R0 _ F. field. repeat split; exact: Rgt_not_eq.
Qed.

(** C79: the state is defined, and its Fock amplitudes are exactly those of a coherent state of amplitude eps restricted to the photon numbers n, 2 n + 1, 3 n + 2, ... *)
Theorem C79_amplitudes n eps : n = 0%N \/ eps <> R0 -> exists ks w,
  [/\ sauron n eps = Some ks, is_series (ring_weight n eps) w, Rlt R0 w & forall cutoff p, (p < cutoff)%N -> fock_amp ks cutoff p = RtoC (ring_amplitude n eps w p)].
Proof.
move=> H. rewrite sauron_val pr_nz //. eexists. exists (wt n eps). split; [by []|exact: wt_series|exact: wt_pos|]. move=> cutoff p. exact: amp_ring.
Qed.
(** C79: with eps = 0 and n > 0 the terms cancel and the normalisation divides by zero *)
Theorem C79_zero n eps : sauron n eps = None <-> (0 < n)%N /\ eps = R0.
Proof.
rewrite sauron_val. split=> [|[]].
  case: n => [|n]; first by rewrite pr_nz //; left. case: (Req_EM_T eps R0) => // H. rewrite pr_nz //. by right.
case: n => // n _ ->. by rewrite pr_real pr_wt wt_zero Rmult_0_r C0E eqxx.
Qed.
(** C79: it is normalised, both by the overlaps of its terms and in its photon number distribution *)
Theorem C79_normalised n eps ks : sauron n eps = Some ks ->
  overlap_sum ks = Some 1 /\ is_series (fun p => (Cmod (fock_amp ks p.+1 p) ^ 2)%coqR) R1.
Proof.
rewrite sauron_val. case: eqP => // /eqP Hn /Some_inj <-.
have P : Rlt R0 (Re (pr n eps)).
  case: (Rle_lt_or_eq_dec _ _ (pr_nonneg n eps)) => // E. by move: Hn; rewrite pr_real -E C0E eqxx.
have H : n = 0%N \/ eps <> R0.
  case: (n) P => [|m] P; [by left|right=> E]. move: P. rewrite E pr_wt wt_zero Rmult_0_r. exact: Rlt_irrefl.
split.
  apply: (etrans (overlap_val _ (fun k => RtoC eps * zeta n ^+ k) (fun k => zeta n ^+ k / RtoC (sqrt (Re (pr n eps)))))). congr Some.
  transitivity (pr n eps / (RtoC (sqrt (Re (pr n eps))) * RtoC (sqrt (Re (pr n eps))))).
    rewrite iota_sum /pr mulr_suml. apply: eq_bigr => j _. rewrite iota_sum mulr_suml. apply: eq_bigr => k _.
    rewrite rmorphM fmorphV /= conjR invfM. set g := _^-1. set e := Cexp _. set a := zeta n ^+ k. set b := Cconj _. rewrite !CmulE. ring.
  have -> : RtoC (sqrt (Re (pr n eps))) * RtoC (sqrt (Re (pr n eps))) = pr n eps.
    rewrite CmulE -RtoC_mult sqrt_sqrt -?pr_real //. exact: Rlt_le.
  exact: divff.
have K := is_series_scal (/ wt n eps)%coqR _ _ (wt_series n eps). have W := wt_pos H.
have E1 : scal (/ wt n eps)%coqR (wt n eps) = R1 by rewrite /scal /= /mult /=; field; exact: Rgt_not_eq.
rewrite E1 in K. apply: is_series_ext K => p. rewrite amp_ring // Cmod_R pow2_abs /ring_weight /ring_amplitude /scal /= /mult /=.
case: ifP => _; last by ring. have F := INR_fact_lt_0 p. rewrite !Rmult_1_r.
have E2 : (eps ^ (2 * p) = eps ^ p * eps ^ p)%coqR by rewrite mul2n -addnn; exact: pow_add.
rewrite E2 || rewrite [X in (_ * (X * _))%coqR]E2.
have S1 : (sqrt (INR (Factorial.fact p) * wt n eps) * sqrt (INR (Factorial.fact p) * wt n eps) = INR (Factorial.fact p) * wt n eps)%coqR by apply: sqrt_sqrt; apply: Rlt_le; exact: Rmult_lt_0_compat.
have S0 := sqrt_lt_R0 _ (Rmult_lt_0_compat _ _ F W). 
rewrite /Rdiv. move: S1 S0. set q := sqrt _. move=> S1 S0. have E : (/ q * / q = / INR (Factorial.fact p) * / wt n eps)%coqR by rewrite -!Rinv_mult S1.
have -> : (eps ^ p * / q * (eps ^ p * / q) = eps ^ p * eps ^ p * (/ q * / q))%coqR by ring. rewrite E. set v := (/ wt n eps)%coqR. set f := (/ INR _)%coqR. ring.
Qed.
Lemma fact_mul_le n q : Peano.le (Factorial.fact n * Factorial.fact q)%coq_nat (Factorial.fact (n + q)).
Proof.
rewrite -plusE. elim: n => [|n IH]; first by rewrite /= Nat.add_0_r; apply/leP.
rewrite Nat.add_succ_l !fact_simpl -Nat.mul_assoc. apply: Nat.mul_le_mono => //. lia.
Qed.
(** C79: the overlap with the Fock state n tends to 1 as eps tends to 0: its modulus squared is at least exp(- eps ^ 2) *)
Theorem C79_close n eps ks cutoff : sauron n eps = Some ks -> (n < cutoff)%N ->
  Rle (1 - eps * eps)%coqR (exp (- (eps * eps))) /\ Rle (exp (- (eps * eps))) (Cmod (fock_amp ks cutoff n) ^ 2)%coqR /\ Rle (Cmod (fock_amp ks cutoff n) ^ 2)%coqR R1.
Proof.
move=> Hs Hc. split; first by have := exp_ineq1_le (- (eps * eps))%coqR; lra.
have [_ HN] := C79_normalised Hs.
have Hd : n = 0%N \/ eps <> R0.
  case: (posnP n) => Hn; [by left|right=> E]. have K : sauron n eps = None by apply/C79_zero. by rewrite K in Hs.
have [ks' [w [Hk Hw W HA]]] := C79_amplitudes Hd. rewrite Hk in Hs. move/Some_inj: Hs => E. rewrite -E in HN *.
have En : fock_amp ks' cutoff n = fock_amp ks' n.+1 n by rewrite !HA.
split; last first.
  rewrite En. apply: (series_term (fun p => (Cmod (fock_amp ks' p.+1 p) ^ 2)%coqR) R1 n) HN => p. exact: pow2_ge_0.
have F := INR_fact_lt_0 n. rewrite HA // Cmod_R pow2_abs /ring_amplitude on_ring_n.
set a := (eps ^ n * eps ^ n / INR (Factorial.fact n))%coqR.
have A : Rlt R0 a.
  apply: Rmult_lt_0_compat; last exact: Rinv_0_lt_compat. case: Hd => [->|H0]; first by rewrite /=; lra. apply: Rsqr_pos_lt. exact: pow_nonzero.
have Ew : Rle w (a * exp (eps * eps)).
  have H1 : is_series (fun q => ring_weight n eps (n + q)) w.
    case: (n) Hw => [|m] Hw; first exact: Hw. have := is_series_incr_n _ m.+1 w (Nat.lt_0_succ m) => K. apply: K.
    rewrite (_ : plus w _ = w) //. rewrite (sum_n_ext_loc _ (fun=> R0)).
      by rewrite sum_n_const Rmult_0_r /plus /= Rplus_0_r.
    move=> q Hq. rewrite /ring_weight /on_ring. case: ifP => // /dvdn_leq K2. have := K2 (ltn0Sn q). rewrite ltnS => K3. move/leP: K3 => K3. exfalso. clear -Hq K3. simpl in Hq. lia.
  have H2 : is_series (fun q => a * ((eps * eps) ^ q / INR (Factorial.fact q)))%coqR (a * exp (eps * eps))%coqR.
    have K := is_series_scal a _ _ (is_exp_Reals (eps * eps)%coqR).  
    apply: is_series_ext K => q. rewrite /scal /= /mult /= pow_n_pow /Rdiv. congr Rmult.
  rewrite -(is_series_unique _ _ H1) -(is_series_unique _ _ H2). apply: Series_le; last by exists (a * exp (eps * eps))%coqR.
  move=> q. split; first exact: weight_nonneg. 
  have a0 : Rle R0 (eps * eps) by exact: Rle_0_sqr. have Fq := INR_fact_lt_0 q. have Fs := INR_fact_lt_0 (n + q).
  have X : Rle (ring_weight n eps (n + q)) ((eps * eps) ^ (n + q) / INR (Factorial.fact (n + q)))%coqR.
    rewrite /ring_weight. case: ifP => _; first by rewrite pow_mult /= Rmult_1_r; exact: Rle_refl.
    apply: Rmult_le_pos; [exact: pow_le|by apply: Rlt_le; exact: Rinv_0_lt_compat].
  apply: Rle_trans X _. rewrite pow_add /a /Rdiv.
  have -> : (eps ^ n * eps ^ n = (eps * eps) ^ n)%coqR by rewrite Rpow_mult_distr.
  have Y : Rle (/ INR (Factorial.fact (n + q))) (/ INR (Factorial.fact n) * / INR (Factorial.fact q)).
    rewrite -Rinv_mult -mult_INR. apply: Rinv_le_contravar; first by rewrite mult_INR; exact: Rmult_lt_0_compat. apply: le_INR. exact: fact_mul_le.
  have Z : Rle R0 ((eps * eps) ^ n * (eps * eps) ^ q) by apply: Rmult_le_pos; exact: pow_le.
  have := Rmult_le_compat_l _ _ _ Z Y. lra.
rewrite exp_Ropp. have e0 := exp_pos (eps * eps)%coqR.
have S1 : (sqrt (INR (Factorial.fact n) * w) * sqrt (INR (Factorial.fact n) * w) = INR (Factorial.fact n) * w)%coqR by apply: sqrt_sqrt; apply: Rlt_le; exact: Rmult_lt_0_compat.
move: S1. set q := sqrt _ => S1. set e := exp _ in e0 Ew *. set x := (eps ^ n)%coqR in a A Ew *.
have E2 : ((x / q) ^ 2 = a * / w)%coqR.
  have E3 : (/ q * / q = / INR (Factorial.fact n) * / w)%coqR by rewrite -!Rinv_mult S1.
  rewrite /a /Rdiv. have -> : ((x * / q) ^ 2 = x * x * (/ q * / q))%coqR by ring. rewrite E3. ring.
rewrite E2. apply: (Rmult_le_reg_r (e * w)); first exact: Rmult_lt_0_compat.
have -> : (/ e * (e * w) = w)%coqR by field; exact: Rgt_not_eq. have -> : (a * / w * (e * w) = a * e)%coqR by field; exact: Rgt_not_eq. exact: Ew.
Qed.
(** C79: for n = 0 the state is the coherent state of amplitude eps *)
Theorem C79_coherent eps : sauron 0 eps = Some [:: coherent_state (RtoC eps)].
Proof.
rewrite sauron_val pr_nz; last by left.
have E : Re (pr 0 eps) = exp (eps * eps)%coqR.
  rewrite /pr !big_ord_recl !big_ord0 !addr0 /= !expr0 mulr1. rewrite (_ : Cconj 1 = 1); last by rewrite C1E conjR.
  by rewrite !mul1r conjR CmulE -RtoC_mult Cexp_R.
rewrite /= expr0 mulr1 E /coherent_state. congr (Some [:: Ket 0 _ _]). rewrite Cmod_R C1E CmulE CinvE -RtoC_inv; last by apply: Rgt_not_eq; apply: sqrt_lt_R0; exact: exp_pos.
rewrite -RtoC_mult Rmult_1_l. congr RtoC.
have -> : (Rabs eps * Rabs eps = eps * eps)%coqR by rewrite -Rabs_mult; apply: Rabs_pos_eq; exact: Rle_0_sqr.
have -> : exp (eps * eps)%coqR = (exp (eps * eps / 2) * exp (eps * eps / 2))%coqR by rewrite -exp_plus; congr exp; field.
rewrite sqrt_square; last by apply: Rlt_le; exact: exp_pos. by rewrite exp_Ropp.
Qed.
