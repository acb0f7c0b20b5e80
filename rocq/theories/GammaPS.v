(** The change of variables of the polynomial part of a density matrix from Bargmann to phase space: claim C48.
    Model of mrmustard/physics/fock_utils.py:277-317 (c_ps_matrix, gamma_matrix, c_in_PS).  Exact complex arithmetic. *)
From Coq Require Import Reals Lra.
From Coquelicot Require Import Complex.
From mathcomp Require Import all_ssreflect all_algebra.
From Verif Require Import CMat.
Require Verif.Base.
Set Implicit Arguments. Unset Strict Implicit. Unset Printing Implicit Defensive.
Import GRing.Theory.
Local Open Scope ring_scope.

Notation I := Complex.Ci.
(** n! as a real number *)
Definition fac (n : nat) : R := INR n`!.
Section PS.
Variable hbar : R.
Hypothesis Hh : Rle R0 hbar.
Definition kappa : C := RtoC (sqrt (Rdiv hbar 2)).

(** fock_utils.py:277-283; (1j) ** k with an integer exponent *)
Definition c_ps_matrix (m n alpha : nat) : C :=
  \sum_(maxn 0 (alpha - n) <= mu < (minn m alpha).+1) ('C(m, mu) * 'C(n, alpha - mu))%:R * I ^ (m%:Z - n%:Z - 2%:Z * mu%:Z + alpha%:Z).
(** fock_utils.py:298-304: value / factor *)
Definition factor (m n alpha : nat) : C := RtoC (sqrt (Rdiv (Rmult (fac m) (fac n)) (Rmult (fac alpha) (fac (m + n - alpha))))).
Definition entry (m n alpha : nat) : C := c_ps_matrix m n alpha * kappa ^+ (m + n) / factor m n alpha.
(** fock_utils.py:286-305: the assignments Gamma[row, col] = value in the order of the loops; s0, s1 = c.shape *)
Definition writes (s0 s1 : nat) : seq (nat * nat * C) :=
  flatten [seq flatten [seq [seq (alpha * (s0 + s1 - 1) + (m + n - alpha), m * s0 + n, entry m n alpha)%N | alpha <- iota 0 (m + n).+1] | n <- iota 0 s1] | m <- iota 0 s0].
Definition upd (G : nat -> nat -> C) (w : nat * nat * C) : nat -> nat -> C :=
  fun r c => if (r == w.1.1) && (c == w.1.2) then w.2 else G r c.
(** a numpy assignment out of the bounds raises IndexError *)
Fixpoint assign (M2 N : nat) (G : nat -> nat -> C) (ws : seq (nat * nat * C)) : Base.result (nat -> nat -> C) :=
  match ws with
  | [::] => Base.Ok G
  | w :: ws' => if (w.1.1 < M2)%N && (w.1.2 < N)%N then assign M2 N (upd G w) ws' else Base.Err Base.IndexError
  end.
Definition gamma_matrix (s0 s1 : nat) : Base.result (nat -> nat -> C) := assign ((s0 + s1 - 1) ^ 2)%N (s0 * s1)%N (fun _ _ => 0) (writes s0 s1).
(** fock_utils.py:308-317; reshape is row-major *)
Definition c_in_PS (s0 s1 : nat) (c : nat -> nat -> C) : Base.result (nat -> nat -> C) :=
  Base.bind (gamma_matrix s0 s1) (fun G => Base.Ok (fun a b => \sum_(j < s0 * s1) G (a * (s0 + s1 - 1) + b)%N j * c (j %/ s1)%N (j %% s1)%N)).

(** ** specification: the polynomial sum_{mn} c_mn z^m w^n / sqrt(m! n!) *)
Definition poly2 (s0 s1 : nat) (c : nat -> nat -> C) (z w : C) : C :=
  \sum_(m < s0) \sum_(n < s1) c m n * z ^+ m * w ^+ n / RtoC (sqrt (Rmult (fac m) (fac n))).

(** ** lemmas *)
Lemma fac_pos n : Rlt R0 (fac n).
Proof. rewrite /fac. apply: lt_0_INR. apply/ltP. exact: fact_gt0. Qed.
Lemma II : I * I = -1. Proof. rewrite /GRing.mul /GRing.opp /GRing.one /= /Cmult /Copp /Ci /=. congr pair; ring. Qed.
Lemma I_neq0 : I != 0. Proof. apply/eqP => H. have := II. rewrite H mul0r => /esym/eqP. by rewrite oppr_eq0 oner_eq0. Qed.
Lemma IV : I^-1 = - I. Proof. apply: (mulfI I_neq0). by rewrite mulfV ?I_neq0 // mulrN II opprK. Qed.

Lemma shift_sum (F : nat -> nat -> C) m n : \sum_(alpha < (m + n).+1) \sum_(maxn 0 (alpha - n) <= mu < (minn m alpha).+1) F mu (alpha - mu)%N
  = \sum_(mu < m.+1) \sum_(nu < n.+1) F mu nu.
Proof.
transitivity (\sum_(alpha < (m + n).+1) \sum_(mu < m.+1 | ((mu <= alpha) && (alpha <= mu + n))%N) F mu (alpha - mu)%N).
  apply: eq_bigr => alpha _. rewrite max0n -(big_mkord (fun mu => ((mu <= alpha) && (alpha <= mu + n))%N) (fun mu => F mu (alpha - mu)%N)).
  rewrite [RHS]big_nat_cond [RHS](big_cat_nat _ _ _ (n := (minn m alpha).+1)) //=; last by rewrite ltnS geq_minl.
  rewrite [X in _ = _ + X]big_nat_cond [X in _ = _ + X]big_pred0 ?addr0; last first.
    move=> mu. apply/negP => /andP [/andP [H1 H2] /andP [H3 /andP [H4 H5]]]. move: H1. rewrite ltnNge => /negP []. by rewrite leq_min -ltnS H2.
  case: (leqP (alpha - n) (minn m alpha).+1) => [L|L].
    rewrite [RHS](big_cat_nat _ _ _ (n := (alpha - n)%N)) //=. rewrite [X in _ = X + _]big_nat_cond [X in _ = X + _]big_pred0 ?add0r; last first.
      move=> mu. apply/negP => /andP [/andP [_ H2] /andP [_ /andP [_ H5]]]. move: H2. by rewrite ltnNge leq_subLR [(n + mu)%N]addnC H5.
    rewrite [LHS]big_nat_cond [RHS]big_nat_cond. apply: eq_bigl => mu. rewrite andbT. apply/idP/idP => [/andP [H1 H2]|/andP [H1 _]]; last by [].
    rewrite H1 H2 /=. move: H2. rewrite ltnS leq_min => /andP [H2 H3]. by rewrite ltnS H2 H3 [(mu + n)%N]addnC -leq_subLR H1.
  exfalso. move: L. rewrite ltnNge leq_subLR => /negP []. rewrite addnS ltnW // ltnS. case: (leqP m alpha) => H; last by rewrite leq_addl.
  by rewrite [(n + m)%N]addnC -ltnS.
rewrite (exchange_big_dep xpredT) //=. apply: eq_bigr => mu _.
rewrite -(big_mkord (fun alpha => ((mu <= alpha) && (alpha <= mu + n))%N) (fun alpha => F mu (alpha - mu)%N)).
have L1 : (mu + n.+1 <= (m + n).+1)%N by rewrite addnS ltnS leq_add2r -ltnS.
rewrite (big_cat_nat _ _ _ (n := (mu + n.+1)%N)) //= [X in _ + X]big_nat_cond [X in _ + X]big_pred0 ?addr0; last first.
  move=> alpha. apply/negP => /andP [/andP [H1 H2] /andP [H3 H4]]. move: H1. by rewrite addnS ltnNge H4.
rewrite (big_cat_nat _ _ _ (n := (mu : nat))) ?leq_addr //= [X in X + _]big_nat_cond [X in X + _]big_pred0 ?add0r; last first.
  move=> alpha. apply/negP => /andP [/andP [H1 H2] /andP [H3 H4]]. move: H2. by rewrite ltnNge H3.
rewrite big_nat_cond. rewrite (eq_bigl (fun alpha => (mu <= alpha < mu + n.+1)%N)); last first.
  move=> alpha. rewrite addnS ltnS. by case: (mu <= alpha)%N; case: (alpha <= mu + n)%N.
rewrite -big_nat -{1}[X in \sum_(X <= _ < _) _]add0n big_addn addKn big_mkord. apply: eq_bigr => nu _. by rewrite addnK.
Qed.

Lemma Ipow m n mu nu : (mu <= m)%N -> (nu <= n)%N -> I ^ (m%:Z - n%:Z - 2%:Z * mu%:Z + (mu + nu)%N%:Z) = I ^+ (m - mu) * (- I) ^+ (n - nu).
Proof.
move=> H1 H2. rewrite -IV exprVn exprnN exprnP -expfzDr ?I_neq0 //. congr (I ^ _).
rewrite -!subzn // PoszD opprB.
have -> : (2%:Z * mu%:Z = mu%:Z + mu%:Z :> int) by rewrite (mulrDl 1 1) !mul1r.
rewrite opprD -!addrA addKr !addrA -[LHS]addrA addrACA [- n%:Z + _]addrC !addrA. by [].
Qed.

Lemma cps_poly m n (u v : C) : \sum_(alpha < (m + n).+1) c_ps_matrix m n alpha * u ^+ alpha * v ^+ (m + n - alpha) = (u + I * v) ^+ m * (u - I * v) ^+ n.
Proof.
pose F mu nu : C := ('C(m, mu) * 'C(n, nu))%:R * (I ^+ (m - mu) * (- I) ^+ (n - nu)) * (u ^+ (mu + nu) * v ^+ (m + n - (mu + nu))).
transitivity (\sum_(alpha < (m + n).+1) \sum_(maxn 0 (alpha - n) <= mu < (minn m alpha).+1) F mu (alpha - mu)%N).
  apply: eq_bigr => alpha _. rewrite /c_ps_matrix -mulrA big_distrl /=. apply: eq_big_nat => mu /andP [].
  rewrite max0n leq_subLR ltnS leq_min => H1 /andP [H2 H3]. rewrite /F subnKC // -Ipow ?subnKC //; last by rewrite leq_subLR [(mu + n)%N]addnC.
rewrite shift_sum (addrC u (I * v)) -mulNr (addrC u (- I * v)) !exprDn big_distrl /=.
apply: eq_bigr => mu _. rewrite big_distrr /=. apply: eq_bigr => nu _.
have Hm : (mu <= m)%N by rewrite -ltnS. have Hn : (nu <= n)%N by rewrite -ltnS.
rewrite /F natrM -[(_ * _) *+ 'C(m, mu)]mulr_natl -[(_ * _) *+ 'C(n, nu)]mulr_natl !exprMn exprD.
have -> : (m + n - (mu + nu) = (m - mu) + (n - nu))%N.
  by rewrite -{1}(subnK Hm) -{1}(subnK Hn) addnACA addnK.
rewrite exprD.
set a := ('C(m, mu))%:R; set b := ('C(n, nu))%:R; set i1 := I ^+ _; set i2 := (- I) ^+ _; set u1 := u ^+ mu; set u2 := u ^+ nu; set v1 := v ^+ _; set v2 := v ^+ _.
rewrite [RHS]mulrACA [i1 * v1 * u1 * _]mulrACA [i1 * v1 * _]mulrACA [u1 * u2 * _]mulrC -mulrA. congr (_ * _). by rewrite !mulrA.
Qed.

(** sums over a row-major index *)
Lemma sum_rowmajor (f : nat -> nat -> C) s0 s1 : (0 < s1)%N -> \sum_(j < s0 * s1) f (j %/ s1)%N (j %% s1)%N = \sum_(m < s0) \sum_(n < s1) f m n.
Proof.
move=> H. elim: s0 => [|s0 IH]; first by rewrite mul0n !big_ord0.
rewrite big_ord_recr /= -IH -(big_mkord xpredT (fun j => f (j %/ s1)%N (j %% s1)%N)) mulSn addnC.
rewrite (big_cat_nat _ _ _ (n := (s0 * s1)%N)) ?leq_addr //= big_mkord. congr (_ + _).
rewrite -{1}[X in \sum_(X <= _ < _) _]add0n big_addn addKn big_mkord. apply: eq_bigr => n _.
by rewrite divnDr ?dvdn_mull // mulnK // divn_small // add0n [(n + _)%N]addnC modnMDl modn_small.
Qed.

Lemma fold_miss G ws r c : (forall w, w \in ws -> (w.1.1 == r) && (w.1.2 == c) = false) -> foldl upd G ws r c = G r c.
Proof.
elim: ws G => [|w ws IH] G //= H. rewrite IH; last by move=> w' Hw; apply: H; rewrite inE Hw orbT.
rewrite /upd [r == _]eq_sym [c == _]eq_sym H //. by rewrite inE eqxx.
Qed.
Lemma fold_hit G ws r c v : (forall w, w \in ws -> (w.1.1 == r) && (w.1.2 == c) -> w.2 = v) -> has (fun w => (w.1.1 == r) && (w.1.2 == c)) ws -> foldl upd G ws r c = v.
Proof.
elim/last_ind: ws => [|ws w IH] //= H. rewrite has_rcons foldl_rcons /=. rewrite {1}/upd [r == _]eq_sym [c == _]eq_sym.
move=> Hor. case: ifP => E.
  apply: H E. by rewrite mem_rcons inE eqxx.
apply: IH => [w' Hw'|]; last by move: Hor; rewrite E. apply: H. by rewrite mem_rcons inE Hw' orbT.
Qed.

Lemma assign_ok M2 N G ws : (forall w, w \in ws -> (w.1.1 < M2)%N /\ (w.1.2 < N)%N) -> assign M2 N G ws = Base.Ok (foldl upd G ws).
Proof.
elim: ws G => [|w ws IH] G //= H. have [-> ->] := H w (mem_head _ _). by apply: IH => w' Hw; apply: H; rewrite inE Hw orbT.
Qed.
Lemma mem_writes s0 s1 w : w \in writes s0 s1 -> exists m n alpha, [/\ (m < s0)%N, (n < s1)%N, (alpha <= m + n)%N & w = ((alpha * (s0 + s1 - 1) + (m + n - alpha))%N, (m * s0 + n)%N, entry m n alpha)].
Proof.
case/flatten_mapP => m. rewrite mem_iota add0n => Hm /flatten_mapP [n]. rewrite mem_iota add0n => Hn /mapP [alpha]. rewrite mem_iota add0n ltnS => Ha ->.
by exists m, n, alpha.
Qed.
Lemma writes_mem s0 s1 m n alpha : (m < s0)%N -> (n < s1)%N -> (alpha <= m + n)%N -> ((alpha * (s0 + s1 - 1) + (m + n - alpha))%N, (m * s0 + n)%N, entry m n alpha) \in writes s0 s1.
Proof.
move=> H1 H2 H3. apply/flatten_mapP. exists m; first by rewrite mem_iota. apply/flatten_mapP. exists n; first by rewrite mem_iota.
apply/mapP. exists alpha => //. by rewrite mem_iota.
Qed.
(** the shapes for which the column index of the code is the row-major one *)
Definition good (s0 s1 : nat) := (s0 == 1)%N || (s0 == s1).
Lemma good_col s0 s1 m : good s0 s1 -> (m < s0)%N -> (m * s0 = m * s1)%N.
Proof. case/orP => /eqP ->; last by []. by rewrite ltnS leqn0 => /eqP ->. Qed.

Lemma row_inj M a b a' b' : (b < M)%N -> (b' < M)%N -> (a * M + b = a' * M + b')%N -> a = a' /\ b = b'.
Proof.
move=> H1 H2 E. have M0 : (0 < M)%N by apply: leq_ltn_trans H1.
move: (congr1 (fun x => x %/ M)%N E) (congr1 (fun x => x %% M)%N E). by rewrite !divnMDl // !modnMDl !divn_small // !modn_small // !addn0.
Qed.
Lemma lt_M s0 s1 m n : (m < s0)%N -> (n < s1)%N -> (m + n < s0 + s1 - 1)%N.
Proof. move=> H1 H2. have := leq_add H1 H2. by rewrite addSn addnS ltn_subRL add1n. Qed.
Lemma gamma_ok s0 s1 : good s0 s1 -> gamma_matrix s0 s1 = Base.Ok (foldl upd (fun _ _ => 0) (writes s0 s1)).
Proof.
move=> Hg. apply: assign_ok => w /mem_writes [m [n [al [H1 H2 H3 ->]]]] /=. have L := lt_M H1 H2. split.
  apply: (@leq_trans ((al.+1) * (s0 + s1 - 1))%N); first by rewrite mulSn addnC ltn_add2r; apply: leq_ltn_trans L; rewrite leq_subr.
  rewrite expnS expn1 leq_mul2r. apply/orP; right. exact: leq_ltn_trans H3 L.
rewrite (good_col Hg H1). apply: (@leq_trans (m.+1 * s1)%N); first by rewrite mulSn addnC ltn_add2r.
by rewrite leq_mul2r H1 orbT.
Qed.
Lemma gamma_val s0 s1 m n a b : good s0 s1 -> (m < s0)%N -> (n < s1)%N -> (b < s0 + s1 - 1)%N ->
  foldl upd (fun _ _ => 0) (writes s0 s1) (a * (s0 + s1 - 1) + b)%N (m * s1 + n)%N = if (a + b == m + n)%N then entry m n a else 0.
Proof.
move=> Hg H1 H2 Hb.
have inv w : w \in writes s0 s1 -> (w.1.1 == (a * (s0 + s1 - 1) + b)%N) && (w.1.2 == (m * s1 + n)%N) -> (a + b = m + n)%N /\ w.2 = entry m n a.
  case/mem_writes => m' [n' [al [K1 K2 K3 ->]]] /= /andP [/eqP E1 /eqP E2].
  have L := lt_M K1 K2. case: (row_inj _ _ E1) => [|//|Ea Eb]; first by apply: leq_ltn_trans L; rewrite leq_subr.
  rewrite (good_col Hg K1) in E2. case: (row_inj _ _ E2) => // Em En. subst. split=> //. by rewrite subnKC.
case: eqP => E; last first.
  apply: fold_miss => w Hw. apply/negP => K. by case: (inv _ Hw K).
apply: fold_hit => [w Hw K|]; first by case: (inv _ Hw K).
apply/hasP. exists ((a * (s0 + s1 - 1) + (m + n - a))%N, (m * s0 + n)%N, entry m n a).
  apply: writes_mem => //. by rewrite -E leq_addr.
by rewrite /= (good_col Hg H1) -E addKn !eqxx.
Qed.

Lemma fac_entry m n a : (a <= m + n)%N ->
  entry m n a / RtoC (sqrt (Rmult (fac a) (fac (m + n - a)))) = c_ps_matrix m n a * (kappa ^+ (m + n) / RtoC (sqrt (Rmult (fac m) (fac n)))).
Proof.
move=> H. rewrite /entry -!mulrA. congr (_ * _). congr (_ * _). rewrite -invfM. congr (_^-1).
rewrite /factor CmulE -RtoC_mult. congr RtoC.
have [a1 a2 a3 a4] : [/\ Rlt R0 (fac m), Rlt R0 (fac n), Rlt R0 (fac a) & Rlt R0 (fac (m + n - a))] by split; exact: fac_pos.
rewrite -sqrt_mult_alt; last by apply: Rlt_le; apply: Rdiv_lt_0_compat; apply: Rmult_lt_0_compat.
congr sqrt. field. split; apply: Rgt_not_eq; exact: Rlt_gt.
Qed.
(** C48: reading the result as a polynomial in the phase-space variables (u, v) is the original polynomial in the Bargmann variables (z, w)
    = (kappa (u + i v), kappa (u - i v)); the code is right for square arrays (and for one row) *)
Theorem C48 s0 s1 (c : nat -> nat -> C) : (0 < s0)%N -> (0 < s1)%N -> (s0 == s1) || (s0 == 1%N) ->
  exists c', c_in_PS s0 s1 c = Base.Ok c' /\ forall u v, poly2 (s0 + s1 - 1) (s0 + s1 - 1) c' u v = poly2 s0 s1 c (kappa * (u + I * v)) (kappa * (u - I * v)).
Proof.
move=> P0 P1. rewrite orbC => Hg. have {}Hg : good s0 s1 by []. rewrite /c_in_PS (gamma_ok Hg) /=. eexists; split; first reflexivity. move=> u v.
set M := (s0 + s1 - 1)%N. set G := foldl _ _ _.
transitivity (\sum_(m < s0) \sum_(n < s1) \sum_(a < M) \sum_(b < M) (if (a + b == m + n)%N then entry m n a else 0) * c m n * u ^+ a * v ^+ b / RtoC (sqrt (Rmult (fac a) (fac b)))).
  transitivity (\sum_(a < M) \sum_(b < M) \sum_(m < s0) \sum_(n < s1) (if (a + b == m + n)%N then entry m n a else 0) * c m n * u ^+ a * v ^+ b / RtoC (sqrt (Rmult (fac a) (fac b)))).
    rewrite /poly2. apply: eq_bigr => a _. apply: eq_bigr => b _.
    rewrite -!mulrA big_distrl /=. 
    pose f m n := G (a * M + b)%N (m * s1 + n)%N * c m n * (u ^+ a * (v ^+ b * (RtoC (sqrt (Rmult (fac a) (fac b))))^-1)).
    transitivity (\sum_(j < s0 * s1) f (j %/ s1)%N (j %% s1)%N); first by apply: eq_bigr => j _; rewrite /f -divn_eq.
    rewrite sum_rowmajor //. apply: eq_bigr => m _. apply: eq_bigr => n _. rewrite /f /G (gamma_val a Hg) ?mulrA //.
  under eq_bigr do rewrite exchange_big /=. rewrite exchange_big /=. apply: eq_bigr => m _.
  under eq_bigr do rewrite exchange_big /=. by rewrite exchange_big.
apply: eq_bigr => m _. apply: eq_bigr => n _.
have L : (m + n < M)%N by apply: lt_M.
transitivity (\sum_(a < (m + n).+1) entry m n a * c m n * u ^+ a * v ^+ (m + n - a) / RtoC (sqrt (Rmult (fac a) (fac (m + n - a))))).
  rewrite -(big_mkord xpredT (fun a : nat => \sum_(b < M) (if (a + b == m + n)%N then entry m n a else 0) * c m n * u ^+ a * v ^+ b / RtoC (sqrt (Rmult (fac a) (fac b))))).
  rewrite (big_cat_nat _ _ _ (n := (m + n).+1)) //= [X in _ + X]big1_seq ?addr0; last first.
    move=> a /andP [_]. rewrite mem_index_iota => /andP [Ha _]. apply: big1 => b _. case: eqP => [E|_]; last by rewrite !mul0r.
    by move: Ha; rewrite -E ltnNge leq_addr.
  rewrite big_mkord. apply: eq_bigr => a _. have Ha : (a <= m + n)%N by rewrite -ltnS.
  have Hb : (m + n - a < M)%N by apply: leq_ltn_trans L; rewrite leq_subr.
  rewrite (bigD1 (Ordinal Hb)) //= subnKC // eqxx big1 ?addr0 // => b Hne. case: eqP => [E|_]; last by rewrite !mul0r.
  exfalso. move/negP: Hne; apply. apply/eqP/val_inj => /=. move: (congr1 (subn^~ (a : nat)) E). by rewrite addKn.
transitivity (c m n * (kappa ^+ (m + n) / RtoC (sqrt (Rmult (fac m) (fac n)))) * \sum_(a < (m + n).+1) c_ps_matrix m n a * u ^+ a * v ^+ (m + n - a)).
  rewrite big_distrr /=. apply: eq_bigr => a _. have Ha : (a <= m + n)%N by rewrite -ltnS.
  rewrite (mulrAC _ (v ^+ _)) (mulrAC _ (u ^+ _)) (mulrAC _ (c m n)) (fac_entry Ha). set K := kappa ^+ _ / _.
  by rewrite -[in RHS]mulrA 2![in RHS]mulrA; congr (_ * _); rewrite [in RHS]mulrA; congr (_ * _); rewrite mulrC [_ * K]mulrC mulrA.
rewrite cps_poly !exprMn exprD. set X := (u + _) ^+ _; set Y := (u - _) ^+ _; set T := RtoC _.
rewrite -!mulrA. congr (_ * _). congr (_ * _). rewrite [RHS]mulrCA. congr (_ * _).
by rewrite [RHS]mulrA [RHS]mulrC.
Qed.

(** the hypotheses of C48 are met: a 2 x 2 density matrix, and the single-photon term goes to kappa^2 (u^2 + v^2) *)
Lemma C48_example (c : nat -> nat -> C) : c 0%N 0%N = 0 -> c 0%N 1%N = 0 -> c 1%N 0%N = 0 -> c 1%N 1%N = 1 ->
  exists c', c_in_PS 2 2 c = Base.Ok c' /\ forall u v, poly2 3 3 c' u v = kappa ^+ 2 * (u ^+ 2 + v ^+ 2).
Proof.
move=> h0 h1 h2 h3. case: (@C48 2 2 c) => // c' [E H]. exists c'. split=> // u v. rewrite H /poly2 !big_ord_recl !big_ord0 /= /bump /= h0 h1 h2 h3.
have -> : RtoC (sqrt (Rmult (fac (1 + 0)) (fac (1 + 0)))) = 1 by rewrite /fac /= Rmult_1_l sqrt_1.
rewrite !mul0r !add0r !addr0 mul1r addn0 !expr1 divr1 mulrACA -expr2. congr (_ * _). by rewrite mulrC -subr_sqr exprMn (expr2 I) II mulN1r opprK.
Qed.

(** ** where the code is wrong *)
Lemma assign_err M2 N G ws w : w \in ws -> (N <= w.1.2)%N -> assign M2 N G ws = Base.Err Base.IndexError.
Proof.
elim: ws G => [|w' ws IH] G //=. rewrite inE => /orP [/eqP <- H|H1 H2]; first by rewrite [(_ < N)%N]ltnNge H andbF.
case: ifP => _ //. exact: IH.
Qed.
(** more rows than columns: the column index runs out of the matrix and numpy raises IndexError *)
Theorem C48_refuted_tall s0 s1 c : (0 < s1)%N -> (s1 < s0)%N -> c_in_PS s0 s1 c = Base.Err Base.IndexError.
Proof.
move=> H1 H2. have H0 : (1 < s0)%N by apply: leq_ltn_trans H2.
have Hm : (s0.-1 < s0)%N by rewrite prednK // (leq_ltn_trans _ H2).
have Hn : (s1.-1 < s1)%N by rewrite prednK.
rewrite /c_in_PS /gamma_matrix (@assign_err _ _ _ _ _ (writes_mem (alpha := 0) Hm Hn _)) //=.
case: s1 s0 H1 H2 H0 {Hm Hn} => [|b] [|a] //= _ Hb Ha. rewrite ltnS in Hb. rewrite ltnS in Ha.
apply: (@leq_trans (a.+1 * a)); first by rewrite leq_mul2l Hb. by rewrite [(a * _)%N]mulnC leq_addr.
Qed.

Lemma natC n : (n%:R : C) = RtoC (INR n).
Proof. elim: n => [|n IH]; first by []. by rewrite -addn1 natrD IH addn1 S_INR RtoC_plus. Qed.
Lemma natC_inj : injective (fun n : nat => (n%:R : C)).
Proof. move=> a b. rewrite !natC => H. apply: INR_eq. by apply: RtoC_inj. Qed.
Lemma poly_ext (p : {poly C}) : (forall u, p.[u] = 0) -> p = 0.
Proof.
move=> H. apply/eqP/negPn/negP => Hp. have := @max_poly_roots _ p [seq (k%:R : C) | k <- iota 0 (size p)] Hp.
rewrite size_map size_iota ltnn => F. apply: notF. apply: F.
  apply/allP => x _. apply/rootP. exact: H.
by rewrite map_inj_uniq ?iota_uniq //; exact: natC_inj.
Qed.
(** fewer rows than columns (and at least two rows): the columns of different (m, n) are mixed up and the result is another polynomial *)
Theorem C48_refuted_wide s0 s1 : Rlt R0 hbar -> (1 < s0)%N -> (s0 < s1)%N ->
  exists c, forall c', c_in_PS s0 s1 c = Base.Ok c' -> ~ forall u v, poly2 (s0 + s1 - 1) (s0 + s1 - 1) c' u v = poly2 s0 s1 c (kappa * (u + I * v)) (kappa * (u - I * v)).
Proof.
move=> Hpos H0 H1. have s1pos : (0 < s1)%N by apply: leq_ltn_trans H1. have s0pos : (0 < s0)%N by apply: leq_ltn_trans H0.
exists (fun m n => ((m == 1%N) && (n == 0%N))%:R) => c'. rewrite /c_in_PS.
case EG: (gamma_matrix s0 s1) => [G|//] /= [<-] {c'} H.
have {EG} EG : G = foldl upd (fun _ _ => 0) (writes s0 s1).
  have aux M2 N G0 ws : assign M2 N G0 ws = Base.Ok G -> G = foldl upd G0 ws.
    by elim: ws G0 => [|w ws IH] G0 /=; [case|case: ifP => // _; exact: IH].
  exact: aux EG.
set M := (s0 + s1 - 1)%N in H *.
have M1 : (1 < M)%N by rewrite /M ltn_subRL; exact: (leq_add H0 s1pos).
have Gz : G (1 * M + 0)%N s1 = 0.
  rewrite EG. apply: fold_miss => w /mem_writes [m [n [al [K1 K2 K3 ->]]]] /=. apply/negP => /andP [/eqP E1 /eqP E2].
  case: (@row_inj M _ _ _ _ _ _ E1) => [||Ea Eb]; [|by apply: ltnW|].
    by apply: leq_ltn_trans (lt_M K1 K2); rewrite leq_subr.
  have E3 : (m + n = 1)%N by move: (subnK K3); rewrite Eb Ea.
  clear E1 Eb K3. case: m K1 E2 E3 => [|m] K1 E2.
    by rewrite add0n => E3; move: K2; rewrite -E2 mul0n add0n ltnn.
  rewrite addSn => [[/eqP]]. rewrite addn_eq0 => /andP [/eqP Em /eqP En]. by move: H1; rewrite -E2 Em En mul1n addn0 ltnn.
set c' := fun a b : nat => _ in H.
have c'E a b : c' a b = G (a * M + b)%N s1.
  rewrite /c'. have Hs : (s1 < s0 * s1)%N by rewrite -{1}(mul1n s1) ltn_mul2r s1pos.
  rewrite (bigD1 (Ordinal Hs)) //= divnn s1pos modnn !eqxx mulr1 big1 ?addr0 // => j Hj.
  case: andP => [[/eqP E1 /eqP E2]|_]; last by rewrite mulr0. exfalso. move/negP: Hj; apply. apply/eqP/val_inj => /=.
  by rewrite (divn_eq j s1) E1 E2 mul1n addn0.
pose p : {poly C} := \poly_(a < M) (c' a 0%N / RtoC (sqrt (Rmult (fac a) (fac 0)))).
have Hp u : p.[u] = kappa * u.
  have := H u 0. rewrite mulr0 addr0 subr0 /poly2. rewrite horner_poly => HH. transitivity (\sum_(m < M) \sum_(n < M) c' m n * u ^+ m * 0 ^+ n / RtoC (sqrt (Rmult (fac m) (fac n)))).
    apply: eq_bigr => a _. have L0 : (0 < M)%N by apply: ltnW. rewrite (bigD1 (Ordinal L0)) //= expr0 mulr1 big1 ?addr0; first by rewrite mulrAC.
    case=> [[|b] Hb] //= _. by rewrite expr0n /= mulr0 mul0r.
  rewrite HH (bigD1 (Ordinal H0)) //= [X in _ + X]big1 ?addr0; last first.
    case=> [[|[|m]] Hm] //= _; by apply: big1 => n _; rewrite !mul0r.
  rewrite (bigD1 (Ordinal s1pos)) //= big1 ?addr0; last by case=> [[|n] Hn] //= _; rewrite !mul0r.
  by rewrite expr0 expr1 mulr1 mul1r /fac /= Rmult_1_l sqrt_1 divr1.
have Hq : p - kappa *: 'X = 0 by apply: poly_ext => u; rewrite !hornerE Hp subrr.
have := congr1 (fun q : {poly C} => q`_1) Hq. rewrite coefB coefZ coefX coef_poly M1 /= c'E Gz mul0r mulr1 coef0 sub0r => /eqP.
rewrite oppr_eq0 => /eqP K. have {K} K : sqrt (Rdiv hbar 2) = R0 by apply: RtoC_inj.
have : Rlt R0 (sqrt (Rdiv hbar 2)) by apply: sqrt_lt_R0; lra.
rewrite K. exact: Rlt_irrefl.
Qed.
End PS.
