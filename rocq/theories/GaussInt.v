(** Complex and real Gaussian integrals: mrmustard/physics/gaussian_integrals.py. C40.
    Modelled: the index bookkeeping, the quadratic form M, the determinant, A_post, b_post and the exponent, for one batch element
    and over an arbitrary field (exact arithmetic). Index lists are natural numbers (Python's negative indices are not modelled).
    The scalar c (complex square root and exponential) is in GaussC.v. *)
From mathcomp Require Import all_ssreflect all_fingroup all_algebra.
From Verif Require Import Base.
Set Implicit Arguments. Unset Strict Implicit. Unset Printing Implicit Defensive.
Import GRing.Theory.
Local Open Scope ring_scope.

Section Field.
Variable F : fieldType.

(** The exponent of a triple: 1/2 v^T A v + b v in [dim] variables, the last [der] of which are the derived ones.
    Entries are read only at positions < dim. *)
Record triple := Triple { dim : nat; der : nat; mat : nat -> nat -> F; vec : nat -> F }.
Definition mx m p (f : nat -> nat -> F) : 'M[F]_(m, p) := \matrix_(i, j) f i j.

(** gaussian_integrals.py:473: [i for i in range(n_plus_N) if i not in idx] *)
Definition rest (n : nat) (idx : seq nat) : seq nat := [seq i <- iota 0 n | i \notin idx].
(** the entry of X = block([[0, I], [I, 0]]), lines 482-484 *)
Definition Xent (m i j : nat) : F := ((j == i + m) || (i == j + m))%N%:R.
(** line 485: gather(gather(A, idx), idx) + X * measure *)
Definition Mmx (t : triple) (s : F) (z c : seq nat) : 'M[F]_(size (z ++ c)) :=
  mx _ _ (fun i j => mat t (nth 0%N (z ++ c) i) (nth 0%N (z ++ c) j) + s * Xent (size z) i j).
(** lines 371-373: R - D inv(M) D^T and bR - D solve(M, bM), with D = A[not_idx, idx] (487) *)
Definition Apost (t : triple) (idx : seq nat) (V : 'M[F]_(size idx)) (i j : nat) : F :=
  let r := rest (dim t) idx in
  mat t (nth 0%N r i) (nth 0%N r j)
  - \sum_(k < size idx) \sum_(l < size idx) mat t (nth 0%N r i) (nth 0%N idx k) * V k l * mat t (nth 0%N r j) (nth 0%N idx l).
Definition bpost (t : triple) (idx : seq nat) (V : 'M[F]_(size idx)) (i : nat) : F :=
  let r := rest (dim t) idx in
  vec t (nth 0%N r i) - \sum_(k < size idx) \sum_(l < size idx) mat t (nth 0%N r i) (nth 0%N idx k) * V k l * vec t (nth 0%N idx l).
(** line 366: -0.5 * sum(bM * solve(M, bM)) *)
Definition expo (t : triple) (idx : seq nat) (V : 'M[F]_(size idx)) : F :=
  - (2%:R)^-1 * \sum_(k < size idx) \sum_(l < size idx) vec t (nth 0%N idx k) * V k l * vec t (nth 0%N idx l).

(** what complex_gaussian_integral_1 returns: the triple, with det M (None when no variable is integrated) and the exponent,
    or infinities when det M is too small *)
Inductive outcome := Done of triple & F & F | Infinite of nat.
(** gaussian_integrals.py:413-505; [tiny d] is |d| <= 1e-12 (line 488). With no index the determinant and exponent are 1 and 0,
    i.e. the scalar is unchanged (line 474-475) *)
Definition integral (tiny : F -> bool) (s : F) (t : triple) (z c : seq nat) : result outcome :=
  if size z != size c then Err ValueError
  else if has (fun i => (dim t - der t <= i)%N) (z ++ c) then Err ValueError
  else if size (z ++ c) == 0%N then Ok (Done t 1 0)
  else let M := Mmx t s z c in let V := invmx M in
       if tiny (\det M) then Ok (Infinite (size (rest (dim t) (z ++ c))))
       else Ok (Done (Triple (size (rest (dim t) (z ++ c))) (der t) (Apost t V) (bpost t V)) (\det M) (expo t V)).

(** ** Specification *)
(** the exponent as a function of the variables, and the weight exp(s |z|^2) of the measure *)
Definition quad (t : triple) (v : nat -> F) : F :=
  (2%:R)^-1 * (\sum_(i <- iota 0 (dim t)) \sum_(j <- iota 0 (dim t)) v i * mat t i j * v j) + \sum_(i <- iota 0 (dim t)) vec t i * v i.
Definition weight (s : F) (z c : seq nat) (v : nat -> F) : F := s * \sum_(p <- zip z c) v p.1 * v p.2.
(** derivatives of the two with respect to variable i *)
Definition dquad (t : triple) (v : nat -> F) (i : nat) : F := \sum_(j <- iota 0 (dim t)) mat t i j * v j + vec t i.
Definition dweight (s : F) (z c : seq nat) (v : nat -> F) (i : nat) : F :=
  s * \sum_(p <- zip z c) ((p.1 == i)%:R * v p.2 + (p.2 == i)%:R * v p.1).
(** the integrated variables are at the stationary point *)
Definition stationary (s : F) (t : triple) (z c : seq nat) (v : nat -> F) : Prop :=
  forall i, i \in z ++ c -> dquad t v i + dweight s z c v i = 0.
Definition symmetric (t : triple) : Prop := forall i j, (i < dim t)%N -> (j < dim t)%N -> mat t i j = mat t j i.
(** distinct variables of the triple that are not derived *)
Definition pairs_ok (t : triple) (z c : seq nat) : Prop :=
  [/\ size z = size c, uniq (z ++ c), (der t <= dim t)%N & forall i, i \in z ++ c -> (i < dim t - der t)%N].

(** ** Index facts *)
Lemma mem_rest n idx i : (i \in rest n idx) = (i < n)%N && (i \notin idx).
Proof. by rewrite mem_filter mem_iota leq0n add0n andbC. Qed.
Lemma rest_uniq n idx : uniq (rest n idx).
Proof. exact/filter_uniq/iota_uniq. Qed.
Lemma rest_perm n idx : uniq idx -> (forall i, i \in idx -> (i < n)%N) -> perm_eq (idx ++ rest n idx) (iota 0 n).
Proof.
move=> U L. apply: uniq_perm; [|exact: iota_uniq|].
  rewrite cat_uniq U rest_uniq andbT. apply/hasPn => i. by rewrite mem_rest => /andP[].
move=> i. rewrite mem_cat mem_rest mem_iota leq0n add0n /=. case: (boolP (i \in idx)) => [H|_] /=; last by rewrite andbT.
by rewrite (L _ H).
Qed.
Lemma sum_split n idx (f : nat -> F) : uniq idx -> (forall i, i \in idx -> (i < n)%N) ->
  \sum_(i <- iota 0 n) f i = \sum_(i <- idx) f i + \sum_(i <- rest n idx) f i.
Proof. move=> U L. by rewrite -(perm_big _ (rest_perm U L)) big_cat. Qed.
Lemma sum_nth (l : seq nat) (f : nat -> F) : \sum_(i <- l) f i = \sum_(k < size l) f (nth 0%N l k).
Proof. by rewrite (big_nth 0%N) big_mkord. Qed.

Lemma sum_iota n (f : nat -> F) : \sum_(j <- iota 0 n) f j = \sum_(j < n) f j.
Proof. by rewrite -{1}(subn0 n) -/(index_iota 0 n) big_mkord. Qed.

(** ** M on labels: position-wise X is the pairing of z and c *)
Definition paired (z c : seq nat) (i j : nat) : bool := ((i, j) \in zip z c) || ((j, i) \in zip z c).
Definition W (t : triple) (s : F) (z c : seq nat) (i j : nat) : F := mat t i j + s * (paired z c i j)%:R.
Lemma pair_pos z c i j : size z = size c -> uniq (z ++ c) -> (i < size (z ++ c))%N -> (j < size (z ++ c))%N ->
  ((nth 0%N (z ++ c) i, nth 0%N (z ++ c) j) \in zip z c) = (i < size z)%N && (j == i + size z)%N.
Proof.
move=> E U Li Lj. have Lz : size (zip z c) = size z by rewrite size_zip E minnn.
apply/(nthP (0%N, 0%N))/andP => [[k Lk Ek]|[L1 /eqP E2]].
  rewrite Lz in Lk. rewrite nth_zip // in Ek. case: Ek => E1 E2.
  have K1 : nth 0%N (z ++ c) k = nth 0%N z k by rewrite nth_cat Lk.
  have K2 : nth 0%N (z ++ c) (k + size z) = nth 0%N c k by rewrite nth_cat ltnNge leq_addl /= addnK.
  have Lk2 : (k + size z < size (z ++ c))%N by rewrite size_cat addnC ltn_add2l -E.
  have I1 : k = i by apply/eqP; rewrite -(nth_uniq 0%N _ Li U) ?K1 ?E1 //; apply: leq_trans Lk _; rewrite size_cat leq_addr.
  have I2 : (k + size z)%N = j by apply/eqP; rewrite -(nth_uniq 0%N Lk2 Lj U) K2 E2.
  by rewrite -I1 -I2 Lk.
exists i; first by rewrite Lz. rewrite nth_zip // E2. congr pair; first by rewrite nth_cat L1.
by rewrite nth_cat ltnNge leq_addl /= addnK.
Qed.
Lemma MmxE t s z c : size z = size c -> uniq (z ++ c) ->
  Mmx t s z c = mx _ _ (fun i j => W t s z c (nth 0%N (z ++ c) i) (nth 0%N (z ++ c) j)).
Proof.
move=> E U. apply/matrixP => i j. rewrite !mxE /W /paired !pair_pos //. congr (_ + s * _%:R). congr (nat_of_bool _).
have H (x y : nat) : (y < size (z ++ c))%N -> (y == x + size z)%N -> (x < size z)%N.
  move=> L /eqP Q. move: L. by rewrite Q size_cat addnC ltn_add2l -E.
apply/orP/orP => -[Q|Q].
- left. by rewrite Q andbT (H _ j).
- right. by rewrite Q andbT (H _ i).
- by left; case/andP: Q.
- by right; case/andP: Q.
Qed.
Lemma dweightE s z c v i : size z = size c -> uniq (z ++ c) ->
  dweight s z c v i = s * \sum_(j <- z ++ c) (paired z c i j)%:R * v j.
Proof.
move=> E U. rewrite /dweight. congr (s * _). rewrite big_cat /=.
have Uz : uniq z by move: U; rewrite cat_uniq => /and3P[].
have Uc : uniq c by move: U; rewrite cat_uniq => /and3P[].
have D x : x \in z -> x \in c -> False.
  by move: U; rewrite cat_uniq => /and3P[_ /hasPn H _] Hz Hc; move: (H _ Hc); rewrite /= Hz.
rewrite big_split /= addrC. congr (_ + _).
- (* sum over z: v p.1 with p.2 = i *)
  have -> : \sum_(j <- z) (paired z c i j)%:R * v j = \sum_(j <- z) ((j, i) \in zip z c)%:R * v j.
    rewrite !big_seq. apply: eq_bigr => j Hj. congr (_%:R * _). rewrite /paired. case: (boolP ((i, j) \in zip z c)) => //= H.
    case: (D j Hj). by have := map_f (@snd nat nat) H; rewrite -/unzip2 unzip2_zip ?E.
  have Hz : z = unzip1 (zip z c) by rewrite unzip1_zip ?E.
  rewrite [in RHS]Hz big_map unzip1_zip ?E //. rewrite !big_seq. apply: eq_bigr => -[x y] H /=. congr (_%:R * _). congr (nat_of_bool _).
  apply/eqP/idP => [<- //|H2]. have Uzc : uniq (zip z c) by apply: (@map_uniq _ _ fst); rewrite -/unzip1 unzip1_zip ?E.
  case/(nthP (0%N, 0%N)): H => k Lk Ek. case/(nthP (0%N, 0%N)): H2 => l Ll El.
  rewrite size_zip E minnn in Lk Ll. rewrite nth_zip // in Ek. rewrite nth_zip // in El.
  case: Ek => X1 X2. case: El => Y1 Y2. have : k = l by apply/eqP; rewrite -(nth_uniq 0%N _ _ Uz) ?X1 ?Y1 ?E.
  by move=> KL; rewrite -X2 -Y2 KL.
- have -> : \sum_(j <- c) (paired z c i j)%:R * v j = \sum_(j <- c) ((i, j) \in zip z c)%:R * v j.
    rewrite !big_seq. apply: eq_bigr => j Hj. congr (_%:R * _). rewrite /paired. case: (boolP ((i, j) \in zip z c)) => //= _.
    case: (boolP ((j, i) \in zip z c)) => //= H. case: (D j _ Hj). by have := map_f (@fst nat nat) H; rewrite -/unzip1 unzip1_zip ?E.
  have Hc : c = unzip2 (zip z c) by rewrite unzip2_zip ?E.
  rewrite [in RHS]Hc big_map unzip2_zip ?E //. rewrite !big_seq. apply: eq_bigr => -[x y] H /=. congr (_%:R * _). congr (nat_of_bool _).
  apply/eqP/idP => [<- //|H2].
  case/(nthP (0%N, 0%N)): H => k Lk Ek. case/(nthP (0%N, 0%N)): H2 => l Ll El.
  rewrite size_zip E minnn in Lk Ll. rewrite nth_zip // in Ek. rewrite nth_zip // in El.
  case: Ek => X1 X2. case: El => Y1 Y2. have : k = l by apply/eqP; rewrite -(nth_uniq 0%N _ _ Uc) ?X2 ?Y2.
  by move=> KL; rewrite -X1 -Y1 KL.
Qed.
Lemma pairedC z c i j : paired z c i j = paired z c j i.
Proof. by rewrite /paired orbC. Qed.
Lemma paired_mem z c i j : size z = size c -> paired z c i j -> (i \in z ++ c) && (j \in z ++ c).
Proof.
move=> E. rewrite /paired !mem_cat. case/orP => H.
- have := map_f (@fst nat nat) H; have := map_f (@snd nat nat) H; rewrite -/unzip1 -/unzip2 unzip1_zip ?unzip2_zip ?E //=.
  by move=> -> ->; rewrite orbT.
- have := map_f (@fst nat nat) H; have := map_f (@snd nat nat) H; rewrite -/unzip1 -/unzip2 unzip1_zip ?unzip2_zip ?E //=.
  by move=> -> ->; rewrite orbT.
Qed.

(** ** Elimination of the integrated variables *)
Definition cv (l : seq nat) (f : nat -> F) : 'cV[F]_(size l) := \col_k f (nth 0%N l k).
Definition sub (t : triple) (r l : seq nat) : 'M[F]_(size r, size l) := mx _ _ (fun i j => mat t (nth 0%N r i) (nth 0%N l j)).
Lemma mulmx_cv m (l : seq nat) (g : nat -> nat -> F) (v : nat -> F) (i : 'I_m) j :
  (mx m (size l) (fun i k => g i (nth 0%N l k)) *m cv l v) i j = \sum_(x <- l) g i x * v x.
Proof. rewrite mxE sum_nth. by apply: eq_bigr => k _; rewrite !mxE. Qed.
Section Elim.
Variables (t : triple) (s : F) (z c : seq nat).
Let idx := z ++ c.
Let r := rest (dim t) idx.
Hypothesis ok : pairs_ok t z c.
Lemma idx_lt i : i \in idx -> (i < dim t)%N.
Proof. case: ok => _ _ _ L /L H. exact: leq_trans H (leq_subr _ _). Qed.
Lemma idx_uniq : uniq idx. Proof. by case: ok. Qed.
Lemma rest_lt i : i \in r -> (i < dim t)%N.
Proof. by rewrite mem_rest => /andP[]. Qed.
Lemma dquad_split v i : dquad t v i = \sum_(j <- idx) mat t i j * v j + \sum_(j <- r) mat t i j * v j + vec t i.
Proof. by rewrite /dquad (sum_split _ idx_uniq idx_lt). Qed.
Lemma gradient_idx v i : i \in idx ->
  dquad t v i + dweight s z c v i = \sum_(j <- idx) W t s z c i j * v j + \sum_(j <- r) mat t i j * v j + vec t i.
Proof.
case: ok => E U _ _ Hi. rewrite dquad_split dweightE //. rewrite [LHS]addrAC. congr (_ + _).
rewrite [LHS]addrAC. congr (_ + _). rewrite mulr_sumr -big_split /=. apply: eq_bigr => j _. by rewrite /W mulrDl mulrA.
Qed.
Lemma stationary_mx v : stationary s t z c v <-> Mmx t s z c *m cv idx v + sub t idx r *m cv r v + cv idx (vec t) = 0.
Proof.
case: ok => E U _ _. rewrite MmxE //. split => H.
- apply/matrixP => k j. rewrite !mxE -/(cv idx v) -/(cv r v).
  have Hk : nth 0%N idx k \in idx by apply: mem_nth.
  move: (H _ Hk). rewrite (gradient_idx v Hk) => Q. rewrite -[RHS]Q. congr (_ + _ + _); rewrite sum_nth; apply: eq_bigr => l _; by rewrite !mxE.
- move=> i Hi. rewrite (gradient_idx v Hi). have Li : (index i idx < size idx)%N by rewrite index_mem.
  move/matrixP: H => /(_ (Ordinal Li) 0). rewrite !mxE -/(cv idx v) -/(cv r v) /= nth_index // => Q. rewrite -[RHS]Q.
  congr (_ + _ + _); rewrite sum_nth; apply: eq_bigr => l _; by rewrite !mxE /= nth_index.
Qed.
Hypothesis sym : symmetric t.
Hypothesis inv : \det (Mmx t s z c) != 0.
Lemma unit_M : Mmx t s z c \in unitmx. Proof. by rewrite unitmxE unitfE. Qed.
Let V := invmx (Mmx t s z c).
Lemma stationary_solve v : stationary s t z c v <-> cv idx v = - (V *m (sub t idx r *m cv r v + cv idx (vec t))).
Proof.
rewrite stationary_mx -addrA. split => [H|->].
- have Q : Mmx t s z c *m cv idx v = - (sub t idx r *m cv r v + cv idx (vec t)) by apply/eqP; rewrite -addr_eq0 H.
  by rewrite -[LHS](mulKmx unit_M) Q mulmxN.
- by rewrite mulmxN mulKVmx ?unit_M // addNr.
Qed.
Lemma Apost_mx : mx _ _ (Apost t V) = sub t r r - sub t r idx *m V *m (sub t r idx)^T :> 'M_(size r).
Proof.
apply/matrixP => i j. rewrite !mxE /Apost -/r. congr (_ - _). rewrite exchange_big /=. apply: eq_bigr => l _.
rewrite !mxE mulr_suml. apply: eq_bigr => k _. by rewrite !mxE.
Qed.
Lemma bpost_mx : \col_(i < size r) bpost t V i = cv r (vec t) - sub t r idx *m V *m cv idx (vec t).
Proof.
apply/matrixP => i j. rewrite !mxE /bpost -/r. congr (_ - _). rewrite exchange_big /=. apply: eq_bigr => l _.
rewrite !mxE mulr_suml. apply: eq_bigr => k _. by rewrite !mxE.
Qed.
Lemma sub_tr : (sub t r idx)^T = sub t idx r.
Proof. apply/matrixP => i j. rewrite !mxE. apply: sym; [exact: rest_lt (mem_nth _ _)|exact: idx_lt (mem_nth _ _)]. Qed.
(** the gradient of the exponent at a stationary point, on the variables that are left *)
Lemma gradient_rest v : stationary s t z c v -> forall i, (i < size r)%N ->
  dquad t v (nth 0%N r i) = \sum_(j < size r) Apost t V i j * v (nth 0%N r j) + bpost t V i.
Proof.
move=> /stationary_solve Q i Li.
have : sub t r idx *m cv idx v + sub t r r *m cv r v + cv r (vec t) = mx _ _ (Apost t V) *m cv r v + \col_i bpost t V i.
  rewrite Apost_mx bpost_mx Q sub_tr mulmxN mulmxA mulmxDr mulmxBl -!mulmxA opprD.
  by rewrite [RHS]addrACA [RHS]addrC addrA.
move=> /matrixP/(_ (Ordinal Li) 0). rewrite !mxE /= => H. rewrite dquad_split !sum_nth.
transitivity (\sum_j sub t r idx (Ordinal Li) j * cv idx v j 0 + \sum_j sub t r r (Ordinal Li) j * cv r v j 0 + vec t (nth 0%N r i)).
  by congr (_ + _ + _); apply: eq_bigr => k _; rewrite !mxE.
rewrite H. congr (_ + _). apply: eq_bigr => k _. by rewrite !mxE.
Qed.
(** every assignment of the remaining variables has exactly one stationary completion *)
Lemma stationary_exists (y : nat -> F) : exists v, stationary s t z c v /\ forall i, i \in r -> v i = y i.
Proof.
pose x := - (V *m (sub t idx r *m cv r y + cv idx (vec t))).
pose v i := if (insub (index i idx) : option 'I_(size idx)) is Some k then if i \in idx then x k 0 else y i else y i.
have vr i : i \in r -> v i = y i.
  rewrite mem_rest /v => /andP[_ /negbTE ->]. by case: insubP.
exists v. split=> //. apply/stationary_solve.
have -> : cv r v = cv r y by apply/matrixP => i j; rewrite !mxE vr // mem_nth.
apply/matrixP => k j. rewrite ord1 /v. rewrite [LHS]mxE index_uniq ?idx_uniq // mem_nth //.
case: insubP => [u _ Hu|]; last by rewrite ltn_ord. by congr (x _ _); apply: val_inj.
Qed.
Lemma V_sym : V^T = V.
Proof.
rewrite /V trmx_inv. congr invmx. case: ok => E U _ _. rewrite MmxE //. apply/matrixP => i j. rewrite !mxE /W pairedC. congr (_ + _).
by apply: sym; apply: idx_lt; apply: mem_nth.
Qed.
Lemma dotE (l : seq nat) (f g : nat -> F) : ((cv l f)^T *m cv l g) 0 0 = \sum_(i <- l) f i * g i.
Proof. rewrite mxE sum_nth. by apply: eq_bigr => k _; rewrite !mxE. Qed.
Lemma expoE : (2%:R : F) != 0 -> 2%:R * expo t V = - ((cv idx (vec t))^T *m V *m cv idx (vec t)) 0 0.
Proof.
move=> T. rewrite /expo mulrA mulrN divff // mulN1r. congr (- _). rewrite mxE exchange_big /=. apply: eq_bigr => l _.
rewrite !mxE mulr_suml. apply: eq_bigr => k _. by rewrite !mxE.
Qed.
(** reciprocity *)
Lemma exponent v : (2%:R : F) != 0 -> stationary s t z c v ->
  \sum_(i <- idx) vec t i * v i + \sum_(k < size r) (vec t (nth 0%N r k) - bpost t V k) * v (nth 0%N r k) = 2%:R * expo t V.
Proof.
move=> T /stationary_solve Q. rewrite (expoE T) -dotE Q.
have -> : \sum_(k < size r) (vec t (nth 0%N r k) - bpost t V k) * v (nth 0%N r k) = ((cv r (vec t) - \col_i bpost t V i)^T *m cv r v) 0 0.
  by rewrite mxE; apply: eq_bigr => k _; rewrite !mxE.
have -> : cv r (vec t) - \col_i bpost t V i = sub t r idx *m V *m cv idx (vec t) by rewrite bpost_mx subKr.
suff /matrixP/(_ 0 0) : (cv idx (vec t))^T *m - (V *m (sub t idx r *m cv r v + cv idx (vec t))) + (sub t r idx *m V *m cv idx (vec t))^T *m cv r v
  = - ((cv idx (vec t))^T *m V *m cv idx (vec t)) by rewrite [X in X = _]mxE [X in _ = X]mxE.
rewrite !trmx_mul sub_tr V_sym mulmxN mulmxDr mulmxDr !mulmxA opprD addrAC addNr add0r. by [].
Qed.
(** ** C40, one integral: at the stationary point of the integrated variables the exponent is the returned exponent, for every value of the others *)
Let post := Triple (size r) (der t) (Apost t V) (bpost t V).
Lemma dquad_post v k : dquad post (fun k => v (nth 0%N r k)) k = \sum_(j < size r) Apost t V k j * v (nth 0%N r j) + bpost t V k.
Proof. by rewrite /dquad /= sum_iota. Qed.
Lemma quad2 (u : triple) w : (2%:R : F) != 0 -> 2%:R * quad u w = \sum_(i <- iota 0 (dim u)) w i * (dquad u w i + vec u i).
Proof.
move=> T. rewrite /quad mulrDr mulrA divff // mul1r mulr_sumr -big_split /=. apply: eq_bigr => i _.
rewrite /dquad !mulrDr mulr_sumr -addrA. congr (_ + _); first by apply: eq_bigr => j _; rewrite mulrA.
by rewrite mulr_natl mulr2n [vec u i * _]mulrC.
Qed.
Lemma weight2 w : 2%:R * weight s z c w = \sum_(i <- idx) w i * dweight s z c w i.
Proof.
case: ok => E U _ _. rewrite /weight /dweight.
have -> : \sum_(i <- idx) w i * (s * \sum_(p <- zip z c) ((p.1 == i)%:R * w p.2 + (p.2 == i)%:R * w p.1))
  = s * \sum_(p <- zip z c) \sum_(i <- idx) w i * ((p.1 == i)%:R * w p.2 + (p.2 == i)%:R * w p.1).
  rewrite exchange_big /= mulr_sumr. apply: eq_bigr => i _. by rewrite mulrCA mulr_sumr.
rewrite mulrCA. congr (s * _). rewrite mulr_sumr !big_seq. apply: eq_bigr => -[x y] H /=.
have [Hx Hy] : x \in idx /\ y \in idx.
  have := map_f (@fst nat nat) H; have := map_f (@snd nat nat) H; rewrite -/unzip1 -/unzip2 unzip1_zip ?unzip2_zip ?E //=.
  by rewrite /idx !mem_cat => -> ->; rewrite orbT.
have K a b : a \in idx -> \sum_(i <- idx) w i * ((a == i)%:R * b) = w a * b.
  move=> Ha. rewrite (bigD1_seq a) ?idx_uniq //= eqxx mul1r big1 ?addr0 // => i /negbTE Hi. by rewrite eq_sym Hi mul0r mulr0.
have -> : \sum_(i <- idx) w i * ((x == i)%:R * w y + (y == i)%:R * w x) = \sum_(i <- idx) w i * ((x == i)%:R * w y) + \sum_(i <- idx) w i * ((y == i)%:R * w x).
  by rewrite -big_split /=; apply: eq_bigr => i _; rewrite mulrDr.
by rewrite !K // mulr_natl mulr2n [w y * _]mulrC.
Qed.
Lemma value v : (2%:R : F) != 0 -> stationary s t z c v ->
  quad t v + weight s z c v = quad post (fun k => v (nth 0%N r k)) + expo t V.
Proof.
move=> T St. apply: (mulfI T). rewrite [LHS]mulrDr [RHS]mulrDr (quad2 t v T) (quad2 post _ T) weight2 -(exponent T St).
rewrite (sum_split _ idx_uniq idx_lt) -/r addrAC -big_split /=.
have -> : \sum_(i <- idx) (v i * (dquad t v i + vec t i) + v i * dweight s z c v i) = \sum_(i <- idx) vec t i * v i.
  rewrite !big_seq. apply: eq_bigr => i Hi. by rewrite -mulrDr addrAC (St i Hi) add0r mulrC.
rewrite [RHS]addrCA. congr (_ + _). rewrite sum_nth sum_iota -big_split /=. apply: eq_bigr => k _.
rewrite dquad_post (gradient_rest St) // [X in _ = _ + X]mulrC -mulrDr. congr (_ * _).
move: (bpost t V k) (vec t _) => x y. by rewrite -[in RHS]addrA [y - x]addrC addNKr.
Qed.
End Elim.

(** ** Determinants *)
Definition G (f : nat -> nat -> F) (l : seq nat) : 'M[F]_(size l) := mx _ _ (fun i j => f (nth 0%N l i) (nth 0%N l j)).
Lemma det_perm_eq f l l' : perm_eq l l' -> \det (G f l) = \det (G f l').
Proof.
move=> P. rewrite /G (perm_size P). set m := size l'.
have Sl : size l == m by rewrite (perm_size P). have Sl' : size l' == m by [].
have /tuple_permP[p Hp] : perm_eq (Tuple Sl) (Tuple Sl') by [].
have -> : mx m m (fun i j => f (nth 0%N l i) (nth 0%N l j)) = row_perm p (col_perm p (mx m m (fun i j => f (nth 0%N l' i) (nth 0%N l' j)))).
  have Q (i : 'I_m) : nth 0%N l i = nth 0%N l' (p i).
    rewrite -[l]/(tval (Tuple Sl)) Hp -tnth_nth tnth_mktuple (tnth_nth 0%N). by [].
  by apply/matrixP => i j; rewrite !mxE !Q.
rewrite row_permE col_permE !det_mulmx !det_perm odd_permV mulrC -mulrA -signr_addb addbb mulr1. by [].
Qed.
Lemma det_cat f l1 l2 : G f l1 \in unitmx -> (forall i j, i \in l1 -> j \in l2 -> f i j = f j i) ->
  \det (G f (l1 ++ l2)) = \det (G f l1) * \det (G f l2 - (mx (size l1) (size l2) (fun i j => f (nth 0%N l1 i) (nth 0%N l2 j)))^T *m invmx (G f l1) *m mx (size l1) (size l2) (fun i j => f (nth 0%N l1 i) (nth 0%N l2 j))).
Proof.
move=> U Sy. rewrite /G size_cat. set B := mx (size l1) (size l2) _.
have -> : mx (size l1 + size l2) (size l1 + size l2) (fun i j => f (nth 0%N (l1 ++ l2) i) (nth 0%N (l1 ++ l2) j)) = block_mx (G f l1) B B^T (G f l2).
  apply/matrixP => i j. rewrite !mxE. case: (splitP i) => i' Ei; rewrite !mxE; case: (splitP j) => j' Ej; rewrite !mxE !nth_cat Ei Ej ?ltn_ord //.
  - by rewrite ltnNge leq_addr /= addKn.
  - rewrite ltnNge leq_addr /= addKn. symmetry. by apply: Sy; apply: mem_nth.
  - by rewrite !ltnNge !leq_addr /= !addKn.
have -> : block_mx (G f l1) B B^T (G f l2) = block_mx 1%:M 0 (B^T *m invmx (G f l1)) 1%:M *m block_mx (G f l1) B 0 (G f l2 - B^T *m invmx (G f l1) *m B).
  rewrite mulmx_block !mul1mx !mul0mx !addr0 -[_ *m invmx _ *m G f l1]mulmxA mulVmx // mulmx1. by rewrite addrC subrK.
by rewrite det_mulmx det_lblock det_ublock !det1 !mul1r.
Qed.

(** ** C40: integrating in two steps *)
Definition same (t u : triple) : Prop :=
  [/\ dim t = dim u, der t = der u, forall i j, (i < dim t)%N -> (j < dim t)%N -> mat t i j = mat u i j
    & forall i, (i < dim t)%N -> vec t i = vec u i].
Definition post (s : F) (t : triple) (z c : seq nat) : triple :=
  let V := invmx (Mmx t s z c) in Triple (size (rest (dim t) (z ++ c))) (der t) (Apost t V) (bpost t V).
Section Twice.
Variables (t : triple) (s : F) (z1 c1 z2 c2 : seq nat).
Hypothesis sym : symmetric t.
Hypothesis E1 : size z1 = size c1.
Hypothesis E2 : size z2 = size c2.
Hypothesis ok : pairs_ok t (z1 ++ z2) (c1 ++ c2).
Let i12 := (z1 ++ z2) ++ (c1 ++ c2).
Let i1 := z1 ++ c1.
Let i2 := z2 ++ c2.
Let r1 := rest (dim t) i1.
Let pos i := index i r1.
Let z2' := map pos z2.
Let c2' := map pos c2.
Let r12 := rest (dim t) i12.
Let r2' := rest (size r1) (z2' ++ c2').
Lemma perm12 : perm_eq i12 (i1 ++ i2).
Proof. rewrite /i12 /i1 /i2 -!catA perm_cat2l !catA perm_cat2r. apply/permPl. exact: perm_catC. Qed.
Lemma uniq12 : uniq (i1 ++ i2). Proof. rewrite -(perm_uniq perm12). by case: ok. Qed.
Lemma mem12 i : (i \in i12) = (i \in i1) || (i \in i2). Proof. by rewrite (perm_mem perm12) mem_cat. Qed.
Lemma uniq1 : uniq i1. Proof. by move: uniq12; rewrite cat_uniq => /and3P[]. Qed.
Lemma uniq2 : uniq i2. Proof. by move: uniq12; rewrite cat_uniq => /and3P[]. Qed.
Lemma disj i : i \in i1 -> i \in i2 -> False.
Proof. move: uniq12; rewrite cat_uniq => /and3P[_ /hasPn H _] A B. by move: (H _ B); rewrite /= A. Qed.
Lemma lt12 i : i \in i12 -> (i < dim t - der t)%N. Proof. case: ok => _ _ _. exact. Qed.
Lemma ok1 : pairs_ok t z1 c1.
Proof. split=> //; first exact: uniq1; first by case: ok. by move=> i H; apply: lt12; rewrite mem12 H. Qed.
Lemma i2_r1 i : i \in i2 -> i \in r1.
Proof.
move=> H. rewrite mem_rest. have -> : (i < dim t)%N by apply: leq_trans (leq_subr (der t) _); apply: lt12; rewrite mem12 H orbT.
apply/negP => H1. exact: disj H1 H.
Qed.
Lemma pos_lt i : i \in i2 -> (pos i < size r1)%N. Proof. by move=> /i2_r1; rewrite index_mem. Qed.
Lemma pos_inj i j : i \in r1 -> j \in r1 -> (pos i == pos j) = (i == j).
Proof. move=> Hi Hj. apply/eqP/eqP => [H|-> //]. by rewrite -(nth_index 0%N Hi) -(nth_index 0%N Hj) -/(pos i) H. Qed.
Lemma pos_nth i : i \in r1 -> nth 0%N r1 (pos i) = i. Proof. exact: nth_index. Qed.
Lemma i2'_E : z2' ++ c2' = map pos i2. Proof. by rewrite map_cat. Qed.
Lemma mem_i2' i : i \in r1 -> (pos i \in z2' ++ c2') = (i \in i2).
Proof.
move=> Hi. rewrite i2'_E. apply/mapP/idP => [[j Hj /eqP]|H]; last by exists i.
by rewrite (pos_inj Hi (i2_r1 Hj)) => /eqP ->.
Qed.
(** the remaining variables are the same *)
Lemma rest_rest : map (nth 0%N r1) r2' = r12.
Proof.
have A : r2' = [seq k <- iota 0 (size r1) | nth 0%N r1 k \notin i2].
  apply: eq_in_filter => k. rewrite mem_iota leq0n add0n /= => Lk. congr (~~ _).
  by rewrite -(mem_i2' (mem_nth 0%N Lk)) /pos index_uniq ?rest_uniq.
have B : r12 = [seq i <- r1 | i \notin i2].
  rewrite /r12 /r1 /rest -filter_predI. apply: eq_filter => i /=. by rewrite mem12 negb_or andbC.
rewrite A B -[in RHS](mkseq_nth 0%N r1) /mkseq filter_map. by [].
Qed.
Lemma size_r : size r2' = size r12. Proof. by rewrite -rest_rest size_map. Qed.
Lemma nth_r k : (k < size r12)%N -> nth 0%N r1 (nth 0%N r2' k) = nth 0%N r12 k.
Proof. move=> L. by rewrite -rest_rest (nth_map 0%N) // size_r. Qed.
(** the measure *)
Lemma dweight_cat v i : dweight s (z1 ++ z2) (c1 ++ c2) v i = dweight s z1 c1 v i + dweight s z2 c2 v i.
Proof. by rewrite /dweight zip_cat // big_cat mulrDr. Qed.
Lemma zip_mem (z c : seq nat) p : size z = size c -> p \in zip z c -> (p.1 \in z ++ c) /\ (p.2 \in z ++ c).
Proof.
move=> E H. have := map_f (@fst nat nat) H; have := map_f (@snd nat nat) H; rewrite -/unzip1 -/unzip2 unzip1_zip ?unzip2_zip ?E //.
by rewrite !mem_cat => -> ->; rewrite orbT.
Qed.
Lemma dweight_out (z c : seq nat) v i : size z = size c -> i \notin z ++ c -> dweight s z c v i = 0.
Proof.
move=> E H. rewrite /dweight big_seq big1 ?mulr0 // => p Hp. have [A B] := zip_mem E Hp.
have -> : (p.1 == i) = false by apply/eqP => Q; rewrite -Q A in H.
have -> : (p.2 == i) = false by apply/eqP => Q; rewrite -Q B in H.
by rewrite !mul0r addr0.
Qed.
Lemma zip_map2 (z c : seq nat) (f : nat -> nat) : zip (map f z) (map f c) = [seq (f p.1, f p.2) | p <- zip z c].
Proof. by elim: z c => [|x z IH] [|y c] //=; rewrite IH. Qed.
Lemma dweight_pos v i : i \in r1 -> dweight s z2' c2' (fun k => v (nth 0%N r1 k)) (pos i) = dweight s z2 c2 v i.
Proof.
move=> Hi. rewrite /dweight zip_map2 big_map. congr (s * _). rewrite !big_seq. apply: eq_bigr => p Hp /=.
have [A B] := zip_mem E2 Hp. have A' := i2_r1 A. have B' := i2_r1 B. by rewrite !pos_inj // !pos_nth.
Qed.
Lemma ok2 : pairs_ok (post s t z1 c1) z2' c2'.
Proof.
split.
- by rewrite !size_map.
- rewrite i2'_E map_inj_in_uniq ?uniq2 // => i j Hi Hj H. apply/eqP. by rewrite -pos_inj ?i2_r1 // H.
- (* the derived variables are all kept *)
  rewrite /post /=. have D : (der t <= dim t)%N by case: ok.
  have : {subset iota (dim t - der t) (der t) <= r1}.
    move=> i. rewrite mem_iota subnK // => /andP[L1 L2]. rewrite mem_rest L2 /=. apply/negP => H.
    have := @lt12 i. by rewrite mem12 H ltnNge L1 => /(_ isT).
  move/(uniq_leq_size (iota_uniq _ _)). by rewrite size_iota.
- move=> k. rewrite i2'_E => /mapP[i Hi ->]. rewrite /post /=.
  (* variables after position pos i include all derived ones *)
  have D : (der t <= dim t)%N by case: ok.
  have Li : (i < dim t - der t)%N by apply: lt12; rewrite mem12 Hi orbT.
  have R1 : r1 = rest (dim t - der t) i1 ++ iota (dim t - der t) (der t).
    rewrite /r1 /rest -{1}(subnK D) iotaD filter_cat add0n. congr (_ ++ _). apply/all_filterP/allP => j.
    rewrite mem_iota => /andP[L1 _]. apply/negP => H. have := @lt12 j. by rewrite mem12 H ltnNge L1 => /(_ isT).
  have Hi' : i \in rest (dim t - der t) i1 by rewrite mem_rest Li; apply/negP => H; exact: disj H Hi.
  have -> : size (rest (dim t) (z1 ++ c1)) = (size (rest (dim t - der t) i1) + der t)%N by rewrite -/i1 -/r1 R1 size_cat size_iota.
  by rewrite addnK /pos R1 index_cat Hi' index_mem.
Qed.
Hypothesis inv1 : \det (Mmx t s z1 c1) != 0.
Let t1 := post s t z1 c1.
Lemma sym1 : symmetric t1.
Proof.
move=> i j Li Lj. rewrite /t1 /= /Apost. congr (_ - _).
  by apply: sym; apply: (@rest_lt t z1 c1); apply: mem_nth.
rewrite exchange_big /=. apply: eq_bigr => k _. apply: eq_bigr => l _.
have /matrixP/(_ k l) := V_sym s ok1 sym. rewrite mxE => ->. by rewrite mulrAC [RHS]mulrAC [X in X * _ = _]mulrC.
Qed.
Lemma stat1 v : stationary s t (z1 ++ z2) (c1 ++ c2) v -> stationary s t z1 c1 v.
Proof.
move=> H i Hi. have := H i. rewrite -/i12 mem12 Hi => /(_ isT). rewrite dweight_cat (dweight_out v E2) ?addr0 //.
apply/negP => H2. exact: disj Hi H2.
Qed.
Lemma stat2 v : stationary s t (z1 ++ z2) (c1 ++ c2) v -> stationary s t1 z2' c2' (fun k => v (nth 0%N r1 k)).
Proof.
move=> H k. rewrite i2'_E => /mapP[i Hi ->]. have Hr := i2_r1 Hi. rewrite dweight_pos //.
rewrite (dquad_post) -(gradient_rest ok1 sym inv1 (stat1 H)) ?index_mem // nth_index //.
have := H i. rewrite -/i12 mem12 Hi orbT => /(_ isT). rewrite dweight_cat (dweight_out v E1) ?add0r //.
apply/negP => H2. exact: disj H2 Hi.
Qed.
(** the determinants multiply *)
Lemma paired_cat i j : paired (z1 ++ z2) (c1 ++ c2) i j = paired z1 c1 i j || paired z2 c2 i j.
Proof. rewrite /paired zip_cat // !mem_cat. by rewrite -!orbA; congr (_ || _); rewrite orbCA. Qed.
Lemma not_paired (z c : seq nat) i j : size z = size c -> (i \notin z ++ c) || (j \notin z ++ c) -> paired z c i j = false.
Proof. move=> E H. apply/negP => /(paired_mem E) /andP[A B]. by rewrite A B in H. Qed.
Lemma det2 : \det (Mmx t s (z1 ++ z2) (c1 ++ c2)) = \det (Mmx t s z1 c1) * \det (Mmx t1 s z2' c2').
Proof.
have [S12 U12 _ _] := ok. have [_ U2 _ _] := ok2.
rewrite (MmxE _ _ S12 U12) -/(G (W t s (z1 ++ z2) (c1 ++ c2)) i12) (det_perm_eq _ perm12).
have N2 i j : i \in i1 -> paired z2 c2 i j = false.
  move=> H. apply: not_paired E2 _. apply/orP; left. apply/negP => H2. exact: disj H H2.
have N1 i j : i \in i2 -> paired z1 c1 i j = false.
  move=> H. apply: not_paired E1 _. apply/orP; left. apply/negP => H2. exact: disj H2 H.
have G1 : G (W t s (z1 ++ z2) (c1 ++ c2)) i1 = Mmx t s z1 c1.
  rewrite (MmxE _ _ E1 uniq1). apply/matrixP => i j. rewrite !mxE /W paired_cat N2 ?orbF //. exact: mem_nth.
rewrite det_cat ?G1 ?unitmxE ?unitfE //; last first.
  move=> i j Hi Hj. rewrite /W pairedC. congr (_ + _). by apply: sym; apply: leq_trans (leq_subr (der t) _); apply: lt12; rewrite mem12 ?Hi ?Hj ?orbT.
congr (_ * _). rewrite (MmxE _ _ _ U2); last by rewrite !size_map.
have -> : \det (mx (size (z2' ++ c2')) (size (z2' ++ c2')) (fun i j => W t1 s z2' c2' (nth 0%N (z2' ++ c2') i) (nth 0%N (z2' ++ c2') j)))
  = \det (mx (size i2) (size i2) (fun i j => W t1 s z2' c2' (nth 0%N (z2' ++ c2') i) (nth 0%N (z2' ++ c2') j))).
  by rewrite i2'_E size_map.
congr (\det _). apply/matrixP => i j. rewrite [LHS]mxE [RHS]mxE i2'_E !(nth_map 0%N) //.
set a := nth 0%N i2 i. set b := nth 0%N i2 j. have Ha : a \in i2 by apply: mem_nth. have Hb : b \in i2 by apply: mem_nth.
rewrite /W /t1 /post /=. rewrite /Apost -/i1 -/r1 !nth_index ?i2_r1 //.
have -> : paired z2' c2' (pos a) (pos b) = paired z2 c2 a b.
  have Q x y : x \in i2 -> y \in i2 -> ((pos x, pos y) \in zip z2' c2') = ((x, y) \in zip z2 c2).
    move=> Hx Hy. rewrite zip_map2. apply/mapP/idP => [[p Hp [/eqP X1 /eqP X2]]|H]; last by exists (x, y).
    have [P1 P2] := zip_mem E2 Hp. rewrite !pos_inj ?i2_r1 // in X1 X2. by rewrite (eqP X1) (eqP X2); case: p Hp {P1 P2 X1 X2}.
  by rewrite /paired !Q.
rewrite [RHS]addrAC. congr (_ + _).
  by rewrite !mxE paired_cat N1 ?orFb.
rewrite mxE. congr (- _). rewrite mxE [RHS]exchange_big /=. apply: eq_bigr => l _. rewrite !mxE mulr_suml. apply: eq_bigr => k _. rewrite !mxE /W !paired_cat.
have M1 (x : 'I_(size i1)) : nth 0%N i1 x \in i1 by apply: mem_nth.
have X (x : 'I_(size i1)) y : y \in i2 -> paired z1 c1 (nth 0%N i1 x) y || paired z2 c2 (nth 0%N i1 x) y = false.
  move=> Hy. by rewrite N2 // orbF pairedC N1.
rewrite !X // !mulr0 !addr0. congr (_ * _ * _); last by apply: sym; apply: leq_trans (leq_subr (der t) _); apply: lt12; rewrite mem12 ?M1 ?Hb ?orbT.
by apply: sym; apply: leq_trans (leq_subr (der t) _); apply: lt12; rewrite mem12 ?M1 ?Ha ?orbT.
Qed.
Hypothesis inv2 : \det (Mmx t1 s z2' c2') != 0.
Lemma inv12 : \det (Mmx t s (z1 ++ z2) (c1 ++ c2)) != 0. Proof. by rewrite det2 mulf_neq0. Qed.
Let V12 := invmx (Mmx t s (z1 ++ z2) (c1 ++ c2)).
Let V2 := invmx (Mmx t1 s z2' c2').
Lemma rows (y : nat -> F) k : (k < size r12)%N ->
  \sum_(j < size r12) Apost t V12 k j * y (nth 0%N r12 j) + bpost t V12 k = \sum_(j < size r12) Apost t1 V2 k j * y (nth 0%N r12 j) + bpost t1 V2 k.
Proof.
move=> Lk. have [v [St Hv]] := stationary_exists ok inv12 y.
have H1 := gradient_rest ok sym inv12 St Lk. rewrite -/r12 -/V12 in H1.
have Lk2 : (k < size r2')%N by rewrite size_r.
have Lr : (nth 0%N r2' k < size r1)%N by have := mem_nth 0%N Lk2; rewrite mem_rest => /andP[].
have H2 := gradient_rest ok2 sym1 inv2 (stat2 St) Lk2. rewrite -/t1 -/r2' -/V2 in H2.
rewrite dquad_post -(gradient_rest ok1 sym inv1 (stat1 St) Lr) -/r1 nth_r // in H2.
have Y j : (j < size r12)%N -> v (nth 0%N r12 j) = y (nth 0%N r12 j) by move=> Lj; rewrite Hv // mem_nth.
transitivity (dquad t v (nth 0%N r12 k)).
  rewrite H1. by congr (_ + _); apply: eq_bigr => j _; rewrite Y.
rewrite H2 size_r. by congr (_ + _); apply: eq_bigr => j _; rewrite nth_r // Y.
Qed.
Lemma same2 : same (post s t (z1 ++ z2) (c1 ++ c2)) (post s t1 z2' c2').
Proof.
have B k : (k < size r12)%N -> bpost t V12 k = bpost t1 V2 k.
  move=> Lk. have := rows (fun=> 0) Lk. by rewrite !big1 ?add0r // => j _; rewrite mulr0.
split=> //.
- by rewrite /= -/i12 -/r12 -size_r.
- move=> i j Li Lj. rewrite /= -/i12 -/r12 in Li Lj. have := rows (fun x => (x == nth 0%N r12 j)%:R) Li. rewrite -(B _ Li) => /addIr.
  have S f : \sum_(k < size r12) f k * (nth 0%N r12 k == nth 0%N r12 j)%:R = f (Ordinal Lj) :> F.
    rewrite (bigD1 (Ordinal Lj)) //= eqxx mulr1 big1 ?addr0 // => k Hk. rewrite nth_uniq ?rest_uniq //.
    have -> : (k == j :> nat) = false by apply/negP => /eqP Q; move/eqP: Hk; apply; apply: val_inj.
    by rewrite mulr0.
  by rewrite !S.
Qed.
Lemma expo2 : (2%:R : F) != 0 -> expo t V12 = expo t (invmx (Mmx t s z1 c1)) + expo t1 V2.
Proof.
move=> T. have [v [St Hv]] := stationary_exists ok inv12 (fun=> 0). rewrite -/i12 -/r12 in Hv. apply: (mulfI T). rewrite [RHS]mulrDr.
rewrite -(exponent ok sym inv12 T St) -(exponent ok1 sym inv1 T (stat1 St)) -(exponent ok2 sym1 inv2 T (stat2 St)).
rewrite -/i12 -/r12 -/i1 -/r1 -/t1 -[rest (dim t1) _]/r2' -/V2 -/V12.
rewrite [X in _ + X = _]big1 ?addr0; last by move=> k _; rewrite Hv ?mulr0 ?mem_nth.
have -> : \sum_(k < size r2') (vec t1 (nth 0%N r2' k) - bpost t1 V2 k) * v (nth 0%N r1 (nth 0%N r2' k)) = 0.
  rewrite big1 // => k _. rewrite nth_r -?size_r // Hv ?mulr0 // mem_nth // -size_r //.
rewrite addr0 (perm_big _ perm12) /= big_cat /= -addrA. congr (_ + _).
rewrite i2'_E big_map.
have -> : \sum_(k < size r1) (vec t (nth 0%N r1 k) - bpost t (invmx (Mmx t s z1 c1)) k) * v (nth 0%N r1 k)
   = \sum_(i <- i2) (vec t i - vec t1 (pos i)) * v i.
  have P : perm_eq (i2 ++ r12) r1.
    apply: uniq_perm; [|exact: rest_uniq|].
      rewrite cat_uniq uniq2 rest_uniq andbT. apply/hasPn => i. rewrite mem_rest mem12 negb_or => /and3P[_ _ ?]. by [].
    move=> i. rewrite mem_cat !mem_rest mem12 negb_or. case: (boolP (i \in i2)) => [H|_] /=; last by rewrite andbT.
    have := i2_r1 H. by rewrite mem_rest => ->.
  transitivity (\sum_(i <- r1) (vec t i - vec t1 (pos i)) * v i).
    rewrite sum_nth. apply: eq_bigr => k _. by rewrite /pos index_uniq ?rest_uniq.
  rewrite -(perm_big _ P) big_cat /= [X in _ + X]big_seq [X in _ + X]big1 ?addr0 // => i Hi. by rewrite Hv ?mulr0.
rewrite -big_split /= !big_seq. apply: eq_bigr => i Hi. by rewrite /pos nth_index ?i2_r1 // -mulrDl subrK.
Qed.
End Twice.

(** ** The theorems about [integral] *)
Section Top.
Variables (tiny : F -> bool) (s : F).
Hypothesis tiny0 : tiny 0.
Lemma has_ge t z c : pairs_ok t z c -> has (fun i => (dim t - der t <= i)%N) (z ++ c) = false.
Proof. case=> _ _ _ L. apply/negP => /hasP[i Hi]. by rewrite leqNgt (L i Hi). Qed.
Lemma integral_ok t z c t' d e : pairs_ok t z c -> integral tiny s t z c = Ok (Done t' d e) -> size (z ++ c) != 0%N ->
  [/\ t' = post s t z c, d = \det (Mmx t s z c), e = expo t (invmx (Mmx t s z c)) & d != 0].
Proof.
move=> P. have [E _ _ _] := P. rewrite /integral E eqxx /= (has_ge P) => H /negbTE N. rewrite N in H.
move: H. case T: (tiny _) => //= -[<- <- <-]. split=> //. by apply/negP => /eqP Q; rewrite Q tiny0 in T.
Qed.
(** C40, one integral. The returned triple and exponent give, for every value of the remaining variables, the stationary value of the integrand's exponent
    (including the measure) in the integrated ones; there is exactly one stationary point; the determinant returned is that of the quadratic form in
    the integrated variables. *)
Theorem C40_integral t z c t' d e : (2%:R : F) != 0 -> symmetric t -> pairs_ok t z c -> integral tiny s t z c = Ok (Done t' d e) ->
  let idx := z ++ c in let r := rest (dim t) idx in
  [/\ dim t' = size r /\ der t' = der t,
      symmetric t',
      forall v, stationary s t z c v -> quad t v + weight s z c v = quad t' (fun k => v (nth 0%N r k)) + e,
      forall y, exists v, [/\ stationary s t z c v, forall k, (k < size r)%N -> v (nth 0%N r k) = y k &
         forall w, stationary s t z c w -> (forall k, (k < size r)%N -> w (nth 0%N r k) = y k) -> forall i, (i < dim t)%N -> w i = v i]
    & d = \det (\matrix_(i < size idx, j < size idx) (mat t (nth 0%N idx i) (nth 0%N idx j) + s * (paired z c (nth 0%N idx i) (nth 0%N idx j))%:R)) /\ d != 0].
Proof.
move=> T Sy P H idx r. have [E U D L] := P. case: (boolP (size (z ++ c) == 0%N)) => N.
- have [Ez Ec] : z = [::] /\ c = [::] by move: N; rewrite size_cat addn_eq0 => /andP[/nilP -> /nilP ->].
  have rE : r = iota 0 (dim t) by rewrite /r /idx /rest Ez Ec; apply/all_filterP/allP.
  move: H. rewrite /integral Ez Ec /= => -[<- <- <-]. have Nr k : (k < dim t)%N -> nth 0%N r k = k by move=> Lk; rewrite rE nth_iota.
  have Q v : quad t (fun k => v (nth 0%N r k)) = quad t v.
    rewrite /quad. have I j : j \in iota 0 (dim t) -> nth 0%N r j = j by rewrite mem_iota leq0n add0n; apply: Nr.
    congr (_ * _ + _); rewrite ![\sum_(i <- _) _]big_seq; apply: eq_bigr => i Hi; last by rewrite I.
    rewrite ![\sum_(i <- _) _]big_seq. by apply: eq_bigr => j Hj; rewrite !I.
  split.
  + by rewrite rE size_iota.
  + exact: Sy.
  + by move=> v _; rewrite Q /weight big_nil mulr0 !addr0.
  + move=> y. exists y. split; [by []| |].
    * by move=> k; rewrite rE size_iota => Lk; rewrite nth_iota.
    * by move=> w _ Hw i Li; move: (Hw i); rewrite rE size_iota nth_iota // => /(_ Li).
  + rewrite oner_neq0; split=> //. by rewrite /idx Ez Ec det_mx00.
- have [-> -> -> D0] := integral_ok P H N. split.
  + by [].
  + move=> i j Li Lj. rewrite /= /Apost. congr (_ - _).
      by apply: Sy; apply: (@rest_lt t z c); apply: mem_nth.
    rewrite exchange_big /=. apply: eq_bigr => k _. apply: eq_bigr => l _.
    have /matrixP/(_ k l) := V_sym s P Sy. rewrite mxE => ->. by rewrite mulrAC [RHS]mulrAC [X in X * _ = _]mulrC.
  + have D1 : \det (Mmx t s z c) != 0 by have [_ Ed _ D1] := integral_ok P H N; rewrite -Ed.
    move=> v St. exact: (value P Sy D1 T St).
  + have D1 : \det (Mmx t s z c) != 0 by have [_ Ed _ D1] := integral_ok P H N; rewrite -Ed.
    move=> y. have [v [St Hv]] := stationary_exists P D1 (fun i => y (index i r)). exists v. split=> //.
      by move=> k Lk; rewrite Hv ?mem_nth // index_uniq ?rest_uniq.
    move=> w Sw Hw. have R i : i \in r -> w i = v i.
      by move=> Hi; rewrite Hv // -{1}(nth_index 0%N Hi) Hw // index_mem.
    have : cv idx w = cv idx v.
      have Rv : cv r w = cv r v by apply/matrixP => k j; rewrite !mxE R // mem_nth.
      by rewrite ((stationary_solve P D1 _).1 St) ((stationary_solve P D1 _).1 Sw) -/idx -/r Rv.
    move=> /matrixP Q i Li. case: (boolP (i \in idx)) => [Hi|Hi]; last by apply: R; rewrite mem_rest Li.
    have Hj : (index i idx < size idx)%N by rewrite index_mem. have := Q (Ordinal Hj) 0. by rewrite !mxE /= nth_index.
  + rewrite D0; split=> //. by rewrite MmxE.
Qed.
(** C40: integrating (z1, c1) and then (z2, c2), whose positions have moved, is integrating all at once *)
Theorem C40_twice t z1 c1 z2 c2 t1 d1 e1 t2 d2 e2 : (2%:R : F) != 0 -> symmetric t -> size z1 = size c1 -> size z2 = size c2 ->
  pairs_ok t (z1 ++ z2) (c1 ++ c2) ->
  let pos i := index i (rest (dim t) (z1 ++ c1)) in
  integral tiny s t z1 c1 = Ok (Done t1 d1 e1) -> integral tiny s t1 (map pos z2) (map pos c2) = Ok (Done t2 d2 e2) -> tiny (d1 * d2) = false ->
  exists t12, integral tiny s t (z1 ++ z2) (c1 ++ c2) = Ok (Done t12 (d1 * d2) (e1 + e2)) /\ same t12 t2.
Proof.
move=> T Sy E1 E2 P pos H1 H2 NT. have P1 : pairs_ok t z1 c1 := ok1 E1 P.
case: (boolP (size (z1 ++ c1) == 0%N)) => N1.
  have [Ez Ec] : z1 = [::] /\ c1 = [::] by move: N1; rewrite size_cat addn_eq0 => /andP[/nilP -> /nilP ->].
  move: H1. rewrite /integral Ez Ec /= => -[X1 X2 X3]. rewrite -X1 -X2 -X3 in H2 NT *. rewrite mul1r add0r.
  have rE : rest (dim t) [::] = iota 0 (dim t) by apply/all_filterP/allP.
  have I i : (i \in (z2 ++ c2)) -> pos i = i.
    move=> Hi. have Li : (i < dim t)%N by case: P => _ _ _ L; apply: leq_trans (leq_subr (der t) _); apply: L; rewrite Ez Ec.
    rewrite /pos Ez Ec rE -[X in index X _](nth_iota 0 0 Li) index_uniq ?iota_uniq ?size_iota //.
  have [M1 M2] : map pos z2 = z2 /\ map pos c2 = c2.
    by split; rewrite -[RHS]map_id; apply/eq_in_map => i Hi; apply: I; rewrite mem_cat Hi ?orbT.
  exists t2. split; last by split. by rewrite /= -H2 M1 M2.
have [Q1 Q2 Q3 Q4] := integral_ok P1 H1 N1. have I1 : \det (Mmx t s z1 c1) != 0 by rewrite -Q2.
case: (boolP (size (z2 ++ c2) == 0%N)) => N2.
  have [Ez Ec] : z2 = [::] /\ c2 = [::] by move: N2; rewrite size_cat addn_eq0 => /andP[/nilP -> /nilP ->].
  move: H2. rewrite /integral Ez Ec /= => -[<- <- <-]. exists t1. rewrite !cats0 mulr1 addr0. split; [exact: H1|by split].
have P2 : pairs_ok t1 (map pos z2) (map pos c2) by rewrite Q1; apply: ok2.
have N2' : size (map pos z2 ++ map pos c2) != 0%N by rewrite -map_cat size_map.
have [R1 R2 R3 R4] := integral_ok P2 H2 N2'. rewrite Q1 in R1 R2 R3.
have I2 : \det (Mmx (post s t z1 c1) s (map pos z2) (map pos c2)) != 0 by rewrite -R2.
have DT := det2 Sy E1 E2 P I1. rewrite -/pos -Q2 -R2 in DT.
have N12 : size ((z1 ++ z2) ++ (c1 ++ c2)) == 0%N = false.
  move/negbTE: N1. rewrite !size_cat !addn_eq0 -E1 andbb => ->. by [].
rewrite /integral (has_ge P) N12 DT NT. have [-> _ _ _] := P. rewrite eqxx /=.
eexists; split; last first.
  rewrite R1. exact: (same2 Sy E1 E2 P I1 I2).
by rewrite Q3 R3 (expo2 Sy E1 E2 P I1 I2 T).
Qed.
(** C40: when the call fails, and when infinities are returned *)
Theorem C40_errors t z c : size z <> size c \/ (exists i, i \in z ++ c /\ (dim t - der t <= i)%N) -> integral tiny s t z c = Err ValueError.
Proof.
rewrite /integral => H. case: eqP => //= E. case: H => [//|[i [Hi L]]]. have -> : has (fun i => (dim t - der t <= i)%N) (z ++ c) by apply/hasP; exists i. by [].
Qed.
Theorem C40_total t z c : pairs_ok t z c -> (exists t' d e, integral tiny s t z c = Ok (Done t' d e)) \/
  (integral tiny s t z c = Ok (Infinite (dim t - size (z ++ c))) /\ tiny (\det (\matrix_(i < size (z ++ c), j < size (z ++ c))
     (mat t (nth 0%N (z ++ c) i) (nth 0%N (z ++ c) j) + s * (paired z c (nth 0%N (z ++ c) i) (nth 0%N (z ++ c) j))%:R)))).
Proof.
move=> P. have [E U D L] := P. rewrite /integral E eqxx /= (has_ge P). case: eqP => N; first by left; do 3 eexists.
case Q: (tiny _); [right|left; by do 3 eexists]. split.
  do 2 f_equal. have /perm_size := rest_perm U (fun i Hi => idx_lt P Hi). rewrite size_iota [LHS]size_cat => Q'. by rewrite -[in RHS]Q' addKn.
move: Q. rewrite (MmxE _ _ E U). by congr (is_true (tiny (\det _))).
Qed.
End Top.
End Field.

(** ** Example: four variables over the rationals, coupled 0-2 by 1 and 1-3 by 1/2, with a linear term; integrating the pair (0, 1) and then
    the pair (2, 3), which has moved to positions 0 and 1. All hypotheses of C40_integral and C40_twice hold. *)
Section Example.
Let m4 (i j : nat) : rat :=
  if ((i == 0) && (j == 2) || (i == 2) && (j == 0))%N then 1 else if ((i == 1) && (j == 3) || (i == 3) && (j == 1))%N then 2%:R^-1 else 0.
Definition t4 : triple rat_fieldType := Triple 4 0 m4 (fun i => i%:R).
Let tiny0 (d : rat) := d == 0.
Lemma det_2 (M : 'M[rat]_2) : \det M = M 0 0 * M 1 1 - M 0 1 * M 1 0.
Proof.
rewrite (expand_det_row M 0) !big_ord_recl big_ord0 /cofactor !det_mx11 !mxE /= addr0 expr0 mul1r.
have -> : lift (0 : 'I_2) (0 : 'I_1) = 1 by apply: val_inj. have -> : lift (1 : 'I_2) (0 : 'I_1) = 0 by apply: val_inj.
by rewrite expr1 mulN1r mulrN.
Qed.
Lemma C40_example : exists t1 d1 e1 t2 d2 e2,
  [/\ symmetric t4 /\ pairs_ok t4 [:: 0; 2]%N [:: 1; 3]%N,
      integral tiny0 (-1) t4 [:: 0]%N [:: 1]%N = Ok (Done t1 d1 e1) /\ d1 = -1,
      integral tiny0 (-1) t1 [:: 0]%N [:: 1]%N = Ok (Done t2 d2 e2) /\ d2 = - (4%:R)^-1 &
      map (index^~ (rest 4 [:: 0; 1]%N)) [:: 2]%N = [:: 0]%N /\ map (index^~ (rest 4 [:: 0; 1]%N)) [:: 3]%N = [:: 1]%N].
Proof.
have M1 : Mmx t4 (-1) [:: 0]%N [:: 1]%N = \matrix_(i < 2, j < 2) (if i == j then 0 else -1).
  by apply/matrixP => -[[|[|i]] Hi] // [[|[|j]] Hj] //; rewrite !mxE.
have D1 : \det (Mmx t4 (-1) [:: 0]%N [:: 1]%N) = -1 by rewrite M1 det_2 !mxE.
have V1 : invmx (Mmx t4 (-1) [:: 0]%N [:: 1]%N) = \matrix_(i < 2, j < 2) (if i == j then 0 else -1).
  set M := Mmx _ _ _ _. have U : M \in unitmx by rewrite unitmxE D1.
  apply: (can_inj (mulKmx U)). rewrite mulmxV // /M M1. by apply/matrixP => -[[|[|i]] Hi] // [[|[|j]] Hj] //; rewrite !mxE !big_ord_recl big_ord0 !mxE.
have E1 : integral tiny0 (-1) t4 [:: 0]%N [:: 1]%N =
    Ok (Done (Triple 2 0 (Apost t4 (invmx (Mmx t4 (-1) [:: 0]%N [:: 1]%N))) (bpost t4 (invmx (Mmx t4 (-1) [:: 0]%N [:: 1]%N)))) (-1)
             (expo t4 (invmx (Mmx t4 (-1) [:: 0]%N [:: 1]%N)))).
  by rewrite /integral /= /tiny0 D1.
set t1 := Triple 2 0 _ _ in E1.
have D2 : \det (Mmx t1 (-1) [:: 0]%N [:: 1]%N) = - (4%:R)^-1.
  have -> : Mmx t1 (-1) [:: 0]%N [:: 1]%N = \matrix_(i < 2, j < 2) (if i == j then 0 else - 2%:R^-1).
    apply/matrixP => -[[|[|i]] Hi] // [[|[|j]] Hj] //; rewrite !mxE /= /Apost /= !big_ord_recl !big_ord0 /= V1 !mxE; exact/eqP.
  by rewrite det_2 !mxE.
eexists t1, _, _, _, _, _. split.
- split; first by move=> [|[|[|[|i]]]] [|[|[|[|j]]]].
  by split=> // -[|[|[|[|i]]]].
- by rewrite E1.
- rewrite /integral /= /tiny0 D2. by split; first reflexivity.
- by [].
Qed.
End Example.
