(** Pure Gaussian states: the named states are the named gates applied to the vacuum, circuits of Gaussian unitaries keep the norm of the vacuum, and a ket and its density matrix have the same probability.  Claim C59.
    Model of mrmustard/physics/triples.py:63-276 (vacuum, coherent, squeezed, displaced squeezed, two-mode squeezed and gket states), of 'ket >> unitary' (circuit_components.py:790-811, ket.py:541-586) and of
    State.L2_norm (states/base.py:140-158), Ket.probability (ket.py:90-108), Ket.dm (ket.py:229-242), DM.probability (dm.py:101-110) and DM.purity (dm.py:112-124).  One batch element, no derived variables, exact arithmetic. *)
From Coq Require Import Reals Lra.
From Coquelicot Require Import Complex.
From mathcomp Require Import all_ssreflect all_algebra.
From Verif Require Import CMat Optimizer GateSym BargSym CExp Compose GateTriples ChanAlg ChanHat PosDef Channels.
Require Verif.Base.
Set Implicit Arguments. Unset Strict Implicit. Unset Printing Implicit Defensive.
Import GRing.Theory.
Local Open Scope ring_scope.
Local Arguments Re : simpl never.

(** the triple of a ket on n modes *)
Record ket n := Ket { kA : 'M[C]_n; kb : 'cV[C]_n; kc : C }.
Arguments Ket {n}.
Definition k2g n (k : ket n) : gtri n 0 := GTri (block_mx (kA k) 0 0 0) (col_mx (kb k) 0) (kc k).
Definition g2k n (t : gtri n 0) : ket n := Ket (ulsubmx (gA t)) (usubmx (gb t)) (gc t).
(** the dual: conjugated, outputs become inputs (circuit_components.py:113-135) *)
Definition kdual n (k : ket n) : gtri 0 n := GTri (block_mx 0 0 0 (conj (kA k))) (col_mx 0 (conj (kb k))) (Cconj (kc k)).
(** ket >> unitary (ket.py:541-586): the outputs of the ket with the inputs of the unitary; None: below the threshold, every entry infinite *)
Definition kthen n (k : ket n) (t : triple n) : option (ket n) := omap (@g2k n) (gthen (k2g k) (of_triple t)).
(** ket1 >> ket2.dual: the inner product <ket2|ket1> *)
Definition inner n (k1 k2 : ket n) : option C := omap (@gc 0 0) (gthen (k2g k1) (kdual k2)).
(** states/base.py:140-158 and ket.py:90-108; None: infinite *)
Definition probability n (k : ket n) : option R := omap Re (inner k k).
(** ket.py:229-242: contract with the adjoint, no common wires; variables (bra, ket) *)
Definition dm n (k : ket n) : stri n := STri (block_mx (conj (kA k)) 0 0 (kA k)) (col_mx (conj (kb k)) (kb k)) (Cconj (kc k) * kc k).
(** dm.py:101-110 *)
Definition dm_probability n (s : stri n) : option R := omap (fun r => Re r.2) (gtrace (st2g s)).
(** states/base.py:157: rho >> rho.dual; the dual of a density matrix has its output wires as inputs and is conjugated *)
Definition dm_dual n (s : stri n) : gtri 0 (n + n) := GTri (block_mx 0 0 0 (conj (sA s))) (col_mx 0 (conj (sb s))) (Cconj (sc s)).
Definition dm_L2_norm n (s : stri n) : option R := omap (fun t => Re (gc t)) (gthen (st2g s) (dm_dual s)).
(** dm.py:112-124 *)
Definition dm_purity n (s : stri n) : option R :=
  match dm_L2_norm s, dm_probability s with Some l, Some p => Some (Rdiv l (Rmult p p)) | _, _ => None end.

(** triples.py:63-79 *)
Definition vacuum_state n : ket n := Ket 0 0 1.
(** triples.py:104-124 *)
Definition coherent_state (al : C) : ket 1 := Ket 0 al%:M (RtoC (exp (Ropp (Rdiv (Rmult (Cmod al) (Cmod al)) (IZR 2))))).
(** triples.py:127-151 *)
Definition squeezed_vacuum_state (r phi : R) : ket 1 := Ket (- RtoC (sinh r) / RtoC (cosh r) * eit phi)%:M 0 (1 / RtoC (sqrt (cosh r))).
(** triples.py:154-192 *)
Definition displaced_squeezed_vacuum_state (al : C) (r phi : R) : ket 1 :=
  let x := RtoC (Re al) in let y := RtoC (Im al) in
  Ket (- RtoC (sinh r) / RtoC (cosh r) * eit phi)%:M ((x + Ci * y) + (x - Ci * y) * RtoC (sinh r) / RtoC (cosh r) * eit phi)%:M
      (Cexp (- half * (x ^+ 2 + y ^+ 2) - half * (x - Ci * y) ^+ 2 * RtoC (sinh r) / RtoC (cosh r) * eit phi) / RtoC (sqrt (cosh r))).
(** triples.py:195-225 *)
Definition two_mode_squeezed_vacuum_state (r phi : R) : ket 2 :=
  let tanhr := eit phi * RtoC (sinh r) / RtoC (cosh r) in Ket (mx2 0 tanhr tanhr 0) 0 (1 / RtoC (cosh r)).
(** triples.py:228-250 *)
Definition gket_state n (S : 'M[C]_(n + n)) : Base.result (ket n) :=
  Base.bind (symplectic2Au S) (fun Au => let V := drsubmx Au in
  Base.Ok (Ket (ulsubmx Au) 0 (csqrt (csqrt ((-1) ^+ n * \det (V *m conj V - 1%:M)))))).

(** ** values of the contractions *)
Lemma kthen_val n (A : 'M[C]_n) b c (T W V : 'M[C]_n) o i c2 (K : 'M[C]_n) :
  A^T = A -> V^T = V -> (1%:M - A *m V) *m K = 1%:M -> Rlt threshold (Cmod (\det (1%:M - A *m V))) ->
  kthen (Ket A b c) (Tri (block_mx T W W^T V) (col_mx o i) c2) =
  Some (Ket (T + W *m A *m K^T *m W^T) (o + W *m (K *m b + A *m K^T *m i)) (c * c2 * csqrt (\det (1%:M - A *m V))^-1 * Cexp (half * gQ A V K b i))).
Proof.
move=> sA sV HK Ht. rewrite /kthen /k2g /of_triple /=.
have -> : block_mx A 0 0 0 = block_mx A (0 : 'M[C]_(n, 0)) (0 : 'M[C]_(n, 0))^T 0 by rewrite trmx0.
rewrite (gthen_val 0 0 T W sA sV HK b i 0 o c c2 Ht) /= /g2k /=. by rewrite block_mxKul col_mxKu.
Qed.
Lemma kthen_none n (A : 'M[C]_n) b c (T W V : 'M[C]_n) o i c2 :
  ~ Rlt threshold (Cmod (\det (1%:M - A *m V))) -> kthen (Ket A b c) (Tri (block_mx T W W^T V) (col_mx o i) c2) = None.
Proof.
move=> H. rewrite /kthen /k2g /of_triple /gthen /= block_mxKul block_mxKdr. case: Rlt_dec => // H'. case: H. by rewrite -threshold_det.
Qed.
Lemma inner_val n (A1 A2 : 'M[C]_n) b1 b2 c1 c2 (K : 'M[C]_n) :
  A1^T = A1 -> A2^T = A2 -> (1%:M - A1 *m conj A2) *m K = 1%:M -> Rlt threshold (Cmod (\det (1%:M - A1 *m conj A2))) ->
  inner (Ket A1 b1 c1) (Ket A2 b2 c2) = Some (c1 * Cconj c2 * csqrt (\det (1%:M - A1 *m conj A2))^-1 * Cexp (half * gQ A1 (conj A2) K b1 (conj b2))).
Proof.
move=> s1 s2 HK Ht. rewrite /inner /k2g /kdual /=.
have -> : block_mx A1 0 0 0 = block_mx A1 (0 : 'M[C]_(n, 0)) (0 : 'M[C]_(n, 0))^T 0 by rewrite trmx0.
have -> : block_mx 0 0 0 (conj A2) = block_mx 0 (0 : 'M[C]_(0, n)) (0 : 'M[C]_(0, n))^T (conj A2) by rewrite trmx0.
have s2' : (conj A2)^T = conj A2 by rewrite -conj_tr s2.
by rewrite (gthen_val 0 0 0 0 s1 s2' HK b1 (conj b2) 0 0 c1 (Cconj c2) Ht).
Qed.
Lemma inner_none n (A1 A2 : 'M[C]_n) b1 b2 c1 c2 : ~ Rlt threshold (Cmod (\det (1%:M - A1 *m conj A2))) -> inner (Ket A1 b1 c1) (Ket A2 b2 c2) = None.
Proof.
move=> H. rewrite /inner /k2g /kdual /gthen /= block_mxKul block_mxKdr. case: Rlt_dec => // H'. case: H. by rewrite -threshold_det.
Qed.
Lemma thr_unit n (M : 'M[C]_n) : Rlt threshold (Cmod (\det M)) -> M \in unitmx.
Proof.
move=> H. rewrite unitmxE unitfE. apply/eqP => E. move: H. rewrite E C0E Cmod_0 => H.
have : Rlt R0 threshold by rewrite /threshold; apply: Rinv_0_lt_compat; apply: pow_lt; lra. lra.
Qed.
Lemma sym_blocks n (t : triple n) : (tA t)^T = tA t -> exists T W V o i, t = Tri (block_mx T W W^T V) (col_mx o i) (tc t) /\ T^T = T /\ V^T = V.
Proof.
case: t => A b c /=. rewrite -(submxK A) -(vsubmxK b). move: (ulsubmx A) (ursubmx A) (dlsubmx A) (drsubmx A) (usubmx b) (dsubmx b) => T W W' V o i.
rewrite tr_block_mx => /eq_block_mx [sT _ <- sV]. by exists T, W, V, o, i.
Qed.

(** ** C59: vacuum >> t is the output part of t, for every triple with symmetric A *)
Theorem C59_vacuum n (t : triple n) : (tA t)^T = tA t -> kthen (vacuum_state n) t = Some (Ket (ulsubmx (tA t)) (usubmx (tb t)) (tc t)).
Proof.
move=> /sym_blocks [T [W [V [o [i [E [sT sV]]]]]]]. rewrite E. move: (tc t) => c /= {E}.
have d1 : \det (1%:M - 0 *m V) = 1 by rewrite mul0mx subr0 det1.
have Ht : Rlt threshold (Cmod (\det (1%:M - 0 *m V))) by rewrite d1 C1E Cmod_1; exact: thr_lt1.
have HK : (1%:M - 0 *m V) *m 1%:M = 1%:M by rewrite mul0mx subr0 mulmx1.
rewrite (kthen_val 0 1 T W o i c (trmx0 _ _ _) sV HK Ht).
rewrite d1 invr1 csqrt1 mulr1 mul1r /gQ ?(mulmx0, mul0mx, addr0, add0r, trmx0) block_mxKul col_mxKu mxE mulr0 C0E Cexp_0 mulr1. by []. 
Qed.

(** vacuum >> t1 >> t2 is vacuum >> (t1 >> t2): both infinite, or both finite and equal *)
Theorem C59_two n (t1 t2 : triple n) : unitary_triple t1 -> unitary_triple t2 ->
  obind (fun k => kthen k t2) (kthen (vacuum_state n) t1) = obind (kthen (vacuum_state n)) (then_ t1 t2).
Proof.
move=> u1 u2. have [k1 _] := u1. have [k2 _] := u2. rewrite (C59_vacuum (proj1 k1)) /=.
have C := @C53 n t1 t2 u1 u2. move: C.
case: (triple_blocks k1) => T1 [W1 [V1 [o1 [i1 E1]]]]. case: (triple_blocks k2) => T2 [W2 [V2 [o2 [i2 E2]]]].
move: (tc t1) (tc t2) E1 E2 => c1 c2 E1 E2. subst t1 t2. rewrite /detM /= in k1 k2 *. rewrite block_mxKul block_mxKdr col_mxKu => C.
have [sT1 _ _ _] : [/\ T1^T = T1, W1^T = W1^T, True & V1^T = V1].
  move: (proj1 k1). rewrite tr_block_mx => /eq_block_mx [? _ _ ?]. by split.
have [_ _ _ sV2] : [/\ T2^T = T2, W2^T = W2^T, True & V2^T = V2].
  move: (proj1 k2). rewrite tr_block_mx => /eq_block_mx [? _ _ ?]. by split.
case: (Rlt_dec threshold (Cmod (\det (1%:M - T1 *m V2)))) => Ht.
- have [t [_ [_ [E [[kt _] _]]]]] := C Ht. rewrite E /= (C59_vacuum (proj1 kt)).
  move: E. rewrite (then_val k1 k2 o1 i1 o2 i2 c1 c2 Ht) => E. case: E => <- /=. rewrite block_mxKul col_mxKu.
  have HK : (1%:M - T1 *m V2) *m K T1 V2 = 1%:M by apply: mulmxV; exact: thr_unit.
  rewrite (kthen_val o1 c1 T2 W2 o2 i2 c2 sT1 sV2 HK Ht) /gQ (KT k1 k2). by [].
- rewrite (kthen_none _ _ _ _ _ _ _ Ht) /then_ /= block_mxKul block_mxKdr. case: Rlt_dec => // H'. case: Ht. by rewrite -threshold_det.
Qed.
(** the circuit vacuum >> t1 >> ... >> tk *)
Definition circuit n (ts : seq (triple n)) : option (ket n) := foldl (fun k t => obind (fun k => kthen k t) k) (Some (vacuum_state n)) ts.
(** every circuit of Gaussian unitaries on the vacuum whose contractions are finite is vacuum >> u for one Gaussian unitary u *)
Theorem C59_circuit n (ts : seq (triple n)) k : (forall t, List.In t ts -> unitary_triple t) -> circuit ts = Some k ->
  exists u, unitary_triple u /\ kthen (vacuum_state n) u = Some k.
Proof.
rewrite /circuit. elim/last_ind: ts k => [|ts t IH] k H /=.
- move=> [<-]. exists (identity n). split; first exact: identity_unitary. 
  by rewrite C59_vacuum /=; [rewrite /X block_mxKul usub0|case: (identity_unitary n) => -[]].
- rewrite foldl_rcons. case E: (foldl _ _ _) => [k'|] //= E2.
  have Hin x : List.In x ts -> List.In x (rcons ts t).
    elim: (ts) => [|y s IHs] //= [->|Hx]; [by left|right; exact: IHs].
  have Hl : List.In t (rcons ts t) by elim: (ts) => [|y s IHs] /=; [left|right].
  have [u [uu Eu]] := IH k' (fun x Hx => H x (Hin x Hx)) E. have ut := H t Hl.
  have := C59_two uu ut. rewrite Eu /= E2. case E3: (then_ u t) => [v|] //= E4. exists v. split=> //.
  case: (Rlt_dec threshold (detM u t)) => Ht.
  + have [v' [_ [_ [E5 [uv _]]]]] := C53 uu ut Ht. move: E5. by rewrite E3 => -[->].
  + exfalso. move: E3. case: (uu) => k1 _. case: (ut) => k2 _.
    case: (triple_blocks k1) => T1 [W1 [V1 [o1 [i1 E1]]]]. case: (triple_blocks k2) => T2 [W2 [V2 [o2 [i2 E2']]]].
    move: (tc u) (tc t) E1 E2' => c1 c2 E1 E2'. move: Ht. rewrite E1 E2' /detM /= block_mxKul block_mxKdr => Ht.
    rewrite /then_ /= block_mxKul block_mxKdr. case: Rlt_dec => // H'. case: Ht. by rewrite -threshold_det.
Qed.
(** C59, norm: a Gaussian unitary applied to the vacuum has probability 1, above the threshold *)
Theorem C59_norm n (t : triple n) k : unitary_triple t -> kthen (vacuum_state n) t = Some k ->
  (probability k = Some R1 /\ Rlt threshold (Cmod (\det (1%:M - kA k *m conj (kA k))))) \/
  (probability k = None /\ Rle (Cmod (\det (1%:M - kA k *m conj (kA k)))) threshold).
Proof.
case=> kt [r m]. rewrite (C59_vacuum (proj1 kt)) => -[<-] /=.
case: (triple_blocks kt) => T [W [V [o [i E]]]]. move: (tc t) E m => c E. subst t. move: kt r. rewrite /= block_mxKur block_mxKul col_mxKu col_mxKd.
move=> kt /rel_b r m.
have [sT _] : T^T = T /\ True by move: (proj1 kt); rewrite tr_block_mx => /eq_block_mx [? _ _ _].
case: (Rlt_dec threshold (Cmod (\det (1%:M - T *m conj T)))) => Ht; [left|right].
- split=> //. have HK : (1%:M - T *m conj T) *m K T (conj T) = 1%:M by apply: mulmxV; exact: thr_unit.
  rewrite /probability. have -> : inner (Ket T o c) (Ket T o c) = Some 1; last by rewrite C1E.
  rewrite (inner_val o o c c sT sT HK Ht). congr Some. rewrite -[RHS](inv_c kt r m) /Compose.cc /Compose.Q /gQ (KT kt (dual_kernel kt)). by [].
- split; last exact: Rnot_lt_le. by rewrite /probability (inner_none _ _ _ _ Ht).
Qed.
(** every circuit of Gaussian unitaries on the vacuum has probability 1 *)
Theorem C59_circuit_norm n (ts : seq (triple n)) k : (forall t, List.In t ts -> unitary_triple t) -> circuit ts = Some k ->
  Rlt threshold (Cmod (\det (1%:M - kA k *m conj (kA k)))) -> probability k = Some R1.
Proof.
move=> H E Ht. have [u [uu Eu]] := C59_circuit H E. case: (C59_norm uu Eu) => -[] // _ Hl. exfalso. move: Hl Ht. move: (Cmod _) => x. lra.
Qed.

(** ** the named states *)
Lemma kerT n (t : triple n) : unitary_triple t -> (tA t)^T = tA t. Proof. by case=> -[]. Qed.
Lemma tanhE r : RtoC (Rdiv (sinh r) (cosh r)) = RtoC (sinh r) / RtoC (cosh r).
Proof. rewrite /Rdiv RtoC_mult RtoC_inv //. have := cosh_pos r. lra. Qed.
Lemma inv1E (x : R) : Rlt R0 x -> RtoC (Rinv x) = 1 / RtoC x.
Proof. move=> H. rewrite mul1r CinvE RtoC_inv //. lra. Qed.
Lemma sqrt_cosh r : Rlt R0 (sqrt (cosh r)). Proof. exact: sqrt_lt_R0 (cosh_pos r). Qed.
Theorem C59_coherent al : kthen (vacuum_state 1) (displacement_gate al) = Some (coherent_state al).
Proof. 
rewrite C59_vacuum; last by apply: kerT; rewrite displacementE; exact: displacement_unitary.
by rewrite /displacement_gate /= block_mxKul col_mxKu.
Qed.
Theorem C59_squeezed r phi : kthen (vacuum_state 1) (squeezing_gate r phi) = Some (squeezed_vacuum_state r phi).
Proof.
rewrite C59_vacuum; last exact: kerT (squeezing_unitary r phi). rewrite /squeezing_gate /squeezed_vacuum_state /= block_mxKul usub0.
congr (Some (Ket _%:M _ _)); last exact: inv1E (sqrt_cosh r). by rewrite tanhE mulNr mulrC mulNr mulNr.
Qed.
Theorem C59_two_mode r phi : kthen (vacuum_state 2) (twomode_squeezing_gate r phi) = Some (two_mode_squeezed_vacuum_state r phi).
Proof.
rewrite C59_vacuum; last exact: kerT (twomode_unitary r phi). rewrite /twomode_squeezing_gate /two_mode_squeezed_vacuum_state /= block_mxKul usub0.
congr (Some (Ket _ _ _)). exact: inv1E (cosh_pos r).
Qed.
Theorem C59_gket n (S : 'M[C]_(n + n)) : real S -> symplectic S ->
  exists t k, from_symplectic S = Base.Ok t /\ gket_state S = Base.Ok k /\ kthen (vacuum_state n) t = Some k.
Proof.
move=> HR HS. have [t [E [u _]]] := from_symplectic_unitary HR HS. move: E. rewrite /from_symplectic /gket_state. case: (symplectic2Au S) => [A|e] //= [E].
eexists; eexists; split; first reflexivity. split; first reflexivity. subst t. rewrite C59_vacuum /=; last exact: kerT u. by rewrite usub0.
Qed.
Lemma eqRI (a : C) : RtoC (Re a) + Ci * RtoC (Im a) = a /\ RtoC (Re a) - Ci * RtoC (Im a) = Cconj a.
Proof.
case: a => x y. split; rewrite ?CoppE CaddE CmulE /Ci /Cplus /Cmult /Copp /Cconj /RtoC /Re /=; congr pair; ring.
Qed.
Lemma ds_b (s i e a : C) : - s * i * e * - a = a * s * i * e.
Proof. rewrite !CmulE !CoppE. change (Cmult (Cmult (Cmult (Copp s) i) e) (Copp a) = Cmult (Cmult (Cmult a s) i) e). ring. Qed.
Lemma ds_c (s i e a : C) : - a * (- s * i * e * - a) = - (a ^+ 2 * s * i * e).
Proof. rewrite ds_b mulNr expr2 !mulrA. by []. Qed.
Theorem C59_displaced_squeezed al r phi :
  obind (fun k => kthen k (displacement_gate al)) (kthen (vacuum_state 1) (squeezing_gate r phi)) = Some (displaced_squeezed_vacuum_state al r phi).
Proof.
rewrite C59_squeezed /= /squeezed_vacuum_state /displaced_squeezed_vacuum_state.
have [E1 E2] := eqRI al. rewrite E1 E2 /displacement_gate.
have -> : block_mx 0 1%:M 1%:M 0 = block_mx 0 1%:M (1%:M)^T 0 :> 'M[C]_(1 + 1) by rewrite trmx1.
set z := _ / _ * eit phi. have d1 : \det (1%:M - z%:M *m (0 : 'M[C]_1)) = 1 by rewrite mulmx0 subr0 det1.
have HK : (1%:M - z%:M *m (0 : 'M[C]_1)) *m 1%:M = 1%:M by rewrite mulmx0 subr0 mulmx1.
have Ht : Rlt threshold (Cmod (\det (1%:M - z%:M *m (0 : 'M[C]_1)))) by rewrite d1 C1E Cmod_1; exact: thr_lt1.
rewrite (kthen_val _ _ _ _ _ _ _ _ _ HK Ht) ?tr_scalar_mx ?trmx0 //. rewrite d1 invr1 csqrt1 mulr1 ?(mul1mx, trmx1, mulmx1) /gQ.
congr (Some (Ket _ _ _)).
- by rewrite add0r.
- rewrite ?(mulmx0, add0r) -scalar_mxM -raddfD /=. congr (_ + _)%:M. by rewrite /z ds_b.
- rewrite ?(mulmx0, mul0mx, add0r, trmx0) tr_scalar_mx trmx1 mulmx1 -!scalar_mxM mxE /= mulr1n /z ds_c.
  have -> : - half * (RtoC (Re al) ^+ 2 + RtoC (Im al) ^+ 2) = RtoC (Ropp (Rdiv (Rmult (Cmod al) (Cmod al)) (IZR 2))).
    rewrite (Cmod2 al) !expr2 !CmulE CoppE CaddE -!RtoC_mult -RtoC_plus /half -RtoC_opp -!RtoC_mult. congr RtoC. rewrite /Re /Im. field.
  rewrite -Cexp_R mul1r mulrN CaddE Cexp_add -CmulE. rewrite -[X in X = _]mulrA [X in X = _]mulrC !mulrA. by [].
Qed.

(** ** a ket and its density matrix *)
Lemma X_inv n (M : 'M[C]_(n + n)) : M \in unitmx -> invmx (X n *m M *m X n) = X n *m invmx M *m X n.
Proof.
move=> U. have XX : X n *m X n = 1%:M by rewrite /X mulmx_block !mul0mx !mulmx0 !mulmx1 !addr0 !add0r -scalar_mx_block.
have H : (X n *m M *m X n) *m (X n *m invmx M *m X n) = 1%:M.
  have -> : (X n *m M *m X n) *m (X n *m invmx M *m X n) = X n *m (M *m (X n *m X n) *m invmx M) *m X n by rewrite !mulmxA.
  by rewrite XX mulmx1 mulmxV // mulmx1.
have UH : X n *m M *m X n \in unitmx by case/mulmx1_unit: H. by rewrite -[RHS](mulKmx UH) H mulmx1.
Qed.
(** C59: the probability of a ket is the trace of its density matrix, for every triple (both infinite, or both finite and equal) *)
Theorem C59_dm_probability n (k : ket n) : dm_probability (dm k) = probability k.
Proof.
case: k => A b c. rewrite /dm_probability /probability /inner /gtrace /gthen /dm /st2g /k2g /kdual /= !block_mxKul !block_mxKdr !col_mxKu !col_mxKd.
set M := block_mx A (- 1%:M) (- 1%:M) (conj A).
have XX : X n *m X n = 1%:M by rewrite /X mulmx_block !mul0mx !mulmx0 !mulmx1 !addr0 !add0r -scalar_mx_block.
have XT : (X n)^T = X n by rewrite /X tr_block_mx !trmx0 trmx1.
have EM : block_mx (conj A) 0 0 A - X n = X n *m M *m X n.
  by rewrite /X /M !mulmx_block ?(mul0mx, mul1mx, mulmx0, mulmx1, addr0, add0r) opp_block_mx add_block_mx ?(add0r, addr0, oppr0).
have Eb : col_mx (conj b) b = X n *m col_mx b (conj b) by rewrite /X mul_block_col !mul0mx !mul1mx addr0 add0r.
have dX : \det (X n) * \det (X n) = 1 by rewrite -det_mulmx XX det1.
have Ed : \det (X n *m M *m X n) = \det M by rewrite !det_mulmx mulrC mulrA dX mul1r.
rewrite EM Eb Ed. case: Rlt_dec => //= H. congr Some.
rewrite (X_inv (thr_unit H)) trmx_mul XT.
have -> : (col_mx b (conj b))^T *m X n *m (X n *m invmx M *m X n) *m (X n *m col_mx b (conj b)) = (col_mx b (conj b))^T *m (X n *m X n) *m invmx M *m (X n *m X n) *m col_mx b (conj b) by rewrite !mulmxA.
by rewrite XX !mulmx1 [Cconj c * c]mulrC.
Qed.

Section Pure.
Variables (n : nat) (A : 'M[C]_n) (b : 'cV[C]_n) (c : C).
Hypothesis sA : A^T = A.
Let D := 1%:M - A *m conj A.
Let sA' : (conj A)^T = conj A. Proof. by rewrite -conj_tr sA. Qed.
Lemma D_real : Cconj (\det D) = \det D.
Proof. rewrite -det_map_mx -det_tr /D map_mxB map_mx1 conj_mul conjmxK linearB /= trmx1 trmx_mul sA sA'. by []. Qed.
Lemma D_re : exists d, \det D = RtoC d.
Proof. have := D_real. case: (\det D) => x y [] E. exists x. rewrite /RtoC. congr pair. lra. Qed.
Hypothesis Ht : Rlt threshold (Cmod (\det D)).
Let K := invmx D.
Let HK : D *m K = 1%:M. Proof. exact: mulmxV (thr_unit Ht). Qed.
Let KT : K^T = conj K.
Proof. rewrite /K trmx_inv conj_inv /D linearB /= trmx1 trmx_mul sA sA' map_mxB map_mx1 conj_mul conjmxK. by []. Qed.
Lemma gQ_real : exists g, gQ A (conj A) K b (conj b) = RtoC (Rmult (IZR 2) g).
Proof.
rewrite /gQ KT. set y := b^T *m _. have -> : (conj b)^T *m (K *m b + A *m conj K *m conj b) = conj y.
  by rewrite /y conj_mul map_mxD !conj_mul !conjmxK conj_tr addrC.
exists (Re (y 0 0)). rewrite !mxE. move: (\sum_j _) => z. case: z => u v. rewrite CaddE /Cplus /Cconj /RtoC /Re /=. congr pair; ring.
Qed.
Lemma half2 (g : R) : half * RtoC (Rmult (IZR 2) g) = RtoC g.
Proof. rewrite /half CmulE -RtoC_mult. congr RtoC. field. Qed.
Lemma prob_val d g : \det D = RtoC d -> gQ A (conj A) K b (conj b) = RtoC (Rmult (IZR 2) g) ->
  probability (Ket A b c) = Some (if Rlt_dec R0 d then Rmult (Rmult (Rmult (Cmod c) (Cmod c)) (sqrt (Rinv d))) (exp g) else R0).
Proof.
move=> Ed Eg. have Ei := inner_val b b c c sA sA HK Ht. rewrite -/D Ed Eg half2 mulconj Cexp_R in Ei. rewrite /probability Ei /=. congr Some.
have d0 : d <> R0. { move=> E. move: Ht. rewrite Ed E Cmod_0 => H. have : Rlt R0 threshold by rewrite /threshold; apply: Rinv_0_lt_compat; apply: pow_lt; lra. lra. }
case: Rlt_dec => Hd.
- have -> : (RtoC d)^-1 = RtoC (Rinv d) by rewrite CinvE RtoC_inv. rewrite csqrt_R; last by apply/Rlt_le/Rinv_0_lt_compat. by rewrite !CmulE -!RtoC_mult.
- have dn : Rlt d R0 by lra. have -> : (RtoC d)^-1 = RtoC (Rinv d) by rewrite CinvE RtoC_inv. rewrite csqrt_neg; last exact: Rinv_lt_0_compat.
  rewrite !CmulE /Cmult /RtoC /Re /=. ring.
Qed.
Let AA : 'M[C]_(n + n) := block_mx (conj A) 0 0 A.
Lemma dmD : 1%:M - AA *m conj AA = block_mx (conj D) 0 0 D.
Proof.
by rewrite /AA map_block_mx !map_mx0 conjmxK mulmx_block ?(mul0mx, mulmx0, addr0, add0r) scalar_mx_block opp_block_mx add_block_mx ?(oppr0, addr0) /D map_mxB map_mx1 conj_mul conjmxK.
Qed.
Lemma dmD_det d : \det D = RtoC d -> \det (1%:M - AA *m conj AA) = RtoC (Rmult d d).
Proof. move=> E. by rewrite dmD det_ublock det_map_mx E /= conjR CmulE RtoC_mult. Qed.
Lemma L2_val d g : \det D = RtoC d -> gQ A (conj A) K b (conj b) = RtoC (Rmult (IZR 2) g) -> Rlt threshold (Rmult d d) ->
  dm_L2_norm (dm (Ket A b c)) = Some (Rmult (Rmult (pow (Cmod c) 4) (Rinv (Rabs d))) (exp (Rmult (IZR 2) g))).
Proof.
move=> Ed Eg H2. rewrite /dm_L2_norm /dm /st2g /dm_dual /= -/AA.
have sAA : AA^T = AA by rewrite /AA tr_block_mx !trmx0 sA sA'.
have sAA' : (conj AA)^T = conj AA by rewrite -conj_tr sAA.
have -> : block_mx AA 0 0 0 = block_mx AA (0 : 'M[C]_(n + n, 0)) (0 : 'M[C]_(n + n, 0))^T 0 by rewrite trmx0.
have -> : block_mx 0 0 0 (conj AA) = block_mx 0 (0 : 'M[C]_(0, n + n)) (0 : 'M[C]_(0, n + n))^T (conj AA) by rewrite trmx0.
have HKK : (1%:M - AA *m conj AA) *m block_mx (conj K) 0 0 K = 1%:M.
  by rewrite dmD mulmx_block ?(mul0mx, mulmx0, addr0, add0r) -conj_mul HK map_mx1 -scalar_mx_block.
have Ht2 : Rlt threshold (Cmod (\det (1%:M - AA *m conj AA))) by rewrite (dmD_det Ed) Cmod_R Rabs_pos_eq //; nra.
rewrite (gthen_val 0 0 0 0 sAA sAA' HKK _ _ 0 0 _ _ Ht2) /=. congr Some.
have -> : gQ AA (conj AA) (block_mx (conj K) 0 0 K) (col_mx (conj b) b) (conj (col_mx (conj b) b)) = RtoC (Rmult (IZR 2) (Rmult (IZR 2) g)).
  have -> : RtoC (Rmult (IZR 2) (Rmult (IZR 2) g)) = Cconj (gQ A (conj A) K b (conj b)) + gQ A (conj A) K b (conj b).
    rewrite Eg conjR CaddE -RtoC_plus. congr RtoC. ring.
  rewrite /gQ /AA !map_block_mx !map_mx0 !map_col_mx !conjmxK !tr_block_mx !trmx0 !tr_col_mx !mulmx_block ?(mul0mx, mulmx0, addr0, add0r) !mul_block_col ?(mul0mx, mulmx0, addr0, add0r) !add_col_mx !mul_row_col.
  have -> : Cconj ((b^T *m (conj A *m K *m b + K^T *m conj b) + (conj b)^T *m (K *m b + A *m K^T *m conj b)) 0 0) =
            ((conj b)^T *m (A *m conj K *m conj b + (conj K)^T *m b) + b^T *m (conj K *m conj b + conj A *m (conj K)^T *m b)) 0 0.
    have Ez (z : 'M[C]_1) : Cconj (z 0 0) = (conj z) 0 0 by rewrite mxE.
    by rewrite Ez map_mxD !conj_mul !map_mxD !conj_mul !conj_tr !conjmxK.
  rewrite !mxE. move: (\sum_j _) (\sum_j _) (\sum_j _) (\sum_j _) => x y z t. by rewrite addrACA.
rewrite half2 Cexp_R (dmD_det Ed).
have d0 : d <> R0. { move=> E. move: Ht. rewrite Ed E Cmod_0 => H. have : Rlt R0 threshold by rewrite /threshold; apply: Rinv_0_lt_compat; apply: pow_lt; lra. lra. }
have dd : Rlt R0 (Rmult d d) by nra.
have -> : (RtoC (Rmult d d))^-1 = RtoC (Rinv (Rmult d d)) by rewrite CinvE RtoC_inv //; lra.
rewrite csqrt_R; last by apply/Rlt_le/Rinv_0_lt_compat. rewrite rmorphM /= CconjK. 
have -> : Cconj c * c * (c * Cconj c) = RtoC (pow (Cmod c) 4).
  rewrite [Cconj c * c]mulrC mulconj CmulE -RtoC_mult. congr RtoC. ring.
rewrite !CmulE -!RtoC_mult /Re /=. rewrite -sqrt_Rsqr_abs /Rsqr -inv_sqrt //.
Qed.
End Pure.
(** C59: the density matrix of a ket of positive finite probability has purity 1, when the square of the determinant is above the threshold *)
Theorem C59_purity n (k : ket n) p : (kA k)^T = kA k -> probability k = Some p -> Rlt R0 p -> Rlt threshold (pow (Cmod (\det (1%:M - kA k *m conj (kA k)))) 2) ->
  dm_purity (dm k) = Some R1.
Proof.
case: k => A b c /= sA Hp p0 H2.
case: (Rlt_dec threshold (Cmod (\det (1%:M - A *m conj A)))) => Ht; last by move: Hp; rewrite /probability (inner_none _ _ _ _ Ht).
have [d Ed] := D_re sA. have [g Eg] := gQ_real b sA. move: Hp. rewrite (prob_val c sA Ht Ed Eg). case: Rlt_dec => Hd [Ep]; last lra.
have H2' : Rlt threshold (Rmult d d) by move: H2; rewrite Ed Cmod_R /= Rmult_1_r Rabs_pos_eq //; lra.
rewrite /dm_purity C59_dm_probability (prob_val c sA Ht Ed Eg) (L2_val c sA Ht Ed Eg H2'). case: Rlt_dec => // Hd'. congr Some.
rewrite Ep. have E2 : Rmult p p = Rmult (Rmult (pow (Cmod c) 4) (Rinv (Rabs d))) (exp (Rmult (IZR 2) g)).
  rewrite -Ep Rabs_pos_eq; last lra. have -> : Rmult (IZR 2) g = Rplus g g by ring. rewrite exp_plus.
  have := sqrt_sqrt (Rinv d) (Rlt_le _ _ (Rinv_0_lt_compat _ Hd)). move: (sqrt _) => q <-. ring.
rewrite -E2. apply: Rinv_r. nra.
Qed.

(** the hypotheses are met, and the thresholds matter: one mode squeezed with tanh r = 4/5 has probability and purity 1; 14 such modes (9.5 dB) have probability 1, yet the purity of the density matrix is infinite;
    28 such modes have an infinite probability *)
Lemma sqz_state n : kthen (vacuum_state n) (squeezers n q45 q35) = Some (Ket (RtoC (Ropp q45))%:M 0 (RtoC (sqrt (pow q35 n)))).
Proof. by rewrite C59_vacuum; [rewrite /squeezers /= block_mxKul usub0|exact: kerT (squeezers_unitary n qq1 qq0)]. Qed.
Lemma sqz_det n : \det (1%:M - (RtoC (Ropp q45))%:M *m conj (RtoC (Ropp q45))%:M : 'M[C]_n) = RtoC (pow (Rdiv (IZR 9) (IZR 25)) n).
Proof.
rewrite conj_sc -scalar_mxM -raddfB /= det_scalar RtoC_exp. congr (_ ^+ n). rewrite C1E CaddE CoppE CmulE -RtoC_mult -RtoC_opp -RtoC_plus. congr RtoC. rewrite /q45. field.
Qed.
Lemma thr_pow n : (n <= 27)%N -> Rlt threshold (pow (Rdiv (IZR 9) (IZR 25)) n).
Proof.
move=> H. apply: (Rlt_le_trans _ (pow (Rdiv (IZR 9) (IZR 25)) 27)); first by rewrite /threshold; simpl; lra.
have -> : 27%N = (n + (27 - n))%N by rewrite subnKC. rewrite -plusE pow_add.
have a : Rle R0 (pow (Rdiv (IZR 9) (IZR 25)) n) by apply: pow_le; lra.
have : Rle (pow (Rdiv (IZR 9) (IZR 25)) (27 - n)%N) (IZR 1) by rewrite -(pow1 (27 - n)%N); apply: pow_incr; lra. nra.
Qed.
Theorem C59_example : exists k, kthen (vacuum_state 1) (squeezers 1 q45 q35) = Some k /\ kA k <> 0 /\ probability k = Some R1 /\ dm_purity (dm k) = Some R1.
Proof.
eexists; split; first exact: sqz_state. split=> /=.
  move/matrixP/(_ 0 0). rewrite !mxE /= mulr1n => /RtoC_inj. rewrite /q45. lra.
have Hp : probability (Ket (RtoC (Ropp q45))%:M 0 (RtoC (sqrt (pow q35 1))) : ket 1) = Some R1.
  have [] := C59_norm (squeezers_unitary 1 qq1 qq0) (sqz_state 1); case=> //= _. rewrite sqz_det Cmod_R Rabs_pos_eq; last by simpl; lra.
  have := @thr_pow 1 isT. lra.
split=> //. apply: C59_purity Hp _ _ => /=; [by rewrite tr_scalar_mx|lra|]. rewrite sqz_det Cmod_R Rabs_pos_eq; last by simpl; lra.
have := @thr_pow 2 isT. simpl. lra.
Qed.
Theorem C59_purity_refuted : exists n (t : triple n) k, unitary_triple t /\ kthen (vacuum_state n) t = Some k /\ probability k = Some R1 /\ dm_purity (dm k) = None.
Proof.
exists 14%N, (squeezers 14 q45 q35). eexists; split; first exact: squeezers_unitary qq1 qq0. split; first exact: sqz_state. split.
- have [] := C59_norm (squeezers_unitary 14 qq1 qq0) (sqz_state 14); case=> //= _. rewrite sqz_det Cmod_R Rabs_pos_eq; last by apply: pow_le; lra.
  have := @thr_pow 14 isT. lra.
- rewrite /dm_purity. have -> //: dm_L2_norm (dm (Ket (RtoC (Ropp q45))%:M 0 (RtoC (sqrt (pow q35 14))) : ket 14)) = None.
  rewrite /dm_L2_norm /dm /st2g /dm_dual /gthen. cbv beta iota zeta delta [gA gb gc sA sb sc kA kb kc]. rewrite block_mxKul. case: Rlt_dec => // H'. exfalso. move: H'.
  rewrite threshold_det block_mxKdr (dmD_det (sqz_det 14)) Cmod_R Rabs_pos_eq; last by apply: Rmult_le_pos; apply: pow_le; lra. rewrite /threshold. simpl. lra.
Qed.
Theorem C59_norm_refuted : exists n (t : triple n) k, unitary_triple t /\ kthen (vacuum_state n) t = Some k /\ probability k = None.
Proof.
exists 28%N, (squeezers 28 q45 q35). eexists; split; first exact: squeezers_unitary qq1 qq0. split; first exact: sqz_state.
have [] := C59_norm (squeezers_unitary 28 qq1 qq0) (sqz_state 28); case=> //= _. rewrite sqz_det Cmod_R Rabs_pos_eq; last by apply: pow_le; lra.
rewrite /threshold. simpl. lra.
Qed.
