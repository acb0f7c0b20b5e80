(** Symplectic matrices of gates: claim C43.
    Model of mrmustard/physics/symplectics.py, one batch element, exact arithmetic, real parameters. *)
From Coq Require Import Reals Lra.
From Coquelicot Require Import Complex.
From mathcomp Require Import all_ssreflect all_algebra.
From Verif Require Import CMat Optimizer.
Set Implicit Arguments. Unset Strict Implicit. Unset Printing Implicit Defensive.
Import GRing.Theory.
Local Open Scope ring_scope.

(** math.stack of four stacked rows *)
Definition mx4 (l : seq (seq C)) : 'M[C]_(2 + 2) := \matrix_(i, j) nth 0 (nth [::] l i) j.
(** symplectics.py:28-53 *)
Definition cxgate_symplectic (s : C) : 'M[C]_(2 + 2) := mx4 [:: [:: 1; 0; 0; 0]; [:: s; 1; 0; 0]; [:: 0; 0; 1; - s]; [:: 0; 0; 0; 1]].
(** symplectics.py:56-81 *)
Definition czgate_symplectic (s : C) : 'M[C]_(2 + 2) := mx4 [:: [:: 1; 0; 0; 0]; [:: 0; 1; 0; 0]; [:: 0; s; 1; 0]; [:: s; 0; 0; 1]].
(** math.imag *)
Definition im_mx n m (A : 'M[C]_(n, m)) : 'M[C]_(n, m) := map_mx (fun z : C => RtoC (Im z)) A.
(** symplectics.py:84-96 *)
Definition interferometer_symplectic n (U : 'M[C]_n) : 'M[C]_(n + n) := block_mx (re_mx U) (- im_mx U) (im_mx U) (re_mx U).
(** symplectics.py:99-154 *)
Definition mzgate_symplectic (phi_a phi_b : R) (internal : bool) : 'M[C]_(2 + 2) :=
  let ca := RtoC (cos phi_a) in let sa := RtoC (sin phi_a) in let cb := RtoC (cos phi_b) in let sb := RtoC (sin phi_b) in
  let cp := RtoC (cos (Rplus phi_a phi_b)) in let sp := RtoC (sin (Rplus phi_a phi_b)) in
  half *: (if internal then mx4 [:: [:: ca - cb; - sa - sb; sb - sa; - ca - cb]; [:: - sa - sb; cb - ca; - ca - cb; sa - sb];
                                   [:: sa - sb; ca + cb; ca - cb; - sa - sb]; [:: ca + cb; sb - sa; - sa - sb; cb - ca]]
           else mx4 [:: [:: cp - ca; - sb; sa - sp; - 1 - cb]; [:: - sa - sp; 1 - cb; - ca - cp; sb];
                        [:: sp - sa; 1 + cb; cp - ca; - sb]; [:: cp + ca; - sb; - sa - sp; 1 - cb]]).
(** symplectics.py:157-178 *)
Definition pgate_symplectic n (s : C) : 'M[C]_(n + n) := block_mx 1%:M 0 (s *: 1%:M) 1%:M.
(** symplectics.py:181-191 *)
Definition realinterferometer_symplectic n (Q : 'M[C]_n) : 'M[C]_(n + n) := block_mx Q (- 0) 0 Q.

(** ** one of the two conditions implies the other *)
Lemma symp_of n (S : 'M[C]_(n + n)) : S *m J n *m S^T = J n -> symplectic S.
Proof.
move=> H. split=> //. have H1 : S *m (J n *m S^T *m (- J n)) = 1%:M by rewrite !mulmxA H; case: (J_inv n).
have H2 := mulmx1C H1. rewrite -!mulmxA in H2.
have := congr1 (mulmx (- J n)) H2. rewrite mulmx1 [LHS]mulmxA. case: (J_inv n) => _ ->. rewrite mul1mx mulNmx mulmxN => /eqP.
by rewrite eqr_opp => /eqP; rewrite mulmxA.
Qed.

Lemma ord4 (P : 'I_(2 + 2) -> Prop) : P (lshift 2 0) -> P (lshift 2 1) -> P (rshift 2 0) -> P (rshift 2 1) -> forall i, P i.
Proof.
move=> h0 h1 h2 h3 i. case: (splitP i) => j Ej.
  have -> : i = lshift 2 j by apply: val_inj. case: j {Ej} => [[|[|//]] Hj]; [move: h0|move: h1]; congr P; exact: val_inj.
have -> : i = rshift 2 j by apply: val_inj. case: j {Ej} => [[|[|//]] Hj]; [move: h2|move: h3]; congr P; exact: val_inj.
Qed.
(** S J S^T entry by entry *)
Lemma sjs4 k l : let S := mx4 l in let e i j : C := nth 0 (nth [::] l i) j in
  (forall i j, (i < 4)%N -> (j < 4)%N -> e i 0%N * e j 2%N + e i 1%N * e j 3%N - e i 2%N * e j 0%N - e i 3%N * e j 1%N = k * (((j == i + 2)%N)%:R - ((i == j + 2)%N)%:R)) ->
  S *m J 2 *m S^T = k *: J 2.
Proof.
move=> S e H. apply/matrixP => i j.
have -> : (S *m J 2 *m S^T) i j = e i 0%N * e j 2%N + e i 1%N * e j 3%N - e i 2%N * e j 0%N - e i 3%N * e j 1%N.
  rewrite /J -(hsubmxK S) mul_row_block !mulmx0 add0r addr0 mulmx1 mulmxN mulmx1 tr_row_mx mul_row_col.
  rewrite !mxE !big_ord_recl !big_ord0 !mxE /= !addr0.
  by rewrite /e /= !mulNr addrC !addrA.
rewrite H // [RHS]mxE. congr (k * _). move: i j. apply: ord4 => j; move: j; apply: ord4; rewrite /J ?block_mxEul ?block_mxEur ?block_mxEdl ?block_mxEdr !mxE /= ?subrr ?subr0 ?sub0r ?mulr0n ?oppr0 //.
Qed.
Lemma sym4 l : let S := mx4 l in let e i j : C := nth 0 (nth [::] l i) j in
  (forall i j, (i < 4)%N -> (j < 4)%N -> e i 0%N * e j 2%N + e i 1%N * e j 3%N - e i 2%N * e j 0%N - e i 3%N * e j 1%N = ((j == i + 2)%N)%:R - ((i == j + 2)%N)%:R) -> symplectic S.
Proof. move=> S e H. apply: symp_of. rewrite -[RHS]scale1r. apply: sjs4 => i j Hi Hj. rewrite mul1r. exact: H. Qed.
Lemma C1E : (1 : C) = RtoC 1. Proof. by []. Qed.
Lemma C0E : (0 : C) = RtoC 0. Proof. by []. Qed.
Ltac cring := rewrite ?mulr1n ?mulr0n ?CaddE ?CmulE ?CoppE ?C1E ?C0E.
Ltac by16 := let i := fresh in let j := fresh in move=> i j; case: i => [|[|[|[|//]]]]; case: j => [|[|[|[|//]]]] _ _ /=.
Lemma real_mx4 l : List.Forall (List.Forall (fun z : C => Cconj z = z)) l -> real (mx4 l).
Proof.
move=> H. apply/matrixP => i j. rewrite !mxE. elim: l (i : nat) H => [|r l IH] k H.
  by rewrite nth_nil nth_nil rmorph0.
move: H. move/List.Forall_cons_iff => [Hr Hl]. case: k => [|k] /=; last exact: IH.
move: (j : nat). elim: r Hr => [|x r IHr] Hr k; first by rewrite nth_nil rmorph0.
move/List.Forall_cons_iff: Hr => [Hx Hr]. case: k => [|k] /=; first exact: Hx. exact: IHr.
Qed.
Lemma conjR r : Cconj (RtoC r) = RtoC r.
Proof. rewrite /Cconj /RtoC /=. congr pair. exact: Ropp_0. Qed.

(** C43: controlled X and controlled Z, every real parameter *)
Theorem C43_cx (s : R) : symplectic (cxgate_symplectic (RtoC s)) /\ real (cxgate_symplectic (RtoC s)).
Proof.
split; first by apply: sym4; by16; cring; ring.
apply: real_mx4. by repeat (apply: List.Forall_cons || apply: List.Forall_nil); rewrite ?rmorphN ?rmorph0 ?rmorph1 /= ?conjR.
Qed.
Theorem C43_cz (s : R) : symplectic (czgate_symplectic (RtoC s)) /\ real (czgate_symplectic (RtoC s)).
Proof.
split; first by apply: sym4; by16; cring; ring.
apply: real_mx4. by repeat (apply: List.Forall_cons || apply: List.Forall_nil); rewrite ?rmorphN ?rmorph0 ?rmorph1 /= ?conjR.
Qed.
(** the quadratic phase gate, any number of modes *)
Theorem C43_p n (s : R) : symplectic (pgate_symplectic n (RtoC s)) /\ real (pgate_symplectic n (RtoC s)).
Proof.
split.
  apply: symp_of. rewrite /pgate_symplectic /J mulmx_block !mulmx0 !mulmx1 ?mul1mx ?add0r ?addr0 tr_block_mx mulmx_block !trmx0 !trmx1 linearZ /= trmx1.
  rewrite ?mulmx0 ?mulmx1 ?mul1mx ?mul0mx ?add0r ?addr0 ?mulmxN ?mulmx1.
  by rewrite mulNmx mul1mx addNr.
rewrite /real map_block_mx !map_mx0 !map_mx1 map_mxZ map_mx1. by rewrite /= conjR.
Qed.
(** real orthogonal matrices, any number of modes *)
Theorem C43_realinterferometer n (Q : 'M[C]_n) : orthogonal Q -> symplectic (realinterferometer_symplectic Q) /\ real (realinterferometer_symplectic Q).
Proof.
case=> HR [H1 H2]. split.
  apply: symp_of. rewrite /realinterferometer_symplectic /J mulmx_block oppr0 !mulmx0 !mulmx1 ?mul0mx ?add0r ?addr0 tr_block_mx mulmx_block !trmx0.
  by rewrite !mulmx0 ?mul0mx ?add0r ?addr0 H2 mulmxN mulmx1 mulNmx H2.
by rewrite /real /realinterferometer_symplectic oppr0 map_block_mx !map_mx0 HR.
Qed.
Lemma ReIm (z : C) : z = RtoC (Re z) + Ci * RtoC (Im z).
Proof. case: z => a b. rewrite CaddE CmulE /Cplus /Cmult /Ci /RtoC /=. congr pair; ring. Qed.
Lemma ReImc (z : C) : Cconj z = RtoC (Re z) - Ci * RtoC (Im z).
Proof. case: z => a b. rewrite CaddE CoppE CmulE /Cconj /Cplus /Copp /Cmult /Ci /RtoC /=. congr pair; ring. Qed.
Lemma mxReIm n m (U : 'M[C]_(n, m)) : U = re_mx U + Ci *: im_mx U.
Proof. apply/matrixP => i j. rewrite !mxE. exact: ReIm. Qed.
Lemma adjReIm n m (U : 'M[C]_(n, m)) : adj U = (re_mx U)^T - Ci *: (im_mx U)^T.
Proof. apply/matrixP => i j. rewrite !mxE. exact: ReImc. Qed.
Lemma real_im n m (A : 'M[C]_(n, m)) : real (im_mx A).
Proof. apply/matrixP => i j. by rewrite !mxE conjR. Qed.
Lemma CiCi : (Ci : C) * Ci = - 1.
Proof. rewrite CmulE CoppE C1E /Cmult /Copp /Ci /RtoC /=. congr pair; ring. Qed.
(** a complex combination of real matrices vanishes only if both do *)
Lemma real_indep n m (A B A' B' : 'M[C]_(n, m)) : real A -> real B -> real A' -> real B' -> A + Ci *: B = A' + Ci *: B' -> A = A' /\ B = B'.
Proof.
move=> RA RB RA' RB' H. have aux (x y x' y' : C) : Cconj x = x -> Cconj y = y -> Cconj x' = x' -> Cconj y' = y' -> x + Ci * y = x' + Ci * y' -> x = x' /\ y = y'.
  case: x => x1 x2; case: y => y1 y2; case: x' => u1 u2; case: y' => v1 v2.
  rewrite !CaddE !CmulE /Cconj /Cplus /Cmult /Ci /= => -[h1] [h2] [h3] [h4] [h5 h6].
  by split; congr pair; lra.
have ent (M : 'M[C]_(n, m)) i j : real M -> Cconj (M i j) = M i j by move=> HM; rewrite -{2}HM mxE.
split; apply/matrixP => i j; have /matrixP/(_ i j) := H; rewrite !mxE => Hij; by case: (aux _ _ _ _ (ent _ i j RA) (ent _ i j RB) (ent _ i j RA') (ent _ i j RB') Hij).
Qed.
(** interferometers: unitary matrices of any size *)
Theorem C43_interferometer n (U : 'M[C]_n) : unitary U -> symplectic (interferometer_symplectic U) /\ real (interferometer_symplectic U).
Proof.
case=> _ H. set X := re_mx U. set Y := im_mx U.
have E : X *m X^T + Y *m Y^T + Ci *: (Y *m X^T - X *m Y^T) = 1%:M + Ci *: 0.
  rewrite scaler0 addr0 -H {1}(mxReIm U) adjReIm -/X -/Y mulmxDl !mulmxBr -!scalemxAl -!scalemxAr scalerA CiCi scaleN1r opprK scalerBr.
  rewrite -!addrA. congr (_ + _).
  by rewrite [RHS]addrC [_ + Y *m _ in RHS]addrC addrA.
have RX := real_re U. have RY := real_im U. rewrite -/X -/Y in RX RY.
have R1 : real (X *m X^T + Y *m Y^T) by apply: real_add; apply: real_mul => //; apply: real_tr.
have R2 : real (Y *m X^T - X *m Y^T) by apply: real_add; [|apply: real_opp]; apply: real_mul => //; apply: real_tr.
have R3 : real (1%:M : 'M[C]_n) by rewrite /real map_mx1.
have R4 : real (0 : 'M[C]_n) by rewrite /real map_mx0.
case: (real_indep R1 R2 R3 R4 E) => E1 /eqP. rewrite subr_eq0 => /eqP E2. split.
  apply: symp_of. rewrite /interferometer_symplectic -/X -/Y /J mulmx_block ?mulmx0 ?mulmx1 ?mulmxN ?mulmx1 ?add0r ?addr0 opprK tr_block_mx mulmx_block linearN /=.
  rewrite !mulNmx !mulmxN !E2.
  by rewrite subrr addNr -opprD E1 addrC E1.
rewrite /real map_block_mx /interferometer_symplectic -/X -/Y RX RY. congr block_mx. exact: real_opp.
Qed.
(** the Mach-Zehnder gate, both conventions *)
Lemma half2 : (half : C) * half * (RtoC 1 + RtoC 1) = half.
Proof. rewrite !CmulE /half /Cplus /Cmult /RtoC /=. congr pair; field. Qed.
Lemma scale_mx4 (k : C) l : k *: mx4 l = mx4 [seq [seq k * x | x <- r] | r <- l].
Proof.
apply/matrixP => i j. rewrite !mxE. case: (ltnP i (size l)) => Hi; last by rewrite !nth_default ?size_map ?nth_nil ?mulr0 //.
rewrite (nth_map [::]) //. case: (ltnP j (size (nth [::] l i))) => Hj; last by rewrite (nth_default 0 Hj) mulr0 nth_default // size_map.
by rewrite (nth_map 0).
Qed.
Theorem C43_mz a b internal : symplectic (mzgate_symplectic a b internal) /\ real (mzgate_symplectic a b internal).
Proof.
have Ha : Cmult (RtoC (cos a)) (RtoC (cos a)) = Cminus (RtoC 1) (Cmult (RtoC (sin a)) (RtoC (sin a))).
  rewrite -!RtoC_mult -RtoC_minus. congr RtoC. have := sin2_cos2 a. rewrite /Rsqr. lra.
have Hb : Cmult (RtoC (cos b)) (RtoC (cos b)) = Cminus (RtoC 1) (Cmult (RtoC (sin b)) (RtoC (sin b))).
  rewrite -!RtoC_mult -RtoC_minus. congr RtoC. have := sin2_cos2 b. rewrite /Rsqr. lra.
rewrite /mzgate_symplectic cos_plus sin_plus.
move: (cos a) (sin a) (cos b) (sin b) Ha Hb => ca sa cb sb Ha Hb.
rewrite RtoC_minus RtoC_plus !RtoC_mult.
pose four : C := Cplus (Cplus (RtoC 1) (RtoC 1)) (Cplus (RtoC 1) (RtoC 1)).
have H4 : half * half * four = 1.
  rewrite !CmulE /half /four -!RtoC_plus -!RtoC_mult C1E. congr RtoC. field.
split.
- apply: symp_of. rewrite linearZ /= -scalemxAl -scalemxAl -scalemxAr scalerA -[RHS]scale1r -[X in _ = X *: _]H4 -[RHS]scalerA. congr (_ *: _).
  case: internal; apply: sjs4; by16; rewrite /four; cring; ring [Ha Hb].
- have Rh : Cconj half = half by exact: conjR.
  have rs (M : 'M[C]_(2 + 2)) : real M -> real (half *: M) by move=> HM; rewrite /real map_mxZ HM /= Rh.
  case: internal; apply: rs; apply: real_mx4;
  repeat (apply: List.Forall_cons || apply: List.Forall_nil);
  by rewrite -?RtoC_mult -?RtoC_minus -?RtoC_plus ?CaddE ?CoppE ?C1E -?RtoC_opp -?RtoC_plus conjR.
Qed.
