(** Transformation.inverse for Gaussian transformations that need not be unitary: claim C50.
    Model of mrmustard/lab/transformations/base.py:127-192. *)
From Coq Require Import Reals Lra Psatz.
From Coquelicot Require Import Complex.
From mathcomp Require Import all_ssreflect all_algebra.
From Verif Require Import CMat Optimizer GateSym BargSym CExp Compose ChanAlg.
Require Verif.Base.
Set Implicit Arguments. Unset Strict Implicit. Unset Printing Implicit Defensive.
Import GRing.Theory.
Local Open Scope ring_scope.
Delimit Scope R_scope with coqR.

(** lines 152-192, n input and n output variables (for a channel, bra and ket variables together). self.dual.ansatz.conj is the triple with inputs and outputs exchanged;
    math.inv raises LinAlgError on a singular matrix (numpy) *)
Definition tinverse n (t : triple n) : Base.result (triple n) :=
  let A := X n *m tA t *m X n in let b := X n *m tb t in
  Base.bind (inv A) (fun Ai =>
  let M := block_mx (ulsubmx (tA t)) (- 1%:M) (- 1%:M) (drsubmx Ai) in
  let bb := col_mx (usubmx (tb t)) (dsubmx (- Ai *m b)) in
  Base.bind (inv M) (fun Mi =>
  Base.Ok (Tri Ai (- Ai *m b) (1 / tc t * csqrt (\det (Ci *: M)) * Cexp (half * (bb^T *m Mi *m bb) 0 0))))).

(** the branch cut of the root: the negative reals *)
Definition on_cut (z : C) : Prop := Im z = R0 /\ Rlt (Re z) R0.
Lemma csqrt_conj z : ~ on_cut z -> csqrt (Cconj z) = Cconj (csqrt z).
Proof.
case: z => x y H. rewrite /csqrt Cmod_conj /Cconj /=. have [Hm Hx] : Rle (Rabs x) (Cmod (x, y)) /\ Rle x (Cmod (x, y)).
  split; first exact: (CExp.Cmod_re (x, y)). apply: Rle_trans (CExp.Cmod_re (x, y)). exact: Rle_abs.
case: (Rlt_dec y R0) => [Ly|Ly].
  case: Rlt_dec => [L|L]; first lra. congr pair. ring.
case: Rlt_dec => [L|L] //. have Ey : y = R0 by lra. subst y. have Hx0 : Rle R0 x by apply: Rnot_lt_le => L'; apply: H; split.
have -> : Cmod (x, R0) = x by rewrite -/(RtoC x) Cmod_R Rabs_pos_eq. have -> : Rdiv (Rminus x x) (IZR 2) = R0 by field.
rewrite sqrt_0. congr pair. ring.
Qed.
Lemma Cinv_conj z : z <> RtoC R0 -> Cinv z = Cmult (RtoC (Rinv (Rmult (Cmod z) (Cmod z)))) (Cconj z).
Proof.
move=> Nz. have Hp : Rlt R0 (Cmod z) by apply: (proj1 (Cmod_gt_0 z)).
case: z Nz Hp => x y Nz Hp. rewrite CExp.Cmod2 /=. have N : Rplus (Rmult x x) (Rmult y y) <> R0 by rewrite -(CExp.Cmod2 (x, y)); nra.
rewrite /Cinv /Cmult /Cconj /RtoC /=. congr pair; field; [|]; repeat split; try exact: N; move=> E; apply: N; lra.
Qed.
Lemma csqrt_inv z : z <> 0 -> ~ on_cut z -> csqrt z * csqrt z^-1 = 1.
Proof.
move=> Nz H. have Hp : Rlt R0 (Cmod z) by apply: (proj1 (Cmod_gt_0 z)).
rewrite CinvE Cinv_conj //. have P : Rlt R0 (Rinv (Rmult (Cmod z) (Cmod z))) by apply: Rinv_0_lt_compat; nra.
rewrite csqrt_pos; last exact: Rlt_le. rewrite csqrt_conj // CmulE.
have -> : sqrt (Rinv (Rmult (Cmod z) (Cmod z))) = Rinv (Cmod z).
  rewrite Rinv_mult_distr; try lra. apply: sqrt_square. exact/Rlt_le/Rinv_0_lt_compat.
have -> : Cmult (csqrt z) (Cmult (RtoC (Rinv (Cmod z))) (Cconj (csqrt z))) = Cmult (RtoC (Rinv (Cmod z))) (csqrt z * Cconj (csqrt z)) by rewrite CmulE; ring.
rewrite mulconj Cmod_csqrt -RtoC_mult Rinv_l; [by []|lra].
Qed.
Lemma csqrt_inv_cut z : on_cut z -> csqrt z * csqrt z^-1 = -1.
Proof.
case: z => x y [/= -> L]. rewrite -/(RtoC x) CinvE -RtoC_inv; last lra. have L' : Rlt (Rinv x) R0 by apply: Rinv_lt_0_compat.
rewrite !csqrt_neg // CmulE /Cmult /= . have E : Rmult (sqrt (- x)%coqR) (sqrt (- / x)%coqR) = R1.
  rewrite -sqrt_mult; try lra. have -> : (- x * - / x)%coqR = R1 by field; lra. exact: sqrt_1.
rewrite E. rewrite /GRing.opp /= /Copp /=. congr pair; ring.
Qed.

Lemma rearr (G : zmodType) (x y z : G) : - (x + y) + (y - z + (x + z)) = 0.
Proof. by rewrite [x + z]addrC [y - z + _]addrA subrK [y + x]addrC addNr. Qed.
Lemma rearr2 (G : zmodType) (x z : G) : x + (z - (x + z)) = 0.
Proof. by rewrite addrA subrr. Qed.

Section Inv.
Variables (n : nat) (T W V : 'M[C]_n) (o i : 'cV[C]_n) (c : C).
Hypothesis sT : T^T = T.
Hypothesis sV : V^T = V.
Let A := block_mx T W W^T V.
Let t := Tri A (col_mx o i) c.
Hypothesis uA : A \in unitmx.
Let P := ulsubmx (invmx A). Let Q := ursubmx (invmx A). Let S := drsubmx (invmx A).
Lemma sA : A^T = A. Proof. by rewrite /A tr_block_mx trmxK sT sV. Qed.
Lemma sAi : (invmx A)^T = invmx A. Proof. by rewrite trmx_inv sA. Qed.
Lemma Ai_blocks : invmx A = block_mx P Q Q^T S.
Proof. rewrite -[LHS]submxK. congr block_mx. by rewrite /Q trmx_ursub sAi. Qed.
Lemma rels : [/\ T *m P + W *m Q^T = 1%:M, T *m Q + W *m S = 0, W^T *m P + V *m Q^T = 0 & W^T *m Q + V *m S = 1%:M].
Proof. have := mulmxV uA. rewrite Ai_blocks /A mulmx_block scalar_mx_block => /eq_block_mx [h1 h2 h3 h4]. by split. Qed.
Lemma sP : P^T = P. Proof. by rewrite /P trmx_ulsub sAi. Qed.
Lemma sS : S^T = S. Proof. by rewrite /S trmx_drsub sAi. Qed.
Lemma swap_inv : X n *m A *m X n \in unitmx /\ invmx (X n *m A *m X n) = block_mx S Q^T Q P.
Proof.
have H : X n *m A *m X n *m block_mx S Q^T Q P = 1%:M.
  rewrite /A /X !mulmx_block ?(mul0mx, mulmx0, mul1mx, mulmx1, addr0, add0r) scalar_mx_block. have [h1 h2 h3 h4] := rels. congr block_mx; by rewrite addrC.
have [u _] := mulmx1_unit H. split=> //. by rewrite -[RHS](mulKmx u) H mulmx1.
Qed.
Lemma one_TP : 1%:M - T *m P = W *m Q^T.
Proof. have [h1 _ _ _] := rels. by rewrite -h1 addrAC subrr add0r. Qed.
Hypothesis uW : W \in unitmx.
(** the input-output block of the inverse is invertible as well *)
Lemma uQ : Q^T \in unitmx.
Proof.
have [h1 _ h3 _] := rels. have uWT : W^T \in unitmx by rewrite unitmx_tr.
have E : P = - (invmx W^T *m V *m Q^T).
  rewrite -[P](mulKmx uWT). move/eqP: h3. rewrite addr_eq0 => /eqP ->. by rewrite mulmxN mulmxA.
have H : (W - T *m invmx W^T *m V) *m Q^T = 1%:M by rewrite mulmxBl -[RHS]h1 E mulmxN !mulmxA addrC.
by case/mulmx1_unit: H.
Qed.
Let K := invmx Q^T *m invmx W.
Lemma uQ' : Q \in unitmx. Proof. by rewrite -unitmx_tr uQ. Qed.
Lemma HK : (1%:M - T *m P) *m K = 1%:M.
Proof. rewrite one_TP /K mulmxA -(mulmxA W) mulmxV ?uQ // mulmx1 mulmxV //. Qed.
Lemma KT' : K^T = invmx W^T *m invmx Q.
Proof. by rewrite /K trmx_mul !trmx_inv trmxK. Qed.
Lemma QTT : Q^T *m T = - (S *m W^T).
Proof. have [_ h2 _ _] := rels. have := congr1 trmx h2. rewrite linearD /= !trmx_mul trmx0 sT sS => /eqP. by rewrite addr_eq0 => /eqP. Qed.
Lemma WTP : W^T *m P = - (V *m Q^T).
Proof. have [_ _ h3 _] := rels. move/eqP: h3. by rewrite addr_eq0 => /eqP. Qed.
Lemma PW : P *m W = - (Q *m V).
Proof. have := congr1 trmx WTP. by rewrite linearN /= !trmx_mul trmxK sP sV trmxK. Qed.
Let uWT : W^T \in unitmx. Proof. by rewrite unitmx_tr. Qed.
Lemma resT : S + Q^T *m T *m K^T *m Q^T^T = 0.
Proof. by rewrite KT' trmxK QTT !mulNmx -!mulmxA mulVmx ?uQ' // mulmx1 mulmxV // mulmx1 subrr. Qed.
Lemma resW : Q^T *m K *m W = 1%:M.
Proof. by rewrite /K !mulmxA mulmxV ?uQ // mul1mx mulVmx. Qed.
Lemma resV : V + W^T *m P *m K *m W = 0.
Proof. by rewrite WTP /K !mulNmx -!mulmxA mulVmx // mulmx1 mulmxV ?uQ // mulmx1 subrr. Qed.
Let o2 := - (S *m i + Q^T *m o). Let i2 := - (Q *m i + P *m o).
Lemma reso : o2 + Q^T *m (K *m o + T *m K^T *m i2) = 0.
Proof.
have E1 : Q^T *m K = invmx W by rewrite /K mulmxA mulmxV ?uQ // mul1mx.
have E2 : Q^T *m T *m K^T = - (S *m invmx Q) by rewrite KT' QTT mulNmx !mulmxA mulmxK.
have E3 : invmx W = Q^T - S *m invmx Q *m P.
  apply: (can_inj (mulKmx uW)). rewrite mulmxV // mulmxBr !mulmxA. have [h1 h2 _ _] := rels. have -> : W *m S = - (T *m Q).
    apply/eqP. by rewrite -addr_eq0 addrC h2. by rewrite !mulNmx opprK -[T *m Q *m _]mulmxA mulmxV ?uQ' // mulmx1 addrC h1.
rewrite mulmxDr (mulmxA Q^T K o) E1 (mulmxA Q^T _ i2) (mulmxA Q^T T) E2 E3 /o2 /i2 mulmxBl mulNmx mulmxN opprK mulmxDr !mulmxA -[S *m invmx Q *m Q]mulmxA mulVmx ?uQ' // mulmx1.
exact: rearr.
Qed.
Lemma resi : i + W^T *m (P *m K *m o + K^T *m i2) = 0.
Proof.
have E1 : W^T *m P *m K = - (V *m invmx W) by rewrite WTP /K mulNmx !mulmxA mulmxK ?uQ.
have E2 : W^T *m K^T = invmx Q by rewrite KT' mulmxA mulmxV // mul1mx.
have E3 : V *m invmx W = - (invmx Q *m P).
  have -> : V = - (invmx Q *m (P *m W)) by rewrite PW mulmxN opprK mulKmx // uQ'.
  by rewrite mulNmx mulmxA mulmxK.
rewrite mulmxDr (mulmxA W^T _ o) (mulmxA W^T P) E1 (mulmxA W^T _ i2) E2 E3 opprK /i2 mulmxN mulmxDr !mulmxA mulVmx ?uQ' // mul1mx.
exact: rearr2.
Qed.
Lemma det_Ci (m : nat) (M : 'M[C]_m) : \det (Ci *: M) = Ci ^+ m * \det M. Proof. exact: detZ. Qed.
Lemma Cipow m : Ci ^+ (m + m) = (-1) ^+ m.
Proof. rewrite addnn -mul2n exprM expr2 CiCi. by []. Qed.
Hypothesis cn : c != 0.
Let D := \det (1%:M - T *m P).
Lemma inverse_val : tinverse t = Base.Ok (Tri (block_mx S Q^T Q P) (col_mx o2 i2) (1 / c * csqrt D * Cexp (- half * gQ T P K o i2))).
Proof.
rewrite /tinverse /inv. have [u E] := swap_inv. rewrite /= u E /=. have -> : ulsubmx A = T by rewrite /A block_mxKul. rewrite (block_mxKdr S Q^T Q P).
have -> : X n *m col_mx o i = col_mx i o by rewrite /X mul_block_col !mul0mx !mul1mx addr0 add0r.
have -> : - block_mx S Q^T Q P *m col_mx i o = col_mx o2 i2 by rewrite mulNmx mul_block_col opp_col_mx.
rewrite col_mxKu col_mxKd. have [uM EM] := gM_inv sT sP HK. rewrite -/(gM T P) uM /= EM. congr Base.Ok. congr Tri. congr (_ * csqrt _ * Cexp _).
  by rewrite det_Ci Cipow gdet_M.
rewrite mulmxN mulNmx mxE mulrN -mulNr. congr (_ * _). rewrite /gQ -mulmxA mul_block_col tr_col_mx mul_row_col. by rewrite !mulmxDr !mulmxA.
Qed.
Lemma inverse_then : Rlt threshold (Cmod D) -> forall t', tinverse t = Base.Ok t' -> then_ t t' = Some (Tri (X n) 0 (csqrt D * csqrt D^-1)).
Proof.
move=> Ht t'. rewrite inverse_val => -[<-].
have G := gthen_val W V S Q^T sT sP HK o i2 i o2 c (1 / c * csqrt D * Cexp (- half * gQ T P K o i2)) Ht.
rewrite trmxK in G. have := gthen_then t (Tri (block_mx S Q^T Q P) (col_mx o2 i2) (1 / c * csqrt D * Cexp (- half * gQ T P K o i2))).
rewrite {1 2}/of_triple /= /A G. case: then_ => [u|] //= [E1 E2 E3]. congr Some. case: u E1 E2 E3 => uA' ub uc /= <- <- <-.
have -> : S + Q^T *m T *m K^T *m Q = 0 by have := resT; rewrite trmxK.
rewrite resW resV reso resi trmx1 col_mx0 -/(X n). congr Tri.
have Ee : Cexp (- half * gQ T P K o i2) * Cexp (half * gQ T P K o i2) = 1.
  by rewrite CmulE -Cexp_add -CaddE mulNr addNr C0E Cexp_0.
move: (Cexp _) (Cexp _) Ee => e2 e1 Ee. have -> : c * (1 / c * csqrt D * e1) * csqrt (\det (1%:M - T *m P))^-1 * e2 = (c / c) * (csqrt D * csqrt D^-1) * (e1 * e2).
  rewrite /D div1r !mulrA. congr (_ * _). by rewrite -!mulrA; do 3 congr (_ * _); rewrite mulrC.
by rewrite Ee mulfV // mul1r mulr1.
Qed.
Lemma gQ_val : gQ T P K o i2 = - ((o^T *m invmx W^T *m i) 0 0 + (i2^T *m invmx Q^T *m o2) 0 0).
Proof.
have E1 : P *m K *m o + K^T *m i2 = - (invmx W^T *m i).
  apply: (can_inj (mulKmx uWT)). rewrite [RHS]mulmxN (mulmxA W^T (invmx W^T)) (mulmxV uWT) mul1mx. apply/eqP. by rewrite -addr_eq0 addrC resi.
have E2 : K *m o + T *m K^T *m i2 = - (invmx Q^T *m o2).
  apply: (can_inj (mulKmx uQ)). rewrite [RHS]mulmxN (mulmxA Q^T (invmx Q^T)) (mulmxV uQ) mul1mx. apply/eqP. by rewrite -addr_eq0 addrC reso.
by rewrite /gQ E1 E2 !mulmxN -opprD mxE [X in - X]mxE !mulmxA.
Qed.
End Inv.

(** the inverse of the inverse *)
Section Inv2.
Variables (n : nat) (T W V : 'M[C]_n) (o i : 'cV[C]_n) (c : C).
Hypothesis sT : T^T = T.
Hypothesis sV : V^T = V.
Hypothesis uA : block_mx T W W^T V \in unitmx.
Hypothesis uW : W \in unitmx.
Hypothesis cn : c != 0.
Variables P Q S : 'M[C]_n.
Hypothesis EP : P = ulsubmx (invmx (block_mx T W W^T V)).
Hypothesis EQ : Q = ursubmx (invmx (block_mx T W W^T V)).
Hypothesis ES : S = drsubmx (invmx (block_mx T W W^T V)).
Variables o2 i2 : 'cV[C]_n.
Hypothesis Eo : o2 = - (S *m i + Q^T *m o).
Hypothesis Ei : i2 = - (Q *m i + P *m o).
Lemma rels' : [/\ T *m P + W *m Q^T = 1%:M, T *m Q + W *m S = 0, W^T *m P + V *m Q^T = 0 & W^T *m Q + V *m S = 1%:M].
Proof. rewrite EP EQ ES. exact: rels. Qed.
Lemma uA' : block_mx S Q^T Q^T^T P \in unitmx.
Proof. rewrite trmxK. have := (swap_inv sT sV uA). rewrite -EP -EQ -ES => -[u <-]. by rewrite unitmx_inv. Qed.
Lemma iA' : invmx (block_mx S Q^T Q^T^T P) = block_mx V W^T W T.
Proof.
rewrite trmxK. have := (swap_inv sT sV uA). rewrite -EP -EQ -ES => -[u <-]. rewrite invmxK /X !mulmx_block ?(mul0mx, mulmx0, mul1mx, mulmx1, addr0, add0r). by [].
Qed.
Lemma o_back : - (T *m i2 + W^T^T *m o2) = o.
Proof.
have [h1 h2 _ _] := rels'. rewrite trmxK Eo Ei !mulmxN -opprD opprK !mulmxDr !mulmxA addrACA -!mulmxDl h2 mul0mx add0r h1 mul1mx. by [].
Qed.
Lemma i_back : - (W^T *m i2 + V *m o2) = i.
Proof.
have [_ _ h3 h4] := rels'. rewrite Eo Ei !mulmxN -opprD opprK !mulmxDr !mulmxA addrACA -!mulmxDl h4 mul1mx h3 mul0mx addr0. by [].
Qed.
Lemma D_same : \det (1%:M - S *m V) = \det (1%:M - T *m P).
Proof.
have [h1 _ _ h4] := rels'. have -> : 1%:M - T *m P = W *m Q^T by rewrite -h1 addrAC subrr add0r.
have E : W^T *m Q = 1%:M - V *m S by rewrite -h4 addrK.
have sS' : S^T = S by rewrite ES; apply: sS.
rewrite -det_tr linearB /= trmx1 trmx_mul sS' sV -E !det_mulmx !det_tr. by [].
Qed.
End Inv2.

Lemma scalar_tr (M : 'M[C]_1) : M^T 0 0 = M 0 0. Proof. by rewrite mxE. Qed.
Lemma sym_blocks n (A : 'M[C]_(n + n)) : A^T = A -> exists T V, [/\ T^T = T, V^T = V & A = block_mx T (ursubmx A) (ursubmx A)^T V].
Proof.
move=> H. exists (ulsubmx A), (drsubmx A). split; rewrite ?trmx_ulsub ?trmx_drsub ?H //. by rewrite -[LHS]submxK trmx_ursub H.
Qed.
Lemma col_split n (b : 'cV[C]_(n + n)) : exists o i, b = col_mx o i.
Proof. exists (usubmx b), (dsubmx b). by rewrite vsubmxK. Qed.

(** * Specification *)
(** t is a Gaussian transformation the library can hold, with as many inputs as outputs, that has an inverse operator: A is symmetric and invertible, its output-input
    block is invertible and the amplitude is not zero *)
Definition invertible n (t : triple n) : Prop := [/\ (tA t)^T = tA t, tA t \in unitmx, ursubmx (tA t) \in unitmx & tc t != 0].
(** the determinant 1 / \sqrt acts on in t >> t' *)
Definition detC n (t t' : triple n) : C := \det (1%:M - ulsubmx (tA t) *m drsubmx (tA t')).
Definition scaled n (k : C) (t : triple n) : triple n := Tri (tA t) (tb t) (k * tc t).
Definition composed n (t t' : triple n) : Prop :=
  Rlt threshold (detM t t') ->
  (~ on_cut (detC t t') -> then_ t t' = Some (identity n)) /\ (on_cut (detC t t') -> then_ t t' = Some (scaled (-1) (identity n))).

Lemma tinverse_right n (t : triple n) : invertible t -> exists t', [/\ tinverse t = Base.Ok t', invertible t', composed t t', tinverse t' = Base.Ok t & detC t' t = detC t t'].
Proof.
case: t => A b c [/= sA' uA0 uW' cn]. have [T [V [sT' sV' EA]]] := sym_blocks sA'. have [o [i Eb]] := col_split b.
move: uW' EA. move: (ursubmx A) => W uW' EA. subst A b. clear sA'.
set P := ulsubmx (invmx (block_mx T W W^T V)). set Q := ursubmx (invmx (block_mx T W W^T V)). set S := drsubmx (invmx (block_mx T W W^T V)).
set o2 := - (S *m i + Q^T *m o). set i2 := - (Q *m i + P *m o). set K := invmx Q^T *m invmx W.
set D := \det (1%:M - T *m P).
have uQT : Q^T \in unitmx by apply: uQ. have sP' : P^T = P by apply: sP. have sS' : S^T = S by apply: sS.
have D1 : D = \det W * \det Q by rewrite /D one_TP // det_mulmx det_tr.
have Dn : D != 0 by rewrite D1 mulf_neq0 // -unitfE -unitmxE // -unitmx_tr.
have V1 := inverse_val o i c sT' sV' uA0 uW'. rewrite -/P -/Q -/S -/o2 -/i2 -/K -/D in V1.
set c' := _ * _ * _ in V1.
have c'n : c' != 0.
  rewrite /c' !mulf_neq0 ?oner_eq0 ?invr_eq0 //. apply/eqP => E. move: Dn. rewrite -[D]csqrt_sq -CmulE E mul0r eqxx. by [].
  apply/eqP. exact: Cexp_nz.
exists (Tri (block_mx S Q^T Q P) (col_mx o2 i2) c'). split=> //.
- split=> //=; first by rewrite tr_block_mx trmxK sP' sS'.
    have := uA' sT' sV' uA0 (erefl P) (erefl Q) (erefl S). by rewrite trmxK.
  by rewrite block_mxKur.
- move=> Ht. have Ht' : Rlt threshold (Cmod D) by move: Ht; rewrite /detM /= block_mxKul block_mxKdr.
  have -> := inverse_then sT' sV' uA0 uW' cn Ht' V1. rewrite /detC /= block_mxKul block_mxKdr -/D. split=> H.
    by rewrite csqrt_inv //; apply/eqP.
  by rewrite csqrt_inv_cut // /scaled /identity /= mulr1.
- have iB := iA' sT' sV' uA0 (erefl P) (erefl Q) (erefl S). have uB := uA' sT' sV' uA0 (erefl P) (erefl Q) (erefl S).
  have V2 := inverse_val o2 i2 c' sS' sP' uB uQT. rewrite iB block_mxKul block_mxKur block_mxKdr in V2.
  have Eo := o_back sT' sV' uA0 (erefl P) (erefl Q) (erefl S) (erefl o2) (erefl i2).
  have Ei := i_back sT' sV' uA0 (erefl P) (erefl Q) (erefl S) (erefl o2) (erefl i2).
  have G1 := gQ_val o i sT' sV' uA0 uW'. rewrite -/P -/Q -/S -/o2 -/i2 -/K in G1.
  have G2 := gQ_val o2 i2 sS' sP' uB uQT. rewrite iB block_mxKul block_mxKur block_mxKdr Ei Eo in G2.
  have GG : gQ S V (invmx W^T^T *m invmx Q^T) o2 i = gQ T P K o i2.
    rewrite G1 G2 [in RHS]addrC. congr (- (_ + _)); rewrite -scalar_tr !trmx_mul !trmx_inv !trmxK mulmxA. by []. by [].
  rewrite Ei Eo GG in V2. have DD : \det (1%:M - S *m V) = D by apply: (D_same sT' sV' uA0 (erefl P) (erefl Q) (erefl S)).
  rewrite DD !trmxK in V2. rewrite V2. congr (Base.Ok (Tri _ _ _)).
  have N1 : csqrt D * Cexp (- half * gQ T P K o i2) != 0 by move: c'n; rewrite /c' -mulrA mulf_eq0 negb_or => /andP [].
  rewrite /c' -[1 / c * _ * _]mulrA -[1 / _ * _ * _]mulrA. move: (csqrt D * _) N1 => y N1. rewrite !div1r invfM invrK -mulrA mulVf // mulr1. by [].
- rewrite /detC /= !block_mxKul !block_mxKdr. exact: (D_same sT' sV' uA0 (erefl P) (erefl Q) (erefl S)).
Qed.

(** C50: an invertible Gaussian transformation has an inverse that undoes it on both sides, and whose own inverse is the transformation again.
    On the branch cut of the square root the composite is minus the identity *)
Theorem C50_transformation n (t : triple n) : invertible t ->
  exists t', [/\ tinverse t = Base.Ok t', invertible t', composed t t', composed t' t & tinverse t' = Base.Ok t].
Proof.
move=> H. have [t' [h1 h2 h3 h4 _]] := tinverse_right H. exists t'. split=> //.
have [t'' [k1 _ k3 _ _]] := tinverse_right h2. move: k1. rewrite h4 => -[E]. by rewrite -E in k3.
Qed.
(** exactly the transformations with invertible A and invertible output-input block are inverted, the others raise *)
Theorem C50_transformation_returns n (t : triple n) : (tA t)^T = tA t ->
  (exists t', tinverse t = Base.Ok t') /\ tA t \in unitmx /\ ursubmx (tA t) \in unitmx \/
  tinverse t = Base.Err Base.LinAlgError /\ ~ (tA t \in unitmx /\ ursubmx (tA t) \in unitmx).
Proof.
case: t => A b c /= sA'. have [T [V [sT' sV' EA]]] := sym_blocks sA'. have [o [i Eb]] := col_split b.
move: EA. move: (ursubmx A) => W EA. subst A b. clear sA'.
case uA0 : (block_mx T W W^T V \in unitmx); last first.
  right. split; last by case. rewrite /tinverse /inv /=. suff -> : (X n *m block_mx T W W^T V *m X n \in unitmx) = false by [].
  rewrite !unitmx_mul uA0 andbF. by [].
case uW' : (W \in unitmx).
  left. split=> //. rewrite (inverse_val o i c sT' sV' uA0 uW'). by eexists.
right. split; last by case. rewrite /tinverse /inv /=. have [u E] := swap_inv sT' sV' uA0. rewrite u /= E block_mxKul block_mxKdr.
set M := block_mx _ _ _ _. suff -> : (M \in unitmx) = false by [].
apply/negbTE. rewrite unitmxE unitfE negbK. have H := gdet_M T (ulsubmx (invmx (block_mx T W W^T V))). rewrite one_TP // det_mulmx in H.
have W0 : \det W = 0 by apply/eqP; move/negbT: uW'; rewrite unitmxE unitfE negbK.
rewrite W0 mul0r in H. move/eqP: H. by rewrite mulf_eq0 expf_eq0 oppr_eq0 oner_eq0 andbF.
Qed.

(** a one-mode operator with real symmetric A = (x y; y x) *)
Definition osc (x y : R) : triple 1 := Tri (block_mx (RtoC x)%:M (RtoC y)%:M (RtoC y)%:M (RtoC x)%:M) 0 1.
Lemma osc_inv x y : Rminus (Rmult x x) (Rmult y y) <> R0 -> y <> R0 ->
  invertible (osc x y) /\ (forall t', tinverse (osc x y) = Base.Ok t' -> detC (osc x y) t' = RtoC (Rdiv (Rmult y y) (Rminus (Rmult y y) (Rmult x x)))).
Proof.
move=> N Ny. set d := Rminus (Rmult x x) (Rmult y y) in N.
set B := block_mx (RtoC (Rdiv x d))%:M (RtoC (Ropp (Rdiv y d)))%:M (RtoC (Ropp (Rdiv y d)))%:M (RtoC (Rdiv x d))%:M : 'M[C]_(1 + 1).
have HB : tA (osc x y) *m B = 1%:M.
  rewrite /osc /B /= mulmx_block -!scalar_mxM -!raddfD /= scalar_mx_block !CmulE !CaddE -!RtoC_mult -!RtoC_plus. congr block_mx.
  - congr (RtoC _)%:M. rewrite /d. field. exact: N.
  - rewrite -[RHS](raddf0 (scalar_mx_additive _ 1)) /=. congr (RtoC _)%:M. rewrite /d. field. exact: N.
  - rewrite -[RHS](raddf0 (scalar_mx_additive _ 1)) /=. congr (RtoC _)%:M. rewrite /d. field. exact: N.
  - congr (RtoC _)%:M. rewrite /d. field. exact: N.
have [uA0 _] := mulmx1_unit HB. have iA : invmx (tA (osc x y)) = B by rewrite -[RHS](mulKmx uA0) HB mulmx1.
have uY : ((RtoC y)%:M : 'M[C]_1) \in unitmx by rewrite unitmxE det_scalar1 unitfE; apply/eqP => /RtoC_inj.
split. split=> //=; first by rewrite tr_block_mx !tr_scalar_mx. by rewrite block_mxKur. exact: oner_neq0.
move=> t'. have E : osc x y = Tri (block_mx (RtoC x)%:M (RtoC y)%:M ((RtoC y)%:M)^T (RtoC x)%:M) (col_mx 0 0) 1 by rewrite /osc; congr Tri; rewrite ?tr_scalar_mx ?col_mx0.
have uA1 : (block_mx (RtoC x)%:M (RtoC y)%:M ((RtoC y)%:M)^T (RtoC x)%:M : 'M[C]_(1 + 1)) \in unitmx by rewrite [_^T]tr_scalar_mx.
rewrite E (inverse_val 0 0 1 (tr_scalar_mx _ _) (tr_scalar_mx _ _) uA1 uY) => -[<-]. rewrite /detC /= block_mxKul block_mxKdr.
rewrite tr_scalar_mx -[block_mx _ _ _ _]/(tA (osc x y)) iA /B block_mxKul -scalar_mxM -raddfB /= det_scalar1 CmulE -RtoC_mult C1E CoppE CaddE -RtoC_opp -RtoC_plus. congr RtoC. rewrite /d. field.
split=> //. move=> H. apply: N. rewrite /d. lra.
Qed.

Theorem C50_transformation_example : let t := osc (Rdiv (IZR 1) (IZR 4)) (Rdiv (IZR 1) (IZR 2)) in
  invertible t /\ exists t', tinverse t = Base.Ok t' /\ then_ t t' = Some (identity 1) /\ then_ t' t = Some (identity 1).
Proof.
have [H D] : invertible (osc (Rdiv (IZR 1) (IZR 4)) (Rdiv (IZR 1) (IZR 2))) /\
  (forall t', tinverse (osc (Rdiv (IZR 1) (IZR 4)) (Rdiv (IZR 1) (IZR 2))) = Base.Ok t' -> detC (osc (Rdiv (IZR 1) (IZR 4)) (Rdiv (IZR 1) (IZR 2))) t' = RtoC (Rdiv (IZR 4) (IZR 3))).
  have [||] := @osc_inv (Rdiv (IZR 1) (IZR 4)) (Rdiv (IZR 1) (IZR 2)); try lra. move=> H D. split=> // t' E. rewrite (D _ E). congr RtoC. field.
have [t' [h1 h2 h3 h4 h5]] := tinverse_right H. split=> //. exists t'. have D1 := D _ h1.
have [t'' [k1 _ k3 _ _]] := tinverse_right h2. move: k1. rewrite h4 => -[E]. rewrite -E {t'' E} in k3.
have nc : ~ on_cut (RtoC (Rdiv (IZR 4) (IZR 3))) by case=> _ /=; lra.
have th : Rlt threshold (Cmod (RtoC (Rdiv (IZR 4) (IZR 3)))) by rewrite Cmod_R Rabs_pos_eq; [apply: Rlt_trans thr_lt1 _|]; lra.
split=> //. split.
  apply: (proj1 (h3 _)); by rewrite /detM -?[\det _]/(detC _ _) D1.
apply: (proj1 (k3 _)); by rewrite /detM -?[\det _]/(detC _ _) h5 D1.
Qed.
(** a squeezed thermal density matrix used as an operator, as in the docstring's example: the composite with its inverse is minus the identity *)
Theorem C50_transformation_refuted : let t := osc (Rdiv (IZR 1) (IZR 2)) (Rdiv (IZR 1) (IZR 4)) in
  invertible t /\ exists t', tinverse t = Base.Ok t' /\ then_ t t' = Some (scaled (-1) (identity 1)) /\ then_ t t' <> Some (identity 1).
Proof.
have [H D] : invertible (osc (Rdiv (IZR 1) (IZR 2)) (Rdiv (IZR 1) (IZR 4))) /\
  (forall t', tinverse (osc (Rdiv (IZR 1) (IZR 2)) (Rdiv (IZR 1) (IZR 4))) = Base.Ok t' -> detC (osc (Rdiv (IZR 1) (IZR 2)) (Rdiv (IZR 1) (IZR 4))) t' = RtoC (Rdiv (IZR (-1)) (IZR 3))).
  have [||] := @osc_inv (Rdiv (IZR 1) (IZR 2)) (Rdiv (IZR 1) (IZR 4)); try lra. move=> H D. split=> // t' E. rewrite (D _ E). congr RtoC. field.
have [t' [h1 h2 h3 h4 h5]] := tinverse_right H. split=> //. exists t'. have D1 := D _ h1. split=> //.
have E : then_ (osc (Rdiv (IZR 1) (IZR 2)) (Rdiv (IZR 1) (IZR 4))) t' = Some (scaled (-1) (identity 1)).
  apply: (proj2 (h3 _)); rewrite /detM -?[\det _]/(detC _ _) D1; last by split=> //=; lra.
  rewrite Cmod_R Rabs_left; last lra. apply: Rlt_trans (_ : Rlt _ (Rdiv (IZR 1) (IZR 4))) _; last lra.
  rewrite /threshold /=. apply: (Rlt_trans _ (Rdiv (IZR 1) (IZR 10))); last lra. rewrite /Rdiv Rmult_1_l. apply: Rinv_lt_contravar; lra.
split=> //. rewrite E /scaled /identity /= => -[] H1. move: H1. rewrite ?C1E ?CoppE ?CmulE /=. lra.
Qed.
