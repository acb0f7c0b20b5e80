(** The scalar of a Gaussian contraction, integrated jointly or pair by pair: claim C41.
    Model of the prefactor of complex_gaussian_integral_1 (physics/gaussian_integrals.py:353-401) on top of GaussInt.v. *)
From Coq Require Import Reals Lra Psatz.
From Coquelicot Require Import Complex.
From mathcomp Require Import all_ssreflect all_algebra.
From Verif Require Import CMat Optimizer GateSym BargSym CExp.
From Verif Require Import Base GaussInt.
Require Verif.Compose.
Set Implicit Arguments. Unset Strict Implicit. Unset Printing Implicit Defensive.
Import GRing.Theory.
Local Open Scope ring_scope.
Delimit Scope R_scope with coqR.

(** line 488: abs(det_M) > 1e-12 is false *)
Definition tiny (d : C) : bool := if Rlt_dec Compose.threshold (Cmod d) then false else true.
(** lines 365-369: exp(log c + log sqrt((-1)^m / det M) - 0.5 sum(bM * solve(M, bM))); exp(log x) is x for x not zero *)
Definition prefactor (c : C) (m : nat) (d e : C) : C := c * csqrt ((-1) ^+ m / d) * Cexp e.
(** complex_gaussian_integral_1 with measure -1 on a triple with scalar c: the new triple and the new scalar, or None for the infinities *)
Definition integrate (t : triple C_fieldType) (c : C) (z zc : seq nat) : result (option (triple C_fieldType * C)) :=
  match integral tiny (-1) t z zc with
  | Ok (Done t' d e) => Ok (Some (t', prefactor c (size z) d e))
  | Ok (Infinite _) => Ok None
  | Err x => Err x
  end.

(** ** When the root of a product is the product of the roots *)
(** the values the principal root takes: right half plane and upper imaginary half axis *)
Definition principal (z : C) : Prop := Rlt R0 (Re z) \/ Re z = R0 /\ Rle R0 (Im z).
Lemma csqrt_principal z : principal (csqrt z).
Proof.
have H := CExp.csqrt_re z. case: (Rle_lt_or_eq_dec _ _ H) => L; [by left|right]. split; first by rewrite /Re -L.
move: L. case: z {H} => x y. rewrite /csqrt /Re /Im /= => L. case: Rlt_dec => [Ly|Ly]; last exact: sqrt_pos. exfalso.
have Hm := CExp.Cmod_re (x, y). have H2 := CExp.Cmod2 (x, y). simpl in Hm, H2. apply Rcomplements.Rabs_le_between in Hm. have E : ((Cmod (x, y) + x) / 2)%coqR = R0.
  apply: sqrt_eq_0 => //. lra.
have Ex : x = Ropp (Cmod (x, y)) by lra. nra.
Qed.
Lemma principal_opp z : principal z -> principal (Copp z) -> z = RtoC R0.
Proof.
case: z => x y. rewrite /principal /Copp /Re /Im /=. case=> [H|[H1 H2]]; case=> [K|[K1 K2]]; try lra. rewrite /RtoC. congr pair; lra.
Qed.
Lemma csqrt_mul_iff a b : csqrt (a * b) = csqrt a * csqrt b <-> principal (csqrt a * csqrt b).
Proof.
split=> [<-|H]; first exact: csqrt_principal. rewrite !CmulE. case: (CExp.csqrt_mul a b) => // E. rewrite E.
rewrite CmulE in H. have K := csqrt_principal (Cmult a b). rewrite E in K. rewrite (principal_opp H K) /Copp /RtoC /= Ropp_0. by [].
Qed.
Lemma Cexp_D a b : Cexp (a + b) = Cexp a * Cexp b. Proof. by rewrite CaddE CmulE CExp.Cexp_add. Qed.
Lemma sq1 (z : C) : csqrt z * csqrt z = z. Proof. by rewrite CmulE CExp.csqrt_sq. Qed.
Lemma two_neq0 : (2%:R : C) != 0.
Proof. apply/eqP. rewrite -[2%:R]/(1 + 1) CaddE C1E -RtoC_plus C0E => /RtoC_inj. lra. Qed.
Lemma tiny0 : tiny 0.
Proof. rewrite /tiny C0E Cmod_0. case: Rlt_dec => // H. exfalso. move: H. rewrite /Compose.threshold. have : Rlt R0 (Rinv (pow (IZR 10) 12)) by apply: Rinv_0_lt_compat; apply: pow_lt; lra. lra. Qed.

Lemma integrate_inv t c z zc t' c' : integrate t c z zc = Ok (Some (t', c')) -> exists d e, integral tiny (-1) t z zc = Ok (Done t' d e) /\ c' = prefactor c (size z) d e.
Proof. rewrite /integrate. case: integral => // -[|] // t1 d e [<- <-]. by exists d, e. Qed.

Lemma done_tiny s t z zc t' d e : integral tiny s t z zc = Ok (Done t' d e) -> tiny d = false.
Proof.
rewrite /integral. case: ifP => // _. case: ifP => // _. case: ifP => [_ [_ <- _]|_].
  rewrite /tiny C1E Cmod_1. case: Rlt_dec => // H. by case: H; apply: Compose.thr_lt1.
by case E : (tiny _) => // -[_ <- _].
Qed.
Lemma det_nz s t z zc t' d e : integral tiny s t z zc = Ok (Done t' d e) -> d != 0.
Proof. move=> /done_tiny H. apply/eqP => E. move: H. by rewrite E tiny0. Qed.
Lemma empty (z zc : seq nat) : size (z ++ zc) == 0%N -> z = [::] /\ zc = [::].
Proof. by rewrite size_cat addn_eq0 => /andP[/nilP -> /nilP ->]. Qed.
(** if both steps and the joint integral are finite, so is the product of the determinants *)
Lemma joint_tiny t z1 c1 z2 c2 t1 d1 e1 t2 d2 e2 t12 d12 e12 : symmetric t -> size z1 = size c1 -> size z2 = size c2 -> pairs_ok t (z1 ++ z2) (c1 ++ c2) ->
  let pos i := index i (rest (dim t) (z1 ++ c1)) in
  integral tiny (-1) t z1 c1 = Ok (Done t1 d1 e1) -> integral tiny (-1) t1 (map pos z2) (map pos c2) = Ok (Done t2 d2 e2) ->
  integral tiny (-1) t (z1 ++ z2) (c1 ++ c2) = Ok (Done t12 d12 e12) -> tiny (d1 * d2) = false.
Proof.
move=> Sy E1 E2 P pos H1 H2 H12. have P1 : pairs_ok t z1 c1 := ok1 E1 P.
case: (boolP (size (z1 ++ c1) == 0%N)) => N1.
  have [Ez Ec] := empty N1. move: H1. rewrite /integral Ez Ec /= => -[_ <- _]. rewrite mul1r. exact: done_tiny H2.
case: (boolP (size (z2 ++ c2) == 0%N)) => N2.
  have [Ez Ec] := empty N2. move: H2. rewrite /integral Ez Ec /= => -[_ <- _]. rewrite mulr1. exact: done_tiny H1.
have [Q1 Q2 Q3 Q4] := integral_ok tiny0 P1 H1 N1. have I1 : \det (Mmx t (-1) z1 c1) != 0 by rewrite -Q2.
have P2 : pairs_ok t1 (map pos z2) (map pos c2) by rewrite Q1; apply: ok2.
have N2' : size (map pos z2 ++ map pos c2) != 0%N by rewrite -map_cat size_map.
have [R1' R2' R3 R4] := integral_ok tiny0 P2 H2 N2'. rewrite Q1 in R1' R2' R3.
have DT := det2 Sy E1 E2 P I1. rewrite -/pos -Q2 -R2' in DT.
have N12 : size ((z1 ++ z2) ++ (c1 ++ c2)) != 0%N.
  apply: contra N1. by rewrite !size_cat !addn_eq0 => /andP[/andP[-> _] /andP[-> _]].
have [_ D12 _ _] := integral_ok tiny0 P H12 N12. rewrite -DT -D12. exact: done_tiny H12.
Qed.
Lemma prefactor2 c m1 m2 d1 d2 e1 e2 : d1 != 0 -> d2 != 0 ->
  let w1 := (-1) ^+ m1 / d1 in let w2 := (-1) ^+ m2 / d2 in
  prefactor (prefactor c m1 d1 e1) m2 d2 e2 = c * (csqrt w1 * csqrt w2) * Cexp (e1 + e2) /\ prefactor c (m1 + m2) (d1 * d2) (e1 + e2) = c * csqrt (w1 * w2) * Cexp (e1 + e2).
Proof.
move=> n1 n2 w1 w2. rewrite /prefactor Cexp_D -/w1 -/w2. split.
  by rewrite -!mulrA; do 2 congr (_ * _); rewrite mulrCA.
have -> : (-1) ^+ (m1 + m2) / (d1 * d2) = w1 * w2 by rewrite exprD invfM mulrACA. by [].
Qed.

(** C41. If (z1, c1) and then (z2, c2), whose positions have moved, can be integrated and so can all at once, the triples agree and the scalars agree up to their sign;
    if the scalar is not zero, they are equal exactly when the product of the two roots is a principal root *)
Theorem C41_sign t c z1 c1 z2 c2 t1 k1 t2 k2 t12 k12 : symmetric t -> size z1 = size c1 -> size z2 = size c2 -> pairs_ok t (z1 ++ z2) (c1 ++ c2) ->
  let pos i := index i (rest (dim t) (z1 ++ c1)) in
  integrate t c z1 c1 = Ok (Some (t1, k1)) -> integrate t1 k1 (map pos z2) (map pos c2) = Ok (Some (t2, k2)) ->
  integrate t c (z1 ++ z2) (c1 ++ c2) = Ok (Some (t12, k12)) ->
  same t12 t2 /\ (k12 = k2 \/ k12 = - k2).
Proof.
move=> Sy E1 E2 P pos /integrate_inv [d1 [e1 [H1 ->]]] /integrate_inv [d2 [e2 [H2 ->]]] /integrate_inv [d12 [e12 [H12 ->]]].
have NT := joint_tiny Sy E1 E2 P H1 H2 H12. have [u [HU Su]] := C40_twice tiny0 two_neq0 Sy E1 E2 P H1 H2 NT.
move: H12. rewrite HU => -[<- <- <-]. split=> //. rewrite size_map size_cat.
have [-> ->] := prefactor2 c (size z1) (size z2) e1 e2 (det_nz H1) (det_nz H2). set w1 := _ / d1. set w2 := _ / d2.
have := CExp.csqrt_mul w1 w2. rewrite -!CmulE -CoppE. case=> ->; [by left|right]. by rewrite mulrN mulNr.
Qed.
(** ... and the scalars are equal exactly when the product of the two roots is again a principal root *)
Theorem C41_iff t c z1 c1 z2 c2 t1 d1 e1 t2 d2 e2 k1 k2 t12 k12 : c != 0 -> symmetric t -> size z1 = size c1 -> size z2 = size c2 -> pairs_ok t (z1 ++ z2) (c1 ++ c2) ->
  let pos i := index i (rest (dim t) (z1 ++ c1)) in
  integral tiny (-1) t z1 c1 = Ok (Done t1 d1 e1) -> integral tiny (-1) t1 (map pos z2) (map pos c2) = Ok (Done t2 d2 e2) ->
  integrate t c z1 c1 = Ok (Some (t1, k1)) -> integrate t1 k1 (map pos z2) (map pos c2) = Ok (Some (t2, k2)) ->
  integrate t c (z1 ++ z2) (c1 ++ c2) = Ok (Some (t12, k12)) ->
  (k12 = k2 <-> principal (csqrt ((-1) ^+ size z1 / d1) * csqrt ((-1) ^+ size z2 / d2))).
Proof.
move=> cn Sy E1 E2 P pos H1 H2. rewrite {1}/integrate H1 => -[<-]. rewrite {1}/integrate H2 => -[<-] /integrate_inv [d12 [e12 [H12 ->]]].
have NT := joint_tiny Sy E1 E2 P H1 H2 H12. have [u [HU Su]] := C40_twice tiny0 two_neq0 Sy E1 E2 P H1 H2 NT.
move: H12. rewrite HU => -[_ <- <-]. rewrite size_map size_cat.
have [-> ->] := prefactor2 c (size z1) (size z2) e1 e2 (det_nz H1) (det_nz H2). set w1 := _ / d1. set w2 := _ / d2.
rewrite -csqrt_mul_iff. split=> [H|-> //]. apply: (mulfI cn). apply: (mulIf _ H). apply/eqP. exact: CExp.Cexp_nz.
Qed.
(** in particular when the ratios (-1)^m / det M of both steps have a positive real part *)
Theorem C41_half_plane t c z1 c1 z2 c2 t1 d1 e1 t2 d2 e2 k1 k2 t12 k12 : symmetric t -> size z1 = size c1 -> size z2 = size c2 -> pairs_ok t (z1 ++ z2) (c1 ++ c2) ->
  let pos i := index i (rest (dim t) (z1 ++ c1)) in
  integral tiny (-1) t z1 c1 = Ok (Done t1 d1 e1) -> integral tiny (-1) t1 (map pos z2) (map pos c2) = Ok (Done t2 d2 e2) ->
  Rlt R0 (Re ((-1) ^+ size z1 / d1)) -> Rlt R0 (Re ((-1) ^+ size z2 / d2)) ->
  integrate t c z1 c1 = Ok (Some (t1, k1)) -> integrate t1 k1 (map pos z2) (map pos c2) = Ok (Some (t2, k2)) ->
  integrate t c (z1 ++ z2) (c1 ++ c2) = Ok (Some (t12, k12)) -> k12 = k2.
Proof.
move=> Sy E1 E2 P pos H1 H2 L1 L2. rewrite {1}/integrate H1 => -[<-]. rewrite {1}/integrate H2 => -[<-] /integrate_inv [d12 [e12 [H12 ->]]].
have NT := joint_tiny Sy E1 E2 P H1 H2 H12. have [u [HU Su]] := C40_twice tiny0 two_neq0 Sy E1 E2 P H1 H2 NT.
move: H12. rewrite HU => -[_ <- <-]. rewrite size_map size_cat.
have [-> ->] := prefactor2 c (size z1) (size z2) e1 e2 (det_nz H1) (det_nz H2). by rewrite [in LHS]CmulE CExp.csqrt_half.
Qed.

(** ** Uncoupled pairs: the overlap of two products of single-mode squeezed states *)
(** the first two variables have quadratic form p x^2 + q y^2 and no coupling to the others *)
Definition head (p q : C) (t : triple C_fieldType) : Prop :=
  [/\ (2 <= dim t)%N, der t = 0%N, [/\ mat t 0 0 = p, mat t 1 1 = q, mat t 0 1 = 0 & mat t 1 0 = 0],
      (forall i, (2 <= i < dim t)%N -> mat t i 0 = 0 /\ mat t i 1 = 0) & vec t 0 = 0 /\ vec t 1 = 0].
Lemma det_2 (M : 'M[C]_2) : \det M = M 0 0 * M 1 1 - M 0 1 * M 1 0.
Proof.
rewrite (expand_det_row M 0) !big_ord_recl big_ord0 /cofactor !det_mx11 !mxE /= addr0 expr0 mul1r.
have -> : lift (0 : 'I_2) (0 : 'I_1) = 1 by apply: val_inj. have -> : lift (1 : 'I_2) (0 : 'I_1) = 0 by apply: val_inj.
by rewrite expr1 mulN1r mulrN.
Qed.
Lemma rest_head n : (2 <= n)%N -> rest n [:: 0; 1]%N = iota 2 (n - 2).
Proof.
case: n => [|[|n]] // _. rewrite /rest /= subSS subSS subn0. apply/all_filterP/allP => i. rewrite mem_iota => /andP[L _]. by case: i L => [|[|i]].
Qed.
Lemma head_integral p q t : head p q t -> tiny (p * q - 1) = false ->
  exists t', [/\ integral tiny (-1) t [:: 0]%N [:: 1]%N = Ok (Done t' (p * q - 1) 0), dim t' = (dim t - 2)%N, der t' = 0%N,
    forall i j, (i < dim t - 2)%N -> (j < dim t - 2)%N -> mat t' i j = mat t i.+2 j.+2 & forall i, (i < dim t - 2)%N -> vec t' i = vec t i.+2].
Proof.
move=> [L D [m1 m2 m3 m4] mi [v0 v1]] NT.
have Dm : \det (Mmx t (-1) [:: 0]%N [:: 1]%N) = p * q - 1.
  rewrite det_2 !mxE /= m1 m2 m3 m4 /Xent /= ?mulr0 ?mulr1 ?addr0 ?add0r. by rewrite mulrNN mulr1.
rewrite /integral /= D subn0. have -> : (dim t <= 0)%N = false by apply/negbTE; rewrite -ltnNge; apply: leq_trans L. have -> : (dim t <= 1)%N = false by apply/negbTE; rewrite -ltnNge.
rewrite /= Dm NT. set V : 'M[C]_(size [:: 0; 1]%N) := invmx _.
have E0 : @expo _ t [:: 0; 1]%N V = 0 by rewrite /expo !big_ord_recl !big_ord0 /= ?v0 ?v1 ?(mulr0, mul0r, addr0).
rewrite E0. eexists. split; first reflexivity; rewrite /= ?rest_head ?size_iota //.
  move=> i j Li Lj. rewrite /Apost rest_head // !nth_iota // !add2n !big_ord_recl !big_ord0 /=.
  have Q k : (k < dim t - 2)%N -> (1 < k.+2 < dim t)%N by rewrite ltn_subRL add2n.
  have [h1 h2] := mi _ (Q _ Li). have [h3 h4] := mi _ (Q _ Lj).
  by rewrite h1 h2 h3 h4 ?(mulr0, mul0r, addr0, subr0).
move=> i Li. rewrite /bpost rest_head // !nth_iota // !add2n !big_ord_recl !big_ord0 /= v0 v1 ?(mulr0, mul0r, addr0, subr0). by [].
Qed.

(** the joined triple of three pairs (p, q): variables p, q, p, q, p, q *)
Definition three (p q : C) : triple C_fieldType := Triple 6 0 (fun i j => if i == j then if odd i then q else p else 0) (fun _ => 0).
(** three pairs at once, and one at a time *)
Lemma three_val p q c : tiny (p * q - 1) = false -> tiny ((p * q - 1) * (p * q - 1)) = false -> tiny ((p * q - 1) * (p * q - 1) * (p * q - 1)) = false ->
  let w := (1 - p * q)^-1 in
  exists t1 t2 t3 t12 t123,
  [/\ integrate (three p q) c [:: 0]%N [:: 1]%N = Ok (Some (t1, c * csqrt w)),
      integrate t1 (c * csqrt w) [:: 0]%N [:: 1]%N = Ok (Some (t2, c * csqrt w * csqrt w)),
      integrate t2 (c * csqrt w * csqrt w) [:: 0]%N [:: 1]%N = Ok (Some (t3, c * csqrt w * csqrt w * csqrt w)),
      integrate (three p q) c [:: 0; 2]%N [:: 1; 3]%N = Ok (Some (t12, c * csqrt (w * w))) &
      integrate (three p q) c [:: 0; 2; 4]%N [:: 1; 3; 5]%N = Ok (Some (t123, c * csqrt (w * w * w)))].
Proof.
move=> N1 N2 N3 w. set d := p * q - 1 in N1 N2 N3.
have Sy : symmetric (three p q) by move=> i j _ _ /=; rewrite eq_sym; case: eqP => // ->.
have h1 : head p q (three p q) by split=> // -[|[|i]].
have [t1 [I1 D1 d1 M1 V1]] := head_integral h1 N1. rewrite -/d in I1. simpl in D1, M1, V1.
have h2 : head p q t1.
  split=> //; rewrite ?D1 ?M1 ?V1 //. by move=> [|[|i]] //= Hi; rewrite !M1.
have [t2 [I2 D2 d2 M2 V2]] := head_integral h2 N1. rewrite -/d in I2. rewrite D1 in D2 M2 V2.
have h3 : head p q t2.
  split=> //; rewrite ?D2 ?M2 ?V2 ?M1 ?V1 //. by move=> [|[|i]] //= Hi; rewrite !M2 ?M1.
have [t3 [I3 _ _ _ _]] := head_integral h3 N1. rewrite -/d in I3.
have P2 : pairs_ok (three p q) ([:: 0] ++ [:: 2])%N ([:: 1] ++ [:: 3])%N by split=> // -[|[|[|[|i]]]].
have [t12 [I12 [S1 S2 S3 S4]]] := C40_twice tiny0 two_neq0 Sy (erefl : size [:: 0]%N = size [:: 1]%N) (erefl : size [:: 2]%N = size [:: 3]%N) P2 I1 I2 N2.
have h4 : head p q t12.
  have L0 : (0 < dim t12)%N by rewrite S1 D2. have L1 : (1 < dim t12)%N by rewrite S1 D2.
  split; rewrite ?S1 ?D2 ?S2 //; [split|..]; rewrite ?S3 ?S4 ?M2 ?V2 ?M1 ?V1 //.
  by move=> [|[|i]].
have [t4 [I4 _ _ _ _]] := head_integral h4 N1. rewrite -/d in I4.
have P3 : pairs_ok (three p q) ([:: 0; 2] ++ [:: 4])%N ([:: 1; 3] ++ [:: 5])%N by split=> // -[|[|[|[|[|[|i]]]]]].
have [t123 [I123 _]] := C40_twice tiny0 two_neq0 Sy (erefl : size [:: 0; 2]%N = size [:: 1; 3]%N) (erefl : size [:: 4]%N = size [:: 5]%N) P3 I12 I4 N3.
have Ew : (-1) ^+ 1 / d = w by rewrite expr1 /w /d -opprB invrN mulrN mulNr opprK mul1r.
exists t1, t2, t3, t12, t123. move: I12. rewrite /= => I12. rewrite /integrate I1 I2 I3 I12 I123 /prefactor [size _]/= !addr0. have -> : Cexp 0 = 1 by rewrite C0E CExp.Cexp_0. rewrite Ew !mulr1. split=> //.
  congr (Ok (Some (_, _ * csqrt _))). rewrite -Ew expr1 expr2 !mulN1r opprK !invfM mul1r mulrNN. by [].
congr (Ok (Some (_, _ * csqrt _))). rewrite -Ew expr1 exprS expr2 !mulN1r opprK !invfM mulN1r mulrNN mulrN. by [].
Qed.

Definition p0 : C := RtoC (Rdiv (IZR 19) (IZR 20)).
Definition q0 : C := (Rdiv (IZR 15) (IZR 19), Ropp (Rdiv (IZR 10) (IZR 19))).
Lemma pq0 : p0 * q0 = (Rdiv (IZR 3) (IZR 4), Ropp (Rdiv (IZR 1) (IZR 2))).
Proof. rewrite CmulE /p0 /q0 /Cmult /RtoC /=. congr pair; field. Qed.
Lemma w0 : (1 - p0 * q0)^-1 = (Rdiv (IZR 4) (IZR 5), Ropp (Rdiv (IZR 8) (IZR 5))).
Proof. rewrite pq0 CinvE C1E CoppE CaddE /Cinv /Cplus /Copp /RtoC /=. congr pair; field. Qed.
Lemma d0_mod : Rmult (Cmod (p0 * q0 - 1)) (Cmod (p0 * q0 - 1)) = Rdiv (IZR 5) (IZR 16).
Proof. rewrite CExp.Cmod2 pq0 C1E CoppE CaddE /=. field. Qed.
Lemma not_tiny d : Rlt (Rdiv (IZR 1) (IZR 10)) (Cmod d) -> tiny d = false.
Proof.
rewrite /tiny => H. case: Rlt_dec => // N. case: N. apply: Rle_lt_trans H. rewrite /Compose.threshold /=. rewrite /Rdiv Rmult_1_l. apply: Rinv_le_contravar; lra.
Qed.
Lemma cube (w s : C) : csqrt w = s -> Rlt R0 (Re s) -> Rlt (Re (s * s * s)) R0 -> csqrt (w * w * w) = - (s * s * s).
Proof.
move=> E H1 H2. have Q : csqrt (w * w * w) * csqrt (w * w * w) = (s * s * s) * (s * s * s).
  have Ew : w = s * s by rewrite -E sq1. by rewrite sq1 Ew !mulrA.
rewrite !CmulE in Q H2 *. case: (CExp.sq_pm _ _ Q) => // K. have := CExp.csqrt_re (Cmult (Cmult w w) w). rewrite K. move: H2. rewrite /Re. lra.
Qed.
(** C41 is false in general. The states with Bargmann parameters q0 and (conjugated) p0 are normalisable squeezed states, |p0| < 1 and |q0| < 1. The overlap of three copies of
    them computed by one contraction over three modes is minus the product of the three overlaps, which is what contracting one mode at a time returns *)
Theorem C41_refuted : Rlt (Cmod p0) R1 /\ Rlt (Cmod q0) R1 /\ exists t1 t2 t3 t123 k1 k2 k3,
  [/\ integrate (three p0 q0) 1 [:: 0]%N [:: 1]%N = Ok (Some (t1, k1)), integrate t1 k1 [:: 0]%N [:: 1]%N = Ok (Some (t2, k2)),
      integrate t2 k2 [:: 0]%N [:: 1]%N = Ok (Some (t3, k3)), integrate (three p0 q0) 1 [:: 0; 2; 4]%N [:: 1; 3; 5]%N = Ok (Some (t123, - k3)) &
      k3 = k1 * k1 * k1 /\ k3 != 0].
Proof.
split; first by rewrite Cmod_R Rabs_right; lra.
split. have := CExp.Cmod2 q0. have := Cmod_ge_0 q0. rewrite /q0 [fst _]/= [snd _]/=. nra.
have Dm := d0_mod. have D0 := Cmod_ge_0 (p0 * q0 - 1).
have D1 : Rlt (Rdiv (IZR 1) (IZR 2)) (Cmod (p0 * q0 - 1)) by nra.
have [||| t1 [t2 [t3 [t12 [t123 [h1 h2 h3 _ h4]]]]]] := @three_val p0 q0 1; try (apply: not_tiny; rewrite ?[Cmod (_ * _)]Cmod_mult ?[Cmod (_ * _)]Cmod_mult; nra).
move: h1 h2 h3 h4. rewrite w0 !mul1r. set w : C := (_, _). set s := csqrt w => h1 h2 h3 h4.
have [E1 E2] : (Rminus (Rmult (Re s) (Re s)) (Rmult (Im s) (Im s)) = Rdiv (IZR 4) (IZR 5)) /\ Rplus (Rmult (Re s) (Im s)) (Rmult (Im s) (Re s)) = Ropp (Rdiv (IZR 8) (IZR 5)).
  have := CExp.csqrt_sq w. rewrite -/s /Cmult /Re /Im => -[-> ->]. by [].
have S0 : Rle R0 (Re s) := CExp.csqrt_re w. have S1 : Rlt R0 (Re s) by nra.
have Hv : Rlt (Rdiv (IZR 2) (IZR 5)) (Rmult (Im s) (Im s)).
  apply: Rnot_le_lt => L. have : Rmult (Rmult (Re s) (Re s)) (Rmult (Im s) (Im s)) = Rdiv (IZR 16) (IZR 25) by nra. nra.
have S3 : Rlt (Re (s * s * s)) R0.
  rewrite !CmulE. move: E1 E2 S1 Hv. clear. case: s => u v. rewrite /Cmult /Re /Im /= => E1 E2 S1 Hv. nra.
exists t1, t2, t3, t123, s, (s * s), (s * s * s). rewrite -(cube (erefl s) S1 S3). split=> //. split=> //.
apply/eqP => E. move: S3. rewrite E C0E /=. lra.
Qed.

(** two of these pairs: the hypotheses of C41_sign are met, and the scalars agree *)
Theorem C41_example : symmetric (three p0 q0) /\ pairs_ok (three p0 q0) ([:: 0] ++ [:: 2])%N ([:: 1] ++ [:: 3])%N /\
  map (index^~ (rest 6 ([:: 0] ++ [:: 1])%N)) [:: 2]%N = [:: 0]%N /\ map (index^~ (rest 6 ([:: 0] ++ [:: 1])%N)) [:: 3]%N = [:: 1]%N /\
  exists t1 k1 t2 t12 k2, [/\ integrate (three p0 q0) 1 [:: 0]%N [:: 1]%N = Ok (Some (t1, k1)), integrate t1 k1 [:: 0]%N [:: 1]%N = Ok (Some (t2, k2)) &
    integrate (three p0 q0) 1 ([:: 0] ++ [:: 2])%N ([:: 1] ++ [:: 3])%N = Ok (Some (t12, k2))].
Proof.
split; first by move=> i j _ _ /=; rewrite eq_sym; case: eqP => // ->.
split; first by split=> // -[|[|[|[|i]]]]. split=> //. split=> //.
have Dm := d0_mod. have D0 := Cmod_ge_0 (p0 * q0 - 1).
have D1 : Rlt (Rdiv (IZR 1) (IZR 2)) (Cmod (p0 * q0 - 1)) by nra.
have [||| t1 [t2 [t3 [t12 [t123 [h1 h2 h3 h4 _]]]]]] := @three_val p0 q0 1; try (apply: not_tiny; rewrite ?[Cmod (_ * _)]Cmod_mult ?[Cmod (_ * _)]Cmod_mult; nra).
exists t1, (1 * csqrt (1 - p0 * q0)^-1), t2, t12, (1 * csqrt (1 - p0 * q0)^-1 * csqrt (1 - p0 * q0)^-1). split=> //.
rewrite h4 -mulrA. congr (Ok (Some (_, _ * _))). rewrite !CmulE. apply: CExp.csqrt_half; rewrite -CmulE w0 /=; lra.
Qed.
