(** Claim C72: summing a pair of photon-number axes converges to the Gaussian integral over the two Bargmann variables.
    The Fock side is the array of math/lattice/strategies/vanilla (Vanilla.v, claim C19) and the index sum of math.trace / einsum; the Bargmann side is
    complex_gaussian_integral_1 (GaussInt.v, Prefactor.v) and complex_gaussian_integral_2 (physics/gaussian_integrals.py:508-555). *)
From Coq Require Import Reals Lra Lia Psatz Permutation.
From Coquelicot Require Import Coquelicot.
From mathcomp Require Import all_ssreflect all_algebra.
From Verif Require Import CMat CExp GateSym BargSym.
Require Import Verif.RootField Verif.ComplexRF Verif.Series Verif.HermAlg Verif.Vanilla Verif.VanillaProps.
From Verif Require Import TraceDecay TraceScalar TraceSpect.
From Verif Require Import Base GaussInt Prefactor TraceMx.
Set Implicit Arguments. Unset Strict Implicit. Unset Printing Implicit Defensive.
Import GRing.Theory.
Local Open Scope ring_scope.

(** ** Specification *)
(** the partial sums of f get arbitrarily close to l *)
Definition converges (f : nat -> C) (l : C) : Prop :=
  forall eps, Rlt R0 eps -> exists N0 : nat, forall N, (N0 <= N)%N -> Rlt (Cmod (Cminus (RootField.sumn (K := CF) N f) l)) eps.
(** the amplitude at the photon numbers k: sqrt(k!) times the Taylor coefficient of c exp(z.A.z/2 + b.z) at z^k *)
Definition fock (t : triple C_fieldType) (c : C) (k : seq nat) : C := Series.amp (K := CF) (dim t) (mat t) (vec t) c k.
(** the index K with n at position i *)
Definition at_pos (i n : nat) (K : seq nat) : seq nat := Series.upd i n K.
(** the photon numbers of K on the axes that remain, in order *)
Definition remaining (i j : nat) (K : seq nat) : seq nat := [seq nth 0%N K p | p <- rest (size K) [:: i; j]].

(** ** Convergence in terms of real and imaginary parts *)
Lemma re_sumn (x : nat -> C) N : Re (RootField.sumn (K := CF) N.+1 x) = sum_n (fun n => Re (x n)) N.
Proof. elim: N => [|N IH]; first by rewrite sum_O /= Rplus_0_l. rewrite sum_Sn -IH. by []. Qed.
Lemma im_sumn (x : nat -> C) N : Im (RootField.sumn (K := CF) N.+1 x) = sum_n (fun n => Im (x n)) N.
Proof. elim: N => [|N IH]; first by rewrite sum_O /= Rplus_0_l. rewrite sum_Sn -IH. by []. Qed.
Lemma Cmod_le (z : C) : Rle (Cmod z) (Rplus (Rabs (Re z)) (Rabs (Im z))).
Proof.
have H := CExp.Cmod2 z. have P := Cmod_ge_0 z. have A1 := Rabs_pos (Re z). have A2 := Rabs_pos (Im z).
have S1 : Rmult (Rabs (Re z)) (Rabs (Re z)) = Rmult (Re z) (Re z) by rewrite -Rabs_mult Rabs_pos_eq //; apply: Rle_0_sqr.
have S2 : Rmult (Rabs (Im z)) (Rabs (Im z)) = Rmult (Im z) (Im z) by rewrite -Rabs_mult Rabs_pos_eq //; apply: Rle_0_sqr.
rewrite /Re /Im in S1 S2 A1 A2 *. apply: Rsqr_incr_0_var; rewrite /Rsqr; nra.
Qed.
Lemma sums_converges x l : sums x l -> converges x l.
Proof.
move=> [H1 H2] eps He. have He2 : Rlt R0 (Rdiv eps (IZR 2)) by lra.
have [N1 h1] := (proj2 (is_lim_seq_spec _ _) (H1 : is_lim_seq _ (Finite (Re l)))) (mkposreal _ He2).
have [N2 h2] := (proj2 (is_lim_seq_spec _ _) (H2 : is_lim_seq _ (Finite (Im l)))) (mkposreal _ He2).
exists (N1 + N2).+1. case=> [|N] //. rewrite ltnS => HN.
have L1 : le N1 N by apply/leP; apply: leq_trans HN; apply: leq_addr. have L2 : le N2 N by apply/leP; apply: leq_trans HN; apply: leq_addl.
have h3 : Rlt (Rabs (Rminus (sum_n (fun n => Re (x n)) N) (Re l))) (Rdiv eps (IZR 2)) := h1 N L1.
have h4 : Rlt (Rabs (Rminus (sum_n (fun n => Im (x n)) N) (Im l))) (Rdiv eps (IZR 2)) := h2 N L2.
apply: Rle_lt_trans (Cmod_le _) _.
have -> : Re (Cminus (RootField.sumn (K := CF) N.+1 x) l) = Rminus (Re (RootField.sumn (K := CF) N.+1 x)) (Re l) by [].
have -> : Im (Cminus (RootField.sumn (K := CF) N.+1 x) l) = Rminus (Im (RootField.sumn (K := CF) N.+1 x)) (Im l) by [].
rewrite re_sumn im_sumn. lra.
Qed.

(** ** One pair of axes *)
Lemma inP (s : seq nat) x : (x \in s) <-> List.In x s.
Proof.
elim: s => //= y s [IH1 IH2]. rewrite inE. split; first by case/orP => [/eqP ->|/IH1]; [left|right]. by case=> [->|/IH2 ->]; rewrite ?eqxx ?orbT.
Qed.
Lemma uniq_NoDup (s : seq nat) : uniq s -> List.NoDup s.
Proof. elim: s => [|x s IH] /=; first by constructor. case/andP => N /IH H. constructor=> //. by move/inP => I; rewrite I in N. Qed.
Lemma rest_Permutation n i j : i <> j -> (i < n)%N -> (j < n)%N -> Permutation (i :: j :: rest n [:: i; j]) (List.seq 0 n).
Proof.
move=> Ij Li Lj. have N : perm_eq ([:: i; j] ++ rest n [:: i; j]) (iota 0 n).
  apply: rest_perm => [|k]; first by rewrite /= inE andbT; apply/eqP.
  by rewrite !inE => /orP[]/eqP ->.
have E : List.seq 0 n = iota 0 n by elim: n 0%N {Li Lj N} => //= n IH m; rewrite IH.
rewrite E. apply: NoDup_Permutation.
- apply: uniq_NoDup. by rewrite (perm_uniq N) iota_uniq.
- apply: uniq_NoDup. by rewrite iota_uniq.
- move=> x. split=> /inP H; apply/inP; [by rewrite -(perm_mem N)|by rewrite (perm_mem N)].
Qed.
Lemma keep_remaining i j K : keep (rest (size K) [:: i; j]) K = remaining i j K.
Proof. rewrite /keep /remaining. apply: eq_map => p. rewrite /at'. by elim: K p => [|x K IH] [|p] //=. Qed.
Lemma sums_of_pair (t : triple C_fieldType) c i j t' c' : symmetric t -> i <> j -> (i < dim t)%N -> (j < dim t)%N ->
  Rlt (Rplus (Cmod (mat t i i)) (Cmod (mat t i j))) R1 -> Rlt (Rplus (Cmod (mat t j j)) (Cmod (mat t i j))) R1 ->
  integrate t c [:: i] [:: j] = Ok (Some (t', c')) -> forall K, size K = dim t ->
  sums (fun n => fock t c (at_pos i n (at_pos j n K))) (fock t' c' (remaining i j K)).
Proof.
move=> Sy Ij Li Lj Q1 Q2 I K LK. have [Ed Dz EA Eb Ec] := pair_ok Sy Li Lj I. set r := rest (dim t) [:: i; j] in Ed EA Eb.
have Sy' : VanillaProps.symmetric (K := CF) (dim t) (mat t) by move=> x y /ltP Hx /ltP Hy; apply: Sy.
have Pm := rest_Permutation Ij Li Lj. rewrite -/r in Pm.
have T := @sums_trace (dim t) (mat t) (vec t) i j r Sy' Pm Q1 Q2 (S (wt r K)) K (le_n _) LK.
have Sr := @A'_sym (dim t) (mat t) i j r Sy' Pm. have HrD p (H : List.In p r) := @rD (dim t) i j r Pm p H.
have Ecr : c' = Cmult c (cr (mat t) (vec t) i j).
  have E2 : (2%:R : C) = RtoC (IZR 2) by rewrite -[2%:R]/(1 + 1) CaddE; exact: (esym two).
  by rewrite Ec E2 !CinvE.
have Et : fock t' c' (remaining i j K) = Cmult c (Series.amp (K := CF) (length r) (A' (mat t) i j r) (b' (mat t) (vec t) i j r) (cr (mat t) (vec t) i j) (keep r K)).
  rewrite -keep_remaining LK -/r /fock. have -> : dim t' = length r by rewrite Ed.
  rewrite (amp_c (K := CF) (length r) (mat t')) (amp_c (K := CF) (length r) (A' _ _ _ _) _ (cr _ _ _ _)) Ecr.
  have -> : Series.amp (K := CF) (length r) (mat t') (vec t') k1 (keep r K) = Series.amp (K := CF) (length r) (A' (mat t) i j r) (b' (mat t) (vec t) i j r) k1 (keep r K).
    symmetry. apply: (HermAlg.amp_ext (K := CF)) => //; first by rewrite /keep List.map_length.
      move=> a e Ha He. have Na : List.nth a r 0%N = nth 0%N r a by elim: (r) (a) => [|x s IH] [|q] //=. have Ne : List.nth e r 0%N = nth 0%N r e by elim: (r) (e) => [|x s IH] [|q] //=.
      rewrite EA /A' /Ar Na Ne. have Hy : (nth 0%N r e < dim t)%N by apply/ltP; rewrite -Ne; apply: HrD; apply: List.nth_In.
      by rewrite (Sy j _ Lj Hy) (Sy i _ Li Hy).
    move=> a Ha. have Na : List.nth a r 0%N = nth 0%N r a by elim: (r) (a) => [|x s IH] [|q] //=. by rewrite Eb /b' /br Na.
  exact: (esym (Cmult_assoc _ _ _)).
rewrite Et. apply: (sums_ext (fun n => Cmult c (sG (dim t) (mat t) (vec t) i j K n))); last exact: (sums_scal c _ _ T).
move=> n. rewrite /fock (amp_c (K := CF) _ _ _ c). by [].
Qed.
(** C72: the photon-number sum over a pair of axes converges to the amplitudes of the Gaussian integral over the two variables *)
Theorem C72_trace (t : triple C_fieldType) c i j t' c' : symmetric t -> i <> j -> (i < dim t)%N -> (j < dim t)%N ->
  Rlt (Rplus (Cmod (mat t i i)) (Cmod (mat t i j))) R1 -> Rlt (Rplus (Cmod (mat t j j)) (Cmod (mat t i j))) R1 ->
  integrate t c [:: i] [:: j] = Ok (Some (t', c')) -> forall K, size K = dim t ->
  converges (fun n => fock t c (at_pos i n (at_pos j n K))) (fock t' c' (remaining i j K)).
Proof. move=> Sy Ij Li Lj Q1 Q2 I K LK. apply: sums_converges. exact: sums_of_pair I K LK. Qed.

(** ** The arrays of the code *)
Lemma alg_sym (a b a' b' u x y : C) : Cplus (Cmult a (Cplus (Cmult u b') (Cmult y a'))) (Cmult b (Cplus (Cmult u a') (Cmult x b'))) =
  Cplus (Cmult a' (Cplus (Cmult u b) (Cmult y a))) (Cmult b' (Cplus (Cmult u a) (Cmult x b))).
Proof. ring. Qed.
Lemma Forall2_nth_lt (k s : seq nat) : size k = size s -> (forall p, (p < size s)%N -> (nth 0%N k p < nth 0%N s p)%N) -> List.Forall2 lt k s.
Proof.
elim: k s => [|x k IH] [|y s] //= [E] H; constructor; first by apply/ltP; apply: (H 0%N).
by apply: IH => // p Hp; apply: (H p.+1).
Qed.
Lemma nth_at_pos i n K p : (i < size K)%N -> nth 0%N (at_pos i n K) p = if p == i then n else nth 0%N K p.
Proof. by elim: K i p => [|x K IH] [|i] [|p] //= L; rewrite IH. Qed.
Lemma size_at_pos i n K : size (at_pos i n K) = size K.
Proof. exact: upd_length. Qed.
(** summing a pair of axes of cutoff N of the computed array, for any cutoffs on the other axes, gets arbitrarily close to the array computed from the integrated triple *)
Theorem C72_arrays (t : triple C_fieldType) c i j t' c' : symmetric t -> i <> j -> (i < dim t)%N -> (j < dim t)%N ->
  Rlt (Rplus (Cmod (mat t i i)) (Cmod (mat t i j))) R1 -> Rlt (Rplus (Cmod (mat t j j)) (Cmod (mat t i j))) R1 ->
  integrate t c [:: i] [:: j] = Ok (Some (t', c')) -> forall K, size K = dim t -> forall eps, Rlt R0 eps -> exists N0, forall N shape out, (N0 <= N)%N ->
  size shape = dim t -> nth 0%N shape i = N -> nth 0%N shape j = N -> (forall p, (p < dim t)%N -> p <> i -> p <> j -> (nth 0%N K p < nth 0%N shape p)%N) -> fits (K := CF) shape out ->
  let total := RootField.sumn (K := CF) N (fun n => entry (K := CF) shape (vanilla (K := CF) (dim t) (mat t) (vec t) shape c out) (at_pos i n (at_pos j n K))) in
  Rlt (Cmod (Cminus total (fock t' c' (remaining i j K)))) eps /\
  ((2 < dim t)%N -> forall out', fits (K := CF) (remaining i j shape) out' ->
    Rlt (Cmod (Cminus total (entry (K := CF) (remaining i j shape) (vanilla (K := CF) (dim t') (mat t') (vec t') (remaining i j shape) c' out') (remaining i j K)))) eps).
Proof.
move=> Sy Ij Li Lj Q1 Q2 I K LK eps He. have Conv := C72_trace Sy Ij Li Lj Q1 Q2 I LK. have [N0 H] := Conv eps He.
have [Ed Dz EA Eb Ec] := pair_ok Sy Li Lj I. have Pm := rest_Permutation Ij Li Lj. have HrD p (Hp : List.In p _) := @rD (dim t) i j _ Pm p Hp.
exists N0.+1 => N shape out HN LS Ei Ej HK F total.
have N1 : (0 < N)%N by case: (N) HN. have {}H := H N (ltnW HN).
have Ps : forall p, (p < dim t)%N -> (0 < nth 0%N shape p)%N.
  move=> p Hp. case: (p =P i) => [->|Np]; first by rewrite Ei. case: (p =P j) => [->|Nj]; first by rewrite Ej.
  exact: leq_ltn_trans (leq0n _) (HK p Hp Np Nj).
have Pos (s : seq nat) : (0 < size s)%N -> (forall p, (p < size s)%N -> (0 < nth 0%N s p)%N) -> positive_shape s.
  move=> L0 Hs. split; first exact/ltP. elim: s Hs {L0} => [|x s IH] Hs; constructor; [by apply/ltP; apply: (Hs 0%N)|by apply: IH => p; apply: (Hs p.+1)].
have Et : total = RootField.sumn (K := CF) N (fun n => fock t c (at_pos i n (at_pos j n K))).
  apply: (RootField.sumn_ext (K := CF)) => n /ltP Hn. rewrite /fock -LS. apply: (C19_taylor (K := CF) shape) => //.
  - apply: Pos; rewrite LS //. exact: leq_ltn_trans Li.
  - rewrite -[length shape]/(size shape) LS => x y /ltP Hx /ltP Hy. exact: Sy.
  - apply: Forall2_nth_lt; rewrite ?size_at_pos ?LK ?LS // => p Hp. rewrite !nth_at_pos ?size_at_pos ?LK //.
    case: eqP => [->|Np]; first by rewrite Ei. case: eqP => [->|Nj]; first by rewrite Ej. exact: HK.
rewrite Et. split=> // L2 out' F'.
suff -> : entry (K := CF) (remaining i j shape) (vanilla (K := CF) (dim t') (mat t') (vec t') (remaining i j shape) c' out') (remaining i j K) = fock t' c' (remaining i j K) by [].
have Er : remaining i j shape = [seq nth 0%N shape p | p <- rest (dim t) [:: i; j]] by rewrite /remaining LS.
have Ek : remaining i j K = [seq nth 0%N K p | p <- rest (dim t) [:: i; j]] by rewrite /remaining LK.
have Sz : size (remaining i j shape) = dim t' by rewrite Er size_map Ed.
have Lr : size (rest (dim t) [:: i; j]) = (dim t - 2)%N.
  have E := Permutation_length Pm. rewrite List.seq_length in E. have E' : (size (rest (dim t) [:: i; j])).+2 = dim t := E. by rewrite -[in RHS]E' subn2.
rewrite /fock -Sz. apply: (C19_taylor (K := CF) (remaining i j shape)) => //.
- apply: Pos; rewrite Sz Ed Lr; first by rewrite subn_gt0. move=> p Hp. rewrite Er (nth_map 0%N) ?Lr //. apply: Ps. apply/ltP. apply: HrD. apply/inP. by rewrite mem_nth // Lr.
- rewrite -[length _]/(size _) Sz Ed => x y /ltP Hx /ltP Hy. rewrite !EA. have Dx : (nth 0%N (rest (dim t) [:: i; j]) x < dim t)%N by apply/ltP; apply: HrD; apply/inP; rewrite mem_nth.
  have Dy : (nth 0%N (rest (dim t) [:: i; j]) y < dim t)%N by apply/ltP; apply: HrD; apply/inP; rewrite mem_nth.
  rewrite (Sy _ _ Dx Dy). congr (_ + _ / _). exact: alg_sym.
- apply: Forall2_nth_lt; first by rewrite Er Ek !size_map. move=> p. rewrite Sz Ed => Hp. rewrite Er Ek !(nth_map 0%N) //.
  have := mem_nth 0%N Hp. rewrite mem_rest !inE negb_or => /andP[Dp /andP[/eqP n1 /eqP n2]]. exact: HK.
Qed.

(** ** Contraction of two functions along one wire *)
(** physics/gaussian_integrals.py:159-350 join_Abc for triples without derived variables and one batch element (no batch string): A = diag(A1, A2), b = (b1, b2) *)
Definition joined (t1 t2 : triple C_fieldType) : triple C_fieldType :=
  Triple (dim t1 + dim t2) 0 (HermAlg.blk (K := CF) (dim t1) (mat t1) (mat t2)) (HermAlg.cat (K := CF) (dim t1) (vec t1) (vec t2)).
(** physics/gaussian_integrals.py:508-555 complex_gaussian_integral_2 with measure -1: the indices of the second function are offset by the number of core
    variables of the first (lines 548-553), log c = log c1 + log c2 *)
Definition integral_2 (t1 : triple C_fieldType) (c1 : C) (t2 : triple C_fieldType) (c2 : C) (idx1 idx2 : seq nat) : result (option (triple C_fieldType * C)) :=
  integrate (joined t1 t2) (c1 * c2) idx1 [seq (i + dim t1)%N | i <- idx2].
Lemma fock_joined (t1 t2 : triple C_fieldType) c1 c2 K1 K2 : symmetric t1 -> symmetric t2 -> size K1 = dim t1 -> size K2 = dim t2 ->
  fock (joined t1 t2) (c1 * c2) (K1 ++ K2) = fock t1 c1 K1 * fock t2 c2 K2.
Proof.
move=> S1 S2 L1 L2. rewrite /fock (amp_c (K := CF)) (amp_c (K := CF) _ _ _ c1) (amp_c (K := CF) _ _ _ c2).
rewrite [Series.amp (K := CF) (dim (joined t1 t2)) _ _ _ _](_ : _ = Cmult (Series.amp (K := CF) (dim t1) (mat t1) (vec t1) k1 K1) (Series.amp (K := CF) (dim t2) (mat t2) (vec t2) k1 K2)).
  rewrite !CmulE. cbn [kmul CF]. match goal with |- ?a = ?b => change (@eq C a b) end. ring.
by apply: (HermAlg.amp_block (K := CF)) => // x y /ltP Hx /ltP Hy; [apply: S1|apply: S2].
Qed.
Lemma joined_sym t1 t2 : symmetric t1 -> symmetric t2 -> symmetric (joined t1 t2).
Proof.
move=> S1 S2 x y /ltP Hx /ltP Hy. by apply: (HermAlg.blk_sym (K := CF) (dim t1) (dim t2)) => // u v /ltP Hu /ltP Hv; [apply: S1|apply: S2].
Qed.
Lemma at_pos_cat i j n K1 K2 : (i < size K1)%N -> (j < size K2)%N -> at_pos i n (at_pos (j + size K1) n (K1 ++ K2)) = at_pos i n K1 ++ at_pos j n K2.
Proof. move=> Li Lj. rewrite addnC /at_pos upd_app_r upd_app_l //. exact/ltP. Qed.
(** C72: the photon-number sum over a wire shared by two functions converges to the amplitudes of the Gaussian contraction *)
Theorem C72_contract (t1 t2 t' : triple C_fieldType) c1 c2 c' i j : symmetric t1 -> symmetric t2 -> (i < dim t1)%N -> (j < dim t2)%N ->
  Rlt (Cmod (mat t1 i i)) R1 -> Rlt (Cmod (mat t2 j j)) R1 -> integral_2 t1 c1 t2 c2 [:: i] [:: j] = Ok (Some (t', c')) ->
  forall K1 K2, size K1 = dim t1 -> size K2 = dim t2 ->
  converges (fun n => fock t1 c1 (at_pos i n K1) * fock t2 c2 (at_pos j n K2)) (fock t' c' (remaining i (j + dim t1) (K1 ++ K2))).
Proof.
move=> S1 S2 Li Lj Q1 Q2 I K1 K2 L1 L2. have Li' : (i < dim t1)%coq_nat by apply/ltP.
have Nj : PeanoNat.Nat.ltb (j + dim t1) (dim t1) = false by apply/PeanoNat.Nat.ltb_ge/leP; exact: leq_addl.
have Ni : PeanoNat.Nat.ltb i (dim t1) = true by apply/PeanoNat.Nat.ltb_lt.
have Ej : (j + dim t1 - dim t1)%coq_nat = j by rewrite -[(_ - _)%coq_nat]/(_ - _)%N addnK.
have Eii : mat (joined t1 t2) i i = mat t1 i i by rewrite /= /HermAlg.blk Ni.
have Eij : mat (joined t1 t2) i (j + dim t1)%N = RtoC R0 by rewrite /= /HermAlg.blk Ni Nj.
have Ejj : mat (joined t1 t2) (j + dim t1)%N (j + dim t1)%N = mat t2 j j by rewrite /= /HermAlg.blk Nj Ej.
have H := @C72_trace (joined t1 t2) (c1 * c2) i (j + dim t1)%N t' c' (joined_sym S1 S2).
have {}H := H _ _ _ _ _ I (K1 ++ K2) _. move: H. rewrite Eii Eij Ejj Cmod_0 !Rplus_0_r size_cat L1 L2 => H.
have {}H : converges (fun n => fock (joined t1 t2) (c1 * c2) (at_pos i n (at_pos (j + dim t1) n (K1 ++ K2)))) (fock t' c' (remaining i (j + dim t1) (K1 ++ K2))).
  apply: H => //=; [|by apply: ltn_addr|by rewrite addnC ltn_add2l]. move=> E. move: Li. rewrite E -{2}[dim t1]add0n ltn_add2r. by [].
move=> eps He. have [N0 {}H] := H eps He. exists N0 => N HN. have := H N HN.
rewrite (RootField.sumn_ext (K := CF) N _ (fun n => fock t1 c1 (at_pos i n K1) * fock t2 c2 (at_pos j n K2))) // => n _.
by rewrite -L1 at_pos_cat ?L1 ?L2 // fock_joined ?size_at_pos.
Qed.

(** ** Several wires at once *)
Section Ring.
Local Open Scope C_scope.
Lemma ring_a (a b s : C) : a * b * s = a * s * b. Proof. ring. Qed.
Lemma ring_b (a s : C) : a * s * s = s * s * a. Proof. ring. Qed.
Lemma ring_c (s l : C) : s * s * s - l * l * l = (s - l) * (s * s + s * l + l * l). Proof. ring. Qed.
Lemma ring_d (s l : C) : s = s - l + l. Proof. ring. Qed.
End Ring.
Lemma converges_cube (f : nat -> C) l : converges f l -> forall eps, Rlt R0 eps -> exists N0 : nat, forall N, (N0 <= N)%N ->
  Rlt (Cmod (Cminus (RootField.sumn (K := CF) N (fun n => RootField.sumn (K := CF) N (fun m => RootField.sumn (K := CF) N (fun k => f n * f m * f k)))) (l * l * l))) eps.
Proof.
move=> H eps He. set B := Rplus (Cmod l) (IZR 1). have B1 : Rle (IZR 1) B by rewrite /B; have := Cmod_ge_0 l; lra.
have E1 : Rlt R0 (Rmin (IZR 1) (Rdiv eps (Rmult (IZR 3) (Rmult B B)))) by apply: Rmin_case; [lra|apply: Rdiv_lt_0_compat => //; nra].
have [N0 {}H] := H _ E1. exists N0 => N HN. have {}H := H N HN. set S := RootField.sumn (K := CF) N f in H.
have Sc a (g : nat -> C) : RootField.sumn (K := CF) N (fun n => Cmult a (g n)) = Cmult a (RootField.sumn (K := CF) N g) by exact: (RootField.sumn_scal (K := CF)).
have -> : RootField.sumn (K := CF) N (fun n => RootField.sumn (K := CF) N (fun m => RootField.sumn (K := CF) N (fun k => f n * f m * f k))) = Cmult (Cmult S S) S.
  transitivity (RootField.sumn (K := CF) N (fun n => Cmult (Cmult S S) (f n))); last by rewrite Sc.
  apply: (RootField.sumn_ext (K := CF)) => n _. transitivity (RootField.sumn (K := CF) N (fun m => Cmult (Cmult (f n) S) (f m))).
    apply: (RootField.sumn_ext (K := CF)) => m _. transitivity (Cmult (Cmult (f n) (f m)) S); first exact: Sc.
    exact: ring_a.
  rewrite Sc -/S. exact: ring_b.
rewrite !CmulE. have -> : Cminus (Cmult (Cmult S S) S) (Cmult (Cmult l l) l) = Cmult (Cminus S l) (Cplus (Cplus (Cmult S S) (Cmult S l)) (Cmult l l)).
  exact: ring_c.
have M1 : Rlt (Cmod (Cminus S l)) (IZR 1) by have := Rmin_l (IZR 1) (Rdiv eps (Rmult (IZR 3) (Rmult B B))); lra.
rewrite Cmod_mult. have Sb : Rle (Cmod S) B.
  have -> : S = Cplus (Cminus S l) l by exact: ring_d. apply: Rle_trans (Cmod_triangle _ _) _. rewrite /B. lra.
have lb : Rle (Cmod l) B by rewrite /B; lra. have S0 := Cmod_ge_0 S. have l0 := Cmod_ge_0 l. have D0 := Cmod_ge_0 (Cminus S l).
have T : Rle (Cmod (Cplus (Cplus (Cmult S S) (Cmult S l)) (Cmult l l))) (Rmult (IZR 3) (Rmult B B)).
  apply: Rle_trans (Cmod_triangle _ _) _. have := Cmod_triangle (Cmult S S) (Cmult S l). rewrite !Cmod_mult => T.
  have : Rle (Rmult (Cmod S) (Cmod S)) (Rmult B B) by apply: Rmult_le_compat. have : Rle (Rmult (Cmod S) (Cmod l)) (Rmult B B) by apply: Rmult_le_compat. have : Rle (Rmult (Cmod l) (Cmod l)) (Rmult B B) by apply: Rmult_le_compat. lra.
have B2 : Rlt R0 (Rmult (IZR 3) (Rmult B B)) by nra.
apply: Rle_lt_trans (Rmult_le_compat_l _ _ _ D0 T) _. have M2 := Rmin_r (IZR 1) (Rdiv eps (Rmult (IZR 3) (Rmult B B))).
have D1 : Rlt (Cmod (Cminus S l)) (Rdiv eps (Rmult (IZR 3) (Rmult B B))) by lra.
have -> : eps = Rmult (Rdiv eps (Rmult (IZR 3) (Rmult B B))) (Rmult (IZR 3) (Rmult B B)) by field; lra. exact: Rmult_lt_compat_r.
Qed.
(** the pair (p, q) alone, and the amplitudes of three pairs *)
Definition one_pair (p q : C) : triple C_fieldType := Triple 2 0 (fun i j => if i == j then if odd i then q else p else 0) (fun _ => 0).
Lemma one_pair_sym p q : symmetric (one_pair p q).
Proof. move=> i j _ _ /=. rewrite eq_sym. by case: eqP => // ->. Qed.
Lemma fock_three p q n m l : fock (three p q) 1 [:: n; n; m; m; l; l] = fock (one_pair p q) 1 [:: n; n] * fock (one_pair p q) 1 [:: m; m] * fock (one_pair p q) 1 [:: l; l].
Proof.
set t := one_pair p q. have Sy := @one_pair_sym p q. have Sj := joined_sym Sy Sy.
rewrite -(fock_joined 1 1 (K1 := [:: n; n]) (K2 := [:: m; m]) Sy Sy) // -(fock_joined (1 * 1) 1 (K1 := [:: n; n; m; m]) (K2 := [:: l; l]) Sj Sy) // !mulr1 /=.
apply: (HermAlg.amp_ext (K := CF)) => //.
- move=> i j /ltP Hi /ltP Hj /=. rewrite eq_sym. by case: eqP => // ->.
- move=> i j /ltP Hi /ltP Hj. by do 6 (case: i Hi => [|i] Hi; [do 6 (case: j Hj => [|j] Hj; first by []); by []|]).
- move=> i /ltP Hi. by do 6 (case: i Hi => [|i] Hi; first by []).
Qed.
(** with one integral over three pairs of variables (a contraction over three modes) the photon-number sum converges to minus the returned scalar *)
Theorem C72_refuted_three_wires : Rlt (Cmod p0) R1 /\ Rlt (Cmod q0) R1 /\ exists t' k, [/\ integrate (three p0 q0) 1 [:: 0; 2; 4]%N [:: 1; 3; 5]%N = Ok (Some (t', - k)), k != 0 &
  forall eps, Rlt R0 eps -> exists N0 : nat, forall N, (N0 <= N)%N ->
  Rlt (Cmod (Cminus (RootField.sumn (K := CF) N (fun n => RootField.sumn (K := CF) N (fun m => RootField.sumn (K := CF) N (fun l => fock (three p0 q0) 1 [:: n; n; m; m; l; l])))) k)) eps].
Proof.
have [Hp [Hq [t1 [t2 [t3 [t123 [k1 [k2 [k3 [H1 _ _ H4 [E3 Nz]]]]]]]]]]] := C41_refuted. split=> //. split=> //. exists t123, k3. split=> //.
have Sy : symmetric (three p0 q0) by move=> i j _ _ /=; rewrite eq_sym; case: eqP => // ->.
have Z : Cmod (mat (three p0 q0) 0 1) = R0 by rewrite /= C0E Cmod_0.
have := @C72_trace (three p0 q0) 1 0 1 t1 k1 Sy _ (erefl _) (erefl _). rewrite Z !Rplus_0_r => /(_ _ Hp Hq H1 [:: 0; 0; 0; 0; 0; 0]%N (erefl _)) T.
have [Ed _ _ _ _] := @pair_ok _ _ _ _ 0%N 1%N Sy (erefl _) (erefl _) H1.
have E1 : fock t1 k1 (remaining 0 1 [:: 0; 0; 0; 0; 0; 0]%N) = k1 by rewrite /fock Ed; apply: (amp_zero (K := CF) 4).
rewrite E1 in T. have C1 : converges (fun n => fock (one_pair p0 q0) 1 [:: n; n]) k1.
  move=> eps He. have [|N0 H] := T _ eps He; first by []. exists N0 => N HN. have := H N HN.
  rewrite (RootField.sumn_ext (K := CF) N _ (fun n => fock (one_pair p0 q0) 1 [:: n; n])) // => n _. rewrite /at_pos /= fock_three.
  have -> : fock (one_pair p0 q0) 1 [:: 0; 0]%N = 1 by apply: (amp_zero (K := CF) 2). by rewrite !mulr1.
move=> eps He. have [N0 H] := converges_cube C1 He. exists N0 => N HN. have := H N HN. rewrite E3.
rewrite (RootField.sumn_ext (K := CF) N _ (fun n => RootField.sumn (K := CF) N (fun m => RootField.sumn (K := CF) N (fun l => fock (three p0 q0) 1 [:: n; n; m; m; l; l])))) // => n _.
apply: (RootField.sumn_ext (K := CF)) => m _. apply: (RootField.sumn_ext (K := CF)) => l _. by rewrite fock_three.
Qed.

(** the thermal state with mean photon number 1: A = [[0, 1/2], [1/2, 0]], c = 1/2; its trace is 1 *)
Definition half : C := RtoC (Rdiv (IZR 1) (IZR 2)).
Definition thermal : triple C_fieldType := Triple 2 0 (fun i j => if i == j then 0 else half) (fun _ => 0).
Lemma pair_done (t : triple C_fieldType) c i j : der t = 0%N -> (i < dim t)%N -> (j < dim t)%N -> tiny (mat t i i * mat t j j - (mat t i j - 1) * (mat t j i - 1)) = false ->
  exists t' c', integrate t c [:: i] [:: j] = Ok (Some (t', c')).
Proof.
move=> D Li Lj T. rewrite /integrate /integral /= D subn0. have -> : (dim t <= i)%N = false by rewrite leqNgt Li. have -> : (dim t <= j)%N = false by rewrite leqNgt Lj. rewrite /=. set M := Mmx _ _ _ _.
have -> : \det M = mat t i i * mat t j j - (mat t i j - 1) * (mat t j i - 1) by rewrite (det_2 M) !mxE /Xent /= !mulr0 !mulr1 !addr0.
rewrite T. by do 2 eexists.
Qed.
Theorem C72_example : exists t', integrate thermal half [:: 0]%N [:: 1]%N = Ok (Some (t', 1)) /\ converges (fun n => fock thermal half [:: n; n]) 1.
Proof.
have Sy : symmetric thermal by move=> i j _ _ /=; rewrite eq_sym.
have Hm : Cmod half = Rdiv (IZR 1) (IZR 2) by rewrite Cmod_R Rabs_pos_eq //; lra.
have Hh : half - 1 = - half by rewrite C1E CaddE !CoppE /half -!RtoC_opp -RtoC_plus; congr RtoC; lra.
have NT : tiny (mat thermal 0 0 * mat thermal 1 1 - (mat thermal 0 1 - 1) * (mat thermal 1 0 - 1)) = false.
  rewrite /= Hh mul0r sub0r mulrNN. apply: not_tiny. have -> : Cmod (- (half * half)) = Rmult (Cmod half) (Cmod half) by rewrite -Cmod_mult; exact: Cmod_opp. rewrite Hm. lra.
have [t' [c' I]] := @pair_done thermal half 0 1 (erefl _) (erefl _) (erefl _) NT.
have [Ed _ _ _ Ec] := @pair_ok _ _ _ _ 0%N 1%N Sy (erefl _) (erefl _) I.
have E1 : c' = 1.
  rewrite Ec /= !(mul0r, mulr0, addr0, subr0). have -> : Cexp 0 = 1 by rewrite C0E CExp.Cexp_0. rewrite mulr1.
  have -> : 1 - half = half by rewrite -opprB Hh opprK.
  have -> : (half * half)^-1 = RtoC (IZR 4) by apply: (mulfI (x := half * half)); [apply/eqP => E; have := f_equal Cmod E; rewrite CmulE Cmod_mult Hm C0E Cmod_0; lra|rewrite divff; [rewrite /half !CmulE -!RtoC_mult C1E; congr RtoC; lra|apply/eqP => E; have := f_equal Cmod E; rewrite CmulE Cmod_mult Hm C0E Cmod_0; lra]].
  rewrite CExp.csqrt_R; last lra. have -> : sqrt (IZR 4) = IZR 2 by rewrite (_ : IZR 4 = Rmult (IZR 2) (IZR 2)); [rewrite sqrt_square //; lra|lra].
  rewrite /half CmulE -RtoC_mult C1E. congr RtoC. lra.
exists t'. split; first by rewrite I E1. rewrite E1 in I.
have := @C72_trace thermal half 0 1 t' 1 Sy _ (erefl _) (erefl _). rewrite /= C0E Cmod_0 Hm => /(_ _ _ _ I [:: 0; 0]%N (erefl _)).
have -> : fock t' 1 (remaining 0 1 [:: 0; 0]%N) = 1 by rewrite /fock Ed; apply: (amp_zero (K := CF) 0). apply=> //; lra.
Qed.
(** a displaced squeezed one-variable function against one mode of a two-mode function: the hypotheses of C72_contract are met *)
Theorem C72_contract_example : let t1 := Triple 1 0 (fun _ _ => half) (fun _ => 1 : C_fieldType) in let t2 := Triple 2 0 (fun i j => if i == j then half else 1 : C_fieldType) (fun _ => half : C_fieldType) in
  [/\ symmetric t1, symmetric t2, Rlt (Cmod (mat t1 0 0)) R1, Rlt (Cmod (mat t2 1 1)) R1 & exists t' c', integral_2 t1 1 t2 half [:: 0]%N [:: 1]%N = Ok (Some (t', c'))].
Proof.
have Hm : Cmod half = Rdiv (IZR 1) (IZR 2) by rewrite Cmod_R Rabs_pos_eq //; lra.
split=> //=; [by move=> i j _ _ /=; rewrite eq_sym|by rewrite Hm; lra|by rewrite Hm; lra|].
apply: pair_done => //=. rewrite /HermAlg.blk /=. apply: not_tiny.
rewrite -[X in Cmod (_ - X)]/((0 - 1) * (0 - 1) : C) sub0r mulrNN mulr1 C1E CaddE CoppE CmulE /half -RtoC_mult -RtoC_opp -RtoC_plus.
have -> : Rplus (Rmult (Rdiv (IZR 1) (IZR 2)) (Rdiv (IZR 1) (IZR 2))) (Ropp (IZR 1)) = Ropp (Rdiv (IZR 3) (IZR 4)) by lra.
rewrite Cmod_R Rabs_Ropp Rabs_pos_eq; lra.
Qed.
