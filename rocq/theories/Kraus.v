(** The Kraus family of the attenuator.  Claim C82.
    Model of mrmustard/physics/triples.py:902-935 (attenuator_kraus_Abc), one batch element, exact arithmetic; the contraction of the bond with the conjugate family is the one of ChanAlg.v
    (mrmustard/physics/gaussian_integrals.py:353-401 and 473-505). *)
From Coq Require Import Reals Lra.
From Coquelicot Require Import Complex.
From mathcomp Require Import all_ssreflect all_algebra.
From Verif Require Import CMat Optimizer GateSym BargSym CExp Compose GateTriples ChanAlg States Channels ChanLaws.
Set Implicit Arguments. Unset Strict Implicit. Unset Printing Implicit Defensive.
Import GRing.Theory.
Local Open Scope ring_scope.
Delimit Scope R_scope with coqR.

(** triples.py:917-935: variables (output, input, bond); eta is cast to a complex number, so both square roots are the complex ones, and nothing is checked *)
Definition kraus (eta : R) : gtri (1 + 1) 1 :=
  let c := (csqrt (RtoC eta))%:M : 'M[C]_1 in let s := (csqrt (1 - RtoC eta))%:M : 'M[C]_1 in
  GTri (block_mx (block_mx 0 c c 0) (col_mx 0 (- s)) (row_mx 0 (- s)) 0) 0 1.
(** the conjugate triple (Ansatz.conj, ansatz/polyexp_ansatz.py) *)
Definition conjg a i (t : gtri a i) : gtri a i := GTri (conj (gA t)) (conj (gb t)) (Cconj (gc t)).
(** the same triple with the two groups of variables exchanged *)
Definition bond_first a i (t : gtri a i) : gtri i a :=
  GTri (block_mx (drsubmx (gA t)) (dlsubmx (gA t)) (ursubmx (gA t)) (ulsubmx (gA t))) (col_mx (dsubmx (gb t)) (usubmx (gb t))) (gc t).
(** the channel of a family of Kraus operators: sum over the bond of (the operator on the ket side) x (its conjugate on the bra side); variables (out bra, in bra, out ket, in ket) *)
Definition channel_of (k : gtri (1 + 1) 1) : option (ctri 1 1) := omap (fun t => CTri (gA t) (gb t) (gc t)) (gthen (bond_first k) (conjg k)).
(** the same without the conjugation, the contraction of the library's test (tests/test_physics/test_triples.py:366-370) *)
Definition channel_of_noconj (k : gtri (1 + 1) 1) : option (ctri 1 1) := omap (fun t => CTri (gA t) (gb t) (gc t)) (gthen (bond_first k) k).
(** the family applied to a ket: the input variable is contracted with the ket, the variables (output, bond) remain *)
Definition input_last (t : gtri (1 + 1) 1) : gtri (1 + 1) 1 :=
  let A := gA t in let oo := ulsubmx A in let ob := ursubmx A in let bo := dlsubmx A in
  GTri (block_mx (block_mx (ulsubmx oo) (usubmx ob) (lsubmx bo) (drsubmx A)) (col_mx (ursubmx oo) (rsubmx bo)) (row_mx (dlsubmx oo) (dsubmx ob)) (drsubmx oo))
       (col_mx (col_mx (usubmx (usubmx (gb t))) (dsubmx (gb t))) (dsubmx (usubmx (gb t)))) (gc t).
Definition dilate (k : ket 1) (t : gtri (1 + 1) 1) : option (ket (1 + 1)) := omap (@g2k (1 + 1)) (gthen (k2g k) (input_last t)).

(** the channel triple that couples output and input with u (bra) and v (ket), and the two inputs with w *)
Definition lossy (u v w : C) : ctri 1 1 :=
  CTri (block_mx (block_mx 0 u%:M u%:M 0) (block_mx 0 0 0 w%:M) (block_mx 0 0 0 w%:M) (block_mx 0 v%:M v%:M 0)) 0 1.
Lemma bond_val (c1 s1 c2 s2 : C) :
  omap (fun t => CTri (gA t) (gb t) (gc t)) (gthen (GTri (block_mx 0 (row_mx 0 (- s1%:M)) (col_mx 0 (- s1%:M)) (block_mx 0 c1%:M c1%:M 0)) (col_mx 0 0) 1)
    (GTri (block_mx (block_mx 0 c2%:M c2%:M 0) (col_mx 0 (- s2%:M)) (row_mx 0 (- s2%:M)) 0) (col_mx 0 0) 1 : gtri (1 + 1) 1)) = Some (lossy c2 c1 (s2 * s1)).
Proof.
have HK : (1%:M - 0 *m (0 : 'M[C]_1)) *m 1%:M = 1%:M by rewrite mul0mx subr0 mulmx1.
have Ht : Rlt threshold (Cmod (\det (1%:M - 0 *m (0 : 'M[C]_1)))) by rewrite mul0mx subr0 det1 C1E Cmod_1; exact: thr_lt1.
set W1 : 'M[C]_(1, 1 + 1) := row_mx 0 _. set W2 : 'M[C]_(1 + 1, 1) := col_mx 0 (- s2%:M).
have -> : col_mx 0 (- s1%:M) = W1^T by rewrite tr_row_mx trmx0 linearN /= tr_scalar_mx.
have -> : row_mx 0 (- s2%:M) = W2^T by rewrite tr_col_mx trmx0 linearN /= tr_scalar_mx.
rewrite (gthen_val _ _ _ _ (trmx0 _ _ _) (trmx0 _ _ _) HK) //=.
rewrite /gQ !mul0mx !mulmx0 !mul0mx !addr0 subr0 det1 invr1 csqrt1 !mulmx1 !mulr1 ?mulmx0 ?addr0 ?mulr1. rewrite [(0 : 'M[C]_1) 0 0]mxE mulr0 C0E Cexp_0 -C1E mulr1.
congr Some. rewrite /lossy.
have -> : W2 *m W1 = block_mx 0 0 0 (s2 * s1)%:M by rewrite mul_col_row !mul0mx !mulmx0 mulNmx mulmxN opprK -scalar_mxM.
by rewrite tr_block_mx !trmx0 tr_scalar_mx col_mx0.
Qed.
Lemma bond_kraus eta : bond_first (kraus eta) = let c := csqrt (RtoC eta) in let s := csqrt (1 - RtoC eta) in
  GTri (block_mx 0 (row_mx 0 (- s%:M)) (col_mx 0 (- s%:M)) (block_mx 0 c%:M c%:M 0)) (col_mx 0 0) 1.
Proof. by rewrite /bond_first /kraus /= -{1 2}(@col_mx0 _ (1 + 1) 1 1) !block_mxKul !block_mxKur !block_mxKdl !block_mxKdr col_mxKu col_mxKd. Qed.
Lemma kraus_split eta : kraus eta = let c := csqrt (RtoC eta) in let s := csqrt (1 - RtoC eta) in
  GTri (block_mx (block_mx 0 c%:M c%:M 0) (col_mx 0 (- s%:M)) (row_mx 0 (- s%:M)) 0) (col_mx 0 0) 1.
Proof. by rewrite /kraus /= col_mx0. Qed.
Lemma conj_kraus eta : conjg (kraus eta) = let c := Cconj (csqrt (RtoC eta)) in let s := Cconj (csqrt (1 - RtoC eta)) in
  GTri (block_mx (block_mx 0 c%:M c%:M 0) (col_mx 0 (- s%:M)) (row_mx 0 (- s%:M)) 0) (col_mx 0 0) 1.
Proof.
rewrite /conjg /kraus /= col_mx0. rewrite !map_block_mx map_col_mx map_row_mx !map_mxN /= !map_mx0 !map_scalar_mx /=.
congr GTri. by rewrite /Cconj /= Ropp_0.
Qed.
Lemma one_sub x : 1 - RtoC x = RtoC (R1 - x)%coqR. Proof. by rewrite C1E CoppE CaddE -RtoC_opp -RtoC_plus. Qed.
Lemma sq_real x : Rle R0 x -> csqrt (RtoC x) * csqrt (RtoC x) = RtoC x. Proof. move=> _. exact: csqrt_sq. Qed.
(** C82: summed over the bond, the family is the attenuator *)
Theorem C82_channel eta : Rle R0 eta -> Rle eta R1 -> exists t, attenuator eta = Base.Ok t /\ channel_of (kraus eta) = Some t.
Proof.
move=> H0 H1. rewrite /attenuator. case: Rlt_dec => [X|?]; [by exfalso; lra|]. case: Rlt_dec => [X|?]; [by exfalso; lra|].
eexists. split; first by []. rewrite /channel_of bond_kraus conj_kraus /= one_sub.
rewrite !csqrt_R; [|lra|lra]. rewrite bond_val !(conjR (sqrt _)) /lossy. by rewrite CmulE -RtoC_mult sqrt_sqrt; last lra.
Qed.
(** C82: the test's contraction, which omits the conjugation, gives the same on this range *)
Theorem C82_noconj eta : Rle R0 eta -> Rle eta R1 -> channel_of_noconj (kraus eta) = channel_of (kraus eta).
Proof.
move=> H0 H1. rewrite /channel_of_noconj /channel_of bond_kraus conj_kraus [X in gthen _ X]kraus_split /= one_sub.
rewrite !csqrt_R; [|lra|lra]. by rewrite !(conjR (sqrt _)).
Qed.
(** C82, beyond the range: unlike the attenuator the family is not validated; for eta > 1 a triple is returned whose channel couples bra and ket with eta - 1, not 1 - eta *)
Theorem C82_unchecked eta : Rlt R1 eta -> attenuator eta = Base.Err Base.ValueError /\
  let g := RtoC (sqrt eta) in channel_of (kraus eta) = Some (lossy g g (RtoC (eta - 1)%coqR)).
Proof.
move=> H. split; first by rewrite /attenuator; case: Rlt_dec.
rewrite /channel_of bond_kraus conj_kraus /= one_sub bond_val. rewrite csqrt_R; last lra. rewrite (conjR (sqrt _)) csqrt_neg; last lra.
congr (Some (lossy _ _ _)). rewrite CmulE /Cmult /Cconj /RtoC /=. congr (_, _); last by ring.
have -> : (0 * 0 - - sqrt (- (R1 - eta)) * sqrt (- (R1 - eta)) = sqrt (- (R1 - eta)) * sqrt (- (R1 - eta)))%coqR by ring.
rewrite sqrt_sqrt; last lra. ring.
Qed.
(** C82: on a ket the family acts as the mixing with a vacuum environment, whose mode is the bond: amplitude sqrt eta in the output and - sqrt(1 - eta) in the bond *)
Theorem C82_dilation eta (k : ket 1) : Rle R0 eta -> Rle eta R1 -> (kA k)^T = kA k ->
  let W := col_mx (RtoC (sqrt eta))%:M (- (RtoC (sqrt (1 - eta)))%:M) : 'M[C]_(1 + 1, 1) in
  dilate k (kraus eta) = Some (Ket (W *m kA k *m W^T) (W *m kb k) (kc k)) /\ adj W *m W = 1%:M.
Proof.
case: k => A b c0 /= H0 H1 sA. split; last first.
  rewrite /adj map_col_mx tr_col_mx map_mxN /= !map_scalar_mx /= !conjR linearN /= !tr_scalar_mx mul_row_col mulNmx mulmxN opprK -!scalar_mxM -raddfD /=.
  rewrite !CmulE -!RtoC_mult !sqrt_sqrt; [|lra|lra]. rewrite CaddE -RtoC_plus C1E. congr (RtoC _)%:M. ring.
set W := col_mx _ _.
have HK : (1%:M - A *m (0 : 'M[C]_1)) *m 1%:M = 1%:M by rewrite mulmx0 subr0 mulmx1.
have Ht : Rlt threshold (Cmod (\det (1%:M - A *m (0 : 'M[C]_1)))) by rewrite mulmx0 subr0 det1 C1E Cmod_1; exact: thr_lt1.
rewrite /dilate /k2g /=.
have -> : input_last (kraus eta) = GTri (block_mx 0 W W^T 0) (col_mx 0 0) 1.
  rewrite kraus_split /input_last /= one_sub !csqrt_R; [|lra|lra].
  rewrite !block_mxKul !block_mxKur !block_mxKdl !block_mxKdr !col_mxKu !col_mxKd row_mxKl row_mxKr.
  rewrite -(@col_mx0 _ 1 1 1) !col_mxKu !col_mxKd. congr GTri. 
  by rewrite block_mx0 /W tr_col_mx [(- _)^T]linearN /= !tr_scalar_mx.
have E := @gthen_val 1 0 (1 + 1) A 0 0 0 0 W sA (trmx0 _ _ _) 1%:M HK b 0 0 0 c0 1 Ht.
rewrite ?trmx0 in E. rewrite E /= /g2k /= block_mxKul col_mxKu.
rewrite /gQ ?trmx0 ?mulmx0 subr0 det1 invr1 csqrt1 ?trmx1 ?mulmx1 ?mul1mx ?mul0mx ?addr0 ?add0r ?mulmx0 ?mul0mx ?addr0 ?add0r ?mulr1.
congr (Some (Ket _ _ _)). by rewrite mxE mulr0 C0E Cexp_0 -C1E mulr1.
Qed.
(** C82: a coherent state splits into two coherent states, so each Kraus operator sends it to a multiple of the coherent state sqrt eta alpha *)
Theorem C82_coherent eta al : Rle R0 eta -> Rle eta R1 ->
  let o := coherent_state (RtoC (sqrt eta) * al) in let e := coherent_state (- (RtoC (sqrt (1 - eta)) * al)) in
  dilate (coherent_state al) (kraus eta) = Some (Ket 0 (col_mx (kb o) (kb e)) (kc o * kc e)).
Proof.
move=> H0 H1 /=. case: (@C82_dilation eta (coherent_state al) H0 H1 (trmx0 _ _ _)) => -> _. rewrite /= mulmx0 mul0mx. congr (Some (Ket _ _ _)).
- by rewrite mul_col_mx mulNmx -!scalar_mxM raddfN.
- rewrite CmulE -RtoC_mult -exp_plus. congr RtoC. congr exp. rewrite CoppE Cmod_opp !Cmod_mult !Cmod_R !Rabs_pos_eq; [|exact: sqrt_pos|exact: sqrt_pos].
  have E1 := sqrt_sqrt _ H0. have E2 : (sqrt (1 - eta) * sqrt (1 - eta) = 1 - eta)%coqR by apply: sqrt_sqrt; lra.
  have -> : (- (sqrt eta * Cmod al * (sqrt eta * Cmod al) / 2) + - (sqrt (1 - eta) * Cmod al * (sqrt (1 - eta) * Cmod al) / 2) = - ((sqrt eta * sqrt eta + sqrt (1 - eta) * sqrt (1 - eta)) * (Cmod al * Cmod al) / 2))%coqR by field.
  rewrite E1 E2. field.
Qed.
(** a non-trivial case: eta = 1/4 *)
Theorem C82_example : exists t, attenuator (/ 4) = Base.Ok t /\ channel_of (kraus (/ 4)) = Some t /\ t = lossy (RtoC (/ 2)) (RtoC (/ 2)) (RtoC (3 / 4)).
Proof.
have H0 : Rle R0 (/ 4) by lra. have H1 : Rle (/ 4) R1 by lra.
case: (C82_channel H0 H1) => t [E1 E2]. exists t. split=> //. split=> //. move: E1. rewrite /attenuator.
case: Rlt_dec => [X|?]; [by exfalso; lra|]. case: Rlt_dec => [X|?]; [by exfalso; lra|]. case=> <-. rewrite /lossy.
have -> : sqrt (/ 4) = (/ 2)%coqR by rewrite -(sqrt_square (/ 2)); [congr sqrt; field|lra].
by have -> : (R1 - / 4 = 3 / 4)%coqR by field.
Qed.
