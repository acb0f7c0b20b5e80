(** C21: the vector-Jacobian products of the amplitudes are exact derivatives *)
From Coq Require Import List Arith Lia Field Ring ZArith.
From Verif Require Import RootField Tensor Series Vanilla VanillaProps Gradients ComplexRF.
Import ListNotations.

Section C21.
  Context {K : rootfield}.
  Add Field Kfield : (kft K).
  Open Scope rf_scope.

  Lemma der_lsum : forall {T} (t0 : T) der (DR : diff_rules (K := K) t0 der) {X} (l : list X) (f : X -> T -> K) d,
    (forall x, In x l -> der (f x) (d x)) -> der (fun t => lsum l (fun x => f x t)) (lsum l d).
  Proof.
    intros T t0 der DR X l f d. induction l as [|x l IH]; intros H; cbn.
    - apply (der_const t0 der DR).
    - apply (der_add t0 der DR); [apply H; now left|]. apply IH. intros y Hy. apply H. now right.
  Qed.

  (** any rules of differentiation, any differentiable change of the parameters (A, b, c), any loss weights w = dL/dG:
      dL = sum_ij dA_ij dLdA_ij + sum_i db_i dLdb_i + dc dLdc *)
  Theorem C21_vjp : forall (T : Type) (t0 : T) (der : (T -> K) -> K -> Prop), diff_rules t0 der ->
    forall shape (A : T -> nat -> nat -> K) (b : T -> nat -> K) (c : T -> K) dA db dc (w out : list K),
    positive_shape shape -> (forall t, symmetric (length shape) (A t)) -> symmetric (length shape) dA ->
    (forall i j, i < length shape -> j < length shape -> der (fun t => A t i j) (dA i j)) ->
    (forall i, i < length shape -> der (fun t => b t i) (db i)) -> der c dc -> c t0 <> k0 ->
    fits shape w -> fits shape out ->
    let G t := vanilla (length shape) (A t) (b t) shape (c t) out in
    let '(dLdA, dLdb, dLdc) := vjp shape (G t0) (c t0) w in
    der (fun t => dotp (G t) w)
        (sumn (length shape) (fun i => sumn (length shape) (fun j => dA i j * dLdA i j))
         + sumn (length shape) (fun i => db i * dLdb i) + dc * dLdc).
  Proof.
    intros T t0 der DR shape A b c dA db dc w out [P1 P2] S SD HA Hb Hc Nc Fw Fo G. set (D := length shape) in *.
    assert (C : forall t, length (G t) = prod shape /\ forall k, Forall2 lt k shape -> entry shape (G t) k = amp D (A t) (b t) (c t) k)
      by (intros t; apply (vanilla_correct (A t) (b t) (c t) shape (S t) P1 P2 out Fo)).
    destruct (C t0) as [LG GF]. set (F0 := amp D (A t0) (b t0) (c t0)) in *.
    pose proof (vjp_fold shape P1 F0 (G t0) LG GF w (prod shape - 1) 1 (fun _ _ => k0) (fun _ => k0)) as V.
    assert (PP : 0 < prod shape) by now apply prod_pos. specialize (V ltac:(lia)).
    unfold vjp. assert (TL : tl (box shape) = skipn 1 (box shape)) by (now destruct (box shape)). rewrite TL.
    destruct (fold_left _ (skipn 1 (box shape)) _) as [[a b_] z]. destruct V as [VA Vb].
    (* the first multi-index contributes nothing *)
    assert (Z0 : box shape = zeros D :: skipn 1 (box shape)).
    { change (skipn 0 (box shape) = zeros D :: skipn 1 (box shape)). rewrite skipn_box by lia. f_equal.
      destruct (ravel_nth shape 0 PP) as [R Hk]. now apply (ravel_zero shape). }
    assert (EA : forall i j, i < D -> j < D -> a i j = lsum (box shape) (fun u => upper (SA F0 u) i j * entry shape w u)).
    { intros i j Hi Hj. rewrite VA by assumption. rewrite Z0 at 2. cbn [lsum fold_right]. unfold upper at 2. unfold SA. rewrite at_zeros, sq_0.
      destruct (Nat.eqb i j); [|destruct (Nat.ltb i j)]; unfold lsum; ring. }
    assert (Eb : forall i, i < D -> b_ i = lsum (box shape) (fun u => sq (at' i u) * F0 (dec i u) * entry shape w u)).
    { intros i Hi. rewrite Vb by assumption. rewrite Z0 at 2. cbn [lsum fold_right]. rewrite at_zeros, sq_0. unfold lsum. ring. }
    apply (der_ext t0 der DR (fun t => lsum (box shape) (fun k => entry shape w k * amp D (A t) (b t) (c t) k))).
    { intros t. destruct (C t) as [LT GT]. rewrite (dotp_box shape P1 (G t) w LT Fw). apply lsum_ext. intros k Hk. apply in_box in Hk. rewrite GT by exact Hk. ring. }
    set (dG := fun k => dc * (F0 k / c t0) + sumn D (fun i => db i * (sq (at' i k) * F0 (dec i k))) + half * sumn D (fun i => sumn D (fun j => dA i j * SA F0 k i j))).
    apply der_eq with (d := lsum (box shape) (fun k => entry shape w k * dG k)).
    2:{ apply (der_lsum t0 der DR). intros k Hk. apply (der_cmul t0 der DR). apply in_box in Hk.
        apply (der_amp t0 der DR D A b dA db HA Hb c dc Hc Nc k (Forall2_lt_len _ _ Hk)). }
    unfold dG.
    transitivity (lsum (box shape) (fun k => dc * (entry shape w k * (F0 k / c t0))) + lsum (box shape) (fun k => sumn D (fun i => db i * (sq (at' i k) * F0 (dec i k) * entry shape w k)))
       + lsum (box shape) (fun k => sumn D (fun i => sumn D (fun j => dA i j * ((upper (SA F0 k) i j * entry shape w k + upper (SA F0 k) j i * entry shape w k) / (k1 + k1)))))).
    { rewrite <- !lsum_add. apply lsum_ext. intros k Hk. apply in_box in Hk.
      rewrite (sumn_ext D (fun i => db i * (sq (at' i k) * F0 (dec i k) * entry shape w k)) (fun i => entry shape w k * (db i * (sq (at' i k) * F0 (dec i k))))) by (intros; ring).
      rewrite sumn_scal.
      rewrite (sumn_ext D (fun i => sumn D (fun j => dA i j * ((upper (SA F0 k) i j * entry shape w k + upper (SA F0 k) j i * entry shape w k) / (k1 + k1))))
         (fun i => entry shape w k * sumn D (fun j => dA i j * ((upper (SA F0 k) i j + upper (SA F0 k) j i) / (k1 + k1))))).
      2:{ intros i Hi. rewrite <- sumn_scal. apply sumn_ext. intros j Hj. field. apply two_neq. }
      rewrite sumn_scal. pose proof (sum_upper shape P1 (G t0) LG dA (SA F0 k)) as SU. fold D in SU. rewrite SU; [ring|exact SD|]. intros i j Hi Hj. apply (SA_sym shape P1 F0 (G t0) LG k i j); auto. now apply Forall2_lt_len. }
    rewrite !lsum_sumn, lsum_scal.
    rewrite (sumn_ext D (fun i => lsum (box shape) (fun x => db i * _)) (fun i => db i * b_ i)).
    2:{ intros i Hi. rewrite lsum_scal. now rewrite Eb. }
    rewrite (sumn_ext D (fun i => lsum (box shape) (fun x => sumn D _)) (fun i => sumn D (fun j => dA i j * ((a i j + a j i) / (k1 + k1))))).
    2:{ intros i Hi. rewrite lsum_sumn. apply sumn_ext. intros j Hj. rewrite lsum_scal. f_equal. rewrite EA, EA by assumption. rewrite <- lsum_add.
        transitivity (lsum (box shape) (fun u => (k1 / (k1 + k1)) * (upper (SA F0 u) i j * entry shape w u + upper (SA F0 u) j i * entry shape w u))).
        - apply lsum_ext. intros u _. field. apply two_neq.
        - rewrite lsum_scal. field. apply two_neq. }
    rewrite (dotp_box shape P1 (G t0) w LG Fw).
    assert (Ec : lsum (box shape) (fun y => entry shape w y * (F0 y / c t0)) = lsum (box shape) (fun k => entry shape (G t0) k * entry shape w k) / c t0).
    { transitivity (lsum (box shape) (fun k => (k1 / c t0) * (entry shape (G t0) k * entry shape w k))).
      - apply lsum_ext. intros k Hk. apply in_box in Hk. rewrite GF by exact Hk. field. exact Nc.
      - rewrite lsum_scal. field. exact Nc. }
    rewrite Ec. ring.
  Qed.
End C21.

From Coq Require Import Reals.
From Coquelicot Require Import Coquelicot.
(** complex differentiation satisfies the rules *)
Definition cder (z : C) (f : C -> CF) (d : CF) : Prop :=
  is_derive (K := C_AbsRing) (V := AbsRing_NormedModule C_AbsRing) f z d.
Lemma cder_rules : forall z, diff_rules (K := CF) z (cder z).
Proof.
  intros z. constructor.
  - intros f g d H D. exact (is_derive_ext (K := C_AbsRing) (V := AbsRing_NormedModule C_AbsRing) f g z d H D).
  - intros x. apply (is_derive_const (K := C_AbsRing) (V := AbsRing_NormedModule C_AbsRing)).
  - intros f g d e Hf Hg. exact (is_derive_plus (K := C_AbsRing) (V := AbsRing_NormedModule C_AbsRing) f g z d e Hf Hg).
  - intros f g d e Hf Hg. refine (is_derive_mult (K := C_AbsRing) f g z d e Hf Hg _). intros n m. apply Cmult_comm.
Qed.
(** C21 for complex parameters: dL/dA, dL/db, dL/dc are complex derivatives *)
Theorem C21_complex : forall z shape (A : C -> nat -> nat -> CF) (b : C -> nat -> CF) (c : C -> CF) dA db dc (w out : list CF),
    positive_shape shape -> (forall t, symmetric (length shape) (A t)) -> symmetric (length shape) dA ->
    (forall i j, i < length shape -> j < length shape -> cder z (fun t => A t i j) (dA i j))%nat ->
    (forall i, i < length shape -> cder z (fun t => b t i) (db i))%nat -> cder z c dc -> c z <> RtoC 0 ->
    fits shape w -> fits shape out ->
    let G t := vanilla (length shape) (A t) (b t) shape (c t) out in
    let '(dLdA, dLdb, dLdc) := vjp shape (G z) (c z) w in
    cder z (fun t => dotp (G t) w)
        (sumn (length shape) (fun i => sumn (length shape) (fun j => dA i j * dLdA i j)) + sumn (length shape) (fun i => db i * dLdb i) + dc * dLdc)%rf.
Proof. intros z. apply (C21_vjp (K := CF) C z (cder z) (cder_rules z)). Qed.

(** a concrete case: A(t) = t [[0,1],[1,0]], b = 0, c = 1, shape (3,3), every weight 1 *)
Theorem C21_example : forall z,
    let G t := vanilla (K := CF) 2 (fun i j => if Nat.eqb i j then k0 else t) (fun _ => k0) [3; 3]%nat k1 (repeat k0 9) in
    let '(dLdA, dLdb, dLdc) := vjp [3; 3]%nat (G z) k1 (repeat k1 9) in
    cder z (fun t => dotp (G t) (repeat k1 9)) (dLdA 0%nat 1%nat + dLdA 1%nat 0%nat)%rf.
Proof.
  intros z.
  pose proof (C21_complex z [3; 3]%nat (fun t i j => if Nat.eqb i j then RtoC 0 else t) (fun _ _ => RtoC 0) (fun _ => RtoC 1)
    (fun i j => if Nat.eqb i j then RtoC 0 else RtoC 1) (fun _ => RtoC 0) (RtoC 0) (repeat (RtoC 1) 9) (repeat (RtoC 0) 9)) as H.
  cbv zeta in H |- *. 
  change (@k0 CF) with (RtoC 0) in *. change (@k1 CF) with (RtoC 1) in *. change (length [3; 3]%nat) with 2%nat in H.
  destruct (vjp _ _ _ _) as [[gA gb] gc].
  refine (der_eq (cder z) _ _ _ _ (H _ _ _ _ _ _ _ _ _)).
  - cbn [sumn Nat.eqb]. unfold kadd, kmul, k0. cbn. ring.
  - split; [simpl; lia|repeat constructor].
  - intros t i j _ _. now rewrite Nat.eqb_sym.
  - intros i j _ _. now rewrite Nat.eqb_sym.
  - intros i j _ _. destruct (Nat.eqb i j); [apply (der_const z (cder z) (cder_rules z))|exact (is_derive_id (K := C_AbsRing) z)].
  - intros i _. apply (der_const z (cder z) (cder_rules z)).
  - apply (der_const z (cder z) (cder_rules z)).
  - intros E. apply RtoC_inj in E. now apply R1_neq_R0.
  - reflexivity.
  - reflexivity.
Qed.
Print Assumptions C21_vjp.
Print Assumptions C21_complex.
