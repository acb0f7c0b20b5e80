(** C25, C68: the Schwinger-boson strategies of the beam splitter (math/lattice/strategies/beamsplitter.py:244-382): the blocks V exp(E) V^H of fixed photon number are the
    amplitudes of the gate. *)
From Coq Require Import List Arith Bool Lia Reals Lra.
From Coquelicot Require Import Coquelicot.
From Verif Require Import Base RootField Tensor Series Beamsplitter BeamsplitterProps Gradients ComplexRF RealDer GateProps HermAlg GateGrad CExp.
Import ListNotations.
Open Scope C_scope.

Notation csum := (sumn (K := CF)).
(** ** the code *)
(** beamsplitter.py:280-281 (beamsplitter_schwinger), :352-353 (sector_u): the (N+1) x (N+1) matrix np.diag(diag, k=-1) - np.diag(conj(diag), k=1) with
    diag[k] = exp(i phi) sqrt((N-k)(k+1)) *)
Definition iJy (phi : R) (N : nat) (i j : nat) : C :=
  if Nat.eqb i (S j) then cis phi * csq ((N - j) * (j + 1)) else if Nat.eqb j (S i) then - Cconj (cis phi * csq ((N - i) * (i + 1))) else RtoC 0.
(** V @ np.diag(np.exp(E)) @ np.conj(V.T) *)
Definition exp_block (n : nat) (E : nat -> C) (V : nat -> nat -> C) (i j : nat) : C := csum n (fun k => V i k * Cexp (E k) * Cconj (V j k)).
(** contract of numpy.linalg.eig on the (normal) n x n matrix A: unitary V with A V = V diag(E).  (eig normalises each eigenvector; eigenvectors of a normal matrix for
    different eigenvalues are orthogonal, and theta * iJy has N+1 different eigenvalues unless theta = 0, when eig returns the unit vectors.) *)
Definition eig_ok (n : nat) (A : nat -> nat -> C) (E : nat -> C) (V : nat -> nat -> C) : Prop :=
  (forall i j, (i < n)%nat -> (j < n)%nat -> csum n (fun k => A i k * V k j) = V i j * E j)
  /\ (forall i j, (i < n)%nat -> (j < n)%nat -> csum n (fun k => V i k * Cconj (V j k)) = if Nat.eqb i j then RtoC 1 else RtoC 0)
  /\ (forall i j, (i < n)%nat -> (j < n)%nat -> csum n (fun k => Cconj (V k i) * V k j) = if Nat.eqb i j then RtoC 1 else RtoC 0).
(** beamsplitter.py:282-283 *)
Definition schwinger_block (eig : nat -> (nat -> nat -> C) -> (nat -> C) * (nat -> nat -> C)) (theta phi : R) (N : nat) : nat -> nat -> C :=
  let '(E, V) := eig (S N) (fun i j => RtoC theta * iJy phi N i j) in exp_block (S N) E V.
(** beamsplitter.py:340-355 sector_u: eigh of -i theta iJy gives real eigenvalues; V exp(i E) V^H *)
Definition sector_u (eigh : nat -> (nat -> nat -> C) -> (nat -> R) * (nat -> nat -> C)) (theta phi : R) (N : nat) : nat -> nat -> C :=
  let '(E, V) := eigh (S N) (fun i j => - Ci * RtoC theta * iJy phi N i j) in exp_block (S N) (fun k => Ci * RtoC (E k)) V.

(** ** the amplitudes satisfy the differential equation of the exponential *)
Lemma csq_mul : forall a b, csq (a * b) = csq a * csq b.
Proof. intros a b. unfold csq. rewrite mult_INR, sqrt_mult by apply pos_INR. now rewrite RtoC_mult. Qed.
Lemma csq_conj : forall a, Cconj (csq a) = csq a.
Proof. intros a. unfold csq, Cconj, RtoC. simpl. now rewrite Ropp_0. Qed.
Lemma Cconj_mul : forall x y, Cconj (x * y) = Cconj x * Cconj y.
Proof. intros [? ?] [? ?]. unfold Cconj, Cmult. cbn. f_equal; ring. Qed.
Lemma csq_nz : forall a, (0 < a)%nat -> csq a <> RtoC 0.
Proof. intros a H. exact (sq_neq (K := CF) a ltac:(lia)). Qed.
Lemma csq_cancel : forall n x y, csq (S n) * x = csq (S n) * y -> x = y.
Proof. intros n x y H. pose proof (csq_nz (S n) ltac:(lia)) as Z. replace x with (/ csq (S n) * (csq (S n) * x)) by (field; exact Z). rewrite H. field. exact Z. Qed.
Section Ode.
  Variable phi : R.
  Notation B t := (bs_entry t phi).
  Lemma up_n : forall t m n p q, csq (S n) * B t m (S n) p q = RtoC (sin t) * cis phi * csq p * B t m n (pred p) q + RtoC (cos t) * csq q * B t m n p (pred q).
  Proof.
    intros t m n p q. unfold bs_entry. rewrite (bs_rec_n (K := CF)). cbn [kadd kmul kdiv sq CF]. set (x := bs_amp (K := CF) _ _ _ m n (pred p) q). set (y := bs_amp (K := CF) _ _ _ m n p (pred q)).
    pose proof (csq_nz (S n) ltac:(lia)). match goal with |- ?x = ?y => change (@eq C x y) end. field. assumption.
  Qed.
  Lemma up_m : forall t m n p q, csq (S m) * B t (S m) n p q = RtoC (cos t) * csq p * B t m n (pred p) q - RtoC (sin t) * cis (- phi) * csq q * B t m n p (pred q).
  Proof.
    intros t m n p q. unfold bs_entry. rewrite (bs_rec_m (K := CF)). cbn [kadd kmul kdiv ksub sq CF]. set (x := bs_amp (K := CF) _ _ _ m n (pred p) q). set (y := bs_amp (K := CF) _ _ _ m n p (pred q)).
    pose proof (csq_nz (S m) ltac:(lia)). match goal with |- ?x = ?y => change (@eq C x y) end. field. assumption.
  Qed.
  Lemma bs_ode : forall t0 m n p q, rder t0 (fun t => B t m n p q)
    (- cis (- phi) * csq m * csq (S n) * B t0 (pred m) (S n) p q + cis phi * csq n * csq (S m) * B t0 (S m) (pred n) p q).
  Proof.
    intros t0 m n p q.
    pose proof (bs_entry_der (fun x => RtoC (cos x)) (fun x => RtoC (sin x) * cis phi) (fun x => RtoC (sin x) * cis (- phi)) _ _ _ t0
      (rder_cos t0) (rder_mul_l t0 (cis phi) _ _ (rder_sin t0)) (rder_mul_l t0 (cis (- phi)) _ _ (rder_sin t0)) m n p q) as H.
    eapply rder_eq; [|exact H]. clear H. unfold upper, SA. cbn [Nat.eqb Nat.ltb Nat.leb]. unfold dec, at'. cbn [upd nth]. cbn [kmul sq CF].
    change (amp (K := CF) 4 (A_bs (K := CF) (RtoC (cos t0)) (RtoC (sin t0) * cis phi) (RtoC (sin t0) * cis (- phi))) (fun _ => RtoC 0) (RtoC 1) [(pred m); n; (pred p); q]) with (B t0 (pred m) n (pred p) q).
    change (amp (K := CF) 4 (A_bs (K := CF) (RtoC (cos t0)) (RtoC (sin t0) * cis phi) (RtoC (sin t0) * cis (- phi))) (fun _ => RtoC 0) (RtoC 1) [(pred m); n; p; (pred q)]) with (B t0 (pred m) n p (pred q)).
    change (amp (K := CF) 4 (A_bs (K := CF) (RtoC (cos t0)) (RtoC (sin t0) * cis phi) (RtoC (sin t0) * cis (- phi))) (fun _ => RtoC 0) (RtoC 1) [m; (pred n); (pred p); q]) with (B t0 m (pred n) (pred p) q).
    change (amp (K := CF) 4 (A_bs (K := CF) (RtoC (cos t0)) (RtoC (sin t0) * cis phi) (RtoC (sin t0) * cis (- phi))) (fun _ => RtoC 0) (RtoC 1) [m; (pred n); p; (pred q)]) with (B t0 m (pred n) p (pred q)).
    transitivity (- cis (- phi) * csq m * (csq (S n) * B t0 (pred m) (S n) p q) + cis phi * csq n * (csq (S m) * B t0 (S m) (pred n) p q)); [|match goal with |- ?x = ?y => change (@eq C x y) end; ring].
    rewrite up_n, up_m. rewrite RtoC_opp.
    pose proof (cis_mul_conj phi) as P.
    set (x1 := B t0 (pred m) n (pred p) q). set (x2 := B t0 (pred m) n p (pred q)). set (x3 := B t0 m (pred n) (pred p) q). set (x4 := B t0 m (pred n) p (pred q)).
    transitivity (- (cis phi * cis (- phi)) * RtoC (sin t0) * (csq m * csq p * x1 + csq n * csq q * x4) - RtoC (cos t0) * cis (- phi) * csq m * csq q * x2 + RtoC (cos t0) * cis phi * csq n * csq p * x3); [rewrite P|]; match goal with |- ?x = ?y => change (@eq C x y) end; ring.
  Qed.
  (** at theta = 0 the gate is the identity *)
  Lemma bs_at_0 : forall m n p q, B 0 m n p q = if (Nat.eqb m p && Nat.eqb n q)%bool then RtoC 1 else RtoC 0.
  Proof.
    induction m as [|m IHm].
    - induction n as [|n IHn]; intros p q.
      + destruct p as [|p]; [destruct q as [|q]|]; cbn [Nat.eqb andb].
        * exact (amp_zero (K := CF) 4 _ _ _).
        * exact (bs_zero (K := CF) _ _ _ _ 0 0 0 (S q) (le_n _) ltac:(lia)).
        * exact (bs_zero (K := CF) _ _ _ _ 0 0 (S p) q (le_n _) ltac:(lia)).
      + apply (csq_cancel n). rewrite up_n, sin_0, cos_0. destruct q as [|q].
        * rewrite csq_0. cbn [Nat.eqb]. rewrite andb_false_r. ring.
        * cbn [pred Nat.eqb]. rewrite (IHn p q). destruct p as [|p]; cbn [Nat.eqb andb]; [destruct (Nat.eqb_spec n q) as [->|]|]; ring.
    - intros n p q. apply (csq_cancel m). rewrite up_m, sin_0, cos_0. destruct p as [|p].
      + rewrite csq_0. cbn [Nat.eqb andb]. ring.
      + cbn [pred Nat.eqb]. rewrite IHm. destruct (Nat.eqb_spec m p) as [->|]; cbn [andb]; [destruct (Nat.eqb n q)|]; ring.
  Qed.
End Ode.

Ltac ceq := match goal with |- ?x = ?y => change (@eq C x y) end.
(** ** y' = lambda y has one solution *)
Lemma rder_zero_const : forall f, (forall t, rder t f (RtoC 0)) -> forall a b, f a = f b.
Proof.
  intros f H a b. assert (X : forall (g : R -> R), (forall t, is_derive g t 0%R) -> g a = g b).
  { intros g D. destruct (MVT_gen g a b (fun _ => 0%R)) as [c [_ E]]; [intros; apply D| |lra].
    intros x _. apply continuity_pt_filterlim. apply (ex_derive_continuous g). exists 0%R. apply D. }
  rewrite (surjective_pairing (f a)), (surjective_pairing (f b)). f_equal; [exact (X (fun t => Re (f t)) (fun t => proj1 (H t)))|exact (X (fun t => Im (f t)) (fun t => proj2 (H t)))].
Qed.
Lemma rder_Cexp : forall l t, rder t (fun x => Cexp (l * RtoC x)) (l * Cexp (l * RtoC t)).
Proof. intros [a b] t. split; unfold Cexp, Cmult, RtoC, Re, Im; simpl; auto_derive; auto; unfold Rminus; match goal with |- ?x = ?y => change (@eq R x y) end; ring. Qed.
Lemma linear_ode : forall (l : C) (y : R -> C), (forall t, rder t y (l * y t)) -> forall t, y t = Cexp (l * RtoC t) * y 0%R.
Proof.
  intros l y H t. set (z := fun x => Cexp (- l * RtoC x) * y x).
  assert (Z : forall x, rder x z (RtoC 0)).
  { intros x. eapply rder_eq; [|exact (der_mul (K := CF) x (rder x) (rder_rules x) _ _ _ _ (rder_Cexp (- l) x) (H x))]. cbn [kadd kmul CF]. (ceq; ring). }
  pose proof (rder_zero_const z Z t 0%R) as E. unfold z in E.
  replace (- l * RtoC 0) with (RtoC 0) in E by (ceq; ring). rewrite Cexp_0 in E.
  replace (y 0%R) with (RtoC 1 * y 0%R) by (ceq; ring). rewrite <- E. rewrite Cmult_assoc, <- Cexp_add. replace (l * RtoC t + - l * RtoC t) with (RtoC 0) by (ceq; ring). rewrite Cexp_0. (ceq; ring).
Qed.

Lemma csum_scal : forall n c f, c * csum n f = csum n (fun i => c * f i).
Proof. intros n c f. symmetry. exact (sumn_scal (K := CF) n c f). Qed.
Lemma csum_scal_r : forall n c f, csum n f * c = csum n (fun i => f i * c).
Proof. intros n c f. symmetry. exact (sumn_scal_r (K := CF) n c f). Qed.
Lemma csum_pick : forall n i f, (i < n)%nat -> csum n (fun j => f j * (if Nat.eqb j i then RtoC 1 else RtoC 0)) = f i.
Proof. intros n i f H. rewrite <- (sumn_delta_mul (K := CF) n i f H). apply (sumn_ext (K := CF)). intros j _. destruct (Nat.eqb j i); cbn [k0 CF]; (ceq; ring). Qed.
Lemma csum_pick' : forall n i f, (i < n)%nat -> csum n (fun j => (if Nat.eqb i j then RtoC 1 else RtoC 0) * f j) = f i.
Proof. intros n i f H. rewrite <- (csum_pick n i f H). apply (sumn_ext (K := CF)). intros j _. rewrite Nat.eqb_sym. (ceq; ring). Qed.
Section Spectral.
  Variables (n : nat) (A : nat -> nat -> C) (E : nat -> C) (V : nat -> nat -> C).
  Hypothesis HE : eig_ok n A E V.
  Lemma eig_left : forall k j, (k < n)%nat -> (j < n)%nat -> csum n (fun i => Cconj (V i k) * A i j) = E k * Cconj (V j k).
  Proof.
    destruct HE as [H1 [H2 H3]]. intros k j Hk Hj.
    transitivity (csum n (fun i => csum n (fun r => Cconj (V i k) * V i r * (E r * Cconj (V j r))))).
    - apply (sumn_ext (K := CF)). intros i Hi.
      transitivity (Cconj (V i k) * csum n (fun l => A i l * csum n (fun r => V l r * Cconj (V j r)))).
      + f_equal. rewrite <- (csum_pick n j (fun l => A i l) Hj). apply (sumn_ext (K := CF)). intros l Hl. now rewrite H2.
      + rewrite csum_scal. transitivity (csum n (fun l => csum n (fun r => Cconj (V i k) * (A i l * (V l r * Cconj (V j r)))))).
        * apply (sumn_ext (K := CF)). intros l _. now rewrite !csum_scal.
        * rewrite (sumn_swap (K := CF)). apply (sumn_ext (K := CF)). intros r Hr.
          transitivity (Cconj (V i k) * csum n (fun l => A i l * V l r) * Cconj (V j r)); [|rewrite H1 by assumption; (ceq; ring)].
          rewrite csum_scal, csum_scal_r. apply (sumn_ext (K := CF)). intros l _. (ceq; ring).
    - rewrite (sumn_swap (K := CF)). refine (eq_trans _ (csum_pick' n k (fun r => E r * Cconj (V j r)) Hk)). apply (sumn_ext (K := CF)). intros r Hr. cbv beta.
      rewrite <- csum_scal_r. now rewrite (H3 k r Hk Hr).
  Qed.
  (** the solution of x' = K x, where A = theta K, at time theta *)
  Lemma flow : forall (theta : R) (K : nat -> nat -> C) (x : R -> nat -> C), (forall i j, A i j = RtoC theta * K i j) ->
    (forall t i, (i < n)%nat -> rder t (fun s => x s i) (csum n (fun j => K i j * x t j))) ->
    forall i, (i < n)%nat -> x theta i = csum n (fun j => exp_block n E V i j * x 0%R j).
  Proof.
    intros theta K x HA D i Hi. set (y := (fun k t => csum n (fun i => Cconj (V i k) * x t i)) : nat -> R -> C).
    assert (Y : forall k, (k < n)%nat -> y k theta = Cexp (E k) * y k 0%R).
    { intros k Hk. destruct (Req_dec theta 0) as [->|NZ].
      - assert (Z : E k = RtoC 0).
        { destruct HE as [H1 [H2 H3]]. specialize (H3 k k Hk Hk). rewrite Nat.eqb_refl in H3.
          transitivity (csum n (fun r => Cconj (V r k) * (V r k * E k))).
          - transitivity (csum n (fun r => Cconj (V r k) * V r k) * E k); [rewrite H3; (ceq; ring)|]. rewrite csum_scal_r. apply (sumn_ext (K := CF)). intros r _. (ceq; ring).
          - apply (sumn_0 (K := CF)). intros r Hr. rewrite <- (H1 r k Hr Hk). rewrite (sumn_0 (K := CF) n (fun l => A r l * V l k)); [cbn; (ceq; ring)|].
            intros l _. rewrite HA. cbn. (ceq; ring). }
        rewrite Z, Cexp_0. (ceq; ring).
      - assert (TN : RtoC theta <> RtoC 0) by (intros X; apply RtoC_inj in X; contradiction).
        rewrite (linear_ode (E k / RtoC theta) (y k)).
        + f_equal. f_equal. ceq. field. exact TN.
        + intros t. unfold y. eapply rder_eq; [|apply (der_sumn (K := CF) t (rder t) (rder_rules t) n (fun i s => Cconj (V i k) * x s i) (fun i => Cconj (V i k) * csum n (fun j => K i j * x t j)))].
          * transitivity (csum n (fun i => csum n (fun j => Cconj (V i k) * K i j * x t j))).
            -- apply (sumn_ext (K := CF)). intros r _. rewrite csum_scal. apply (sumn_ext (K := CF)). intros l _. (ceq; ring).
            -- rewrite (sumn_swap (K := CF)). rewrite csum_scal. apply (sumn_ext (K := CF)). intros j Hj. rewrite <- csum_scal_r.
               assert (X : csum n (fun r => Cconj (V r k) * K r j) = E k / RtoC theta * Cconj (V j k)); [|rewrite X; (ceq; ring)].
               transitivity (/ RtoC theta * csum n (fun r => Cconj (V r k) * A r j)); [|rewrite eig_left by assumption; ceq; field; exact TN].
               rewrite csum_scal. apply (sumn_ext (K := CF)). intros r _. rewrite HA. ceq; field. exact TN.
          * intros r Hr. apply rder_mul_r. now apply D. }
    transitivity (csum n (fun k => V i k * y k theta)).
    - unfold y. destruct HE as [_ [H2 _]]. rewrite <- (csum_pick' n i (x theta) Hi).
      transitivity (csum n (fun j => csum n (fun k => V i k * Cconj (V j k) * x theta j))).
      + apply (sumn_ext (K := CF)). intros j Hj. rewrite <- csum_scal_r. now rewrite H2.
      + rewrite (sumn_swap (K := CF)). apply (sumn_ext (K := CF)). intros k _. rewrite csum_scal. apply (sumn_ext (K := CF)). intros j _. (ceq; ring).
    - transitivity (csum n (fun k => csum n (fun j => V i k * Cexp (E k) * Cconj (V j k) * x 0%R j))).
      + apply (sumn_ext (K := CF)). intros k Hk. rewrite Y by exact Hk. unfold y. rewrite !csum_scal. apply (sumn_ext (K := CF)). intros j _. (ceq; ring).
      + rewrite (sumn_swap (K := CF)). apply (sumn_ext (K := CF)). intros j _. unfold exp_block. now rewrite csum_scal_r.
  Qed.
End Spectral.

Lemma iJy_sum : forall phi N n (x : nat -> C), (n <= N)%nat -> csum (S N) (fun k => iJy phi N n k * x k)
  = - cis (- phi) * csq (N - n) * csq (S n) * x (S n) + cis phi * csq n * csq (S (N - n)) * x (pred n).
Proof.
  intros phi N n x Hn.
  transitivity (csum (S N) (fun k => if Nat.eqb k (S n) then - cis (- phi) * csq (N - n) * csq (S n) * x k else RtoC 0)
    + csum (S N) (fun k => if Nat.eqb k (pred n) then cis phi * csq n * csq (S (N - n)) * x k else RtoC 0)).
  - rewrite <- (sumn_add (K := CF)). apply (sumn_ext (K := CF)). intros k Hk. unfold iJy. rewrite <- cis_conj. cbn [kadd CF].
    destruct (Nat.eqb_spec n (S k)) as [->|N1].
    + cbn [pred]. rewrite Nat.eqb_refl. destruct (Nat.eqb_spec k (S (S k))); [lia|]. rewrite csq_mul. replace (N - k)%nat with (S (N - S k)) by lia. replace (k + 1)%nat with (S k) by lia. (ceq; ring).
    + destruct (Nat.eqb_spec k (S n)) as [->|N2].
      * destruct (Nat.eqb_spec (S n) (pred n)); [lia|]. rewrite Cconj_mul, csq_conj, csq_mul. replace (n + 1)%nat with (S n) by lia. (ceq; ring).
      * destruct (Nat.eqb_spec k (pred n)) as [->|]; [|(ceq; ring)]. replace n with 0%nat by lia. rewrite csq_0. (ceq; ring).
  - f_equal.
    + destruct (Nat.eq_dec n N) as [->|]; [|apply (sumn_delta_mul (K := CF) (S N) (S n) (fun k => - cis (- phi) * csq (N - n) * csq (S n) * x k)); lia].
      rewrite Nat.sub_diag, csq_0. rewrite (sumn_0 (K := CF)); [cbn; (ceq; ring)|]. intros i Hi. destruct (Nat.eqb_spec i (S N)); [lia|reflexivity].
    + apply (sumn_delta_mul (K := CF) (S N) (pred n) (fun k => cis phi * csq n * csq (S (N - n)) * x k)). lia.
Qed.
(** the blocks are the amplitudes of the gate *)
Theorem block_is_gate : forall theta phi N E V, eig_ok (S N) (fun i j => RtoC theta * iJy phi N i j) E V ->
  forall n q, (n <= N)%nat -> (q <= N)%nat -> exp_block (S N) E V n q = bs_entry theta phi (N - n) n (N - q) q.
Proof.
  intros theta phi N E V HE n q Hn Hq. symmetry.
  rewrite (flow (S N) _ E V HE theta (iJy phi N) (fun t n => bs_entry t phi (N - n) n (N - q) q) (fun _ _ => eq_refl)); [| |lia].
  - transitivity (csum (S N) (fun j => exp_block (S N) E V n j * (if Nat.eqb j q then RtoC 1 else RtoC 0))); [|apply csum_pick; lia].
    apply (sumn_ext (K := CF)). intros j Hj. f_equal. rewrite bs_at_0. destruct (Nat.eqb_spec j q) as [->|]; [now rewrite !Nat.eqb_refl|]. now rewrite andb_false_r.
  - intros t i Hi. rewrite (iJy_sum phi N i (fun k => bs_entry t phi (N - k) k (N - q) q)) by lia.
    eapply rder_eq; [|exact (bs_ode phi t (N - i) i (N - q) q)]. f_equal.
    + f_equal. f_equal. lia.
    + destruct i as [|i]; [rewrite csq_0; (ceq; ring)|]. cbn [pred]. f_equal. f_equal. lia.
Qed.

(** C25: the Schwinger strategy gives, for square shapes, the array of the other strategies *)
Theorem C25_schwinger : forall eig theta phi, (forall N, let '(E, V) := eig (S N) (fun i j => RtoC theta * iJy phi N i j) in eig_ok (S N) (fun i j => RtoC theta * iJy phi N i j) E V) ->
  forall d max_N, (0 < d)%nat -> exists U, beamsplitter_schwinger (K := CF) (schwinger_block eig theta phi) d d d d max_N = Ok U
    /\ forall m n p q, (m < d)%nat -> (n < d)%nat -> (p < d)%nat -> (q < d)%nat ->
       U m n p q = if Nat.leb (m + n) (match max_N with Some x => x | None => 2 * d end) then math_beamsplitter theta phi d d d d m n p q else RtoC 0.
Proof.
  intros eig theta phi HE d max_N Hd. destruct (C25_schwinger_square (K := CF) (schwinger_block eig theta phi) d max_N Hd) as [U [E H]]. exists U. split; [exact E|].
  intros m n p q Hm Hn Hp Hq. rewrite H by assumption. rewrite math_bs_right by (repeat split; assumption).
  destruct (Nat.eqb_spec (m + n) (p + q)) as [C|C]; cbn [andb].
  - destruct (Nat.leb _ _); [|reflexivity]. unfold schwinger_block. specialize (HE (m + n)%nat). destruct (eig _ _) as [E' V].
    rewrite (block_is_gate theta phi (m + n) E' V HE) by lia. replace (m + n - n)%nat with m by lia. replace (m + n - q)%nat with p by lia. reflexivity.
  - assert (Z : bs_entry theta phi m n p q = RtoC 0) by exact (bs_zero (K := CF) _ _ _ _ m n p q (le_n _) C). rewrite Z. now destruct (Nat.leb _ _).
Qed.

(** ** symmetries of the amplitudes *)
Lemma bs_vac : forall a b c p q, bs_amp (K := CF) a b c 0 0 p q = if (Nat.eqb p 0 && Nat.eqb q 0)%bool then RtoC 1 else RtoC 0.
Proof.
  intros a b c p q. destruct p as [|p]; [destruct q as [|q]|]; cbn [Nat.eqb andb]; [exact (amp_zero (K := CF) 4 _ _ _)| |];
  (refine (bs_zero (K := CF) a b c _ _ _ _ _ (le_n _) _); lia).
Qed.
Lemma bs_vac_in : forall a b c p q, bs_amp (K := CF) a b c p q 0 0 = if (Nat.eqb p 0 && Nat.eqb q 0)%bool then RtoC 1 else RtoC 0.
Proof.
  intros a b c p q. destruct p as [|p]; [destruct q as [|q]|]; cbn [Nat.eqb andb]; [exact (amp_zero (K := CF) 4 _ _ _)| |];
  (refine (bs_zero (K := CF) a b c _ _ _ _ _ (le_n _) _); lia).
Qed.
(** exchanging both the modes and inputs with outputs *)
Lemma bs_swap : forall a b c m n p q, bs_amp (K := CF) a b c m n p q = bs_amp (K := CF) a b c q p n m.
Proof.
  intros a b c. induction m as [|m IHm].
  - induction n as [|n IHn]; intros p q.
    + rewrite bs_vac, bs_vac_in. now rewrite andb_comm.
    + rewrite (bs_rec_n (K := CF)), (bs_rec_p (K := CF)). rewrite (IHn (pred p) q), (IHn p (pred q)). f_equal. cbn. ceq. ring.
  - intros n p q. rewrite (bs_rec_m (K := CF)), (bs_rec_q (K := CF)). rewrite (IHm n (pred p) q), (IHm n p (pred q)). f_equal. cbn. ceq. ring.
Qed.
(** inputs and outputs exchanged: the inverse gate with the opposite phase *)
Lemma bs_transpose : forall t phi m n p q, bs_entry t phi m n p q = bs_entry (- t) (- phi) p q m n.
Proof.
  intros t phi. induction m as [|m IHm].
  - induction n as [|n IHn]; intros p q; [unfold bs_entry; now rewrite bs_vac, bs_vac_in|].
    unfold bs_entry in *. rewrite (bs_rec_n (K := CF)), (bs_rec_q (K := CF)). rewrite (IHn (pred p) q), (IHn p (pred q)). f_equal. cbn. rewrite cos_neg, sin_neg, Ropp_involutive, RtoC_opp. ceq. ring.
  - intros n p q. unfold bs_entry in *. rewrite (bs_rec_m (K := CF)), (bs_rec_p (K := CF)). rewrite (IHm n (pred p) q), (IHm n p (pred q)). f_equal. cbn. rewrite cos_neg, sin_neg, Ropp_involutive, RtoC_opp. ceq. ring.
Qed.
(** ** each sector is unitary *)
Lemma rder_conj : forall t f d, rder t f d -> rder t (fun x => Cconj (f x)) (Cconj d).
Proof. intros t f d [H1 H2]. split; [exact H1|]. exact (is_derive_opp _ _ _ H2). Qed.
Lemma iJy_anti : forall phi N i j, Cconj (iJy phi N i j) = - iJy phi N j i.
Proof.
  intros phi N i j. unfold iJy. destruct (Nat.eqb_spec i (S j)) as [->|]; [destruct (Nat.eqb_spec j (S (S j))); [lia|ring]|].
  destruct (Nat.eqb_spec j (S i)) as [->|]; [|unfold Cconj, Copp, RtoC; simpl; f_equal; ring]. set (z := cis phi * csq _). destruct z. unfold Cconj, Copp. simpl. f_equal; ring.
Qed.
Lemma bs_ode' : forall phi N q t n, (n <= N)%nat -> rder t (fun s => bs_entry s phi (N - n) n (N - q) q) (csum (S N) (fun k => iJy phi N n k * bs_entry t phi (N - k) k (N - q) q)).
Proof.
  intros phi N q t i Hi. rewrite (iJy_sum phi N i (fun k => bs_entry t phi (N - k) k (N - q) q)) by lia.
  eapply rder_eq; [|exact (bs_ode phi t (N - i) i (N - q) q)]. f_equal.
  + f_equal. f_equal. lia.
  + destruct i as [|i]; [rewrite csq_0; ceq; ring|]. cbn [pred]. f_equal. f_equal. lia.
Qed.
Lemma csum_conj : forall n f, Cconj (csum n f) = csum n (fun i => Cconj (f i)).
Proof. induction n as [|n IH]; intros f; cbn [sumn]; [unfold Cconj; cbn; unfold RtoC; f_equal; ring|]. rewrite <- IH. cbn [kadd CF]. set (x := csum n f). destruct x, (f n). unfold Cconj, Cplus. simpl. f_equal; ring. Qed.
Lemma columns : forall theta phi N q r, (q <= N)%nat -> (r <= N)%nat ->
  csum (S N) (fun n => Cconj (bs_entry theta phi (N - n) n (N - q) q) * bs_entry theta phi (N - n) n (N - r) r) = if Nat.eqb q r then RtoC 1 else RtoC 0.
Proof.
  intros theta phi N q r Hq Hr. set (f := (fun t => csum (S N) (fun n => Cconj (bs_entry t phi (N - n) n (N - q) q) * bs_entry t phi (N - n) n (N - r) r)) : R -> C).
  change (f theta = if Nat.eqb q r then RtoC 1 else RtoC 0). rewrite (rder_zero_const f) with (b := 0%R).
  - unfold f. transitivity (csum (S N) (fun n => (if Nat.eqb q n then RtoC 1 else RtoC 0) * (if Nat.eqb n r then RtoC 1 else RtoC 0))); [|exact (csum_pick' (S N) q (fun n => if Nat.eqb n r then RtoC 1 else RtoC 0) ltac:(lia))].
    apply (sumn_ext (K := CF)). intros n Hn. rewrite !bs_at_0. f_equal.
    + destruct (Nat.eqb_spec q n) as [->|]; [rewrite !Nat.eqb_refl|destruct (Nat.eqb_spec n q); [lia|rewrite andb_false_r]]; unfold Cconj, RtoC; simpl; f_equal; ring.
    + destruct (Nat.eqb_spec n r) as [->|]; [now rewrite !Nat.eqb_refl|now rewrite andb_false_r].
  - intros t. unfold f. eapply rder_eq; [|apply (der_sumn (K := CF) t (rder t) (rder_rules t) (S N) (fun n s => Cconj (bs_entry s phi (N - n) n (N - q) q) * bs_entry s phi (N - n) n (N - r) r)
        (fun n => Cconj (csum (S N) (fun k => iJy phi N n k * bs_entry t phi (N - k) k (N - q) q)) * bs_entry t phi (N - n) n (N - r) r
                  + Cconj (bs_entry t phi (N - n) n (N - q) q) * csum (S N) (fun k => iJy phi N n k * bs_entry t phi (N - k) k (N - r) r)))].
    + rewrite (sumn_add (K := CF)).
      assert (X : csum (S N) (fun n => Cconj (csum (S N) (fun k => iJy phi N n k * bs_entry t phi (N - k) k (N - q) q)) * bs_entry t phi (N - n) n (N - r) r)
        = Copp (csum (S N) (fun n => Cconj (bs_entry t phi (N - n) n (N - q) q) * csum (S N) (fun k => iJy phi N n k * bs_entry t phi (N - k) k (N - r) r)))).
      { transitivity (csum (S N) (fun n => csum (S N) (fun k => (- RtoC 1) * (Cconj (bs_entry t phi (N - k) k (N - q) q) * (iJy phi N k n * bs_entry t phi (N - n) n (N - r) r))))).
        - apply (sumn_ext (K := CF)). intros n _. rewrite csum_conj, csum_scal_r. apply (sumn_ext (K := CF)). intros k _. rewrite Cconj_mul, iJy_anti. ceq. ring.
        - rewrite (sumn_swap (K := CF)). transitivity ((- RtoC 1) * csum (S N) (fun n => Cconj (bs_entry t phi (N - n) n (N - q) q) * csum (S N) (fun k => iJy phi N n k * bs_entry t phi (N - k) k (N - r) r))); [|ceq; ring].
          rewrite csum_scal. apply (sumn_ext (K := CF)). intros n _. now rewrite !csum_scal. }
      cbn [kadd CF]. refine (eq_trans (f_equal (fun z => Cplus z _) X) _). ceq. ring.
    + intros n Hn. exact (der_mul (K := CF) t (rder t) (rder_rules t) _ _ _ _ (rder_conj t _ _ (bs_ode' phi N q t n ltac:(lia))) (bs_ode' phi N r t n ltac:(lia))).
Qed.
Lemma rows : forall theta phi N m n, (m <= N)%nat -> (n <= N)%nat ->
  csum (S N) (fun q => bs_entry theta phi (N - m) m (N - q) q * Cconj (bs_entry theta phi (N - n) n (N - q) q)) = if Nat.eqb m n then RtoC 1 else RtoC 0.
Proof.
  intros theta phi N m n Hm Hn. rewrite Nat.eqb_sym. rewrite <- (columns (- theta) (- phi) N n m Hn Hm). apply (sumn_ext (K := CF)). intros q _.
  rewrite (bs_transpose theta phi (N - m)), (bs_transpose theta phi (N - n)). ceq. ring.
Qed.

(** ** the contract of eig can be met for every photon number and all angles: the eigenvectors are the columns of the balanced gate with phase phi + pi/2 *)
Definition schwinger_V (phi : R) (N : nat) (i j : nat) : C := bs_entry (PI / 4) (phi + PI / 2) (N - i) i (N - j) j.
Definition schwinger_E (theta : R) (N : nat) (j : nat) : C := RtoC theta * (- Ci * (RtoC (INR (N - j)) - RtoC (INR j))).
Lemma cis_quarter : forall phi, cis (phi + PI / 2) = Ci * cis phi.
Proof. intros phi. unfold cis, Ci, Cmult. cbn [fst snd]. rewrite cos_plus, sin_plus, cos_PI2, sin_PI2. f_equal; ring. Qed.
Lemma cis_quarter_neg : forall phi, cis (- (phi + PI / 2)) = - Ci * cis (- phi).
Proof. intros phi. rewrite <- !cis_conj, cis_quarter. unfold cis, Ci, Cmult, Cconj, Copp. cbn [fst snd]. f_equal; ring. Qed.
Lemma down_p : forall t phi m n p q, csq p * bs_entry t phi m n p q = RtoC (cos t) * csq m * (if Nat.eqb p 0 then RtoC 0 else bs_entry t phi (pred m) n (pred p) q) + RtoC (sin t) * cis phi * csq n * (if Nat.eqb p 0 then RtoC 0 else bs_entry t phi m (pred n) (pred p) q).
Proof.
  intros t phi m n p q. destruct p as [|p]; cbn [Nat.eqb pred]; [rewrite csq_0; ceq; ring|]. unfold bs_entry. rewrite (bs_rec_p (K := CF)). cbn [kadd kmul kdiv sq CF].
  set (x := bs_amp (K := CF) _ _ _ (pred m) n p q). set (y := bs_amp (K := CF) _ _ _ m (pred n) p q). pose proof (csq_nz (S p) ltac:(lia)). ceq. field. assumption.
Qed.
Lemma down_q : forall t phi m n p q, csq q * bs_entry t phi m n p q = - RtoC (sin t) * cis (- phi) * csq m * (if Nat.eqb q 0 then RtoC 0 else bs_entry t phi (pred m) n p (pred q)) + RtoC (cos t) * csq n * (if Nat.eqb q 0 then RtoC 0 else bs_entry t phi m (pred n) p (pred q)).
Proof.
  intros t phi m n p q. destruct q as [|q]; cbn [Nat.eqb pred]; [rewrite csq_0; ceq; ring|]. unfold bs_entry. rewrite (bs_rec_q (K := CF)). cbn [kadd kmul kdiv kopp sq CF].
  set (x := bs_amp (K := CF) _ _ _ (pred m) n p q). set (y := bs_amp (K := CF) _ _ _ m (pred n) p q). pose proof (csq_nz (S q) ltac:(lia)). ceq. field. assumption.
Qed.
Lemma csq_sq : forall n, csq n * csq n = RtoC (INR n).
Proof. intros n. rewrite csq_ok. apply cnat_INR. Qed.
Lemma eigvec : forall phi m n p q, let B := bs_entry (PI / 4) (phi + PI / 2) in
  - cis (- phi) * csq m * (csq (S n) * B (pred m) (S n) p q) + cis phi * csq n * (csq (S m) * B (S m) (pred n) p q) = - Ci * (RtoC (INR p) - RtoC (INR q)) * B m n p q.
Proof.
  intros phi m n p q B. unfold B. rewrite up_n, up_m. rewrite <- !csq_sq.
  transitivity (- Ci * (csq p * (csq p * bs_entry (PI / 4) (phi + PI / 2) m n p q)) + Ci * (csq q * (csq q * bs_entry (PI / 4) (phi + PI / 2) m n p q))); [|ceq; ring].
  rewrite down_p, down_q. rewrite cis_quarter, cis_quarter_neg, sin_PI4, cos_PI4. set (s := RtoC (1 / sqrt 2)).
  set (x1 := bs_entry (PI / 4) (phi + PI / 2) (pred m) n (pred p) q). set (x2 := bs_entry (PI / 4) (phi + PI / 2) (pred m) n p (pred q)).
  set (x3 := bs_entry (PI / 4) (phi + PI / 2) m (pred n) (pred p) q). set (x4 := bs_entry (PI / 4) (phi + PI / 2) m (pred n) p (pred q)).
  assert (P1 : csq p * (if Nat.eqb p 0 then RtoC 0 else x1) = csq p * x1) by (destruct p; cbn [Nat.eqb]; [rewrite csq_0; ceq; ring|reflexivity]).
  assert (P3 : csq p * (if Nat.eqb p 0 then RtoC 0 else x3) = csq p * x3) by (destruct p; cbn [Nat.eqb]; [rewrite csq_0; ceq; ring|reflexivity]).
  assert (P2 : csq q * (if Nat.eqb q 0 then RtoC 0 else x2) = csq q * x2) by (destruct q; cbn [Nat.eqb]; [rewrite csq_0; ceq; ring|reflexivity]).
  assert (P4 : csq q * (if Nat.eqb q 0 then RtoC 0 else x4) = csq q * x4) by (destruct q; cbn [Nat.eqb]; [rewrite csq_0; ceq; ring|reflexivity]).
  set (y1 := if Nat.eqb p 0 then RtoC 0 else x1) in *. set (y2 := if Nat.eqb q 0 then RtoC 0 else x2) in *. set (y3 := if Nat.eqb p 0 then RtoC 0 else x3) in *. set (y4 := if Nat.eqb q 0 then RtoC 0 else x4) in *.
  transitivity (- Ci * s * csq m * (csq p * y1) + (- Ci * Ci) * cis phi * s * csq n * (csq p * y3) + (Ci * Ci) * cis (- phi) * s * csq m * (csq q * y2) + Ci * s * csq n * (csq q * y4)); [|ceq; ring].
  rewrite P1, P2, P3, P4. pose proof (cis_mul_conj phi) as PC. replace (- Ci * Ci) with (RtoC 1) by (unfold Ci, Cmult, Copp, RtoC; simpl; f_equal; ring).
  replace (Ci * Ci) with (- RtoC 1) by (unfold Ci, Cmult, Copp, RtoC; simpl; f_equal; ring).
  transitivity (- Ci * s * (cis phi * cis (- phi)) * csq m * (csq p * x1) + cis phi * s * csq n * (csq p * x3) - cis (- phi) * s * csq m * (csq q * x2) + Ci * s * (cis phi * cis (- phi)) * csq n * (csq q * x4)); [ceq; ring|rewrite PC; ceq; ring].
Qed.
Theorem C25_eig_exists : forall theta phi N, eig_ok (S N) (fun i j => RtoC theta * iJy phi N i j) (schwinger_E theta N) (schwinger_V phi N).
Proof.
  intros theta phi N. split; [|split].
  - intros i j Hi Hj.
    transitivity (RtoC theta * csum (S N) (fun k => iJy phi N i k * schwinger_V phi N k j)); [rewrite csum_scal; apply (sumn_ext (K := CF)); intros k _; ceq; ring|].
    rewrite (iJy_sum phi N i (fun k => schwinger_V phi N k j)) by lia. unfold schwinger_V, schwinger_E.
    pose proof (eigvec phi (N - i) i (N - j) j) as E. cbn zeta in E. replace (N - S i)%nat with (pred (N - i)) by lia.
    assert (X : csq i * bs_entry (PI / 4) (phi + PI / 2) (N - pred i) (pred i) (N - j) j = csq i * bs_entry (PI / 4) (phi + PI / 2) (S (N - i)) (pred i) (N - j) j).
    { destruct i as [|i]; [rewrite csq_0; ceq; ring|]. cbn [pred]. replace (N - i)%nat with (S (N - S i)) by lia. reflexivity. }
    transitivity (RtoC theta * (- cis (- phi) * csq (N - i) * (csq (S i) * bs_entry (PI / 4) (phi + PI / 2) (pred (N - i)) (S i) (N - j) j)
      + cis phi * csq (S (N - i)) * (csq i * bs_entry (PI / 4) (phi + PI / 2) (N - pred i) (pred i) (N - j) j))); [ceq; ring|]. rewrite X.
    transitivity (RtoC theta * (- cis (- phi) * csq (N - i) * (csq (S i) * bs_entry (PI / 4) (phi + PI / 2) (pred (N - i)) (S i) (N - j) j)
      + cis phi * csq i * (csq (S (N - i)) * bs_entry (PI / 4) (phi + PI / 2) (S (N - i)) (pred i) (N - j) j))); [ceq; ring|]. rewrite E. ceq; ring.
  - intros i j Hi Hj. exact (rows (PI / 4) (phi + PI / 2) N i j ltac:(lia) ltac:(lia)).
  - intros i j Hi Hj. exact (columns (PI / 4) (phi + PI / 2) N i j ltac:(lia) ltac:(lia)).
Qed.
