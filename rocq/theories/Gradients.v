(** mrmustard/math/lattice/strategies/vanilla/gradients.py: vanilla_vjp_numba is the exact derivative of the amplitudes *)
From Coq Require Import List Arith Lia Field Ring ZArith.
From Verif Require Import RootField Tensor Series Vanilla.
Import ListNotations.

Section Model.
  Context {K : rootfield}.
  Open Scope rf_scope.
  Definition dotp (G H : list K) : K := fold_right (fun '(x, y) acc => x * y + acc) k0 (combine G H).
  (** gradients.py:66-68  db[i] = SQRT[index_u[i]] * G_lin[pivot], pivot = (flat_index + 1) - strides[i] *)
  Definition vjp_db (ss : list nat) (G : list K) (flat : nat) (u : list nat) (i : nat) : K :=
    sq (at' i u) * rd G (Z.of_nat flat - Z.of_nat (nth i ss O)).
  (** gradients.py:69-75  upper triangle of dA; the lower triangle stays 0 *)
  Definition vjp_dA (ss : list nat) (G : list K) (flat : nat) (u : list nat) (i j : nat) : K :=
    let pivot := (Z.of_nat flat - Z.of_nat (nth i ss O))%Z in
    if Nat.eqb i j then if Nat.ltb 1 (at' i u) then half * sq (at' i u) * sq (at' i u - 1) * rd G (pivot - Z.of_nat (nth i ss O)) else k0
    else if Nat.ltb i j then sq (at' i u) * sq (at' j u) * rd G (pivot - Z.of_nat (nth j ss O)) else k0.
  (** gradients.py:37-82.  State: dLdA, dLdb, flat_index+1.  Simplification: the scratch arrays dA, db, whose used entries are
      overwritten in every iteration, are not kept in the state. *)
  Definition vjp (shape : list nat) (G : list K) (c : K) (dLdG : list K) : (nat -> nat -> K) * (nat -> K) * K :=
    let ss := strides shape in
    let '(dLdA, dLdb, _) := fold_left (fun '(dLdA, dLdb, flat) u =>
        ((fun i j => dLdA i j + vjp_dA ss G flat u i j * entry shape dLdG u),
         (fun i => dLdb i + vjp_db ss G flat u i * entry shape dLdG u), S flat))
        (tl (box shape)) ((fun _ _ => k0), (fun _ => k0), 1) in
    ((fun i j => (dLdA i j + dLdA j i) / (k1 + k1)), dLdb, dotp G dLdG / c).
End Model.

Section Commute.
  Context {K : rootfield}.
  Add Field Kfield : (kft K).
  Open Scope rf_scope.
  Variable D : nat.
  Notation "f == g" := (forall k, length k = D -> f k = g k) (at level 70).
  Lemma mulq_mulz : forall (A : nat -> nat -> K) b i f, i < D -> mulz i (mulq D A b f) == mulq D A b (mulz i f).
  Proof.
    intros A b i f Hi k L. unfold mulq at 2.
    rewrite (sumn_ext D (fun l => b l * mulz l (mulz i f) k) (fun l => b l * mulz i (mulz l f) k))
      by (intros l Hl; f_equal; now apply (mulz_comm D)).
    rewrite (sumn_ext D (fun l => sumn D (fun j => A l j * mulz l (mulz j (mulz i f)) k)) (fun l => sumn D (fun j => A l j * mulz i (mulz l (mulz j f)) k))).
    2:{ intros l Hl. apply sumn_ext. intros j Hj. f_equal. rewrite <- (mulz_comm D l i (mulz j f) Hl Hi k L).
        apply (mulz_ext D); [|exact L]. intros k' L'. now apply (mulz_comm D). }
    unfold mulz at 1. destruct (Nat.eqb_spec (at' i k) 0) as [E|E].
    - assert (Z : forall g : list nat -> K, mulz i g k = k0) by (intros g; unfold mulz; now rewrite E).
      rewrite (sumn_0 D (fun l => b l * _)) by (intros l Hl; rewrite Z; ring).
      rewrite sumn_0; [ring|]. intros l Hl. apply sumn_0. intros j Hj. rewrite Z. ring.
    - unfold mulq. f_equal; [|f_equal]; apply sumn_ext; intros l Hl; [|apply sumn_ext; intros j Hj]; f_equal; symmetry; unfold mulz at 1;
          rewrite (proj2 (Nat.eqb_neq _ _) E); reflexivity.
  Qed.
  Lemma mulq_add : forall (A : nat -> nat -> K) b f g k, mulq D A b (fun k => f k + g k) k = mulq D A b f k + mulq D A b g k.
  Proof.
    intros. unfold mulq.
    rewrite (sumn_ext D (fun i => b i * mulz i (fun k => f k + g k) k) (fun i => b i * mulz i f k + b i * mulz i g k)) by (intros; rewrite mulz_add; ring).
    rewrite (sumn_ext D (fun i => sumn D (fun j => A i j * mulz i (mulz j (fun k => f k + g k)) k))
       (fun i => sumn D (fun j => A i j * mulz i (mulz j f) k) + sumn D (fun j => A i j * mulz i (mulz j g) k))).
    2:{ intros i Hi. rewrite <- sumn_add. apply sumn_ext. intros j Hj.
        replace (mulz i (mulz j (fun k => f k + g k)) k) with (mulz i (mulz j f) k + mulz i (mulz j g) k); [ring|].
        unfold mulz. destruct (Nat.eqb _ 0); [ring|]. destruct (Nat.eqb _ 0); ring. }
    rewrite !sumn_add. ring.
  Qed.
  Lemma mulq_sumn : forall (A : nat -> nat -> K) b n g k, mulq D A b (fun k => sumn n (fun i => g i k)) k = sumn n (fun i => mulq D A b (g i) k).
  Proof.
    intros A b n g k. induction n as [|n IH]; cbn [sumn].
    - transitivity (mulq D A b (fun k => k0 * k1) k).
      + unfold mulq, mulz. f_equal; [|f_equal]; apply sumn_ext; intros i _; [|apply sumn_ext; intros j _]; f_equal; repeat destruct (Nat.eqb _ 0); ring.
      + rewrite mulq_scal. ring.
    - rewrite mulq_add, IH. reflexivity.
  Qed.
  Lemma mulq_comm : forall (A A' : nat -> nat -> K) b b' f, mulq D A b (mulq D A' b' f) == mulq D A' b' (mulq D A b f).
  Proof.
    intros A A' b b' f k L. unfold mulq at 1.
    rewrite (sumn_ext D (fun i => b i * mulz i (mulq D A' b' f) k) (fun i => mulq D A' b' (fun k => b i * mulz i f k) k)).
    2:{ intros i Hi. rewrite mulq_scal. f_equal. now apply mulq_mulz. }
    rewrite (sumn_ext D (fun i => sumn D (fun j => A i j * mulz i (mulz j (mulq D A' b' f)) k)) (fun i => mulq D A' b' (fun k => sumn D (fun j => A i j * mulz i (mulz j f) k)) k)).
    2:{ intros i Hi. rewrite mulq_sumn. apply sumn_ext. intros j Hj. rewrite mulq_scal. f_equal.
        rewrite <- mulq_mulz by assumption. apply (mulz_ext D); [|exact L]. intros k' L'. now apply mulq_mulz. }
    rewrite <- !mulq_sumn. rewrite <- mulq_scal. rewrite <- mulq_add. reflexivity.
  Qed.
End Commute.

(** rules of differentiation at a point: [der f d] reads "f has derivative d there" *)
Record diff_rules {K : rootfield} {T : Type} (t0 : T) (der : (T -> K) -> K -> Prop) : Prop := {
  der_ext : forall f g d, (forall t, f t = g t) -> der f d -> der g d;
  der_const : forall x, der (fun _ => x) k0;
  der_add : forall f g d e, der f d -> der g e -> der (fun t => kadd (f t) (g t)) (kadd d e);
  der_mul : forall f g d e, der f d -> der g e -> der (fun t => kmul (f t) (g t)) (kadd (kmul d (g t0)) (kmul (f t0) e))
}.

Section Deriv.
  Context {K : rootfield}.
  Add Field Kfield : (kft K).
  Open Scope rf_scope.
  Context {T : Type} (t0 : T) (der : (T -> K) -> K -> Prop) (DR : diff_rules t0 der).
  Lemma der_eq : forall f d e, d = e -> der f d -> der f e.
  Proof. now intros f d e ->. Qed.
  Lemma der_cmul : forall x f d, der f d -> der (fun t => x * f t) (x * d).
  Proof. intros x f d H. eapply der_eq; [|apply (der_mul t0 der DR (fun _ => x) f k0 d); [apply (der_const t0 der DR)|exact H]]. ring. Qed.
  Lemma der_sumn : forall n f d, (forall i, i < n -> der (f i) (d i)) -> der (fun t => sumn n (fun i => f i t)) (sumn n d).
  Proof.
    induction n as [|n IH]; intros f d H; cbn [sumn]; [apply (der_const t0 der DR)|]. apply (der_add t0 der DR); [|apply H; lia].
    apply IH. intros i Hi. apply H. lia.
  Qed.

  Variable D : nat.
  Variable A : T -> nat -> nat -> K.
  Variable b : T -> nat -> K.
  Variable dA : nat -> nat -> K.
  Variable db : nat -> K.
  Hypothesis HA : forall i j, i < D -> j < D -> der (fun t => A t i j) (dA i j).
  Hypothesis Hb : forall i, i < D -> der (fun t => b t i) (db i).

  Lemma der_mulz : forall i (f : T -> list nat -> K) d, (forall k, length k = D -> der (fun t => f t k) (d k)) ->
    forall k, length k = D -> der (fun t => mulz i (f t) k) (mulz i d k).
  Proof. intros i f d H k L. unfold mulz. destruct (Nat.eqb _ 0); [apply (der_const t0 der DR)|]. apply H. now rewrite dec_length. Qed.
  Lemma der_mulq : forall (f : T -> list nat -> K) d, (forall k, length k = D -> der (fun t => f t k) (d k)) ->
    forall k, length k = D -> der (fun t => mulq D (A t) (b t) (f t) k) (mulq D dA db (f t0) k + mulq D (A t0) (b t0) d k).
  Proof.
    intros f d H k L. unfold mulq.
    assert (H1 : forall i, der (fun t => mulz i (f t) k) (mulz i d k)) by (intros; now apply der_mulz).
    assert (H2 : forall i j, der (fun t => mulz i (mulz j (f t)) k) (mulz i (mulz j d) k)).
    { intros i j. apply (der_mulz i (fun t => mulz j (f t)) (mulz j d)); [|exact L]. intros k' L'. now apply der_mulz. }
    apply der_eq with (d := sumn D (fun i => db i * mulz i (f t0) k + b t0 i * mulz i d k)
       + half * sumn D (fun i => sumn D (fun j => dA i j * mulz i (mulz j (f t0)) k + A t0 i j * mulz i (mulz j d) k))).
    2:{ apply (der_add t0 der DR); [|apply der_cmul]; apply der_sumn; intros i Hi; [|apply der_sumn; intros j Hj].
        - exact (der_mul t0 der DR _ _ _ _ (Hb i Hi) (H1 i)).
        - exact (der_mul t0 der DR _ _ _ _ (HA i j Hi Hj) (H2 i j)). }
    rewrite sumn_add.
    rewrite (sumn_ext D (fun i => sumn D (fun j => dA i j * mulz i (mulz j (f t0)) k + A t0 i j * mulz i (mulz j d) k)) (fun i => sumn D (fun j => dA i j * mulz i (mulz j (f t0)) k) + sumn D (fun j => A t0 i j * mulz i (mulz j d) k)))
      by (intros; apply sumn_add).
    rewrite sumn_add. ring.
  Qed.
  Notation q := (qpow D (A t0) (b t0)).
  Lemma der_qpow : forall m k, length k = D -> der (fun t => qpow D (A t) (b t) (S m) k) (knat (S m) * mulq D dA db (q m) k).
  Proof.
    induction m as [|m IH]; intros k L.
    - cbn [qpow]. eapply der_eq; [|apply (der_mulq (fun _ => one D) (fun _ => k0 * k1)); [|exact L]].
      + rewrite mulq_scal, knat_1. ring.
      + intros k' _. eapply der_eq; [|apply (der_const t0 der DR)]. ring.
    - change (der (fun t => mulq D (A t) (b t) (qpow D (A t) (b t) (S m)) k) (knat (S (S m)) * mulq D dA db (q (S m)) k)).
      eapply der_eq; [|apply der_mulq; [exact IH|exact L]]. rewrite mulq_scal.
      rewrite (mulq_comm D (A t0) dA (b t0) db (q m) k L). change (mulq D (A t0) (b t0) (q m)) with (q (S m)).
      rewrite (knat_S (S m)). ring.
  Qed.
  Lemma der_expq : forall k, length k = D -> der (fun t => expq D (A t) (b t) k) (mulq D dA db (expq D (A t0) (b t0)) k).
  Proof.
    intros k L. unfold expq at 1. set (N := list_sum k).
    apply (der_ext t0 der DR (fun t => qpow D (A t) (b t) 0 k / fact_ 0 + sumn N (fun m => k1 / fact_ (S m) * qpow D (A t) (b t) (S m) k))).
    { intros t. rewrite sumn_S_l. f_equal. apply sumn_ext. intros m _. field. apply knat_neq, fact_neq_0. }
    apply der_eq with (d := k0 + sumn N (fun m => k1 / fact_ (S m) * (knat (S m) * mulq D dA db (q m) k))).
    2:{ apply (der_add t0 der DR); [exact (der_const t0 der DR (one D k / fact_ 0))|]. apply der_sumn; intros m Hm; apply der_cmul, der_qpow, L. }
    rewrite (sumn_ext N _ (fun m => mulq D dA db (fun k => k1 / fact_ m * q m k) k)).
    2:{ intros m Hm. rewrite mulq_scal. unfold fact_. change (fact (S m)) with (S m * fact m)%nat. rewrite knat_mul. field. split; apply knat_neq; [apply fact_neq_0|lia]. }
    rewrite <- mulq_sumn.
    assert (Z : forall i (f g : list nat -> K), (forall k', length k' = D -> list_sum k' < N -> f k' = g k') -> i < D -> mulz i f k = mulz i g k).
    { intros i f g H Hi. unfold mulz. destruct (Nat.eqb_spec (at' i k) 0) as [E|E]; [reflexivity|]. apply H; [now rewrite dec_length|].
      pose proof (sum_dec i k ltac:(lia) E). unfold N. lia. }
    assert (E0 : forall k', length k' = D -> list_sum k' < N -> sumn N (fun m => k1 / fact_ m * q m k') = expq D (A t0) (b t0) k').
    { intros k' L' H'. destruct N as [|N']; [lia|]. rewrite (expq_upto D _ _ k' N' L') by lia. apply sumn_ext. intros m _. field. apply knat_neq, fact_neq_0. }
    transitivity (mulq D dA db (fun k => sumn N (fun m => k1 / fact_ m * q m k)) k); [ring|].
    unfold mulq. f_equal; [|f_equal]; apply sumn_ext; intros i Hi; [|apply sumn_ext; intros j Hj]; f_equal; apply Z; auto.
    intros k' L' H'. unfold mulz. destruct (Nat.eqb_spec (at' j k') 0) as [E|E]; [reflexivity|]. apply E0; [now rewrite dec_length|].
    pose proof (sum_dec j k' ltac:(lia) E). lia.
  Qed.
  Variable c : T -> K.
  Variable dc : K.
  Hypothesis Hc : der c dc.
  Hypothesis Nc : c t0 <> k0.
  Notation G0 := (amp D (A t0) (b t0) (c t0)).
  (** derivative of an amplitude along any change of the parameters *)
  Lemma der_amp : forall k, length k = D ->
    der (fun t => amp D (A t) (b t) (c t) k)
        (dc * (G0 k / c t0) + sumn D (fun i => db i * (sq (at' i k) * G0 (dec i k)))
          + half * sumn D (fun i => sumn D (fun j => dA i j * (sq (at' i k) * sq (at' j (dec i k)) * G0 (dec j (dec i k)))))).
  Proof.
    intros k L. unfold amp at 1. 
    apply (der_ext t0 der DR (fun t => c t * (sqf k * expq D (A t) (b t) k))); [intros; ring|].
    eapply der_eq; [|exact (der_mul t0 der DR c (fun t => sqf k * expq D (A t) (b t) k) _ _ Hc (der_cmul _ _ _ (der_expq k L)))].
    unfold mulq.
    rewrite (sumn_ext D (fun i => db i * (sq (at' i k) * G0 (dec i k))) (fun i => (c t0 * sqf k) * (db i * mulz i (expq D (A t0) (b t0)) k))).
    2:{ intros i Hi. unfold mulz, amp. destruct (Nat.eqb_spec (at' i k) 0) as [E|E]; [rewrite E, sq_0; ring|].
        rewrite (sqf_dec i k) by (lia || exact E). ring. }
    rewrite (sumn_ext D (fun i => sumn D (fun j => dA i j * (sq (at' i k) * sq (at' j (dec i k)) * G0 (dec j (dec i k)))))
              (fun i => (c t0 * sqf k) * sumn D (fun j => dA i j * mulz i (mulz j (expq D (A t0) (b t0))) k))).
    2:{ intros i Hi. rewrite <- sumn_scal. apply sumn_ext. intros j Hj. unfold mulz, amp.
        destruct (Nat.eqb_spec (at' i k) 0) as [E|E]; [rewrite E, sq_0; ring|]. rewrite (sqf_dec i k) by (lia || exact E).
        destruct (Nat.eqb_spec (at' j (dec i k)) 0) as [E'|E']; [rewrite E', sq_0; ring|].
        rewrite (sqf_dec j (dec i k)) by (rewrite ?dec_length; lia || exact E'). ring. }
    rewrite !sumn_scal. unfold amp. field. exact Nc.
  Qed.
End Deriv.

Section Vjp.
  Context {K : rootfield}.
  Add Field Kfield2 : (kft K).
  Open Scope rf_scope.
  Definition lsum {X} (l : list X) (f : X -> K) : K := fold_right (fun x acc => f x + acc) k0 l.
  Lemma lsum_ext : forall {X} (l : list X) f g, (forall x, In x l -> f x = g x) -> lsum l f = lsum l g.
  Proof. induction l as [|x l IH]; intros f g H; simpl; auto. rewrite H by now left. f_equal. apply IH. intros; apply H; now right. Qed.
  Lemma lsum_sumn : forall {X} (l : list X) n f, lsum l (fun x => sumn n (fun i => f x i)) = sumn n (fun i => lsum l (fun x => f x i)).
  Proof. induction l as [|x l IH]; intros n f; simpl; [symmetry; now apply sumn_0|]. rewrite IH. symmetry. apply sumn_add. Qed.
  Lemma lsum_scal : forall {X} (l : list X) x f, lsum l (fun y => x * f y) = x * lsum l f.
  Proof. induction l as [|y l IH]; intros x f; simpl; [ring|]. rewrite IH. ring. Qed.
  Lemma lsum_add : forall {X} (l : list X) f g, lsum l (fun y => f y + g y) = lsum l f + lsum l g.
  Proof. induction l as [|y l IH]; intros f g; simpl; [ring|]. rewrite IH. ring. Qed.

  Variable shape : list nat.
  Notation D := (length shape).
  Notation ss := (strides shape).
  Hypothesis Dpos : 0 < D.
  Hypothesis Spos : Forall (fun d => 0 < d) shape.

  (** the sum of an expression over all entries *)
  Lemma dotp_box : forall G w : list K, length G = prod shape -> length w = prod shape ->
    dotp G w = lsum (box shape) (fun k => entry shape G k * entry shape w k).
  Proof.
    intros G w LG Lw. unfold dotp, lsum.
    assert (E : forall n, n <= prod shape ->
      fold_right (fun '(x, y) acc => x * y + acc) k0 (combine (skipn (prod shape - n) G) (skipn (prod shape - n) w))
      = fold_right (fun k acc => entry shape G k * entry shape w k + acc) k0 (skipn (prod shape - n) (box shape))).
    { induction n as [|n IH]; intros Hn.
      - rewrite !skipn_all2 by (rewrite ?box_length; lia). reflexivity.
      - assert (Sk : forall {X} (l : list X) (d : X) m, m < length l -> skipn m l = nth m l d :: skipn (S m) l).
        { intros X l d. induction l as [|x l IHl]; intros [|m] H; simpl in *; try lia; auto. apply IHl. lia. }
        rewrite (Sk _ G k0), (Sk _ w k0), (Sk _ (box shape) []) by (rewrite ?box_length; lia).
        replace (S (prod shape - S n)) with (prod shape - n)%nat by lia. cbn [combine fold_right]. rewrite IH by lia.
        f_equal. unfold entry. destruct (ravel_nth shape (prod shape - S n)) as [R _]; [lia|]. now rewrite R. }
    specialize (E (prod shape) (le_n _)). rewrite Nat.sub_diag in E. exact E.
  Qed.

  Definition SA (G : list nat -> K) (u : list nat) (i j : nat) : K := sq (at' i u) * sq (at' j (dec i u)) * G (dec j (dec i u)).
  Definition upper (X : nat -> nat -> K) (i j : nat) : K := if Nat.eqb i j then half * X i i else if Nat.ltb i j then X i j else k0.

  Variable F : list nat -> K.
  Variable G : list K.
  Hypothesis LG : length G = prod shape.
  Hypothesis GF : forall k, Forall2 lt k shape -> entry shape G k = F k.
  Lemma rd_dec : forall u i, Forall2 lt u shape -> i < D -> at' i u <> 0 ->
    rd G (Z.of_nat (ravel shape u) - Z.of_nat (nth i ss O)) = F (dec i u).
  Proof.
    intros u i Hu Hi N. pose proof (ravel_dec i u shape Hu Hi N). rewrite <- GF by now apply dec_box. unfold entry.
    replace (Z.of_nat (ravel shape u) - Z.of_nat (nth i ss O))%Z with (Z.of_nat (ravel shape (dec i u))) by lia. apply rd_nat.
  Qed.
  Lemma rd_dec2 : forall u i j, Forall2 lt u shape -> i < D -> at' i u <> 0 -> j < D -> at' j (dec i u) <> 0 ->
    rd G (Z.of_nat (ravel shape u) - Z.of_nat (nth i ss O) - Z.of_nat (nth j ss O)) = F (dec j (dec i u)).
  Proof.
    intros u i j Hu Hi N Hj N'. pose proof (ravel_dec i u shape Hu Hi N).
    pose proof (ravel_dec j (dec i u) shape (dec_box i u shape Hu) Hj N'). rewrite <- GF by now apply dec_box, dec_box. unfold entry.
    replace (Z.of_nat (ravel shape u) - Z.of_nat (nth i ss O) - Z.of_nat (nth j ss O))%Z with (Z.of_nat (ravel shape (dec j (dec i u)))) by lia. apply rd_nat.
  Qed.
  Lemma vjp_db_ok : forall u i, Forall2 lt u shape -> i < D -> vjp_db ss G (ravel shape u) u i = sq (at' i u) * F (dec i u).
  Proof.
    intros u i Hu Hi. unfold vjp_db. destruct (Nat.eq_dec (at' i u) 0) as [E|E]; [rewrite E, sq_0; ring|]. now rewrite rd_dec.
  Qed.
  Lemma vjp_dA_ok : forall u i j, Forall2 lt u shape -> i < D -> j < D -> vjp_dA ss G (ravel shape u) u i j = upper (SA F u) i j.
  Proof.
    intros u i j Hu Hi Hj. pose proof (Forall2_lt_len _ _ Hu) as L. unfold vjp_dA, upper, SA. destruct (Nat.eqb_spec i j) as [->|N].
    - rewrite at_dec, Nat.eqb_refl by lia. destruct (Nat.ltb_spec 1 (at' j u)) as [H|H].
      + rewrite rd_dec2 by (rewrite ?at_dec, ?Nat.eqb_refl by lia; assumption || lia). replace (at' j u - 1)%nat with (pred (at' j u)) by lia. ring.
      + assert (pred (at' j u) = 0) as -> by lia. rewrite sq_0. ring.
    - destruct (Nat.ltb_spec i j) as [H|H]; [|reflexivity]. rewrite at_dec by lia. rewrite (proj2 (Nat.eqb_neq j i)) by lia.
      destruct (Nat.eq_dec (at' i u) 0) as [E|E]; [rewrite E, sq_0; ring|]. destruct (Nat.eq_dec (at' j u) 0) as [E'|E']; [rewrite E', sq_0; ring|].
      rewrite rd_dec2; auto. rewrite at_dec by lia. now rewrite (proj2 (Nat.eqb_neq j i)) by lia.
  Qed.
  Lemma vjp_fold : forall (w : list K) m n PA Pb, (n + m)%nat = prod shape ->
    let '(a, b_, _) := fold_left (fun '(dLdA, dLdb, flat) u =>
        ((fun i j => dLdA i j + vjp_dA ss G flat u i j * entry shape w u),
         (fun i => dLdb i + vjp_db ss G flat u i * entry shape w u), S flat)) (skipn n (box shape)) (PA, Pb, n) in
    (forall i j, i < D -> j < D -> a i j = PA i j + lsum (skipn n (box shape)) (fun u => upper (SA F u) i j * entry shape w u))
    /\ (forall i, i < D -> b_ i = Pb i + lsum (skipn n (box shape)) (fun u => sq (at' i u) * F (dec i u) * entry shape w u)).
  Proof.
    intros w. induction m as [|m IH]; intros n PA Pb E.
    - rewrite skipn_all2 by (rewrite box_length; lia). simpl. split; intros; ring.
    - destruct (ravel_nth shape n ltac:(lia)) as [R Hk]. rewrite skipn_box by lia. cbn [fold_left].
      set (u := nth n (box shape) []) in *.
      specialize (IH (S n) (fun i j => PA i j + vjp_dA ss G n u i j * entry shape w u) (fun i => Pb i + vjp_db ss G n u i * entry shape w u) ltac:(lia)).
      destruct (fold_left _ (skipn (S n) (box shape)) _) as [[a b_] z]. destruct IH as [I1 I2]. split.
      + intros i j Hi Hj. rewrite I1 by assumption. unfold lsum; cbn [fold_right]. rewrite <- R at 1. rewrite vjp_dA_ok by assumption. ring.
      + intros i Hi. rewrite I2 by assumption. unfold lsum; cbn [fold_right]. rewrite <- R at 1. rewrite vjp_db_ok by assumption. ring.
  Qed.
  Lemma sum_upper : forall (dA X : nat -> nat -> K), (forall i j, i < D -> j < D -> dA i j = dA j i) -> (forall i j, i < D -> j < D -> X i j = X j i) ->
    sumn D (fun i => sumn D (fun j => dA i j * ((upper X i j + upper X j i) / (k1 + k1)))) = half * sumn D (fun i => sumn D (fun j => dA i j * X i j)).
  Proof.
    intros dA X SD SX. rewrite <- sumn_scal. apply sumn_ext. intros i Hi. rewrite <- sumn_scal. apply sumn_ext. intros j Hj.
    unfold upper. rewrite (Nat.eqb_sym j i). destruct (Nat.eqb_spec i j) as [->|N].
    - transitivity (half * (dA j j * X j j) * ((k1 + k1) / (k1 + k1))); [field; apply two_neq|]. field. apply two_neq.
    - destruct (Nat.ltb_spec i j), (Nat.ltb_spec j i); try lia; unfold half; [|rewrite (SX j i) by assumption]; field; apply two_neq.
  Qed.
  Lemma SA_sym : forall u i j, length u = D -> i < D -> j < D -> SA F u i j = SA F u j i.
  Proof.
    intros u i j L Hi Hj. unfold SA. rewrite (dec_dec i j) by lia. rewrite !at_dec by lia. rewrite (Nat.eqb_sym i j).
    destruct (Nat.eqb_spec j i) as [->|N]; ring.
  Qed.
End Vjp.
