(** Specification: the Taylor coefficients of c * exp(z.A.z/2 + b.z), independent of any recursion of the code.
    A power series in D variables is the function giving its coefficient at every multi-index (list of D naturals). *)
From Coq Require Import List Arith Lia Field Ring.
From Verif Require Import RootField.
Import ListNotations.

(** ** multi-indices *)
Fixpoint upd (i v : nat) (k : list nat) : list nat :=
  match k, i with
  | [], _ => []
  | _ :: t, 0 => v :: t
  | x :: t, S j => x :: upd j v t
  end.
Definition at' (i : nat) (k : list nat) : nat := nth i k 0.
Definition inc (i : nat) (k : list nat) : list nat := upd i (S (at' i k)) k.
Definition dec (i : nat) (k : list nat) : list nat := upd i (pred (at' i k)) k.
Definition zeros (n : nat) : list nat := repeat 0 n.

Lemma upd_length : forall i v k, length (upd i v k) = length k.
Proof. induction i; destruct k; simpl; auto. Qed.
Lemma inc_length : forall i k, length (inc i k) = length k.
Proof. intros. apply upd_length. Qed.
Lemma dec_length : forall i k, length (dec i k) = length k.
Proof. intros. apply upd_length. Qed.
Lemma at_upd : forall i j v k, i < length k -> at' j (upd i v k) = if Nat.eqb j i then v else at' j k.
Proof.
  unfold at'. induction i; destruct k as [|x k]; simpl; intros H; try lia; destruct j; simpl; auto.
  apply IHi. lia.
Qed.
Lemma at_inc : forall i j k, i < length k -> at' j (inc i k) = if Nat.eqb j i then S (at' j k) else at' j k.
Proof. intros i j k H. unfold inc. rewrite at_upd by exact H. destruct (Nat.eqb_spec j i); [now subst|reflexivity]. Qed.
Lemma at_dec : forall i j k, i < length k -> at' j (dec i k) = if Nat.eqb j i then pred (at' j k) else at' j k.
Proof. intros i j k H. unfold dec. rewrite at_upd by exact H. destruct (Nat.eqb_spec j i); [now subst|reflexivity]. Qed.
Lemma at_ext : forall k l, length k = length l -> (forall j, j < length k -> at' j k = at' j l) -> k = l.
Proof.
  intros k l L H. apply nth_ext with (d := 0) (d' := 0); [exact L|]. exact H.
Qed.
Lemma at_le_sum : forall k i, at' i k <= list_sum k.
Proof. unfold at'. induction k as [|x k IH]; intros [|i]; simpl; try lia. specialize (IH i). lia. Qed.
Ltac mlen := repeat (rewrite inc_length || rewrite dec_length).
Ltac midx := apply at_ext; [mlen; reflexivity|]; intros x Hx;
  repeat first [rewrite at_inc by (mlen; lia) | rewrite at_dec by (mlen; lia)];
  repeat match goal with |- context [Nat.eqb ?a ?b] => destruct (Nat.eqb_spec a b); subst end; try lia.
Lemma dec_inc : forall i k, i < length k -> dec i (inc i k) = k.
Proof. intros. midx. Qed.
Lemma inc_dec : forall i k, i < length k -> at' i k <> 0 -> inc i (dec i k) = k.
Proof. intros. midx. Qed.
Lemma inc_inc : forall i j k, i < length k -> j < length k -> inc i (inc j k) = inc j (inc i k).
Proof. intros. midx. Qed.
Lemma dec_dec : forall i j k, i < length k -> j < length k -> dec i (dec j k) = dec j (dec i k).
Proof. intros. midx. Qed.
Lemma dec_inc_neq : forall i j k, i < length k -> j < length k -> i <> j -> dec j (inc i k) = inc i (dec j k).
Proof. intros. midx. Qed.
Lemma sum_upd : forall i v k, i < length k -> list_sum (upd i v k) + at' i k = list_sum k + v.
Proof.
  unfold at'. induction i; destruct k as [|x k]; simpl; intros H; try lia.
  specialize (IHi v k ltac:(lia)). lia.
Qed.
Lemma sum_inc : forall i k, i < length k -> list_sum (inc i k) = S (list_sum k).
Proof. intros i k H. pose proof (sum_upd i (S (at' i k)) k H). unfold inc. lia. Qed.
Lemma sum_dec : forall i k, i < length k -> at' i k <> 0 -> S (list_sum (dec i k)) = list_sum k.
Proof. intros i k H N. pose proof (sum_upd i (pred (at' i k)) k H). unfold dec. lia. Qed.
Lemma sum_zero_iff : forall k, list_sum k = 0 -> k = zeros (length k).
Proof. induction k as [|x k IH]; simpl; intros H; [reflexivity|]. unfold zeros in *. simpl. f_equal; [lia|]. apply IH. lia. Qed.
Lemma sum_zeros : forall n, list_sum (zeros n) = 0.
Proof. induction n; simpl; auto. Qed.
Lemma at_zeros : forall i n, at' i (zeros n) = 0.
Proof. unfold at', zeros. intros i n. revert i. induction n; intros [|i]; simpl; auto. Qed.

Section Series.
  Context {K : rootfield}.
  Add Field Kfield : (kft K).
  Open Scope rf_scope.
  Notation series := (list nat -> K).
  Variable D : nat.
  Variable A : nat -> nat -> K.
  Variable b : nat -> K.

  (** the constant series 1 *)
  Definition one : series := fun k => if list_eq_dec Nat.eq_dec k (zeros D) then k1 else k0.
  (** multiplication by the variable z_i *)
  Definition mulz (i : nat) (f : series) : series := fun k => if Nat.eqb (at' i k) 0 then k0 else f (dec i k).
  (** multiplication by the exponent z.A.z/2 + b.z *)
  Definition mulq (f : series) : series := fun k =>
    sumn D (fun i => b i * mulz i f k) + half * sumn D (fun i => sumn D (fun j => A i j * mulz i (mulz j f) k)).
  (** the m-th power of the exponent *)
  Fixpoint qpow (m : nat) : series := match m with 0 => one | S m' => mulq (qpow m') end.
  Definition fact_ (m : nat) : K := knat (fact m).
  (** coefficient of z^k in exp(z.A.z/2 + b.z) = sum_m (z.A.z/2 + b.z)^m / m!; powers above |k| do not contribute
      (qpow_high below) *)
  Definition expq : series := fun k => sumn (S (list_sum k)) (fun m => qpow m k / fact_ m).
  (** sqrt(k_0! k_1! ...) *)
  Fixpoint sqfact (n : nat) : K := match n with 0 => k1 | S m => sqfact m * sq (S m) end.
  Fixpoint sqf (k : list nat) : K := match k with [] => k1 | x :: t => sqfact x * sqf t end.
  (** Fock amplitude of the Gaussian function with triple (A,b,c) at the photon numbers k *)
  Definition amp (c : K) : series := fun k => c * sqf k * expq k.

  (** ** derivation along z_i *)
  Definition dz (i : nat) (f : series) : series := fun k => knat (S (at' i k)) * f (inc i k).
  Definition lin (i : nat) (f : series) : series := fun k => b i * f k + sumn D (fun j => A i j * mulz j f k).
  Notation "f == g" := (forall k, length k = D -> f k = g k) (at level 70).

  Lemma mulz_ext : forall i f g, f == g -> mulz i f == mulz i g.
  Proof. intros i f g H k L. unfold mulz. destruct (Nat.eqb _ 0); [reflexivity|]. apply H. now rewrite dec_length. Qed.
  Lemma mulq_ext : forall f g, f == g -> mulq f == mulq g.
  Proof.
    intros f g H k L. unfold mulq. f_equal; [|f_equal]; apply sumn_ext; intros i Hi.
    - f_equal. now apply mulz_ext.
    - apply sumn_ext. intros j Hj. f_equal. apply mulz_ext; [|exact L]. now apply mulz_ext.
  Qed.
  Lemma lin_ext : forall i f g, f == g -> lin i f == lin i g.
  Proof. intros i f g H k L. unfold lin. rewrite (H k L). f_equal. apply sumn_ext. intros j Hj. f_equal. now apply mulz_ext. Qed.
  Lemma mulz_comm : forall i j f, i < D -> j < D -> mulz i (mulz j f) == mulz j (mulz i f).
  Proof.
    intros i j f Hi Hj k L. unfold mulz. rewrite (dec_dec j i) by lia. rewrite !at_dec by lia.
    destruct (Nat.eqb_spec j i) as [->|N]; [now rewrite Nat.eqb_refl|]. rewrite (proj2 (Nat.eqb_neq i j)) by congruence.
    destruct (Nat.eqb_spec (at' i k) 0), (Nat.eqb_spec (at' j k) 0); reflexivity.
  Qed.
  Lemma mulz_add : forall i f g k, mulz i (fun k => f k + g k) k = mulz i f k + mulz i g k.
  Proof. intros. unfold mulz. destruct (Nat.eqb _ 0); [ring|reflexivity]. Qed.
  Lemma mulz_scal : forall i c f k, mulz i (fun k => c * f k) k = c * mulz i f k.
  Proof. intros. unfold mulz. destruct (Nat.eqb _ 0); [ring|reflexivity]. Qed.
  Lemma mulz_sumn : forall i n f k, mulz i (fun k => sumn n (fun j => f j k)) k = sumn n (fun j => mulz i (f j) k).
  Proof. intros. unfold mulz. destruct (Nat.eqb _ 0); [|reflexivity]. symmetry. now apply sumn_0. Qed.
  Lemma mulq_scal : forall c f k, mulq (fun k => c * f k) k = c * mulq f k.
  Proof.
    intros. unfold mulq.
    rewrite (sumn_ext D (fun i => b i * mulz i (fun k => c * f k) k) (fun i => c * (b i * mulz i f k))) by (intros; rewrite mulz_scal; ring).
    rewrite (sumn_ext D (fun i => sumn D (fun j => A i j * mulz i (mulz j (fun k => c * f k)) k)) (fun i => c * sumn D (fun j => A i j * mulz i (mulz j f) k))).
    2:{ intros i Hi. rewrite <- sumn_scal. apply sumn_ext. intros j Hj.
        replace (mulz i (mulz j (fun k => c * f k)) k) with (c * mulz i (mulz j f) k); [ring|].
        unfold mulz. destruct (Nat.eqb _ 0); [ring|]. destruct (Nat.eqb _ 0); ring. }
    rewrite !sumn_scal. ring.
  Qed.
  Lemma dz_mulz : forall i j f, i < D -> j < D -> dz i (mulz j f) == (fun k => mulz j (dz i f) k + (if Nat.eqb i j then f k else k0)).
  Proof.
    intros i j f Hi Hj k L. unfold dz, mulz. rewrite at_inc by lia. destruct (Nat.eqb_spec i j) as [->|N].
    - rewrite Nat.eqb_refl. cbn [Nat.eqb]. rewrite dec_inc by lia. rewrite at_dec, Nat.eqb_refl by lia.
      destruct (Nat.eqb_spec (at' j k) 0) as [E|E].
      + rewrite E, knat_1. ring.
      + rewrite inc_dec by (lia || exact E). rewrite Nat.succ_pred by exact E. rewrite knat_S. ring.
    - rewrite (proj2 (Nat.eqb_neq j i)) by congruence. rewrite at_dec by lia. rewrite (proj2 (Nat.eqb_neq i j)) by congruence.
      rewrite dec_inc_neq by lia. destruct (Nat.eqb_spec (at' j k) 0); ring.
  Qed.
  Lemma dz_add : forall i f g k, dz i (fun k => f k + g k) k = dz i f k + dz i g k.
  Proof. intros. unfold dz. ring. Qed.
  Lemma dz_ext : forall i f g, f == g -> dz i f == dz i g.
  Proof. intros i f g H k L. unfold dz. f_equal. apply H. now rewrite inc_length. Qed.

  Hypothesis Asym : forall i j, i < D -> j < D -> A i j = A j i.

  Lemma dz_mulq : forall i f, i < D -> dz i (mulq f) == (fun k => mulq (dz i f) k + lin i f k).
  Proof.
    intros i f Hi k L.
    assert (E1 : forall l j, l < D -> j < D -> dz i (mulz l (mulz j f)) k = mulz l (mulz j (dz i f)) k + (if Nat.eqb i j then mulz l f k else k0) + (if Nat.eqb i l then mulz j f k else k0)).
    { intros l j Hl Hj. rewrite (dz_mulz i l) by assumption. f_equal.
      rewrite (mulz_ext l _ _ (dz_mulz i j f Hi Hj)) by exact L. rewrite mulz_add. f_equal.
      destruct (Nat.eqb i j); [reflexivity|]. unfold mulz. now destruct (Nat.eqb _ 0). }
    transitivity (sumn D (fun l => b l * dz i (mulz l f) k) + half * sumn D (fun l => sumn D (fun j => A l j * dz i (mulz l (mulz j f)) k))).
    { unfold dz at 1. unfold mulq. transitivity (knat (S (at' i k)) * sumn D (fun l => b l * mulz l f (inc i k)) + half * (knat (S (at' i k)) * sumn D (fun l => sumn D (fun j => A l j * mulz l (mulz j f) (inc i k))))); [ring|].
      rewrite <- !(sumn_scal D (knat (S (at' i k)))). f_equal; [|f_equal]; apply sumn_ext; intros l Hl; [unfold dz; ring|]. rewrite <- sumn_scal. apply sumn_ext. intros j Hj. unfold dz. ring. }
    rewrite (sumn_ext D (fun l => b l * dz i (mulz l f) k) (fun l => b l * mulz l (dz i f) k + (if Nat.eqb l i then b l * f k else k0))).
    2:{ intros l Hl. rewrite (dz_mulz i l) by assumption. rewrite (Nat.eqb_sym l i). destruct (Nat.eqb i l); ring. }
    rewrite sumn_add, (sumn_delta_mul D i (fun l => b l * f k)) by exact Hi.
    rewrite (sumn_ext D (fun l => sumn D (fun j => A l j * dz i (mulz l (mulz j f)) k))
                        (fun l => sumn D (fun j => A l j * mulz l (mulz j (dz i f)) k) + A l i * mulz l f k + (if Nat.eqb l i then sumn D (fun j => A l j * mulz j f k) else k0))).
    2:{ intros l Hl. rewrite (sumn_ext D _ (fun j => A l j * mulz l (mulz j (dz i f)) k + (if Nat.eqb j i then A l j * mulz l f k else k0) + (if Nat.eqb i l then A l j * mulz j f k else k0))).
        2:{ intros j Hj. rewrite E1 by assumption. rewrite (Nat.eqb_sym j i). destruct (Nat.eqb i j), (Nat.eqb i l); ring. }
        rewrite !sumn_add. rewrite (sumn_delta_mul D i (fun j => A l j * mulz l f k)) by exact Hi.
        rewrite (Nat.eqb_sym l i). destruct (Nat.eqb i l); [ring|]. rewrite (sumn_0 D (fun _ => k0)) by reflexivity. ring. }
    rewrite !sumn_add. rewrite (sumn_delta_mul D i (fun l => sumn D (fun j => A l j * mulz j f k))) by exact Hi.
    rewrite (sumn_ext D (fun l => A l i * mulz l f k) (fun l => A i l * mulz l f k)) by (intros l Hl; now rewrite Asym).
    unfold mulq, lin. set (X := sumn D (fun j => A i j * mulz j f k)).
    set (Y := sumn D (fun l => sumn D (fun j => A l j * mulz l (mulz j (dz i f)) k))).
    transitivity (sumn D (fun l => b l * mulz l (dz i f) k) + half * Y + (b i * f k + (half + half) * X)); [ring|]. rewrite half_half. ring.
  Qed.
  Lemma lin_mulq : forall i f, lin i (mulq f) == mulq (lin i f).
  Proof.
    intros i f k L.
    assert (Lz : forall l, l < D -> mulz l (lin i f) k = lin i (mulz l f) k).
    { intros l Hl. unfold lin. rewrite mulz_add, mulz_scal, mulz_sumn. f_equal. apply sumn_ext. intros j Hj.
      rewrite mulz_scal. f_equal. now apply mulz_comm. }
    assert (Lzz : forall l j, l < D -> j < D -> mulz l (mulz j (lin i f)) k = lin i (mulz l (mulz j f)) k).
    { intros l j Hl Hj. unfold lin. 
      rewrite (mulz_ext l (mulz j (fun k => b i * f k + sumn D (fun j0 => A i j0 * mulz j0 f k))) (fun k => b i * mulz j f k + sumn D (fun m => A i m * mulz m (mulz j f) k))) by
        (try exact L; intros k' L'; rewrite mulz_add, mulz_scal, mulz_sumn; f_equal; apply sumn_ext; intros m Hm; rewrite mulz_scal; f_equal; now apply mulz_comm).
      rewrite mulz_add, mulz_scal, mulz_sumn. f_equal. apply sumn_ext. intros m Hm. rewrite mulz_scal. f_equal. now apply mulz_comm. }
    assert (R : mulq (lin i f) k = sumn D (fun l => b l * lin i (mulz l f) k) + half * sumn D (fun l => sumn D (fun j => A l j * lin i (mulz l (mulz j f)) k))).
    { unfold mulq. f_equal; [|f_equal]; apply sumn_ext; intros l Hl; [now rewrite Lz|]. apply sumn_ext. intros j Hj. now rewrite Lzz. }
    rewrite R. clear R.
    unfold lin.
    assert (M : forall j, mulz j (mulq f) k = sumn D (fun l => b l * mulz j (mulz l f) k) + half * sumn D (fun l => sumn D (fun m => A l m * mulz j (mulz l (mulz m f)) k))).
    { intros j. unfold mulz at 1. destruct (Nat.eqb_spec (at' j k) 0) as [E|E].
      - assert (Z : forall g, mulz j g k = k0) by (intros g; unfold mulz; now rewrite E).
        rewrite (sumn_0 D (fun l => b l * _)) by (intros l Hl; rewrite Z; ring).
        rewrite sumn_0; [ring|]. intros l Hl. apply sumn_0. intros m Hm. rewrite Z. ring.
      - unfold mulq. f_equal; [|f_equal]; apply sumn_ext; intros l Hl; [|apply sumn_ext; intros m Hm]; f_equal; symmetry; unfold mulz at 1;
          rewrite (proj2 (Nat.eqb_neq _ _) E); reflexivity. }
    rewrite (sumn_ext D (fun j => A i j * mulz j (mulq f) k)
      (fun j => sumn D (fun l => A i j * (b l * mulz j (mulz l f) k)) + half * sumn D (fun l => sumn D (fun m => A i j * (A l m * mulz j (mulz l (mulz m f)) k))))).
    2:{ intros j Hj. rewrite M. rewrite sumn_scal. rewrite (sumn_ext D (fun l => sumn D (fun m => A i j * (A l m * mulz j (mulz l (mulz m f)) k))) (fun l => A i j * sumn D (fun m => A l m * mulz j (mulz l (mulz m f)) k))) by (intros; apply sumn_scal).
        rewrite sumn_scal. ring. }
    rewrite sumn_add, sumn_scal.
    rewrite (sumn_ext D (fun l => b l * (b i * mulz l f k + sumn D (fun j => A i j * mulz j (mulz l f) k)))
              (fun l => b i * (b l * mulz l f k) + sumn D (fun j => A i j * (b l * mulz j (mulz l f) k)))).
    2:{ intros l Hl. rewrite (sumn_ext D (fun j => A i j * (b l * mulz j (mulz l f) k)) (fun j => b l * (A i j * mulz j (mulz l f) k))) by (intros; ring).
        rewrite sumn_scal. ring. }
    rewrite (sumn_ext D (fun l => sumn D (fun j => A l j * (b i * mulz l (mulz j f) k + sumn D (fun m => A i m * mulz m (mulz l (mulz j f)) k))))
              (fun l => b i * sumn D (fun j => A l j * mulz l (mulz j f) k) + sumn D (fun j => sumn D (fun m => A i m * (A l j * mulz m (mulz l (mulz j f)) k))))).
    2:{ intros l Hl. rewrite <- sumn_scal, <- sumn_add. apply sumn_ext. intros j Hj.
        rewrite (sumn_ext D (fun m => A i m * (A l j * mulz m (mulz l (mulz j f)) k)) (fun m => A l j * (A i m * mulz m (mulz l (mulz j f)) k))) by (intros; ring).
        rewrite sumn_scal. ring. }
    rewrite !sumn_add, !sumn_scal. 
    rewrite (sumn_swap D D (fun l j => A i j * (b l * mulz j (mulz l f) k))).
    rewrite (sumn_ext D (fun l => sumn D (fun j => sumn D (fun m => A i m * (A l j * mulz m (mulz l (mulz j f)) k))))
               (fun l => sumn D (fun m => sumn D (fun j => A i m * (A l j * mulz m (mulz l (mulz j f)) k)))))
      by (intros l Hl; apply (sumn_swap D D (fun j m => A i m * (A l j * mulz m (mulz l (mulz j f)) k)))).
    rewrite (sumn_swap D D (fun l m => sumn D (fun j => A i m * (A l j * mulz m (mulz l (mulz j f)) k)))).
    unfold mulq. ring.
  Qed.
  Lemma dz_one : forall i, i < D -> dz i one == (fun _ => k0).
  Proof.
    intros i Hi k L. unfold dz, one. destruct (list_eq_dec _ _ _) as [E|E]; [|ring].
    exfalso. pose proof (at_inc i i k ltac:(lia)) as H. rewrite E, at_zeros, Nat.eqb_refl in H. discriminate.
  Qed.
  Lemma mulq_0 : forall f, f == (fun _ => k0) -> mulq f == (fun _ => k0).
  Proof.
    intros f H k L. rewrite (mulq_ext _ _ H k L). rewrite <- (mulq_ext (fun k => k0 * k1) (fun _ => k0)) by (auto; intros; ring).
    rewrite mulq_scal. ring.
  Qed.
  Lemma dz_qpow : forall i m, i < D -> dz i (qpow (S m)) == (fun k => knat (S m) * lin i (qpow m) k).
  Proof.
    intros i m Hi. induction m as [|m IH]; intros k L.
    - cbn [qpow]. rewrite dz_mulq by assumption. rewrite (mulq_0 _ (dz_one i Hi) k L), knat_1. ring.
    - change (qpow (S (S m))) with (mulq (qpow (S m))). rewrite dz_mulq by assumption.
      rewrite (mulq_ext _ _ IH k L). rewrite mulq_scal. rewrite <- lin_mulq by exact L.
      change (mulq (qpow m)) with (qpow (S m)). rewrite (knat_S (S m)). ring.
  Qed.
  Lemma qpow_high : forall m k, length k = D -> list_sum k < m -> qpow m k = k0.
  Proof.
    induction m as [|m IH]; intros k L H; [lia|]. cbn [qpow]. unfold mulq.
    assert (Z : forall i f, i < D -> (forall k', length k' = D -> list_sum k' < m -> f k' = k0) -> mulz i f k = k0).
    { intros i f Hi Hf. unfold mulz. destruct (Nat.eqb_spec (at' i k) 0) as [E|E]; [reflexivity|].
      apply Hf; [now rewrite dec_length|]. pose proof (sum_dec i k ltac:(lia) E). lia. }
    rewrite (sumn_0 D (fun i => b i * _)) by (intros i Hi; rewrite Z; auto; ring).
    rewrite sumn_0; [ring|]. intros i Hi. apply sumn_0. intros j Hj. rewrite Z; auto; [ring|].
    intros k' L' H'. unfold mulz. destruct (Nat.eqb_spec (at' j k') 0) as [E|E]; [reflexivity|].
    apply IH; [now rewrite dec_length|]. pose proof (sum_dec j k' ltac:(lia) E). lia.
  Qed.
  Lemma expq_upto : forall k N, length k = D -> list_sum k <= N -> expq k = sumn (S N) (fun m => qpow m k / fact_ m).
  Proof.
    intros k N L H. unfold expq. replace (S N) with (S (list_sum k) + (N - list_sum k))%nat by lia. rewrite sumn_plus.
    rewrite (sumn_0 (N - list_sum k)); [ring|]. intros i Hi. rewrite qpow_high by lia. field. apply knat_neq. apply fact_neq_0.
  Qed.
  (** the defining differential equations of the exponential: d/dz_i F = (b_i + sum_j A_ij z_j) F *)
  Lemma dz_expq : forall i, i < D -> dz i expq == lin i expq.
  Proof.
    intros i Hi k L. unfold dz. unfold expq. rewrite sum_inc by lia. rewrite (sumn_S_l (S (list_sum k))).
    set (N := list_sum k).
    replace (knat (S (at' i k)) * (qpow 0 (inc i k) / fact_ 0 + sumn (S N) (fun m => qpow (S m) (inc i k) / fact_ (S m))))
      with (dz i (qpow 0) k / fact_ 0 + sumn (S N) (fun m => dz i (qpow (S m)) k / fact_ (S m))).
    2:{ unfold dz. rewrite (sumn_ext (S N) _ (fun m => knat (S (at' i k)) * (qpow (S m) (inc i k) / fact_ (S m)))).
        2:{ intros m Hm. field. apply knat_neq, fact_neq_0. }
        rewrite sumn_scal. field. apply knat_neq, fact_neq_0. }
    change (qpow 0) with one. rewrite (dz_one i Hi k L).
    rewrite (sumn_ext (S N) _ (fun m => lin i (qpow m) k / fact_ m)).
    2:{ intros m Hm. rewrite dz_qpow by assumption. unfold fact_. change (fact (S m)) with (S m * fact m)%nat.
        rewrite knat_mul. field. split; apply knat_neq; [apply fact_neq_0|lia]. }
    replace (k0 / fact_ 0) with (@k0 K) by (field; apply knat_neq, fact_neq_0).
    unfold lin. fold N.
    rewrite (sumn_ext (S N) _ (fun m => b i * (qpow m k / fact_ m) + sumn D (fun j => A i j * (mulz j (qpow m) k / fact_ m)))).
    2:{ intros m Hm. rewrite (sumn_ext D (fun j => A i j * (mulz j (qpow m) k / fact_ m)) (fun j => (A i j * mulz j (qpow m) k) * (k1 / fact_ m))).
        2:{ intros j Hj. field. apply knat_neq, fact_neq_0. }
        rewrite sumn_scal_r. field. apply knat_neq, fact_neq_0. }
    rewrite sumn_add, sumn_scal. rewrite sumn_swap.
    rewrite (sumn_ext D (fun j => sumn (S N) (fun m => A i j * (mulz j (qpow m) k / fact_ m))) (fun j => A i j * mulz j expq k)).
    2:{ intros j Hj. rewrite sumn_scal. f_equal. unfold mulz. destruct (Nat.eqb_spec (at' j k) 0) as [E|E].
        - apply sumn_0. intros m Hm. field. apply knat_neq, fact_neq_0.
        - symmetry. apply expq_upto; [now rewrite dec_length|]. pose proof (sum_dec j k ltac:(lia) E). unfold N. lia. }
    unfold expq. fold N. ring.
  Qed.
  Lemma expq_zero : expq (zeros D) = k1.
  Proof.
    unfold expq. rewrite sum_zeros. cbn [sumn qpow]. unfold one. destruct (list_eq_dec _ _ _) as [_|E]; [|congruence].
    unfold fact_. change (fact 0) with 1. rewrite knat_1. field. apply k1_neq.
  Qed.

  (** ** the amplitudes *)
  Lemma sqf_inc : forall i k, i < length k -> sqf (inc i k) = sq (S (at' i k)) * sqf k.
  Proof.
    unfold inc, at'. induction i; destruct k as [|x k]; simpl; intros H; try lia; [ring|].
    unfold at' in IHi. rewrite (IHi k) by lia. ring.
  Qed.
  Lemma sqf_dec : forall i k, i < length k -> at' i k <> 0 -> sqf k = sq (at' i k) * sqf (dec i k).
  Proof.
    intros i k H N. rewrite <- (inc_dec i k) at 1 by assumption. rewrite sqf_inc by now rewrite dec_length.
    rewrite at_dec, Nat.eqb_refl by exact H. now rewrite Nat.succ_pred.
  Qed.
  Lemma sqf_zeros : forall n, sqf (zeros n) = k1.
  Proof. unfold zeros. induction n; cbn [repeat sqf sqfact]; [reflexivity|]. rewrite IHn. ring. Qed.

  Lemma amp_zero : forall c, amp c (zeros D) = c.
  Proof. intros c. unfold amp. rewrite expq_zero, sqf_zeros. ring. Qed.
  (** the recurrence satisfied by the amplitudes, for every axis *)
  Lemma amp_rec : forall c i k, i < D -> length k = D -> at' i k <> 0 ->
    sq (at' i k) * amp c k = b i * amp c (dec i k) + sumn D (fun j => A i j * (sq (at' j (dec i k)) * amp c (dec j (dec i k)))).
  Proof.
    intros c i k Hi L N. set (p := dec i k). assert (Lp : length p = D) by (unfold p; now rewrite dec_length).
    assert (Ep : inc i p = k) by (apply inc_dec; [lia|exact N]).
    assert (Ap : S (at' i p) = at' i k) by (unfold p; rewrite at_dec, Nat.eqb_refl by lia; lia).
    pose proof (dz_expq i Hi p Lp) as H. unfold dz in H. rewrite Ep, Ap in H.
    unfold amp. rewrite (sqf_dec i k) by (lia || exact N). fold p.
    transitivity (c * sqf p * (knat (at' i k) * expq k)); [rewrite <- sq_ok; ring|]. rewrite H. unfold lin.
    rewrite (sumn_ext D (fun j => A i j * (sq (at' j p) * (c * sqf (dec j p) * expq (dec j p)))) (fun j => (c * sqf p) * (A i j * mulz j expq p))).
    2:{ intros j Hj. unfold mulz. destruct (Nat.eqb_spec (at' j p) 0) as [E|E].
        - rewrite E, sq_0. ring.
        - rewrite (sqf_dec j p) by (lia || exact E). ring. }
    rewrite sumn_scal. ring.
  Qed.
  Lemma amp_step : forall c i k, i < D -> length k = D -> at' i k <> 0 ->
    amp c k = (b i * amp c (dec i k) + sumn D (fun j => A i j * (sq (at' j (dec i k)) * amp c (dec j (dec i k))))) / sq (at' i k).
  Proof.
    intros c i k Hi L N. rewrite <- amp_rec by assumption. field. now apply sq_neq.
  Qed.
End Series.
