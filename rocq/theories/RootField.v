(** Exact-arithmetic model of the numbers of mrmustard/math/lattice (numpy complex128, and the table
    SQRT = np.sqrt(np.arange(100000)), lattice/strategies/vanilla/core.py:22, steps.py:34).
    A field of characteristic 0 with a square root for every natural number.  Simplification: no rounding, and the table is
    unbounded (indices are below 100000 in the code). *)
From Coq Require Import List Arith Lia Field Ring.
Import ListNotations.

Record rootfield := mkRF {
  car :> Type;
  k0 : car; k1 : car;
  kadd : car -> car -> car; kmul : car -> car -> car; ksub : car -> car -> car; kopp : car -> car;
  kdiv : car -> car -> car; kinv : car -> car;
  kft : field_theory k0 k1 kadd kmul ksub kopp kdiv kinv eq;
  sq : nat -> car;
  knat : nat -> car := fix nat_ n := match n with 0 => k0 | S m => kadd (nat_ m) k1 end;
  sq_0 : sq 0 = k0;
  sq_ok : forall n, kmul (sq n) (sq n) = knat n;
  char0 : forall n, knat (S n) <> k0
}.
Arguments k0 {_}. Arguments k1 {_}. Arguments kadd {_}. Arguments kmul {_}. Arguments ksub {_}. Arguments kopp {_}.
Arguments kdiv {_}. Arguments kinv {_}. Arguments sq {_}. Arguments knat {_} _.

Declare Scope rf_scope.
Delimit Scope rf_scope with rf.
Notation "x + y" := (kadd x y) : rf_scope.
Notation "x * y" := (kmul x y) : rf_scope.
Notation "x - y" := (ksub x y) : rf_scope.
Notation "- x" := (kopp x) : rf_scope.
Notation "x / y" := (kdiv x y) : rf_scope.

Section RF.
  Context {K : rootfield}.
  Add Field Kfield : (kft K).
  Open Scope rf_scope.

  (** sum of f 0, ..., f (n-1) *)
  Fixpoint sumn (n : nat) (f : nat -> K) : K := match n with 0 => k0 | S m => sumn m f + f m end.
  Definition half : K := k1 / (k1 + k1).

  Lemma knat_S : forall n, knat (S n) = knat n + k1 :> K.
  Proof. reflexivity. Qed.
  Lemma knat_0 : knat 0 = k0 :> K. Proof. reflexivity. Qed.
  Lemma knat_1 : knat 1 = k1 :> K. Proof. rewrite knat_S, knat_0. ring. Qed.
  Lemma knat_add : forall m n, knat (m + n) = knat m + knat n :> K.
  Proof. induction m as [|m IH]; intros n; [rewrite knat_0; simpl; ring|]. change (S m + n)%nat with (S (m + n)). rewrite !knat_S, IH. ring. Qed.
  Lemma knat_mul : forall m n, knat (m * n) = knat m * knat n :> K.
  Proof. induction m as [|m IH]; intros n; [rewrite knat_0; simpl (0 * n)%nat; rewrite knat_0; ring|]. change (S m * n)%nat with (n + m * n)%nat. rewrite knat_add, IH, knat_S. ring. Qed.
  Lemma knat_neq : forall n, n <> 0 -> knat n <> k0 :> K.
  Proof. intros [|n] H; [congruence|]. apply char0. Qed.
  Lemma k1_neq : k1 <> k0 :> K.
  Proof. rewrite <- knat_1. apply char0. Qed.
  Lemma two_neq : k1 + k1 <> k0 :> K.
  Proof. intros H. apply (char0 K 1). rewrite knat_S, knat_1. exact H. Qed.
  Lemma half_half : half + half = k1 :> K.
  Proof. unfold half. field. apply two_neq. Qed.
  Lemma kmul_0 : forall x y : K, x * y = k0 -> x <> k0 -> y = k0.
  Proof. intros x y H N. transitivity ((x * y) / x); [field; exact N|]. rewrite H. field. exact N. Qed.
  Lemma sq_neq : forall n, n <> 0 -> sq n <> k0 :> K.
  Proof. intros n H E. apply (knat_neq n H). rewrite <- sq_ok, E. ring. Qed.

  (** sums *)
  Lemma sumn_ext : forall n f g, (forall i, i < n -> f i = g i) -> sumn n f = sumn n g.
  Proof. induction n as [|n IH]; intros f g H; simpl; auto. rewrite (IH f g), H; auto. Qed.
  Lemma sumn_add : forall n f g, sumn n (fun i => f i + g i) = sumn n f + sumn n g.
  Proof. induction n as [|n IH]; intros; simpl; [ring|]. rewrite IH. ring. Qed.
  Lemma sumn_scal : forall n c f, sumn n (fun i => c * f i) = c * sumn n f.
  Proof. induction n as [|n IH]; intros; simpl; [ring|]. rewrite IH. ring. Qed.
  Lemma sumn_scal_r : forall n c f, sumn n (fun i => f i * c) = sumn n f * c.
  Proof. induction n as [|n IH]; intros; simpl; [ring|]. rewrite IH. ring. Qed.
  Lemma sumn_0 : forall n f, (forall i, i < n -> f i = k0) -> sumn n f = k0.
  Proof. induction n as [|n IH]; intros f H; simpl; auto. rewrite IH, H by auto. ring. Qed.
  Lemma sumn_swap : forall n m f, sumn n (fun i => sumn m (fun j => f i j)) = sumn m (fun j => sumn n (fun i => f i j)).
  Proof.
    induction n as [|n IH]; intros; simpl.
    - symmetry. now apply sumn_0.
    - rewrite IH. symmetry. apply sumn_add.
  Qed.
  Lemma sumn_delta : forall n i x, i < n -> sumn n (fun j => if Nat.eqb j i then x else k0) = x.
  Proof.
    induction n as [|n IH]; intros i x H; [lia|]. simpl. destruct (Nat.eq_dec n i) as [->|N].
    - rewrite Nat.eqb_refl. rewrite sumn_0; [ring|]. intros j Hj. rewrite (proj2 (Nat.eqb_neq j i)) by lia. reflexivity.
    - rewrite (proj2 (Nat.eqb_neq n i)) by exact N. rewrite IH by lia. ring.
  Qed.
  Lemma sumn_delta_mul : forall n i f, i < n -> sumn n (fun j => if Nat.eqb j i then f j else k0) = f i.
  Proof.
    intros n i f H. rewrite <- (sumn_delta n i (f i) H). apply sumn_ext. intros j _. destruct (Nat.eqb_spec j i); [now subst|reflexivity].
  Qed.
  Lemma sumn_S_l : forall n f, sumn (S n) f = f 0 + sumn n (fun i => f (S i)).
  Proof. induction n as [|n IH]; intros; [simpl; ring|]. change (sumn (S (S n)) f) with (sumn (S n) f + f (S n)). rewrite IH. simpl. ring. Qed.
  Lemma sumn_plus : forall m n f, sumn (m + n) f = sumn m f + sumn n (fun i => f (m + i)%nat).
  Proof.
    intros m n f. induction n as [|n IH]; [rewrite Nat.add_0_r; simpl; ring|].
    rewrite Nat.add_succ_r. simpl. rewrite IH. ring.
  Qed.
End RF.
