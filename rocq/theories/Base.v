(** Small common toolbox: results with Python exceptions, stable insertion sort, list facts.
    Nothing in this file models a specific function of /repo except where cited. *)
From Coq Require Import ZArith List Bool Lia Permutation Sorted Arith.
Import ListNotations.

(** Python exceptions as values. *)
Inductive exn := ValueError | AttributeError | IndexError | KeyError | NotImplemented | TypeError
  | LinAlgError | RuntimeError.

Inductive result (A : Type) : Type :=
| Ok : A -> result A
| Err : exn -> result A.
Arguments Ok {A} _.
Arguments Err {A} _.

Definition bind {A B} (r : result A) (f : A -> result B) : result B :=
  match r with Ok a => f a | Err e => Err e end.

Definition is_ok {A} (r : result A) : bool := match r with Ok _ => true | Err _ => false end.

(** Python's [sorted(l, key=k)]: stable sort by an integer key. *)
Section ISort.
  Context {A : Type} (key : A -> Z).
  Fixpoint insert (x : A) (l : list A) : list A :=
    match l with
    | [] => [x]
    | y :: t => if Z.leb (key x) (key y) then x :: y :: t else y :: insert x t
    end.
  Fixpoint isort (l : list A) : list A :=
    match l with
    | [] => []
    | x :: t => insert x (isort t)
    end.

  Definition key_lt (a b : A) := (key a < key b)%Z.
  Definition key_le (a b : A) := (key a <= key b)%Z.

  Lemma insert_perm : forall x l, Permutation (insert x l) (x :: l).
  Proof.
    induction l as [|y t IH]; simpl; [reflexivity|].
    destruct (Z.leb (key x) (key y)); [reflexivity|].
    rewrite IH. apply perm_swap.
  Qed.

  Lemma isort_perm : forall l, Permutation (isort l) l.
  Proof.
    induction l as [|x t IH]; simpl; [reflexivity|].
    rewrite insert_perm. now constructor.
  Qed.

  Lemma isort_length : forall l, length (isort l) = length l.
  Proof. intros. apply Permutation_length, isort_perm. Qed.

  Lemma isort_in : forall x l, In x (isort l) <-> In x l.
  Proof.
    intros; split; apply Permutation_in; [|symmetry]; apply isort_perm.
  Qed.

  Lemma insert_sorted : forall x l, StronglySorted key_le l -> StronglySorted key_le (insert x l).
  Proof.
    induction l as [|y t IH]; simpl; intros HS.
    - repeat constructor.
    - destruct (Z.leb (key x) (key y)) eqn:E.
      + apply Z.leb_le in E. constructor; [assumption|].
        inversion HS as [|? ? H1 H2]; subst. constructor; [exact E|].
        eapply Forall_impl; [|exact H2]. unfold key_le. intros; lia.
      + apply Z.leb_gt in E. inversion HS as [|? ? H1 H2]; subst.
        constructor; [auto|].
        apply Forall_forall. intros z Hz.
        apply (Permutation_in _ (insert_perm x t)) in Hz. destruct Hz as [<-|Hz].
        * unfold key_le; lia.
        * rewrite Forall_forall in H2; auto.
  Qed.

  Lemma isort_sorted : forall l, StronglySorted key_le (isort l).
  Proof. induction l; simpl; [constructor|]. now apply insert_sorted. Qed.

  Lemma isort_strict : forall l, NoDup (map key l) -> StronglySorted key_lt (isort l).
  Proof.
    intros l ND.
    assert (ND' : NoDup (map key (isort l))).
    { eapply Permutation_NoDup; [|exact ND]. apply Permutation_map. symmetry. apply isort_perm. }
    generalize (isort_sorted l). revert ND'. generalize (isort l) as s. clear.
    induction s as [|x s IH]; intros ND HS; [constructor|].
    inversion HS as [|? ? H1 H2]; subst. simpl in ND. inversion ND; subst.
    constructor; [auto|]. apply Forall_forall. intros y Hy.
    rewrite Forall_forall in H2. specialize (H2 _ Hy). unfold key_le, key_lt in *.
    assert (key x <> key y). { intro E. apply H3. rewrite E. now apply in_map. }
    lia.
  Qed.

  Lemma insert_head : forall x l, Forall (fun y => (key x <= key y)%Z) l -> insert x l = x :: l.
  Proof.
    intros x [|y t] H; simpl; [reflexivity|]. inversion H; subst.
    apply Z.leb_le in H2. now rewrite H2.
  Qed.

  Lemma isort_id : forall l, StronglySorted key_le l -> isort l = l.
  Proof.
    induction l as [|x t IH]; intros HS; simpl; [reflexivity|].
    inversion HS; subst. rewrite IH by assumption. now apply insert_head.
  Qed.

  (** two strictly sorted lists with the same elements are equal *)
  Lemma sorted_perm_unique : forall l1 l2,
    StronglySorted key_lt l1 -> StronglySorted key_lt l2 -> Permutation l1 l2 -> l1 = l2.
  Proof.
    induction l1 as [|x t IH]; intros l2 S1 S2 P.
    - apply Permutation_nil in P. now subst.
    - destruct l2 as [|y u]; [symmetry in P; apply Permutation_nil in P; discriminate|].
      inversion S1 as [|? ? A1 B1]; inversion S2 as [|? ? A2 B2]; subst.
      rewrite Forall_forall in B1, B2.
      assert (x = y) as ->.
      { assert (Hx : In x (y :: u)) by (eapply Permutation_in; [exact P|now left]).
        assert (Hy : In y (x :: t)) by (eapply Permutation_in; [symmetry; exact P|now left]).
        destruct Hx as [|Hx]; [congruence|]. destruct Hy as [|Hy]; [congruence|].
        apply B1 in Hy. apply B2 in Hx. unfold key_lt in *. lia. }
      f_equal. apply IH; auto. eapply Permutation_cons_inv; eauto.
  Qed.
End ISort.

Lemma StronglySorted_map : forall {A B} (f : A -> B) (R : B -> B -> Prop) l,
  StronglySorted (fun a b => R (f a) (f b)) l <-> StronglySorted R (map f l).
Proof.
  intros A B f R l. induction l as [|x t IH]; simpl; split; intros H; try constructor; inversion H; subst.
  - now apply IH.
  - rewrite Forall_map. assumption.
  - now apply IH.
  - rewrite Forall_map in H3. assumption.
Qed.

Lemma StronglySorted_filter : forall {A} (R : A -> A -> Prop) f l,
  StronglySorted R l -> StronglySorted R (filter f l).
Proof.
  induction l as [|x t IH]; simpl; intros H; [constructor|]. inversion H; subst.
  destruct (f x); [|auto]. constructor; auto.
  apply Forall_forall. intros y Hy. apply filter_In in Hy. rewrite Forall_forall in H3. now apply H3.
Qed.

Lemma NoDup_map_filter : forall {A B} (g : A -> B) f l, NoDup (map g l) -> NoDup (map g (filter f l)).
Proof.
  induction l as [|x t IH]; simpl; intros H; [constructor|]. inversion H; subst.
  destruct (f x); simpl; [|auto]. constructor; auto.
  intros C. apply H2. apply in_map_iff in C. destruct C as [y [E Hy]].
  apply filter_In in Hy. rewrite <- E. apply in_map. tauto.
Qed.

Lemma Permutation_filter : forall {A} (f : A -> bool) l1 l2,
  Permutation l1 l2 -> Permutation (filter f l1) (filter f l2).
Proof.
  induction 1; simpl.
  - constructor.
  - destruct (f x); [now constructor|assumption].
  - destruct (f y), (f x); try reflexivity. apply perm_swap.
  - etransitivity; eauto.
Qed.

Lemma filter_map_comm : forall {A B} (g : A -> B) f (l : list A),
  filter f (map g l) = map g (filter (fun x => f (g x)) l).
Proof.
  induction l as [|x t IH]; simpl; [reflexivity|]. destruct (f (g x)); simpl; congruence.
Qed.

Lemma seq_nth_id : forall n a i d, (i < n)%nat -> nth i (seq a n) d = (a + i)%nat.
Proof. intros. now apply seq_nth. Qed.

Lemma NoDup_nth_inj : forall {A} (l : list A) d i j,
  NoDup l -> (i < length l)%nat -> (j < length l)%nat -> nth i l d = nth j l d -> i = j.
Proof. intros A l d i j H. apply NoDup_nth with (d := d); assumption. Qed.

Lemma NoDup_app_intro : forall {A} (l1 l2 : list A),
  NoDup l1 -> NoDup l2 -> (forall x, In x l1 -> In x l2 -> False) -> NoDup (l1 ++ l2).
Proof.
  induction l1 as [|x t IH]; simpl; intros l2 N1 N2 D; [assumption|]. inversion N1; subst.
  constructor.
  - intros C. apply in_app_or in C. destruct C as [C|C]; [contradiction|]. apply (D x); auto.
  - apply IH; auto. intros y H1' H2'. apply (D y); auto.
Qed.

Lemma NoDup_app_l : forall {A} (l1 l2 : list A), NoDup (l1 ++ l2) -> NoDup l1.
Proof.
  induction l1 as [|x t IH]; simpl; intros l2 H; [constructor|]. inversion H; subst. constructor; [|eauto].
  intros C. apply H2. apply in_or_app; auto.
Qed.
Lemma NoDup_app_r : forall {A} (l1 l2 : list A), NoDup (l1 ++ l2) -> NoDup l2.
Proof. induction l1 as [|x t IH]; simpl; intros l2 H; [assumption|]. inversion H; subst. auto. Qed.
Lemma NoDup_app_disj : forall {A} (l1 l2 : list A) x, NoDup (l1 ++ l2) -> In x l1 -> In x l2 -> False.
Proof.
  induction l1 as [|y t IH]; simpl; intros l2 x H H1 H2; [assumption|]. inversion H; subst.
  destruct H1 as [->|H1]; [apply H4, in_or_app; auto|eauto].
Qed.

Lemma Forall2_len : forall {A B} (P : A -> B -> Prop) l1 l2, Forall2 P l1 l2 -> length l1 = length l2.
Proof. induction 1; simpl; congruence. Qed.
