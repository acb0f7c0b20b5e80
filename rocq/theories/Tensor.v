(** Finite arrays, named sums and einsum. Entries are taken in an arbitrary commutative ring
    (exact arithmetic; the code uses complex floats). *)
From Coq Require Import List Bool Arith Lia Permutation Ring_theory Ring Setoid.
Require Import Verif.Base.
Import ListNotations.

(** lookup in two parallel lists *)
Section Look.
  Context {K : Type} (eqb : K -> K -> bool) (Heq : forall x y, eqb x y = true <-> x = y).
  Fixpoint look (ks : list K) (vs : list nat) (x : K) : option nat :=
    match ks, vs with
    | k :: ks', v :: vs' => if eqb x k then Some v else look ks' vs' x
    | _, _ => None
    end.
  Lemma eqb_refl' : forall x, eqb x x = true.
  Proof using Heq. intros. now apply Heq. Qed.
  Lemma eqb_neq' : forall x y, x <> y -> eqb x y = false.
  Proof using Heq. intros x y H. destruct (eqb x y) eqn:E; [|reflexivity]. apply Heq in E. contradiction. Qed.
  Lemma look_notin : forall ks vs x, ~ In x ks -> look ks vs x = None.
  Proof using Heq.
    induction ks as [|k ks IH]; intros [|v vs] x H; simpl; auto.
    rewrite eqb_neq' by (intros ->; apply H; now left). apply IH. intros C; apply H; now right.
  Qed.
  Lemma look_nth : forall ks vs i d, NoDup ks -> length ks = length vs -> i < length ks ->
    look ks vs (nth i ks d) = Some (nth i vs 0).
  Proof using Heq.
    induction ks as [|k ks IH]; intros [|v vs] [|i] d ND L H; simpl in *; try lia.
    - now rewrite eqb_refl'.
    - inversion ND; subst. rewrite eqb_neq'.
      + apply IH; auto; lia.
      + intros E. apply H2. rewrite <- E. apply nth_In. lia.
  Qed.
  Lemma look_map_val : forall ks (f : K -> nat) x, In x ks -> look ks (map f ks) x = Some (f x).
  Proof using Heq.
    induction ks as [|k ks IH]; intros f x H; simpl; [destruct H|].
    destruct (eqb x k) eqn:E; [apply Heq in E; now subst|]. apply IH. destruct H as [->|H]; auto.
    rewrite eqb_refl' in E. discriminate.
  Qed.
  Lemma look_app : forall k1 v1 k2 v2 x, length k1 = length v1 ->
    look (k1 ++ k2) (v1 ++ v2) x = match look k1 v1 x with Some v => Some v | None => look k2 v2 x end.
  Proof using.
    induction k1 as [|k k1 IH]; intros [|v v1] k2 v2 x L; simpl in *; try lia; auto.
    destruct (eqb x k); [reflexivity|]. apply IH. lia.
  Qed.
  Lemma look_some_in : forall ks vs x v, look ks vs x = Some v -> In x ks.
  Proof using Heq.
    induction ks as [|k ks IH]; intros [|w vs] x v H; simpl in *; try discriminate.
    destruct (eqb x k) eqn:E; [apply Heq in E; auto|]. right. eauto.
  Qed.
End Look.
Lemma look_map_inj : forall {K L} (eqb : K -> K -> bool) (eqb' : L -> L -> bool)
  (Heq : forall x y, eqb x y = true <-> x = y) (Heq' : forall x y, eqb' x y = true <-> x = y)
  (g : K -> L) ks vs x, (forall y, In y ks -> g x = g y -> x = y) ->
  look eqb' (map g ks) vs (g x) = look eqb ks vs x.
Proof.
  intros K L eqb eqb' Heq Heq' g. induction ks as [|k ks IH]; intros [|v vs] x H; simpl; auto.
  destruct (eqb x k) eqn:E.
  - apply Heq in E. subst. now rewrite (proj2 (Heq' (g k) (g k)) eq_refl).
  - rewrite (eqb_neq' eqb' Heq').
    + apply IH. intros y Hy. apply H. now right.
    + intros C. apply H in C; [|now left]. subst. rewrite (proj2 (Heq k k) eq_refl) in E. discriminate.
Qed.

(** all multi-indices below a shape *)
Fixpoint box (ds : list nat) : list (list nat) :=
  match ds with
  | [] => [[]]
  | d :: t => flat_map (fun i => map (cons i) (box t)) (seq 0 d)
  end.
Lemma in_box : forall ds k, In k (box ds) <-> Forall2 lt k ds.
Proof.
  induction ds as [|d t IH]; intros k; simpl.
  - split; [intros [<-|[]]; constructor|]. intros H; inversion H; auto.
  - rewrite in_flat_map. split.
    + intros [i [Hi H]]. apply in_map_iff in H. destruct H as [k' [<- H]]. apply in_seq in Hi.
      constructor; [lia|]. now apply IH.
    + intros H. inversion H; subst. exists x. split; [apply in_seq; lia|]. apply in_map. now apply IH.
Qed.
Lemma box_length_in : forall ds k, In k (box ds) -> length k = length ds.
Proof. intros ds k H. apply in_box in H. now apply Forall2_len in H. Qed.

Section Sum.
  Context {R : Type} (rO rI : R) (radd rmul rsub : R -> R -> R) (ropp : R -> R).
  Hypothesis Rth : ring_theory rO rI radd rmul rsub ropp eq.
  Add Ring Rr : Rth.
  Notation "x + y" := (radd x y). Notation "x * y" := (rmul x y).

  Definition sum {X} (l : list X) (f : X -> R) : R := fold_right (fun x acc => f x + acc) rO l.
  Lemma sum_ext : forall {X} (l : list X) f g, (forall x, In x l -> f x = g x) -> sum l f = sum l g.
  Proof using. induction l as [|x t IH]; intros f g H; simpl; auto. rewrite H by now left. f_equal. apply IH. intros; apply H; now right. Qed.
  Lemma sum_app : forall {X} (l1 l2 : list X) f, sum (l1 ++ l2) f = sum l1 f + sum l2 f.
  Proof using Rth. induction l1 as [|x t IH]; intros; simpl; [ring|]. rewrite IH. ring. Qed.
  Lemma sum_map : forall {X Y} (g : X -> Y) l f, sum (map g l) f = sum l (fun x => f (g x)).
  Proof using. induction l as [|x t IH]; intros; simpl; auto. now rewrite IH. Qed.
  Lemma sum_flat_map : forall {X Y} (g : X -> list Y) l f, sum (flat_map g l) f = sum l (fun x => sum (g x) f).
  Proof using Rth. induction l as [|x t IH]; intros; simpl; auto. now rewrite sum_app, IH. Qed.
  Lemma sum_add : forall {X} (l : list X) f g, sum l (fun x => f x + g x) = sum l f + sum l g.
  Proof using Rth. induction l as [|x t IH]; intros; simpl; [ring|]. rewrite IH. ring. Qed.
  Lemma sum_zero : forall {X} (l : list X) f, (forall x, In x l -> f x = rO) -> sum l f = rO.
  Proof using Rth. induction l as [|x t IH]; intros f H; simpl; auto. rewrite H by now left. rewrite IH by (intros; apply H; now right). ring. Qed.
  Lemma sum_swap : forall {X Y} (l1 : list X) (l2 : list Y) f,
    sum l1 (fun x => sum l2 (fun y => f x y)) = sum l2 (fun y => sum l1 (fun x => f x y)).
  Proof using Rth.
    induction l1 as [|x t IH]; intros; simpl.
    - symmetry. now apply sum_zero.
    - rewrite IH. symmetry. apply sum_add.
  Qed.
  Lemma sum_scal_l : forall {X} (l : list X) c f, sum l (fun x => c * f x) = c * sum l f.
  Proof using Rth. induction l as [|x t IH]; intros; simpl; [ring|]. rewrite IH. ring. Qed.
  Lemma sum_scal_r : forall {X} (l : list X) c f, sum l (fun x => f x * c) = sum l f * c.
  Proof using Rth. induction l as [|x t IH]; intros; simpl; [ring|]. rewrite IH. ring. Qed.
  Lemma sum_perm : forall {X} (l1 l2 : list X) f, Permutation l1 l2 -> sum l1 f = sum l2 f.
  Proof using Rth. intros X l1 l2 f P. induction P; simpl; auto; [now rewrite IHP|ring|congruence]. Qed.
  Lemma sum_single : forall {X} (x : X) f, sum [x] f = f x.
  Proof using Rth. intros. simpl. ring. Qed.

  Lemma sum_box_cons : forall d t f, sum (box (d :: t)) f = sum (seq 0 d) (fun i => sum (box t) (fun k => f (i :: k))).
  Proof using Rth. intros. simpl. rewrite sum_flat_map. apply sum_ext. intros i _. now rewrite sum_map. Qed.
  Lemma sum_box_app : forall d1 d2 f, sum (box (d1 ++ d2)) f = sum (box d1) (fun k1 => sum (box d2) (fun k2 => f (k1 ++ k2))).
  Proof using Rth.
    induction d1 as [|d t IH]; intros d2 f.
    - cbn [app box]. rewrite sum_single. reflexivity.
    - cbn [app]. rewrite !sum_box_cons. apply sum_ext. intros i _. now rewrite IH.
  Qed.

  (** sum over the values of named indices [L]; the summand sees the naming only *)
  Section Named.
    Context {K : Type} (eqb : K -> K -> bool) (Heq : forall x y, eqb x y = true <-> x = y).
    Definition nsum (L : list K) (dim : K -> nat) (H : (K -> option nat) -> R) : R :=
      sum (box (map dim L)) (fun idx => H (look eqb L idx)).
    Definition ext (H : (K -> option nat) -> R) : Prop := forall s t, (forall x, s x = t x) -> H s = H t.
    Definition put (d : K) (v : nat) (s : K -> option nat) : K -> option nat :=
      fun x => if eqb x d then Some v else s x.
    Lemma nsum_cons : forall d L dim H,
      ext H -> nsum (d :: L) dim H = sum (seq 0 (dim d)) (fun v => nsum L dim (fun s => H (put d v s))).
    Proof using Rth.
      intros d L dim H E. unfold nsum. cbn [map]. rewrite sum_box_cons. apply sum_ext. intros v _.
      apply sum_ext. intros idx _. apply E. intros x. reflexivity.
    Qed.
    Lemma nsum_ext : forall L dim H G, (forall s, H s = G s) -> nsum L dim H = nsum L dim G.
    Proof using. intros. apply sum_ext. intros. apply H0. Qed.
    Lemma nsum_dim : forall L dim dim' H, (forall d, In d L -> dim d = dim' d) -> nsum L dim H = nsum L dim' H.
    Proof using. intros L dim dim' H E. unfold nsum. f_equal. f_equal. apply map_ext_in. exact E. Qed.
    Lemma ext_put : forall H d v, ext H -> ext (fun s => H (put d v s)).
    Proof using. intros H d v E s t Hst. apply E. intros x. unfold put. now destruct (eqb x d). Qed.
    Lemma nsum_perm : forall L L' dim H, NoDup L -> ext H -> Permutation L L' -> nsum L dim H = nsum L' dim H.
    Proof using Rth Heq.
      intros L L' dim H ND E P. revert H E ND. induction P; intros H E ND.
      - reflexivity.
      - inversion ND; subst. rewrite !nsum_cons by assumption. apply sum_ext. intros v _.
        apply IHP; [now apply ext_put|assumption].
      - rewrite !nsum_cons by assumption.
        transitivity (sum (seq 0 (dim y)) (fun v => sum (seq 0 (dim x)) (fun w => nsum l dim (fun s => H (put y v (put x w s)))))).
        { apply sum_ext. intros v _. rewrite nsum_cons by now apply ext_put. reflexivity. }
        rewrite sum_swap. apply sum_ext. intros w _. rewrite nsum_cons by now apply ext_put.
        apply sum_ext. intros v _. apply nsum_ext. intros s. apply E. intros z. unfold put.
        destruct (eqb z y) eqn:Ey, (eqb z x) eqn:Ex; auto.
        apply Heq in Ey. apply Heq in Ex. subst. inversion ND; subst. exfalso. apply H2. now left.
      - rewrite IHP1 by assumption. apply IHP2; auto. eapply Permutation_NoDup; eauto.
    Qed.
    Definition orelse (s t : K -> option nat) : K -> option nat := fun x => match s x with Some v => Some v | None => t x end.
    Lemma nsum_app : forall L1 L2 dim H, ext H ->
      nsum (L1 ++ L2) dim H = nsum L1 dim (fun s => nsum L2 dim (fun t => H (orelse s t))).
    Proof using Rth.
      intros L1 L2 dim H E. unfold nsum. rewrite map_app, sum_box_app. apply sum_ext. intros k1 H1.
      apply sum_ext. intros k2 H2. apply E. intros x. unfold orelse. rewrite look_app; [reflexivity|].
      apply box_length_in in H1. now rewrite map_length in H1.
    Qed.
    Lemma nsum_swap : forall L1 L2 dim1 dim2 (H : (K -> option nat) -> (K -> option nat) -> R),
      nsum L1 dim1 (fun s => nsum L2 dim2 (fun t => H s t)) = nsum L2 dim2 (fun t => nsum L1 dim1 (fun s => H s t)).
    Proof using Rth. intros. unfold nsum. apply sum_swap. Qed.
  End Named.

  (** an array: shape and entries (only entries below the shape are observable) *)
  Record array := mkArray { shape : list nat; at_ : list nat -> R }.

  (** numpy.einsum of two operands with integer labels, output labels without repetition *)
  Definition nmem (x : nat) (l : list nat) : bool := existsb (Nat.eqb x) l.
  Definition dim_of (lbls : list nat) (sh : list nat) (l : nat) : nat :=
    match look Nat.eqb lbls sh l with Some v => v | None => 0 end.
  Definition label_dim (l1 s1 l2 s2 : list nat) (l : nat) : nat :=
    match look Nat.eqb l1 s1 l with Some v => v | None => dim_of l2 s2 l end.
  (** labels summed over: those of the first operand, then those of the second only *)
  Definition summed (l1 l2 lo : list nat) : list nat :=
    filter (fun l => negb (nmem l lo)) l1 ++ filter (fun l => negb (nmem l lo) && negb (nmem l l1)) l2.
  Definition env (lo k S idx : list nat) (l : nat) : nat :=
    match look Nat.eqb lo k l with
    | Some v => v
    | None => match look Nat.eqb S idx l with Some v => v | None => 0 end
    end.
  Definition einsum (l1 l2 lo : list nat) (A B : array) : array :=
    let S := summed l1 l2 lo in
    mkArray (map (label_dim l1 (shape A) l2 (shape B)) lo)
            (fun k => sum (box (map (label_dim l1 (shape A) l2 (shape B)) S))
                        (fun idx => at_ A (map (env lo k S idx) l1) * at_ B (map (env lo k S idx) l2))).

  (** numpy.transpose: result[i_0,...] with axis p of the result = axis order[p] of the input:
      result.shape[p] = shape[order[p]], result[k] = array[j] with j[order[p]] = k[p] *)
  Definition transpose (order : list nat) (A : array) : array :=
    mkArray (map (fun p => nth p (shape A) 0) order)
            (fun k => at_ A (map (fun q => match look Nat.eqb order k q with Some v => v | None => 0 end)
                                 (seq 0 (length (shape A))))).
End Sum.
