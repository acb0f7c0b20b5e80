(** mrmustard/math/lattice: pivots.py, neighbors.py, paths.py, steps.py.  Tuples of integers are lists of Z where a component may
    become -1 (lower neighbours) and lists of nat otherwise. *)
From Coq Require Import List Arith Bool Lia Field Ring ZArith Permutation.
From Verif Require Import Base RootField Tensor Series Vanilla.
Import ListNotations.
Open Scope bool_scope.
Open Scope nat_scope.

(** numba tuple_setitem *)
Fixpoint setz (i : nat) (v : Z) (k : list Z) : list Z :=
  match k, i with [], _ => [] | _ :: t, 0 => v :: t | x :: t, S j => x :: setz j v t end.
Definition atz (i : nat) (k : list Z) : Z := nth i k 0%Z.
Definition toZ (k : list nat) : list Z := map Z.of_nat k.

(** pivots.py:19-33  first_available_pivot; None stands for the ValueError("Index is zero") *)
Fixpoint first_pos (k : list nat) (i : nat) : option nat :=
  match k with [] => None | v :: t => if Nat.ltb 0 v then Some i else first_pos t (S i) end.
Definition first_available_pivot (index : list nat) : option (nat * list nat) :=
  match first_pos index 0 with Some i => Some (i, upd i (at' i index - 1) index) | None => None end.
(** pivots.py:36-55  smallest_pivot: state (min_, min_i), [None] for min_ = 2**64 - 1 *)
Definition smallest_pivot (index : list nat) : option (nat * list nat) :=
  let st := fold_left (fun st '(i, v) =>
      match st with
      | None => if Nat.ltb 0 v then Some (v, i) else None
      | Some (m, _) => if Nat.ltb 0 v && Nat.ltb v m then Some (v, i) else st
      end) (combine (seq 0 (length index)) index) None in
  match st with Some (m, i) => Some (i, upd i (m - 1) index) | None => None end.
(** pivots.py:58-71 *)
Definition all_pivots (index : list nat) : list (nat * list nat) :=
  map (fun '(i, v) => (i, upd i (v - 1) index)) (filter (fun '(_, v) => Nat.ltb 0 v) (combine (seq 0 (length index)) index)).
(** neighbors.py:30-34, 41-44, 51-54, 61-71 *)
Definition lower_neighbors (p : list Z) : list (nat * list Z) := map (fun j => (j, setz j (atz j p - 1) p)) (seq 0 (length p)).
Definition upper_neighbors (p : list Z) : list (nat * list Z) := map (fun j => (j, setz j (atz j p + 1) p)) (seq 0 (length p)).
Definition all_neighbors (p : list Z) : list (nat * list Z) :=
  flat_map (fun j => [(j, setz j (atz j p - 1) p); (j, setz j (atz j p + 1) p)]) (seq 0 (length p)).
Definition bitstring_neighbors (p : list Z) (bits : list bool) : list (nat * list Z) :=
  map (fun '(i, b) => (i, setz i (if b : bool then atz i p - 1 else atz i p + 1)%Z p)) (combine (seq 0 (length bits)) bits).

(** paths.py:24-55  _binomial_subspace_basis: [pre] is the part of basis_element already set *)
Fixpoint subspace (cutoffs : list nat) (weight : nat) (pre : list nat) : list (list nat) :=
  match cutoffs with
  | [] => if Nat.eqb weight 0 then [pre] else []
  | c :: t => flat_map (fun photons => if Nat.leb photons weight then subspace t (weight - photons) (pre ++ [photons]) else []) (seq 0 c)
  end.
(** paths.py:60-75 *)
Definition binomial_subspace_basis (cutoffs : list nat) (weight : nat) : list (list nat) := subspace cutoffs weight [].

Section Steps.
  Context {K : rootfield}.
  Open Scope rf_scope.
  (** steps.py:37-69  vanilla_step; [read] is G[...] (array with wrap-around of -1, or dict.get with default 0) *)
  Definition vanilla_step (A : nat -> nat -> K) (b : nat -> K) (read : list Z -> K) (index : list nat) : option K :=
    match first_available_pivot index with
    | None => None
    | Some (i, pivot) =>
        Some (fold_left (fun v '(j, nb) => v + A i j * sq (at' j pivot) * read nb) (lower_neighbors (toZ pivot)) (b i * read (toZ pivot))
              / sq (at' i index))
    end.
  (** steps.py:176-206  vanilla_step_dict *)
  Definition vanilla_step_dict (A : nat -> nat -> K) (b : nat -> K) (read : list Z -> K) (index : list nat) : option K :=
    match first_available_pivot index with
    | None => None
    | Some (i, pivot) =>
        let denom := sq (at' i pivot + 1)%nat in
        Some (fold_left (fun v '(j, nb) => v + A i j / denom * sq (at' j pivot) * read nb) (lower_neighbors (toZ pivot)) (b i / denom * read (toZ pivot)))
    end.
End Steps.

(** ** facts *)
Lemma first_pos_spec : forall k n, match first_pos k n with
  | Some i => n <= i < n + length k /\ at' (i - n) k <> 0 /\ forall j, j < i - n -> at' j k = 0
  | None => forall j, at' j k = 0 end.
Proof.
  induction k as [|v k IH]; intros n; simpl; [intros [|j]; reflexivity|]. destruct (Nat.ltb_spec 0 v) as [H|H].
  - rewrite Nat.sub_diag. split; [lia|]. split; [unfold at'; simpl; lia|]. intros; lia.
  - specialize (IH (S n)). destruct (first_pos k (S n)) as [i|].
    + destruct IH as [I1 [I2 I3]]. split; [lia|]. replace (i - n) with (S (i - S n)) by lia. split; [exact I2|].
      intros [|j] Hj; [unfold at'; simpl; lia|]. unfold at'. simpl. apply I3. lia.
    + intros [|j]; [unfold at'; simpl; lia|]. apply IH.
Qed.
Lemma at_zero_all : forall k, (forall j, at' j k = 0) -> list_sum k = 0.
Proof. induction k as [|x k IH]; intros H; simpl; auto. rewrite (H 0 : x = 0). rewrite IH; auto. intros j. apply (H (S j)). Qed.

(** C28: the first available pivot lowers the first axis that has a photon; an error exactly for the zero index *)
Theorem C28_first_available_pivot : forall k, match first_available_pivot k with
  | Some (i, p) => i < length k /\ at' i k <> 0 /\ (forall j, j < i -> at' j k = 0) /\ p = dec i k
  | None => list_sum k = 0 end.
Proof.
  intros k. unfold first_available_pivot. pose proof (first_pos_spec k 0) as H. destruct (first_pos k 0) as [i|].
  - rewrite Nat.sub_0_r in H. destruct H as [H1 [H2 H3]]. split; [lia|]. split; [exact H2|]. split; [exact H3|].
    unfold dec. now rewrite Nat.sub_1_r.
  - now apply at_zero_all.
Qed.

Lemma nth_combine_seq : forall {X} (l : list X) n i v, In (i, v) (combine (seq n (length l)) l) <-> n <= i /\ nth_error l (i - n) = Some v.
Proof.
  intros X. induction l as [|x l IH]; intros n i v; simpl.
  - split; [tauto|]. intros [H E]. destruct (i - n); discriminate.
  - rewrite IH. split.
    + intros [H|[H E]]; [injection H as <- <-; rewrite Nat.sub_diag; auto|]. split; [lia|]. replace (i - n) with (S (i - S n)) by lia. exact E.
    + intros [H E]. destruct (Nat.eq_dec i n) as [->|N]; [left; rewrite Nat.sub_diag in E; simpl in E; congruence|]. right. split; [lia|].
      replace (i - n) with (S (i - S n)) in E by lia. exact E.
Qed.
Lemma nth_error_at : forall k i v, nth_error k i = Some v -> at' i k = v /\ i < length k.
Proof. intros k i v H. split; [now apply nth_error_nth|]. apply nth_error_Some. congruence. Qed.
Lemma at_nth_error : forall k i, i < length k -> nth_error k i = Some (at' i k).
Proof. intros k i H. unfold at'. now apply nth_error_nth'. Qed.

(** C28: the smallest pivot lowers an axis with the fewest (but some) photons *)
Theorem C28_smallest_pivot : forall k, match smallest_pivot k with
  | Some (i, p) => i < length k /\ at' i k <> 0 /\ (forall j, at' j k <> 0 -> at' i k <= at' j k) /\ p = dec i k
  | None => list_sum k = 0 end.
Proof.
  intros k. unfold smallest_pivot.
  set (f := fun st '(i, v) => match st with
      | None => if Nat.ltb 0 v then Some (v, i) else None
      | Some (m, _) => if Nat.ltb 0 v && Nat.ltb v m then Some (v, i) else st end).
  assert (H : forall l st, (forall i v, In (i, v) l -> In (i, v) (combine (seq 0 (length k)) k)) ->
     match st with None => True | Some (m, i) => i < length k /\ at' i k = m /\ m <> 0 end ->
     match fold_left f l st with
     | None => st = None /\ forall i v, In (i, v) l -> v = 0
     | Some (m, i) => i < length k /\ at' i k = m /\ m <> 0 /\ (forall j v, In (j, v) l -> v <> 0 -> m <= v)
         /\ match st with Some (m', _) => m <= m' | None => True end
     end).
  { induction l as [|[i v] l IH]; intros st Hin Hst; simpl.
    - destruct st as [[m i]|]; [|split; [reflexivity|tauto]]. destruct Hst as [H1 [H2 H3]]. repeat split; auto; try tauto.
    - assert (IV : at' i k = v /\ i < length k).
      { apply nth_error_at. pose proof (proj1 (nth_combine_seq k 0 i v) (Hin i v (or_introl eq_refl))) as [_ E]. now rewrite Nat.sub_0_r in E. }
      assert (Hin' : forall i v, In (i, v) l -> In (i, v) (combine (seq 0 (length k)) k)) by (intros; apply Hin; now right).
      destruct st as [[m im]|].
      + destruct Hst as [H1 [H2 H3]].
        destruct (Nat.ltb_spec 0 v) as [Hv|Hv]; [destruct (Nat.ltb_spec v m) as [Hm|Hm]|]; simpl.
        * specialize (IH (Some (v, i)) Hin'). simpl in IH. specialize (IH (conj (proj2 IV) (conj (proj1 IV) (not_eq_sym (Nat.lt_neq 0 v Hv))))).
          destruct (fold_left f l (Some (v, i))) as [[m' i']|]; [|destruct IH; discriminate].
          destruct IH as [J1 [J2 [J3 [J4 J5]]]]; simpl in J5. repeat split; auto; [|lia]. intros j w [E|E] N; [injection E as <- <-; exact J5|eauto].
        * specialize (IH (Some (m, im)) Hin' (conj H1 (conj H2 H3))). destruct (fold_left f l (Some (m, im))) as [[m' i']|]; [|destruct IH; discriminate].
          destruct IH as [J1 [J2 [J3 [J4 J5]]]]; simpl in J5. repeat split; auto. intros j w [E|E] N; [injection E as <- <-; lia|eauto].
        * specialize (IH (Some (m, im)) Hin' (conj H1 (conj H2 H3))). destruct (fold_left f l (Some (m, im))) as [[m' i']|]; [|destruct IH; discriminate].
          destruct IH as [J1 [J2 [J3 [J4 J5]]]]; simpl in J5. repeat split; auto. intros j w [E|E] N; [injection E as <- <-; lia|eauto].
      + destruct (Nat.ltb_spec 0 v) as [Hv|Hv].
        * specialize (IH (Some (v, i)) Hin'). simpl in IH. specialize (IH (conj (proj2 IV) (conj (proj1 IV) (not_eq_sym (Nat.lt_neq 0 v Hv))))).
          destruct (fold_left f l (Some (v, i))) as [[m' i']|]; [|destruct IH; discriminate].
          destruct IH as [J1 [J2 [J3 [J4 J5]]]]; simpl in J5. repeat split; auto. intros j w [E|E] N; [injection E as <- <-; exact J5|eauto].
        * specialize (IH None Hin' I). destruct (fold_left f l None) as [[m' i']|].
          -- destruct IH as [J1 [J2 [J3 [J4 _]]]]. repeat split; auto. intros j w [E|E] N; [injection E as <- <-; lia|eauto].
          -- destruct IH as [_ J]. split; [reflexivity|]. intros j w [E|E]; [injection E as <- <-; lia|eauto]. }
  specialize (H (combine (seq 0 (length k)) k) None (fun _ _ h => h) I). fold f.
  destruct (fold_left f _ None) as [[m i]|].
  - destruct H as [H1 [H2 [H3 [H4 _]]]]. split; [exact H1|]. split; [congruence|]. split.
    + intros j Hj. rewrite H2. apply (H4 j); [|exact Hj]. apply nth_combine_seq. split; [lia|]. rewrite Nat.sub_0_r.
      apply at_nth_error. destruct (Nat.lt_ge_cases j (length k)) as [L|L]; [exact L|]. unfold at' in Hj. rewrite nth_overflow in Hj by exact L. congruence.
    + unfold dec. rewrite H2. now rewrite Nat.sub_1_r.
  - destruct H as [_ H]. apply at_zero_all. intros j. destruct (Nat.lt_ge_cases j (length k)) as [L|L].
    + apply (H j). apply nth_combine_seq. split; [lia|]. rewrite Nat.sub_0_r. now apply at_nth_error.
    + unfold at'. now rewrite nth_overflow.
Qed.
Theorem C28_all_pivots : forall k i p, In (i, p) (all_pivots k) <-> i < length k /\ at' i k <> 0 /\ p = dec i k.
Proof.
  intros k i p. unfold all_pivots. rewrite in_map_iff. split.
  - intros [[j v] [E H]]. injection E as <- <-. apply filter_In in H. destruct H as [H1 H2]. apply nth_combine_seq in H1. destruct H1 as [_ H1].
    rewrite Nat.sub_0_r in H1. apply nth_error_at in H1. destruct H1 as [<- L]. apply Nat.ltb_lt in H2. split; [exact L|]. split; [lia|].
    unfold dec. now rewrite Nat.sub_1_r.
  - intros [L [N ->]]. exists (i, at' i k). split; [unfold dec; now rewrite Nat.sub_1_r|]. apply filter_In. split; [|apply Nat.ltb_lt; lia].
    apply nth_combine_seq. split; [lia|]. rewrite Nat.sub_0_r. now apply at_nth_error.
Qed.

Lemma setz_length : forall i v k, length (setz i v k) = length k.
Proof. induction i; destruct k; simpl; auto. Qed.
Lemma atz_setz : forall i j v k, i < length k -> atz j (setz i v k) = if Nat.eqb j i then v else atz j k.
Proof. unfold atz. induction i; destruct k as [|x k]; simpl; intros H; try lia; destruct j; simpl; auto. apply IHi. lia. Qed.
Lemma atz_ext : forall k l, length k = length l -> (forall j, j < length k -> atz j k = atz j l) -> k = l.
Proof. intros k l L H. apply nth_ext with (d := 0%Z) (d' := 0%Z); assumption. Qed.

(** q differs from p by d on axis j and nowhere else *)
Definition differs (p q : list Z) (j : nat) (d : Z) : Prop :=
  j < length p /\ length q = length p /\ atz j q = (atz j p + d)%Z /\ forall i, i <> j -> atz i q = atz i p.
Lemma setz_differs : forall p q j d, q = setz j (atz j p + d) p /\ j < length p <-> differs p q j d.
Proof.
  intros p q j d. split.
  - intros [-> H]. split; [exact H|]. split; [apply setz_length|]. split; [rewrite atz_setz, Nat.eqb_refl by exact H; reflexivity|].
    intros i N. rewrite atz_setz by exact H. now rewrite (proj2 (Nat.eqb_neq i j)).
  - intros [H [L [E O]]]. split; [|exact H]. apply atz_ext; [now rewrite setz_length|]. intros i Hi. rewrite atz_setz by exact H.
    destruct (Nat.eqb_spec i j); [now subst|auto].
Qed.
(** C28: neighbours are exactly the indices at the documented distance, each listed once *)
Theorem C28_lower_neighbors : forall p j q, In (j, q) (lower_neighbors p) <-> differs p q j (-1).
Proof.
  intros p j q. rewrite <- setz_differs. unfold lower_neighbors. rewrite in_map_iff. split.
  - intros [i [E H]]. injection E as <- <-. apply in_seq in H. split; [f_equal; lia|lia].
  - intros [-> H]. exists j. split; [f_equal; f_equal; lia|apply in_seq; lia].
Qed.
Theorem C28_upper_neighbors : forall p j q, In (j, q) (upper_neighbors p) <-> differs p q j 1.
Proof.
  intros p j q. rewrite <- setz_differs. unfold upper_neighbors. rewrite in_map_iff. split.
  - intros [i [E H]]. injection E as <- <-. apply in_seq in H. split; [reflexivity|lia].
  - intros [-> H]. exists j. split; [reflexivity|apply in_seq; lia].
Qed.
Theorem C28_all_neighbors : forall p j q, In (j, q) (all_neighbors p) <-> differs p q j (-1) \/ differs p q j 1.
Proof.
  intros p j q. rewrite <- !setz_differs. unfold all_neighbors. rewrite in_flat_map. split.
  - intros [i [H [E|[E|[]]]]]; injection E as <- <-; apply in_seq in H; [left|right]; (split; [f_equal; lia|lia]).
  - intros [[-> H]|[-> H]]; exists j; (split; [apply in_seq; lia|]); [left|right; left]; f_equal; f_equal; lia.
Qed.
Theorem C28_bitstring_neighbors : forall p bits j q, length bits = length p ->
  In (j, q) (bitstring_neighbors p bits) <-> differs p q j (if nth j bits false then -1 else 1).
Proof.
  intros p bits j q L. rewrite <- setz_differs. unfold bitstring_neighbors. rewrite in_map_iff. split.
  - intros [[i v] [E H]]. injection E as <- <-. apply nth_combine_seq in H. destruct H as [_ H]. rewrite Nat.sub_0_r in H.
    assert (i < length bits) by (apply nth_error_Some; congruence). rewrite (nth_error_nth _ _ false H). split; [f_equal; destruct v; lia|lia].
  - intros [-> H]. exists (j, nth j bits false). split; [f_equal; f_equal; destruct (nth j bits false); lia|]. apply nth_combine_seq.
    split; [lia|]. rewrite Nat.sub_0_r. apply nth_error_nth'. lia.
Qed.
Theorem C28_neighbors_once : forall p, NoDup (lower_neighbors p) /\ NoDup (upper_neighbors p) /\ NoDup (all_neighbors p).
Proof.
  intros p. assert (F : forall f : nat -> list Z, NoDup (map (fun j => (j, f j)) (seq 0 (length p)))).
  { intros f. apply FinFun.Injective_map_NoDup; [intros x y H; congruence|apply seq_NoDup]. }
  split; [apply F|]. split; [apply F|]. unfold all_neighbors.
  assert (H : forall l, NoDup l -> (forall j, In j l -> j < length p) ->
     NoDup (flat_map (fun j => [(j, setz j (atz j p - 1) p); (j, setz j (atz j p + 1) p)]) l)).
  { induction l as [|j l IH]; intros ND Hl; [constructor|]. inversion ND; subst. simpl.
    assert (X : forall y, ~ In (j, y) (flat_map (fun j => [(j, setz j (atz j p - 1) p); (j, setz j (atz j p + 1) p)]) l)).
    { intros y C. apply in_flat_map in C. destruct C as [j' [C1 C2]]. simpl in C2. destruct C2 as [C2|[C2|[]]]; injection C2 as <- _; auto. }
    constructor; [|constructor; [apply X|apply IH; auto; intros; apply Hl; now right]].
    intros [C|C]; [|now apply X in C]. injection C as C. assert (Hj : j < length p) by (apply Hl; now left).
    apply (f_equal (atz j)) in C. rewrite !atz_setz, !Nat.eqb_refl in C by exact Hj. lia. }
  apply H; [apply seq_NoDup|]. intros j Hj. apply in_seq in Hj. lia.
Qed.

(** C24/C28: the enumeration of a subspace lists every pattern below the cutoffs with the given total exactly once *)
Lemma subspace_spec : forall cutoffs weight pre k, In k (subspace cutoffs weight pre) <-> exists s, k = pre ++ s /\ Forall2 lt s cutoffs /\ list_sum s = weight.
Proof.
  induction cutoffs as [|c t IH]; intros weight pre k; simpl.
  - destruct (Nat.eqb_spec weight 0) as [->|N].
    + split; [intros [<-|[]]; exists []; rewrite app_nil_r; auto|]. intros [s [-> [F _]]]. inversion F. rewrite app_nil_r. now left.
    + split; [intros []|]. intros [s [-> [F E]]]. inversion F; subst. simpl in N. lia.
  - rewrite in_flat_map. split.
    + intros [x [Hx H]]. apply in_seq in Hx. destruct (Nat.leb_spec x weight) as [LE|LE]; [|destruct H]. apply IH in H.
      destruct H as [s [-> [F E]]]. exists (x :: s). rewrite <- app_assoc. split; [reflexivity|]. split; [constructor; [lia|exact F]|simpl; lia].
    + intros [s [-> [F E]]]. inversion F as [|x ? s' ? Hx Hs]; subst. simpl. exists x. split; [apply in_seq; lia|].
      rewrite (proj2 (Nat.leb_le _ _)) by lia. apply IH. exists s'. rewrite <- app_assoc. split; [reflexivity|]. split; [exact Hs|lia].
Qed.
Theorem C24_enumeration : forall cutoffs weight,
  (forall k, In k (binomial_subspace_basis cutoffs weight) <-> Forall2 lt k cutoffs /\ list_sum k = weight)
  /\ NoDup (binomial_subspace_basis cutoffs weight).
Proof.
  intros cutoffs weight. unfold binomial_subspace_basis. split.
  - intros k. rewrite subspace_spec. split; [intros [s [-> H]]; exact H|]. intros H. now exists k.
  - generalize (@nil nat). revert weight. induction cutoffs as [|c t IH]; intros weight pre; simpl.
    + destruct (Nat.eqb weight 0); repeat constructor. intros [].
    + assert (ND := seq_NoDup c 0). revert ND. generalize (seq 0 c). intros l. induction l as [|x l IHl]; intros ND; simpl; [constructor|].
      inversion ND; subst. apply Base.NoDup_app_intro; [destruct (Nat.leb x weight); [apply IH|constructor]|apply IHl; assumption|].
      intros y Hy Hz. destruct (Nat.leb x weight); [|destruct Hy]. apply subspace_spec in Hy. destruct Hy as [s [-> _]].
      apply in_flat_map in Hz. destruct Hz as [x' [Hx' Hz]]. destruct (Nat.leb x' weight); [|destruct Hz]. apply subspace_spec in Hz.
      destruct Hz as [s' [E _]]. rewrite <- !app_assoc in E. apply app_inv_head in E. simpl in E. injection E as -> _. contradiction.
Qed.

(** ** the step functions compute the amplitude *)
Lemma fold_left_map : forall {X Y Z} (f : Z -> Y -> Z) (g : X -> Y) l z, fold_left f (map g l) z = fold_left (fun z x => f z (g x)) l z.
Proof. intros X Y Z f g. induction l; simpl; auto. Qed.
Lemma toZ_length : forall k, length (toZ k) = length k.
Proof. intros. apply map_length. Qed.
Lemma atz_toZ : forall i k, atz i (toZ k) = Z.of_nat (at' i k).
Proof. intros. unfold atz, toZ, at'. change 0%Z with (Z.of_nat 0). apply map_nth. Qed.
Lemma setz_toZ : forall k j, at' j k <> 0 -> setz j (atz j (toZ k) - 1) (toZ k) = toZ (dec j k).
Proof.
  unfold dec, atz, at'. induction k as [|x k IH]; intros [|j] H; simpl in *; try reflexivity.
  - f_equal. lia.
  - f_equal. now apply IH.
Qed.
Lemma toZ_inj : forall k l, toZ k = toZ l -> k = l.
Proof. unfold toZ. induction k as [|x k IH]; intros [|y l] H; simpl in H; try discriminate; auto. injection H as H1 H2. apply Nat2Z.inj in H1. f_equal; auto. Qed.

Section StepsOK.
  Context {K : rootfield}.
  Add Field Kfield : (kft K).
  Open Scope rf_scope.
  Variable D : nat.
  Variable A : nat -> nat -> K.
  Variable b : nat -> K.
  Variable c : K.
  Hypothesis Asym : forall i j, i < D -> j < D -> A i j = A j i.
  Variable read : list Z -> K.

  Lemma step_sum : forall g p, length p = D -> (forall j, j < D -> at' j p <> 0 -> read (toZ (dec j p)) = amp D A b c (dec j p)) ->
    forall v0, fold_left (fun v '(j, nb) => v + g j * sq (at' j p) * read nb) (lower_neighbors (toZ p)) v0
    = v0 + sumn D (fun j => g j * (sq (at' j p) * amp D A b c (dec j p))).
  Proof using.
    intros g p L R v0. unfold lower_neighbors. rewrite fold_left_map, toZ_length, L.
    rewrite (fold_sum (fun j => g j * sq (at' j p) * read (setz j (atz j (toZ p) - 1) (toZ p)))).
    rewrite seq_sum. f_equal. apply sumn_ext. intros j Hj. simpl.
    destruct (Nat.eq_dec (at' j p) 0) as [E|E]; [rewrite E, sq_0; ring|]. rewrite setz_toZ by exact E. rewrite R by assumption. ring.
  Qed.
  Lemma vanilla_step_ok : forall k, length k = D -> list_sum k <> 0 ->
    (forall i, i < D -> at' i k <> 0 -> read (toZ (dec i k)) = amp D A b c (dec i k)) ->
    (forall i j, i < D -> j < D -> at' i k <> 0 -> at' j (dec i k) <> 0 -> read (toZ (dec j (dec i k))) = amp D A b c (dec j (dec i k))) ->
    vanilla_step A b read k = Some (amp D A b c k) /\ vanilla_step_dict A b read k = Some (amp D A b c k).
  Proof.
    intros k L N R1 R2. unfold vanilla_step, vanilla_step_dict. pose proof (C28_first_available_pivot k) as H.
    destruct (first_available_pivot k) as [[i p]|]; [|contradiction]. destruct H as [Hi [Ni [_ ->]]]. rewrite L in Hi.
    assert (Lp : length (dec i k) = D) by (now rewrite dec_length).
    rewrite (amp_step D A b Asym c i k Hi L Ni). rewrite <- (R1 i Hi Ni).
    assert (E : (at' i (dec i k) + 1)%nat = at' i k) by (rewrite at_dec, Nat.eqb_refl by lia; lia). rewrite E.
    split; f_equal.
    - f_equal. apply step_sum; [exact Lp|]. intros j Hj. apply R2; assumption.
    - rewrite (step_sum (fun j => A i j / sq (at' i k))) by (try assumption; intros j Hj; apply R2; assumption).
      rewrite (sumn_ext D (fun j => A i j / sq (at' i k) * (sq (at' j (dec i k)) * amp D A b c (dec j (dec i k))))
                 (fun j => (k1 / sq (at' i k)) * (A i j * (sq (at' j (dec i k)) * amp D A b c (dec j (dec i k)))))).
      2:{ intros j _. field. now apply sq_neq. }
      rewrite sumn_scal. field. now apply sq_neq.
  Qed.
End StepsOK.
