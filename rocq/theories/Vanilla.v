(** mrmustard/math/lattice/strategies/vanilla/core.py and batch.py *)
From Coq Require Import List Arith Lia Field Ring ZArith.
From Verif Require Import RootField Tensor Series.
Import ListNotations.

(** core.py:69-71  strides[i-1] = strides[i] * shape[i], starting from strides[D-1] = 1 *)
Fixpoint strides (shape : list nat) : list nat :=
  match shape with
  | [] => []
  | _ :: t => match strides t, t with s :: _, d :: _ => s * d | _, _ => 1 end :: strides t
  end.
Definition prod (shape : list nat) : nat := fold_right Nat.mul 1 shape.

(** core.py:91-96  first stride not above the flat index, with the flat pivot; the last pair when there is none *)
Fixpoint pick (ss : list nat) (flat : Z) (i : nat) (pivot : Z) : nat * Z :=
  match ss with
  | [] => (i, pivot)
  | s :: t => let p := (flat - Z.of_nat s)%Z in if (0 <=? p)%Z then (i, p) else pick t flat (S i) p
  end.

Section Model.
  Context {K : rootfield}.
  Open Scope rf_scope.
  (** flat array read, negative indices wrap around as in numpy/numba *)
  Definition rd (G : list K) (z : Z) : K := nth (Z.to_nat (if (z <? 0)%Z then z + Z.of_nat (length G) else z)%Z) G k0.
  Fixpoint wr (n : nat) (v : K) (G : list K) : list K :=
    match G, n with [], _ => [] | _ :: t, 0 => v :: t | x :: t, S m => x :: wr m v t end.

  Variable D : nat.
  Variable A : nat -> nat -> K.
  Variable b : nat -> K.

  (** core.py:99-106  b[i] G[pivot] + A[i,i] SQRT[index[i]-1] G[pivot-strides[i]] + sum over j in range(i+1, D) *)
  Definition pivot_value (ss : list nat) (G : list K) (index : list nat) (i : nat) (pivot : Z) : K :=
    fold_left (fun v j => v + A i j * sq (at' j index) * rd G (pivot - Z.of_nat (nth j ss O))) (seq (S i) (D - S i))
      (b i * rd G pivot + A i i * sq (at' i index - 1) * rd G (pivot - Z.of_nat (nth i ss O))).
  (** core.py:87-107, body of the first loop (state: array and the iterator nd_index) *)
  Definition body1 (ss : list nat) (st : list K * list (list nat)) (flat : nat) : list K * list (list nat) :=
    let (G, it) := st in
    match it with
    | [] => st
    | index :: it' =>
        let (i, pivot) := pick ss (Z.of_nat flat) 0 0%Z in
        (wr flat (pivot_value ss G index i pivot / sq (at' i index)) G, it')
    end.
  (** core.py:111-125, body of the second loop: the pivot is along axis 0 *)
  Definition body2 (ss : list nat) (st : list K * list (list nat)) (flat : nat) : list K * list (list nat) :=
    let (G, it) := st in
    match it with
    | [] => st
    | index :: it' =>
        let pivot := (Z.of_nat flat - Z.of_nat (nth 0 ss O))%Z in
        (wr flat (pivot_value ss G index 0 pivot / sq (at' 0 index)) G, it')
    end.
  (** core.py:66-127; [out]: content of the given array, or zeros *)
  Definition vanilla (shape : list nat) (c : K) (out : list K) : list K :=
    let ss := strides shape in
    let s0 := nth 0 ss O in
    let st0 := (wr 0 c out, tl (box shape)) in
    let st1 := fold_left (body1 ss) (seq 1 (s0 - 1)) st0 in
    fst (fold_left (body2 ss) (seq s0 (length out - s0)) st1).

  (** core.py:191-208, contribution of the i-th pivot *)
  Definition stable_value (ss : list nat) (G : list K) (nd_idx : list nat) (flat i : nat) : K :=
    let pivot := (Z.of_nat flat - Z.of_nat (nth i ss O))%Z in
    let term v j := v + A i j * sq (at' j nd_idx) * rd G (pivot - Z.of_nat (nth j ss O)) in
    let v1 := fold_left term (seq 0 i) (b i * rd G pivot) in
    let v2 := v1 + A i i * sq (at' i nd_idx - 1) * rd G (pivot - Z.of_nat (nth i ss O)) in
    fold_left term (seq (S i) (D - S i)) v2 / sq (at' i nd_idx).
  (** core.py:182-211; state (G, flat_index) *)
  Definition stable_body (ss : list nat) (st : list K * nat) (nd_idx : list nat) : list K * nat :=
    let (G, f) := st in
    let flat := S f in
    let '(vals, num) := fold_left (fun '(vals, num) i =>
        if Nat.eqb (at' i nd_idx) 0 then (vals, num) else (vals + stable_value ss G nd_idx flat i, S num))
        (seq 0 D) (k0, 0) in
    (wr flat (vals / knat num) G, flat).
  (** core.py:161-213 *)
  Definition stable (shape : list nat) (c : K) (out : list K) : list K :=
    fst (fold_left (stable_body (strides shape)) (tl (box shape)) (wr 0 c out, 0)).
End Model.

(** batch.py:55-60: every batch entry is computed by itself.  Simplification: prange order is irrelevant, each iteration
    writes its own slice. *)
Definition vanilla_batch {K : rootfield} (D : nat) (shape : list nat) (stable_ : bool)
    (ABc : list ((nat -> nat -> K) * (nat -> K) * K)) : list (list K) :=
  map (fun '(A, b, c) => let zero := repeat k0 (prod shape) in
         if stable_ then stable D A b shape c zero else vanilla D A b shape c zero) ABc.

(** ** flat positions *)
Fixpoint ravel (shape k : list nat) : nat :=
  match shape, k with
  | _ :: t, x :: k' => x * prod t + ravel t k'
  | _, _ => 0
  end.
(** reading entry k of the reshaped array (core.py:127 G.reshape(shape)) *)
Definition entry {K : rootfield} (shape : list nat) (G : list K) (k : list nat) : K := nth (ravel shape k) G k0.

Lemma strides_nth : forall shape i, i < length shape -> nth i (strides shape) O = prod (skipn (S i) shape).
Proof.
  induction shape as [|d t IH]; intros i H; [simpl in H; lia|]. destruct i as [|i].
  - destruct t as [|d' t]; [reflexivity|]. specialize (IH 0 ltac:(simpl; lia)).
    change (strides (d :: d' :: t)) with (match strides (d' :: t) with s :: _ => s * d' | _ => 1 end :: strides (d' :: t)).
    destruct (strides (d' :: t)) as [|s r] eqn:E; [discriminate|].
    cbn [nth skipn] in *. subst s. cbn [prod fold_right]. fold (prod t). lia.
  - cbn [strides nth skipn]. apply IH. simpl in H. lia.
Qed.
Lemma prod_pos : forall shape, Forall (fun d => 0 < d) shape -> 0 < prod shape.
Proof. induction 1; simpl; [lia|]. apply Nat.mul_pos_pos; assumption. Qed.
Lemma box_length : forall shape, length (box shape) = prod shape.
Proof.
  induction shape as [|d t IH]; [reflexivity|]. cbn [box prod fold_right].
  assert (H : forall l : list nat, length (flat_map (fun i => map (cons i) (box t)) l) = length l * prod t).
  { induction l as [|x l IHl]; simpl; auto. rewrite app_length, map_length, IHl, IH. reflexivity. }
  rewrite H, seq_length. reflexivity.
Qed.
Lemma nth_flat_map_const : forall {X Y} (g : X -> list Y) (l : list X) m dx dy a r, (forall x, In x l -> length (g x) = m) ->
  a < length l -> r < m -> nth (a * m + r) (flat_map g l) dy = nth r (g (nth a l dx)) dy.
Proof.
  intros X Y g. induction l as [|x l IH]; intros m dx dy a r H Ha Hr; simpl in *; [lia|].
  destruct a as [|a]; simpl.
  - rewrite app_nth1 by (rewrite H by auto; lia). reflexivity.
  - rewrite app_nth2 by (rewrite H by auto; lia). rewrite (H x) by auto.
    replace (m + a * m + r - m) with (a * m + r) by lia. apply IH; auto. lia.
Qed.
Lemma ravel_lt : forall shape k, Forall2 lt k shape -> ravel shape k < prod shape.
Proof.
  induction shape as [|d t IH]; intros k H; inversion H; subst; simpl; [lia|].
  specialize (IH _ H4). fold (prod t). assert (S x * prod t <= d * prod t) by (apply Nat.mul_le_mono_r; lia). simpl in H. lia.
Qed.
Lemma nth_box : forall shape k, Forall2 lt k shape -> nth (ravel shape k) (box shape) [] = k.
Proof.
  induction shape as [|d t IH]; intros k H; inversion H; subst; [reflexivity|]. cbn [ravel box].
  rewrite (nth_flat_map_const _ (seq 0 d) (prod t) 0 [] x (ravel t l)).
  - rewrite seq_nth by lia. simpl. rewrite nth_indep with (d' := x :: []) by (rewrite map_length, box_length; now apply ravel_lt).
    rewrite map_nth. now rewrite IH.
  - intros y _. now rewrite map_length, box_length.
  - now rewrite seq_length.
  - now apply ravel_lt.
Qed.
Lemma ravel_nth : forall shape n, n < prod shape -> ravel shape (nth n (box shape) []) = n /\ Forall2 lt (nth n (box shape) []) shape.
Proof.
  induction shape as [|d t IH]; intros n H; [simpl in *; split; [lia|]; destruct n; [constructor|lia]|].
  cbn [prod fold_right] in H. fold (prod t) in H. assert (P : prod t <> 0) by (intros E; rewrite E in H; lia).
  pose proof (Nat.div_mod n (prod t) P) as DM. pose proof (Nat.mod_upper_bound n (prod t) P) as MB.
  assert (DB : n / prod t < d) by (apply Nat.div_lt_upper_bound; lia).
  set (a := n / prod t) in *. set (r := n mod prod t) in *.
  assert (E : nth n (box (d :: t)) [] = a :: nth r (box t) []).
  { cbn [box]. replace n with (a * prod t + r) by lia. rewrite (nth_flat_map_const _ (seq 0 d) (prod t) 0 [] a r).
    - rewrite seq_nth by lia. simpl. rewrite nth_indep with (d' := a :: []) by (rewrite map_length, box_length; lia). now rewrite map_nth.
    - intros y _. now rewrite map_length, box_length.
    - now rewrite seq_length.
    - exact MB. }
  rewrite E. destruct (IH r MB) as [I1 I2]. split; [|constructor; assumption]. cbn [ravel]. rewrite I1. lia.
Qed.
Lemma Forall2_lt_len : forall k shape, Forall2 lt k shape -> length k = length shape.
Proof. induction 1; simpl; auto. Qed.
Lemma dec_box : forall i k shape, Forall2 lt k shape -> Forall2 lt (dec i k) shape.
Proof.
  intros i k shape H. unfold dec, at'. revert i. induction H; intros [|i]; simpl; constructor; auto. lia.
Qed.
Lemma ravel_dec : forall i k shape, Forall2 lt k shape -> i < length shape -> at' i k <> 0 ->
  ravel shape (dec i k) + nth i (strides shape) O = ravel shape k.
Proof.
  intros i k shape H Hi N. rewrite strides_nth by exact Hi. unfold dec, at' in *. revert i Hi N.
  induction H as [|x d k t Hx H IH]; intros [|i] Hi N; simpl in *; try lia.
  - destruct x; [congruence|]. simpl. lia.
  - specialize (IH i ltac:(lia) N). lia.
Qed.
Lemma ravel_zero : forall shape k, Forall2 lt k shape -> ravel shape k = 0 -> k = zeros (length shape).
Proof.
  induction shape as [|d t IH]; intros k H E; inversion H; subst; [reflexivity|]. simpl in E. unfold zeros. simpl.
  assert (P : 0 < prod t) by (pose proof (ravel_lt _ _ H4); lia). f_equal; [nia|]. apply IH; [assumption|lia].
Qed.

(** the pivot found from the strides is the first axis with a photon *)
Lemma pick_ok : forall shape k i0 p0, Forall2 lt k shape -> ravel shape k <> 0 ->
  exists i, i < length shape /\ at' i k <> 0 /\ (forall j, j < i -> at' j k = 0)
    /\ pick (strides shape) (Z.of_nat (ravel shape k)) i0 p0 = (i0 + i, (Z.of_nat (ravel shape k) - Z.of_nat (nth i (strides shape) O))%Z).
Proof.
  induction shape as [|d t IH]; intros k i0 p0 H E; inversion H as [|x ? k' ? Hx Hk]; subst; [simpl in E; lia|].
  pose proof (strides_nth (d :: t) 0 ltac:(simpl; lia)) as S0. simpl skipn in S0. pose proof (ravel_lt _ _ Hk) as RL.
  destruct (strides (d :: t)) as [|s ss] eqn:Es; [discriminate|]. simpl in S0. subst s.
  assert (Ess : ss = strides t) by (simpl in Es; congruence). subst ss. clear Es. cbn [ravel pick nth] in *.
  destruct (Z.leb_spec 0 (Z.of_nat (x * prod t + ravel t k') - Z.of_nat (prod t))) as [C|C].
  - exists 0. split; [simpl; lia|]. split; [unfold at'; simpl; intros ->; simpl in C; lia|]. split; [intros; lia|]. now rewrite Nat.add_0_r.
  - assert (x = 0) by (destruct x; [reflexivity|simpl in C; lia]). subst x. simpl in E |- *.
    destruct (IH k' (S i0) (Z.of_nat (ravel t k') - Z.of_nat (prod t))%Z Hk E) as [i [I1 [I2 [I3 I4]]]].
    exists (S i). split; [lia|]. split; [exact I2|]. split.
    + intros [|j] Hj; [reflexivity|]. unfold at'. simpl. apply I3. lia.
    + rewrite I4. f_equal. lia.
Qed.

Section Correct.
  Context {K : rootfield}.
  Add Field Kfield : (kft K).
  Open Scope rf_scope.
  Variable A : nat -> nat -> K.
  Variable b : nat -> K.
  Variable c : K.
  Variable shape : list nat.
  Notation D := (length shape).
  Hypothesis Asym : forall i j, i < D -> j < D -> A i j = A j i.
  Hypothesis Dpos : 0 < D.
  Hypothesis Spos : Forall (fun d => 0 < d) shape.
  Notation amp := (amp D A b c).
  Notation ss := (strides shape).

  Lemma wr_length : forall n v (G : list K), length (wr n v G) = length G.
  Proof using. clear Dpos. induction n; destruct G; simpl; auto. Qed.
  Lemma nth_wr : forall n m v (G : list K), n < length G -> nth m (wr n v G) k0 = if Nat.eqb m n then v else nth m G k0.
  Proof using. clear Dpos. induction n; destruct G as [|x G]; simpl; intros H; try lia; destruct m; simpl; auto. apply IHn. lia. Qed.
  Lemma rd_nat : forall (G : list K) n, rd G (Z.of_nat n) = nth n G k0.
  Proof using. clear Dpos. intros G n. unfold rd. destruct (Z.ltb_spec (Z.of_nat n) 0); [lia|]. now rewrite Nat2Z.id. Qed.

  (** the first n entries are amplitudes *)
  Definition good (n : nat) (G : list K) : Prop :=
    length G = prod shape /\ forall k, Forall2 lt k shape -> ravel shape k < n -> nth (ravel shape k) G k0 = amp k.

  Lemma good_wr : forall n G k v, good n G -> n < prod shape -> k = nth n (box shape) [] -> v = amp k -> good (S n) (wr n v G).
  Proof.
    intros n G k v [L H] Hn -> ->. split; [now rewrite wr_length|]. intros k Hk R. rewrite nth_wr by lia.
    destruct (Nat.eqb_spec (ravel shape k) n) as [E|E].
    - rewrite <- E. now rewrite nth_box.
    - apply H; [exact Hk|lia].
  Qed.

  (** reads relative to a pivot *)
  Lemma rd_pivot : forall n G k i, good n G -> Forall2 lt k shape -> ravel shape k = n -> i < D -> at' i k <> 0 ->
    rd G (Z.of_nat n - Z.of_nat (nth i ss O)) = amp (dec i k).
  Proof.
    intros n G k i [L H] Hk R Hi N. pose proof (ravel_dec i k shape Hk Hi N) as E.
    replace (Z.of_nat n - Z.of_nat (nth i ss O))%Z with (Z.of_nat (ravel shape (dec i k))) by lia.
    rewrite rd_nat. assert (0 < nth i ss O) by (rewrite strides_nth by exact Hi; apply prod_pos, Forall_forall; intros x Hx; rewrite Forall_forall in Spos; apply Spos; rewrite <- (firstn_skipn (S i) shape); apply in_or_app; now right).
    apply H; [now apply dec_box|lia].
  Qed.
  Lemma rd_neighbor : forall n G k i j, good n G -> Forall2 lt k shape -> ravel shape k = n -> i < D -> at' i k <> 0 -> j < D ->
    sq (at' j (dec i k)) * rd G (Z.of_nat n - Z.of_nat (nth i ss O) - Z.of_nat (nth j ss O))
    = sq (at' j (dec i k)) * amp (dec j (dec i k)).
  Proof.
    intros n G k i j HG Hk R Hi N Hj. destruct (Nat.eq_dec (at' j (dec i k)) 0) as [E|E]; [rewrite E, sq_0; ring|].
    f_equal. destruct HG as [L H]. pose proof (ravel_dec i k shape Hk Hi N) as E1.
    pose proof (ravel_dec j (dec i k) shape (dec_box i k shape Hk) Hj E) as E2.
    replace (Z.of_nat n - Z.of_nat (nth i ss O) - Z.of_nat (nth j ss O))%Z with (Z.of_nat (ravel shape (dec j (dec i k)))) by lia.
    rewrite rd_nat. assert (0 < nth i ss O) by (rewrite strides_nth by exact Hi; apply prod_pos, Forall_forall; intros x Hx; rewrite Forall_forall in Spos; apply Spos; rewrite <- (firstn_skipn (S i) shape); apply in_or_app; now right).
    apply H; [now apply dec_box, dec_box|lia].
  Qed.
  Lemma fold_sum : forall (f : nat -> K) l v, fold_left (fun v j => v + f j) l v = v + fold_right (fun j acc => f j + acc) k0 l.
  Proof using. clear Dpos. intros f. induction l as [|x l IH]; intros v; simpl; [ring|]. rewrite IH. ring. Qed.
  Lemma seq_sum : forall (f : nat -> K) n m, fold_right (fun j acc => f j + acc) k0 (seq m n) = sumn n (fun i => f (m + i)%nat).
  Proof using. clear Dpos.
    intros f. induction n as [|n IH]; intros m; [reflexivity|]. cbn [seq fold_right]. rewrite sumn_S_l, Nat.add_0_r. f_equal.
    rewrite IH. apply sumn_ext. intros i _. f_equal. lia.
  Qed.
  Lemma sumn_split : forall (f : nat -> K) i, i < D -> sumn D f = sumn i f + f i + sumn (D - S i) (fun j => f (S i + j)%nat).
  Proof.
    intros f i Hi. replace D with (i + S (D - S i))%nat at 1 by lia. rewrite sumn_plus, sumn_S_l, Nat.add_0_r.
    rewrite (sumn_ext (D - S i) (fun j => f (S i + j)%nat) (fun j => f (i + S j)%nat)) by (intros; f_equal; lia). ring.
  Qed.

  Lemma pivot_value_ok : forall n G k i, good n G -> Forall2 lt k shape -> ravel shape k = n -> i < D -> at' i k <> 0 ->
    (forall j, j < i -> at' j k = 0) ->
    pivot_value D A b ss G k i (Z.of_nat n - Z.of_nat (nth i ss O)) / sq (at' i k) = amp k.
  Proof.
    intros n G k i HG Hk R Hi N Z. pose proof (Forall2_lt_len _ _ Hk) as Lk. rewrite (amp_step D A b Asym c i k Hi Lk N). f_equal.
    unfold pivot_value. rewrite fold_sum, seq_sum. rewrite (rd_pivot n G k i) by assumption.
    rewrite (sumn_split _ i Hi). rewrite (sumn_0 i); [|intros j Hj; rewrite at_dec by lia; rewrite (proj2 (Nat.eqb_neq j i)) by lia; rewrite Z, sq_0 by exact Hj; ring].
    rewrite (sumn_ext (D - S i) _ (fun j => A i (S i + j)%nat * (sq (at' (S i + j) (dec i k)) * amp (dec (S i + j) (dec i k))))).
    2:{ intros j Hj. rewrite <- (rd_neighbor n G k i (S i + j)) by (assumption || lia). rewrite at_dec by lia.
        rewrite (proj2 (Nat.eqb_neq (S i + j) i)) by lia. ring. }
    replace (at' i k - 1)%nat with (at' i (dec i k)) by (rewrite at_dec, Nat.eqb_refl by lia; lia).
    pose proof (rd_neighbor n G k i i HG Hk R Hi N Hi) as X.
    transitivity (b i * amp (dec i k) + A i i * (sq (at' i (dec i k)) * rd G (Z.of_nat n - Z.of_nat (nth i ss O) - Z.of_nat (nth i ss O)))
      + sumn (D - S i) (fun j => A i (S i + j)%nat * (sq (at' (S i + j) (dec i k)) * amp (dec (S i + j) (dec i k))))); [ring|].
    rewrite X. ring.
  Qed.

  Lemma skipn_box : forall n, n < prod shape -> skipn n (box shape) = nth n (box shape) [] :: skipn (S n) (box shape).
  Proof using. clear Dpos.
    intros n H. rewrite <- box_length in H. revert n H. generalize (box shape). induction l as [|x l IH]; intros [|n] H; simpl in *; try lia; auto.
    apply IH. lia.
  Qed.
  Definition inv (n : nat) (st : list K * list (list nat)) : Prop := good n (fst st) /\ snd st = skipn n (box shape).
  Lemma body1_ok : forall n st, inv n st -> 0 < n -> n < prod shape -> inv (S n) (body1 D A b ss st n).
  Proof.
    intros n [G it] [HG E] H0 H. simpl in HG, E. subst it. unfold body1. rewrite skipn_box by exact H.
    destruct (ravel_nth shape n H) as [R Hk]. set (k := nth n (box shape) []) in *.
    destruct (pick_ok shape k 0 0%Z Hk ltac:(lia)) as [i [I1 [I2 [I3 I4]]]]. rewrite R in I4. simpl in I4. rewrite I4.
    split; [|reflexivity]. simpl. eapply good_wr; eauto; try reflexivity. now apply pivot_value_ok.
  Qed.
  Lemma body2_ok : forall n st, inv n st -> nth 0 ss O <= n -> n < prod shape -> inv (S n) (body2 D A b ss st n).
  Proof.
    intros n [G it] [HG E] H0 H. simpl in HG, E. subst it. unfold body2. rewrite skipn_box by exact H.
    destruct (ravel_nth shape n H) as [R Hk]. set (k := nth n (box shape) []) in *.
    split; [|reflexivity]. simpl. eapply good_wr; eauto; try reflexivity. apply pivot_value_ok; auto; [|intros; lia].
    rewrite strides_nth in H0 by exact Dpos. fold k. clearbody k. clear - H0 R Hk. destruct Hk as [|x d k' t Hx Hk]; simpl in *.
    - subst n. lia.
    - unfold at'. cbn [nth]. intros E0. subst x. pose proof (ravel_lt _ _ Hk). lia.
  Qed.
  Lemma fold_inv : forall (body : list K * list (list nat) -> nat -> list K * list (list nat)) lo cnt st,
    (forall n st, inv n st -> lo <= n -> n < lo + cnt -> inv (S n) (body st n)) -> inv lo st -> inv (lo + cnt) (fold_left body (seq lo cnt) st).
  Proof.
    intros body lo cnt. revert lo. induction cnt as [|m IH]; intros lo st H I; simpl; [now rewrite Nat.add_0_r|].
    rewrite Nat.add_succ_r. apply (IH (S lo)); [|apply H; auto; lia]. intros n st' I' H1 H2. apply H; auto; lia.
  Qed.
  Lemma good_init : forall out, length out = prod shape -> good 1 (wr 0 c out).
  Proof.
    intros out L. pose proof (prod_pos shape Spos) as P. split; [now rewrite wr_length|]. intros k Hk R.
    assert (R0 : ravel shape k = 0) by lia. rewrite R0, (ravel_zero shape k Hk R0). rewrite nth_wr by lia. simpl.
    symmetry. apply amp_zero.
  Qed.

  Lemma s0_bounds : 0 < nth 0 ss O /\ nth 0 ss O <= prod shape.
  Proof.
    clear Asym. rewrite strides_nth by exact Dpos. destruct Spos as [|d t P1 P2]; [simpl in Dpos; lia|]. simpl. pose proof (prod_pos t P2). split; nia.
  Qed.
  Theorem vanilla_correct : forall out, length out = prod shape ->
    length (vanilla D A b shape c out) = prod shape /\
    forall k, Forall2 lt k shape -> entry shape (vanilla D A b shape c out) k = amp k.
  Proof.
    intros out L. pose proof (prod_pos shape Spos) as P. destruct s0_bounds as [B1 B2].
    assert (I : inv (prod shape) (fold_left (body2 D A b ss) (seq (nth 0 ss O) (length out - nth 0 ss O))
                (fold_left (body1 D A b ss) (seq 1 (nth 0 ss O - 1)) (wr 0 c out, tl (box shape))))).
    { rewrite L. replace (prod shape) with (nth 0 ss O + (prod shape - nth 0 ss O))%nat at 1 by lia. apply fold_inv.
      - intros n st I H1 H2. apply body2_ok; auto; lia.
      - replace (nth 0 ss O) with (1 + (nth 0 ss O - 1))%nat at 1 by lia. apply fold_inv.
        + intros n st I H1 H2. apply body1_ok; auto; lia.
        + split; [now apply good_init|]. simpl. now destruct (box shape). }
    destruct I as [[I1 I2] _]. split; [exact I1|]. intros k Hk. apply I2; [exact Hk|now apply ravel_lt].
  Qed.

  (** ** the averaging strategy *)
  Lemma stable_value_ok : forall n G k i, good n G -> Forall2 lt k shape -> ravel shape k = n -> i < D -> at' i k <> 0 ->
    stable_value D A b ss G k n i = amp k.
  Proof.
    intros n G k i HG Hk R Hi N. pose proof (Forall2_lt_len _ _ Hk) as Lk. rewrite (amp_step D A b Asym c i k Hi Lk N).
    unfold stable_value. f_equal. rewrite !fold_sum, !seq_sum. rewrite (rd_pivot n G k i) by assumption.
    rewrite (sumn_split _ i Hi).
    rewrite (sumn_ext i (fun j => A i (0 + j)%nat * _ * _) (fun j => A i j * (sq (at' j (dec i k)) * amp (dec j (dec i k))))).
    2:{ intros j Hj. rewrite <- (rd_neighbor n G k i j) by (assumption || lia). rewrite at_dec by lia.
        rewrite (proj2 (Nat.eqb_neq j i)) by lia. cbn [Nat.add]. ring. }
    rewrite (sumn_ext (D - S i) _ (fun j => A i (S i + j)%nat * (sq (at' (S i + j) (dec i k)) * amp (dec (S i + j) (dec i k))))).
    2:{ intros j Hj. rewrite <- (rd_neighbor n G k i (S i + j)) by (assumption || lia). rewrite at_dec by lia.
        rewrite (proj2 (Nat.eqb_neq (S i + j) i)) by lia. ring. }
    replace (at' i k - 1)%nat with (at' i (dec i k)) by (rewrite at_dec, Nat.eqb_refl by lia; lia).
    pose proof (rd_neighbor n G k i i HG Hk R Hi N Hi) as X.
    match goal with |- ?P + ?Q + A i i * ?s * ?r + ?T = _ => transitivity (P + Q + A i i * (s * r) + T); [ring|] end.
    rewrite X. ring.
  Qed.
  Lemma stable_fold : forall n G k l vals num, good n G -> Forall2 lt k shape -> ravel shape k = n -> (forall i, In i l -> i < D) ->
    vals = knat num * amp k ->
    let r := fold_left (fun '(vals, num) i => if Nat.eqb (at' i k) 0 then (vals, num) else (vals + stable_value D A b ss G k n i, S num)) l (vals, num) in
    fst r = knat (snd r) * amp k /\ num <= snd r /\ (forall i, In i l -> at' i k <> 0 -> num < snd r).
  Proof.
    intros n G k l. induction l as [|i l IH]; intros vals num HG Hk R Hl E; simpl; [split; [exact E|]; split; [lia|intros ? []]|].
    destruct (Nat.eqb_spec (at' i k) 0) as [Z|Z].
    - destruct (IH vals num HG Hk R (fun j H => Hl j (or_intror H)) E) as [I1 [I2 I3]]. split; [exact I1|]. split; [exact I2|].
      intros j [->|Hj] N; [congruence|eauto].
    - destruct (IH (vals + stable_value D A b ss G k n i) (S num) HG Hk R (fun j H => Hl j (or_intror H))) as [I1 [I2 I3]].
      { rewrite (stable_value_ok n G k i HG Hk R (Hl i (or_introl eq_refl)) Z), E, knat_S. ring. }
      split; [exact I1|]. split; [lia|]. intros; lia.
  Qed.
  Lemma stable_body_ok : forall n G, good (S n) G -> S n < prod shape ->
    let r := stable_body D A b ss (G, n) (nth (S n) (box shape) []) in good (S (S n)) (fst r) /\ snd r = S n.
  Proof.
    intros n G HG H. destruct (ravel_nth shape (S n) H) as [R Hk]. set (k := nth (S n) (box shape) []) in *.
    destruct (pick_ok shape k 0 0%Z Hk ltac:(lia)) as [i [I1 [I2 _]]].
    unfold stable_body.
    destruct (stable_fold (S n) G k (seq 0 D) k0 0 HG Hk R) as [F1 [_ F3]]; [intros j Hj; apply in_seq in Hj; lia|rewrite knat_0; ring|].
    destruct (fold_left _ (seq 0 D) (k0, 0)) as [vals num]. simpl in F1, F3. split; [|reflexivity]. cbn [fst].
    apply (good_wr (S n) G k); [exact HG|exact H|reflexivity|]. rewrite F1. field. apply knat_neq.
    specialize (F3 i ltac:(apply in_seq; lia) I2). lia.
  Qed.
  Theorem stable_correct : forall out, length out = prod shape ->
    length (stable D A b shape c out) = prod shape /\
    forall k, Forall2 lt k shape -> entry shape (stable D A b shape c out) k = amp k.
  Proof.
    intros out L. pose proof (prod_pos shape Spos) as P.
    assert (I : forall m n G, good (S n) G -> (S n + m)%nat = prod shape ->
       good (prod shape) (fst (fold_left (stable_body D A b ss) (skipn (S n) (box shape)) (G, n)))).
    { induction m as [|m IH]; intros n G HG E.
      - rewrite skipn_all2 by (rewrite box_length; lia). simpl. now replace (prod shape) with (S n) by lia.
      - rewrite skipn_box by lia. cbn [fold_left]. destruct (stable_body_ok n G HG ltac:(lia)) as [J1 J2].
        destruct (stable_body D A b ss (G, n) (nth (S n) (box shape) [])) as [G' n']. cbn [fst snd] in J1, J2. subst n'. apply IH; [exact J1|lia]. }
    specialize (I (prod shape - 1)%nat 0 (wr 0 c out) (good_init out L) ltac:(lia)).
    assert (E : tl (box shape) = skipn 1 (box shape)) by (now destruct (box shape)).
    unfold stable. rewrite E. destruct I as [I1 I2]. split; [exact I1|]. intros k Hk. apply I2; [exact Hk|now apply ravel_lt].
  Qed.
  Lemma entries_eq : forall G H : list K, length G = prod shape -> length H = prod shape ->
    (forall k, Forall2 lt k shape -> entry shape G k = entry shape H k) -> G = H.
  Proof.
    intros G H LG LH E. apply nth_ext with (d := k0) (d' := k0); [congruence|]. intros n Hn. rewrite LG in Hn.
    destruct (ravel_nth shape n Hn) as [R Hk]. specialize (E _ Hk). unfold entry in E. now rewrite R in E.
  Qed.
End Correct.
