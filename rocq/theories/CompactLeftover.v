(** C65, C66: the compact recursion with one undetected mode, and the gradients of both compact recursions.
    Model of mrmustard/math/lattice/strategies/compactFock/singleLeftoverMode_amps.py, diagonal_grad.py, singleLeftoverMode_grad.py,
    inputValidation.py and of their JAX entry points math/jax_vjps/hermite.py and backend_jax.py.
    Exact arithmetic.  The traversal of the params is the one of CompactDiag.v. *)
From Coq Require Import List Arith Bool ZArith ZifyNat Lia Field Ring.
From Verif Require Import Base RootField Tensor Series Vanilla VanillaProps FastDiagonal FastDiagonalProps Gradients GradProps ComplexRF CompactDiag.
Import ListNotations.
Open Scope nat_scope.

(** ** blocks: every cell holds a cut x cut block indexed by the photon numbers (m, n) of the undetected mode *)
Section Blocks.
  (** what one position of a block holds, and what is read at it *)
  Variables X Y : Type.
  Variables M cut : nat.
  (** cutoffs_tail *)
  Variable cutoffs : list nat.
  Variables (junkX zeroX : X) (zeroY : Y).
  Variable aux : cell -> nat -> nat -> X -> Y.
  (** the recurrence relation: point ls pivot g gin i is the value at pivot + e_i from the value g at the pivot and gin l at pivot - e_l for l in ls *)
  Variable point : list nat -> list nat -> Y -> (nat -> Y) -> nat -> X.
  Definition block := nat -> nat -> X.
  Definition blockY := nat -> nat -> Y.
  (** singleLeftoverMode_amps.py:37-74, singleLeftoverMode_grad.py:70-72, 91-93, 129-132, 168-170: the variables l that take part at (m, n), in the four cases *)
  Definition l_range (m n : nat) : list nat := (if Nat.eqb m 0 then [] else [0]) ++ (if Nat.eqb n 0 then [] else [1]) ++ seq 2 (2 * M).
  (** singleLeftoverMode_amps.py:44, 52, 63-66: the pivot block at (m-1, n), (m, n-1); G_in *)
  Definition around (g : blockY) (gin : nat -> blockY) (m n l : nat) : Y :=
    match l with 0 => g (m - 1) n | 1 => g m (n - 1) | S (S j) => gin j m n end.
  (** singleLeftoverMode_amps.py:20-74, singleLeftoverMode_grad.py:50-217 *)
  Definition write_block (pivot : list nat) (g : blockY) (gin : nat -> blockY) (i : nat) : block := fun m n =>
    if (Nat.ltb m cut && Nat.ltb n cut)%bool then point (l_range m n) (m :: n :: pivot) (g m n) (around g gin m n) (i + 2) else junkX.
  Definition upd2 (m n : nat) (v : X) (b : block) : block := fun x y => if (Nat.eqb x m && Nat.eqb y n)%bool then v else b x y.
  Definition rd0 (b : block) (m n : nat) : Y := aux (C0 (zeros M)) m n (b m n).
  (** index m - 1 of an axis of size cut, -1 being the last one *)
  Definition wrap (m : nat) : nat := if Nat.eqb m 0 then cut - 1 else m - 1.
  (** singleLeftoverMode_amps.py:322-325, singleLeftoverMode_grad.py:614-628 *)
  Definition fill_col (b : block) : block :=
    fold_left (fun b m => upd2 (m + 1) 0 (point [0] (m :: 0 :: zeros (2 * M)) (rd0 b m 0) (fun _ => rd0 b (wrap m) 0) 0) b) (seq 0 (cut - 1)) b.
  (** singleLeftoverMode_amps.py:326-332, singleLeftoverMode_grad.py:630-649 *)
  Definition fill (b : block) : block :=
    fold_left (fun b m => fold_left (fun b n =>
      upd2 m (n + 1) (point [0; 1] (m :: n :: zeros (2 * M)) (rd0 b m n) (fun l => if Nat.eqb l 0 then rd0 b (wrap m) n else rd0 b m (wrap n)) 1) b)
      (seq 0 (cut - 1)) b) (seq 0 cut) (fill_col b).
  (** singleLeftoverMode_amps.py:288-367, singleLeftoverMode_grad.py:571-700 from the block b0 at (0, ..., 0); every other entry starts as 0 *)
  Definition leftover (b0 : block) : state block :=
    traverse block blockY M cutoffs (fun _ _ => junkX) (fun _ _ => zeroY) (fun x v m n => aux x m n (v m n)) write_block
      (St (fun x => if cell_eq x (C0 (zeros M)) then fill b0 else fun _ _ => zeroX) false).

  Variable good : list nat -> X -> Prop.
  Variable goodY : list nat -> Y -> Prop.
  Hypothesis LM : length cutoffs = M.
  Hypothesis HC : Forall (fun c => 0 < c <= 1000) cutoffs.
  Hypothesis Hcut : 0 < cut.
  Hypothesis Haux : forall x m n v, want M cutoffs (fun _ => True) x -> m < cut -> n < cut -> good (m :: n :: ix x) v -> goodY (m :: n :: ix x) (aux x m n v).
  Hypothesis HP : forall ls pivot g gin i, length pivot = 2 * M + 2 -> i < 2 * M + 2 -> goodY pivot g ->
    NoDup ls -> (forall l, In l ls -> l < 2 * M + 2) -> (forall l, l < 2 * M + 2 -> at' l pivot <> 0 -> In l ls) ->
    (forall l, l < 2 * M + 2 -> at' l pivot <> 0 -> goodY (dec l pivot) (gin l)) ->
    (forall l, 2 <= l < 2 * M + 2 -> at' l pivot < 1000) -> (2 <= i -> at' i pivot + 1 < 1000) ->
    good (inc i pivot) (point ls pivot g gin i).
  Definition goodB (k : list nat) (v : block) : Prop := forall m n, m < cut -> n < cut -> good (m :: n :: k) (v m n).
  Definition goodBY (k : list nat) (v : blockY) : Prop := forall m n, m < cut -> n < cut -> goodY (m :: n :: k) (v m n).
  Lemma at2 : forall m n k j, at' (S (S j)) (m :: n :: k) = at' j k. Proof. reflexivity. Qed.
  Lemma dec2 : forall m n k j, dec (S (S j)) (m :: n :: k) = m :: n :: dec j k. Proof. reflexivity. Qed.
  Lemma inc2 : forall m n k j, inc (S (S j)) (m :: n :: k) = m :: n :: inc j k. Proof. reflexivity. Qed.
  Lemma write_block_ok : forall pivot g gin i, length pivot = 2 * M -> i < 2 * M -> goodBY pivot g ->
    (forall j, j < 2 * M -> at' j pivot <> 0 -> goodBY (dec j pivot) (gin j)) ->
    (forall j, j < 2 * M -> at' j pivot < 1000) -> at' i pivot + 1 < 1000 -> goodB (inc i pivot) (write_block pivot g gin i).
  Proof.
    intros pivot g gin i L Hi Hg Hgin H1 H2 m n Hm Hn. unfold write_block. rewrite (proj2 (Nat.ltb_lt _ _) Hm), (proj2 (Nat.ltb_lt _ _) Hn). cbn [andb].
    rewrite <- inc2. replace (i + 2) with (S (S i)) by lia. apply HP; [cbn [length]; lia|lia|now apply Hg| | | | | |].
    - unfold l_range. destruct (Nat.eqb m 0), (Nat.eqb n 0); cbn [app]; repeat constructor; try apply seq_NoDup; rewrite ?in_seq; cbn [In]; rewrite ?in_seq; lia.
    - unfold l_range. intros l Hl. rewrite !in_app_iff, in_seq in Hl. destruct (Nat.eqb m 0), (Nat.eqb n 0); cbn [In] in Hl; lia.
    - intros l Hl N. unfold l_range. rewrite !in_app_iff, in_seq. destruct l as [|[|l]]; [left|right; left|right; right; lia].
      + destruct (Nat.eqb_spec m 0); [subst; now elim N|now left].
      + destruct (Nat.eqb_spec n 0); [subst; now elim N|now left].
    - intros l Hl N. destruct l as [|[|l]]; cbn [around].
      + change (m <> 0) in N. change (goodY (pred m :: n :: pivot) (g (m - 1) n)). replace (pred m) with (m - 1) by lia. apply Hg; lia.
      + change (n <> 0) in N. change (goodY (m :: pred n :: pivot) (g m (n - 1))). replace (pred n) with (n - 1) by lia. apply Hg; lia.
      + rewrite at2 in N. rewrite dec2. apply Hgin; lia || exact N.
    - intros [|[|l]] Hl; try lia. rewrite at2. apply H1. lia.
    - intros _. rewrite at2. exact H2.
  Qed.
  Notation Z := (zeros (2 * M)).
  Lemma want_zero : want M cutoffs (fun _ => True) (C0 (zeros M)).
  Proof.
    cbn [want]. split; [|now left]. apply within_spec. split; [unfold zeros; rewrite repeat_length; lia|]. intros i Hi. unfold zeros in Hi. rewrite repeat_length in Hi. rewrite at_zeros.
    unfold at'. rewrite Forall_forall in HC. apply HC. apply nth_In. lia.
  Qed.
  Lemma rd0_ok : forall b m n, m < cut -> n < cut -> good (m :: n :: Z) (b m n) -> goodY (m :: n :: Z) (rd0 b m n).
  Proof. intros b m n Hm Hn H. pose proof (Haux (C0 (zeros M)) m n (b m n) want_zero Hm Hn) as G. cbn [ix] in G. rewrite dup_zeros in G. exact (G H). Qed.
  Lemma fill_col_ok : forall b, good (0 :: 0 :: Z) (b 0 0) -> forall x, x < cut -> good (x :: 0 :: Z) (fill_col b x 0).
  Proof.
    intros b H0. unfold fill_col. match goal with |- context [fold_left ?f _ _] => set (step := f) end.
    assert (I : forall k, k < cut -> forall x, x <= k -> good (x :: 0 :: Z) (fold_left step (seq 0 k) b x 0)).
    { induction k as [|k IH]; intros Hk x Hx; [replace x with 0 by lia; exact H0|]. rewrite seq_S, fold_left_app. cbn [fold_left Nat.add]. specialize (IH ltac:(lia)).
      set (b' := fold_left step (seq 0 k) b) in *. unfold step, upd2. rewrite Nat.eqb_refl, andb_true_r. destruct (Nat.eqb_spec x (k + 1)) as [->|N]; [|apply IH; lia].
      change ((k + 1) :: 0 :: Z) with (inc 0 (k :: 0 :: Z)) || replace ((k + 1) :: 0 :: Z) with (inc 0 (k :: 0 :: Z)) by (unfold inc; cbn [at' nth upd]; f_equal; lia).
      apply HP.
      - cbn [length]. unfold zeros. rewrite repeat_length. lia.
      - lia.
      - apply rd0_ok; [lia|lia|]. apply IH. lia.
      - repeat constructor. intros [].
      - intros l [<-|[]]. lia.
      - intros [|[|l]] _ N; [now left|now elim N|]. rewrite at2, at_zeros in N. congruence.
      - intros [|[|l]] _ N; [|now elim N|rewrite at2, at_zeros in N; congruence]. change (k <> 0) in N. change (goodY (pred k :: 0 :: Z) (rd0 b' (wrap k) 0)). unfold wrap. rewrite (proj2 (Nat.eqb_neq _ _) N). replace (pred k) with (k - 1) by lia.
        apply rd0_ok; [lia|lia|]. apply IH. lia.
      - intros [|[|l]] Hl; try lia. rewrite at2, at_zeros. lia.
      - lia. }
    intros x Hx. apply (I (cut - 1)); lia.
  Qed.
  Lemma fill_ok : forall b, good (0 :: 0 :: Z) (b 0 0) -> goodB Z (fill b).
  Proof.
    intros b H0. unfold fill. pose proof (fill_col_ok b H0) as HC0. set (b1 := fill_col b) in *. clearbody b1. clear b H0.
    match goal with |- context [fold_left ?f (seq 0 cut) _] => set (row := f) end.
    assert (I : forall r, r <= cut -> (forall x, x < cut -> good (x :: 0 :: Z) (fold_left row (seq 0 r) b1 x 0)) /\ (forall x y, x < r -> y < cut -> good (x :: y :: Z) (fold_left row (seq 0 r) b1 x y))).
    { induction r as [|r IH]; intros Hr; [split; [exact HC0|intros; lia]|]. rewrite seq_S, fold_left_app. cbn [fold_left Nat.add]. destruct (IH ltac:(lia)) as [I1 I2]. clear IH.
      set (b2 := fold_left row (seq 0 r) b1) in *. clearbody b2. unfold row; cbv beta. match goal with |- context [fold_left ?f (seq 0 (cut - 1)) _] => set (stp := f) end.
      assert (J : forall k, k < cut -> (forall x, x < cut -> good (x :: 0 :: Z) (fold_left stp (seq 0 k) b2 x 0)) /\ (forall x y, x < r -> y < cut -> good (x :: y :: Z) (fold_left stp (seq 0 k) b2 x y))
        /\ (forall y, y <= k -> good (r :: y :: Z) (fold_left stp (seq 0 k) b2 r y))).
      { induction k as [|k IH]; intros Hk; [repeat split; [exact I1|exact I2|]; intros y Hy; replace y with 0 by lia; apply I1; lia|].
        rewrite seq_S, fold_left_app. cbn [fold_left Nat.add]. destruct (IH ltac:(lia)) as [J1 [J2 J3]]. clear IH. set (b3 := fold_left stp (seq 0 k) b2) in *. clearbody b3.
        assert (E : forall x y, (x = r -> y <> k + 1) -> stp b3 k x y = b3 x y).
        { intros x y H. unfold stp, upd2. destruct (Nat.eqb_spec x r) as [->|]; [|reflexivity]. destruct (Nat.eqb_spec y (k + 1)) as [->|]; [now elim H|reflexivity]. }
        repeat split.
        - intros x Hx. rewrite E by lia. now apply J1.
        - intros x y Hx Hy. rewrite E by lia. now apply J2.
        - intros y Hy. destruct (Nat.eq_dec y (k + 1)) as [->|N]; [|rewrite E by congruence; apply J3; lia].
          unfold stp, upd2. rewrite !Nat.eqb_refl. cbn [andb]. replace (r :: (k + 1) :: Z) with (inc 1 (r :: k :: Z)) by (unfold inc; cbn [at' nth upd]; do 2 f_equal; lia).
          apply HP.
          + cbn [length]. unfold zeros. rewrite repeat_length. lia.
          + lia.
          + apply rd0_ok; [lia|lia|]. apply J3. lia.
          + repeat constructor; cbn [In]; lia.
          + intros l [<-|[<-|[]]]; lia.
          + intros [|[|l]] _ N; [now left|right; now left|]. rewrite at2, at_zeros in N. congruence.
          + intros [|[|l]] _ N; [| |rewrite at2, at_zeros in N; congruence]; cbn [Nat.eqb].
            * change (r <> 0) in N. change (goodY (pred r :: k :: Z) (rd0 b3 (wrap r) k)). unfold wrap. rewrite (proj2 (Nat.eqb_neq _ _) N). replace (pred r) with (r - 1) by lia. apply rd0_ok; [lia|lia|]. apply J2; lia.
            * change (k <> 0) in N. change (goodY (r :: pred k :: Z) (rd0 b3 r (wrap k))). unfold wrap. rewrite (proj2 (Nat.eqb_neq _ _) N). replace (pred k) with (k - 1) by lia. apply rd0_ok; [lia|lia|]. apply J3; lia.
          + intros [|[|l]] Hl; try lia. rewrite at2, at_zeros. lia.
          + lia. }
      destruct (J (cut - 1) ltac:(lia)) as [J1 [J2 J3]]. split; [exact J1|]. intros x y Hx Hy. destruct (Nat.eq_dec x r) as [->|N]; [apply J3; lia|apply J2; lia]. }
    intros m n Hm Hn. apply (I cut); [lia|exact Hm|exact Hn].
  Qed.
  Lemma leftover_ok : forall b0, good (0 :: 0 :: Z) (b0 0 0) ->
    bad (leftover b0) = false /\ (forall x, want M cutoffs (fun _ => True) x -> goodB (ix x) (mem (leftover b0) x)) /\ forall p, within p cutoffs = true -> goodB (dup p) (mem (leftover b0) (C0 p)).
  Proof.
    intros b0 H0. unfold leftover.
    refine (traverse_ok block blockY M cutoffs _ _ _ write_block goodB goodBY LM HC _ write_block_ok _ _).
    - intros x v Hx Hv m n Hm Hn. apply Haux; auto.
    - split; [reflexivity|]. intros [p|d p|d e p|d e p|i p]; cbn [want]; [|tauto|tauto|tauto|tauto]. intros [_ [->|[d [_ [_ [_ []]]]]]].
      cbn [mem]. destruct (cell_eq (C0 (zeros M)) (C0 (zeros M))); [|congruence]. cbn [ix]. rewrite dup_zeros. now apply fill_ok.
  Qed.
End Blocks.

(** ** the recurrence relation and its derivative *)
Section Sums.
  Context {K : rootfield}.
  Add Field Kfield : (kft K).
  Open Scope rf_scope.
  Lemma lsum_sumn_sub : forall D ls (f : nat -> K), NoDup ls -> (forall l, In l ls -> (l < D)%nat) -> (forall l, (l < D)%nat -> ~ In l ls -> f l = k0) -> lsum ls f = sumn D f.
  Proof.
    intros D ls f ND HL HZ. transitivity (sumn D (fun l => if in_dec Nat.eq_dec l ls then f l else k0)).
    - clear HZ. induction ND as [|x ls N1 ND IH]; [symmetry; apply sumn_0; intros l _; reflexivity|]. cbn [lsum fold_right]. unfold lsum in IH. rewrite IH by (intros; apply HL; now right).
      rewrite <- (sumn_delta_mul D x f) by (apply HL; now left). rewrite <- sumn_add. apply sumn_ext. intros l Hl. destruct (in_dec Nat.eq_dec l (x :: ls)) as [H|H], (in_dec Nat.eq_dec l ls) as [H'|H'], (Nat.eqb_spec l x) as [->|N]; try ring; exfalso.
      + tauto.
      + destruct H; [congruence|tauto].
      + apply H. now right.
      + apply H. now right.
      + apply H. now left.
    - apply sumn_ext. intros l Hl. destruct (in_dec Nat.eq_dec l ls); [reflexivity|]. symmetry. now apply HZ.
  Qed.
End Sums.
Section Points.
  Context {K : rootfield}.
  Add Field Kfield : (kft K).
  Open Scope rf_scope.
  Variable A : nat -> nat -> K.
  Variable B : nat -> K.
  Variable junk : K.
  (** the variables below h take their square roots from np.sqrt, the others from the table SQRT *)
  Variable h : nat.
  Definition rt (l n : nat) : K := if Nat.ltb l h then sq n else SQRT junk n.
  (** singleLeftoverMode_amps.py:40, 47, 55, 72, 324, 328: (GB[m, n, i] + A_adapted @ G_in_adapted) / K_i[i - 2] *)
  Definition point_amp (ls pivot : list nat) (g : K) (gin : nat -> K) (i : nat) : K :=
    (g * B i + lsum ls (fun l => A i l * (rt l (at' l pivot) * gin l))) / rt i (at' i pivot + 1).
  (** diagonal_grad.py:18-40, singleLeftoverMode_grad.py:18-46 calc_dA_dB: the value read is (amplitude, (dA, dB)).
      The filling loops singleLeftoverMode_grad.py:614-649 divide the summands separately *)
  Definition grads : Type := (nat -> nat -> K) * (nat -> K).
  Definition point_grad (ls pivot : list nat) (g : K * grads) (gin : nat -> K * grads) (i : nat) : grads :=
    ((fun a b => (fst (snd g) a b * B i + lsum ls (fun l => rt l (at' l pivot) * A i l * fst (snd (gin l)) a b
                                                          + (if (Nat.eqb a i && Nat.eqb b l)%bool then rt l (at' l pivot) * fst (gin l) else k0))) / rt i (at' i pivot + 1)),
     (fun a => (snd (snd g) a * B i + (if Nat.eqb a i then fst g else k0) + lsum ls (fun l => rt l (at' l pivot) * A i l * snd (snd (gin l)) a)) / rt i (at' i pivot + 1))).
  Variable D : nat.
  Section At.
    Variables (ls pivot : list nat) (i : nat).
    Hypothesis Lp : length pivot = D.
    Hypothesis Hi : (i < D)%nat.
    Hypothesis ND : NoDup ls.
    Hypothesis HL : forall l, In l ls -> (l < D)%nat.
    Hypothesis HN : forall l, (l < D)%nat -> at' l pivot <> 0%nat -> In l ls.
    Hypothesis Hb : forall l, (h <= l < D)%nat -> (at' l pivot < 1000)%nat.
    Hypothesis Hbi : (h <= i)%nat -> (at' i pivot + 1 < 1000)%nat.
    Lemma rt_l : forall l, (l < D)%nat -> rt l (at' l pivot) = sq (at' l pivot).
    Proof using Hb. intros l Hl. unfold rt, SQRT. destruct (Nat.ltb_spec l h) as [H|H]; [reflexivity|]. now rewrite (proj2 (Nat.ltb_lt _ _) (Hb l (conj H Hl))). Qed.
    Lemma rt_i : rt i (at' i pivot + 1) = sq (S (at' i pivot)).
    Proof using Hbi. unfold rt, SQRT. rewrite Nat.add_1_r. destruct (Nat.ltb_spec i h) as [H|H]; [reflexivity|]. specialize (Hbi H). rewrite Nat.add_1_r in Hbi. now rewrite (proj2 (Nat.ltb_lt _ _) Hbi). Qed.
    Lemma rt_sum : forall f : nat -> K, lsum ls (fun l => rt l (at' l pivot) * f l) = sumn D (fun l => sq (at' l pivot) * f l).
    Proof using ND HL HN Hb.
      intros f. rewrite (lsum_sumn_sub D); [|exact ND|exact HL|].
      - apply sumn_ext. intros l Hl. now rewrite rt_l.
      - intros l Hl N. rewrite rt_l by exact Hl. destruct (Nat.eq_dec (at' l pivot) 0) as [E|E]; [rewrite E, sq_0; ring|]. elim N. now apply HN.
    Qed.
    Lemma point_amp_ok : symmetric D A -> forall c g gin, g = amp D A B c pivot -> (forall l, (l < D)%nat -> at' l pivot <> 0%nat -> gin l = amp D A B c (dec l pivot)) ->
      point_amp ls pivot g gin i = amp D A B c (inc i pivot).
    Proof using Lp Hi ND HL HN Hb Hbi.
      intros SA c g gin -> Hg. unfold point_amp. rewrite (amp_step D A B SA c i (inc i pivot)); [|exact Hi|now rewrite inc_length|rewrite at_inc, Nat.eqb_refl; lia].
      rewrite at_inc, Nat.eqb_refl by lia. rewrite dec_inc by lia. rewrite rt_i. f_equal. f_equal; [ring|].
      rewrite (lsum_ext ls _ (fun l => rt l (at' l pivot) * (A i l * gin l))) by (intros; ring). rewrite rt_sum. apply sumn_ext. intros l Hl.
      destruct (Nat.eq_dec (at' l pivot) 0) as [E|E]; [rewrite E, sq_0; ring|]. rewrite Hg by assumption. ring.
    Qed.
  End At.
End Points.

Section GradPoint.
  Context {K : rootfield}.
  Add Field Kfield : (kft K).
  Open Scope rf_scope.
  Context {T : Type} (t0 : T) (der : (T -> K) -> K -> Prop) (DR : diff_rules t0 der).
  Variable D : nat.
  Variable A : T -> nat -> nat -> K.
  Variable b : T -> nat -> K.
  Variable c : K.
  Variable dA : nat -> nat -> K.
  Variable db : nat -> K.
  Hypothesis SA : forall t, symmetric D (A t).
  Hypothesis HA : forall i j, (i < D)%nat -> (j < D)%nat -> der (fun t => A t i j) (dA i j).
  Hypothesis Hdb : forall i, (i < D)%nat -> der (fun t => b t i) (db i).
  Variable junk : K.
  Variable h : nat.
  (** the change of a quantity with gradients v *)
  Definition along (v : @grads K) : K := sumn D (fun i => sumn D (fun j => dA i j * fst v i j)) + sumn D (fun i => db i * snd v i).
  Definition goodG (k : list nat) (v : @grads K) : Prop := der (fun t => amp D (A t) (b t) c k) (along v).
  Definition goodGY (k : list nat) (y : K * @grads K) : Prop := fst y = amp D (A t0) (b t0) c k /\ goodG k (snd y).
  Lemma along_add : forall u v : grads, along ((fun i j => fst u i j + fst v i j), (fun i => snd u i + snd v i)) = along u + along v.
  Proof.
    intros u v. unfold along. cbn [fst snd].
    rewrite (sumn_ext D (fun i => sumn D (fun j => dA i j * (fst u i j + fst v i j))) (fun i => sumn D (fun j => dA i j * fst u i j) + sumn D (fun j => dA i j * fst v i j)))
      by (intros; rewrite <- sumn_add; apply sumn_ext; intros; ring).
    rewrite (sumn_ext D (fun i => db i * (snd u i + snd v i)) (fun i => db i * snd u i + db i * snd v i)) by (intros; ring). rewrite !sumn_add. ring.
  Qed.
  Lemma along_scal : forall x (v : grads), along ((fun i j => x * fst v i j), (fun i => x * snd v i)) = x * along v.
  Proof.
    intros x v. unfold along. cbn [fst snd].
    rewrite (sumn_ext D (fun i => sumn D (fun j => dA i j * (x * fst v i j))) (fun i => x * sumn D (fun j => dA i j * fst v i j))) by (intros; rewrite <- sumn_scal; apply sumn_ext; intros; ring).
    rewrite (sumn_ext D (fun i => db i * (x * snd v i)) (fun i => x * (db i * snd v i))) by (intros; ring). rewrite !sumn_scal. ring.
  Qed.
  Lemma along_ext : forall u v : grads, (forall i j, fst u i j = fst v i j) -> (forall i, snd u i = snd v i) -> along u = along v.
  Proof. intros u v H1 H2. unfold along. f_equal; apply sumn_ext; intros i Hi; [apply sumn_ext; intros j Hj; now rewrite H1|now rewrite H2]. Qed.
  Lemma along_0 : along ((fun _ _ => k0), (fun _ => k0)) = k0.
  Proof. unfold along. cbn [fst snd]. rewrite !sumn_0; [ring| |]; intros i Hi; [ring|]. apply sumn_0. intros; ring. Qed.
  Lemma along_sumn : forall n (v : nat -> grads), along ((fun i j => sumn n (fun l => fst (v l) i j)), (fun i => sumn n (fun l => snd (v l) i))) = sumn n (fun l => along (v l)).
  Proof.
    induction n as [|n IH]; intros v; [exact along_0|]. cbn [sumn]. rewrite <- IH. rewrite <- along_add. reflexivity.
  Qed.
  Lemma along_dA : forall i l x, (i < D)%nat -> (l < D)%nat -> along ((fun a b => if (Nat.eqb a i && Nat.eqb b l)%bool then x else k0), (fun _ => k0)) = dA i l * x.
  Proof.
    intros i l x Hi Hl. unfold along. cbn [fst snd]. rewrite (sumn_0 D (fun i => db i * k0)) by (intros; ring).
    rewrite (sumn_ext D _ (fun a => if Nat.eqb a i then dA a l * x else k0)); [rewrite (sumn_delta_mul D i (fun a => dA a l * x)) by exact Hi; ring|].
    intros a Ha. destruct (Nat.eqb_spec a i) as [->|N]; cbn [andb]; [|apply sumn_0; intros; ring].
    rewrite (sumn_ext D _ (fun b => if Nat.eqb b l then dA i b * x else k0)) by (intros b' Hb; destruct (Nat.eqb b' l); ring). exact (sumn_delta_mul D l (fun b => dA i b * x) Hl).
  Qed.
  Lemma along_db : forall i x, (i < D)%nat -> along ((fun _ _ => k0), (fun a => if Nat.eqb a i then x else k0)) = db i * x.
  Proof.
    intros i x Hi. unfold along. cbn [fst snd]. rewrite (sumn_0 D (fun i => sumn D _)) by (intros; apply sumn_0; intros; ring).
    rewrite (sumn_ext D _ (fun a => if Nat.eqb a i then db a * x else k0)) by (intros a Ha; destruct (Nat.eqb a i); ring). rewrite (sumn_delta_mul D i (fun a => db a * x) Hi). ring.
  Qed.
  Lemma point_grad_ok : forall ls pivot g gin i, length pivot = D -> (i < D)%nat -> goodGY pivot g ->
    NoDup ls -> (forall l, In l ls -> (l < D)%nat) -> (forall l, (l < D)%nat -> at' l pivot <> 0%nat -> In l ls) ->
    (forall l, (l < D)%nat -> at' l pivot <> 0%nat -> goodGY (dec l pivot) (gin l)) ->
    (forall l, (h <= l < D)%nat -> (at' l pivot < 1000)%nat) -> ((h <= i)%nat -> (at' i pivot + 1 < 1000)%nat) ->
    goodG (inc i pivot) (point_grad (A t0) (b t0) junk h ls pivot g gin i).
  Proof.
    intros ls pivot g gin i Lp Hi [Ag Gg] ND HL HN Hgin Hb Hbi. unfold goodG.
    apply (der_ext t0 der DR (fun t => k1 / sq (S (at' i pivot)) * (b t i * amp D (A t) (b t) c pivot + sumn D (fun l => A t i l * (sq (at' l pivot) * amp D (A t) (b t) c (dec l pivot)))))).
    { intros t. rewrite (amp_step D (A t) (b t) (SA t) c i (inc i pivot)); [|exact Hi|now rewrite inc_length|rewrite at_inc, Nat.eqb_refl; lia].
      rewrite at_inc, Nat.eqb_refl by lia. rewrite dec_inc by lia. field. apply sq_neq. lia. }
    eapply der_eq; [|apply (der_cmul t0 der DR); apply (der_add t0 der DR);
      [exact (der_mul t0 der DR _ _ _ _ (Hdb i Hi) Gg)|
       apply (der_sumn t0 der DR) with (d := fun l => sq (at' l pivot) * (dA i l * fst (gin l) + A t0 i l * along (snd (gin l))))]].
    - transitivity (along ((fun a b' => k1 / sq (S (at' i pivot)) * ((b t0 i * fst (snd g) a b' + k0) + sumn D (fun l => (sq (at' l pivot) * A t0 i l) * fst (snd (gin l)) a b' + (if (Nat.eqb a i && Nat.eqb b' l)%bool then sq (at' l pivot) * fst (gin l) else k0)))),
                           (fun a => k1 / sq (S (at' i pivot)) * ((b t0 i * snd (snd g) a + (if Nat.eqb a i then fst g else k0)) + sumn D (fun l => (sq (at' l pivot) * A t0 i l) * snd (snd (gin l)) a + k0))))).
      + symmetry. refine (eq_trans (along_scal (k1 / sq (S (at' i pivot))) ((fun a b' => ((b t0 i * fst (snd g) a b' + k0) + sumn D (fun l => (sq (at' l pivot) * A t0 i l) * fst (snd (gin l)) a b' + (if (Nat.eqb a i && Nat.eqb b' l)%bool then sq (at' l pivot) * fst (gin l) else k0)))),
                           (fun a => ((b t0 i * snd (snd g) a + (if Nat.eqb a i then fst g else k0)) + sumn D (fun l => (sq (at' l pivot) * A t0 i l) * snd (snd (gin l)) a + k0))))) _). f_equal.
        refine (eq_trans (along_add ((fun a b' => b t0 i * fst (snd g) a b' + k0), (fun a => b t0 i * snd (snd g) a + (if Nat.eqb a i then fst g else k0)))
                           ((fun a b' => sumn D (fun l => (sq (at' l pivot) * A t0 i l) * fst (snd (gin l)) a b' + (if (Nat.eqb a i && Nat.eqb b' l)%bool then sq (at' l pivot) * fst (gin l) else k0))),
                            (fun a => sumn D (fun l => (sq (at' l pivot) * A t0 i l) * snd (snd (gin l)) a + k0)))) _). f_equal.
        * refine (eq_trans (along_add ((fun a b' => b t0 i * fst (snd g) a b'), (fun a => b t0 i * snd (snd g) a)) ((fun _ _ => k0), (fun a => if Nat.eqb a i then fst g else k0))) _).
          rewrite along_scal, along_db by exact Hi. rewrite Ag. ring.
        * refine (eq_trans (along_sumn D (fun l => ((fun a b' => (sq (at' l pivot) * A t0 i l) * fst (snd (gin l)) a b' + (if (Nat.eqb a i && Nat.eqb b' l)%bool then sq (at' l pivot) * fst (gin l) else k0)),
                                           (fun a => (sq (at' l pivot) * A t0 i l) * snd (snd (gin l)) a + k0)))) _).
          apply sumn_ext. intros l Hl.
          refine (eq_trans (along_add ((fun a b' => (sq (at' l pivot) * A t0 i l) * fst (snd (gin l)) a b'), (fun a => (sq (at' l pivot) * A t0 i l) * snd (snd (gin l)) a))
                             ((fun a b' => if (Nat.eqb a i && Nat.eqb b' l)%bool then sq (at' l pivot) * fst (gin l) else k0), (fun _ => k0))) _).
          rewrite along_scal, along_dA by assumption. ring.
      + symmetry. apply along_ext; [intros a b'|intros a]; unfold point_grad; cbn [fst snd]; rewrite (rt_i junk h pivot i Hbi).
        * rewrite (lsum_ext ls _ (fun l => rt junk h l (at' l pivot) * (A t0 i l * fst (snd (gin l)) a b' + (if (Nat.eqb a i && Nat.eqb b' l)%bool then fst (gin l) else k0)))) by (intros l _; destruct (_ && _)%bool; ring).
          rewrite (rt_sum junk h D ls pivot ND HL HN Hb). rewrite (sumn_ext D _ (fun l => sq (at' l pivot) * A t0 i l * fst (snd (gin l)) a b' + (if (Nat.eqb a i && Nat.eqb b' l)%bool then sq (at' l pivot) * fst (gin l) else k0))) by (intros l _; destruct (_ && _)%bool; ring).
          field. apply sq_neq. lia.
        * rewrite (lsum_ext ls _ (fun l => rt junk h l (at' l pivot) * (A t0 i l * snd (snd (gin l)) a))) by (intros l _; ring).
          rewrite (rt_sum junk h D ls pivot ND HL HN Hb). rewrite (sumn_ext D _ (fun l => sq (at' l pivot) * A t0 i l * snd (snd (gin l)) a + k0)) by (intros l _; ring).
          field. apply sq_neq. lia.
    - intros l Hl. destruct (Nat.eq_dec (at' l pivot) 0) as [E|E].
      + rewrite E, sq_0. apply (der_ext t0 der DR (fun _ => k0)); [intros; ring|]. eapply der_eq; [|apply (der_const t0 der DR)]. ring.
      + destruct (Hgin l Hl E) as [Al Gl]. eapply der_eq; [|exact (der_mul t0 der DR _ _ _ _ (HA i l Hi Hl) (der_cmul t0 der DR (sq (at' l pivot)) _ _ Gl))]. cbv beta. rewrite Al. ring.
  Qed.
End GradPoint.
