(** Operations on Fock arrays: claims C32 and C52, and the trace used by C15.
    Model of mrmustard/physics/ansatz/array_ansatz.py (reduce, reorder, reorder_batch, trace, __add__, __and__, __eq__).
    Entries are in an arbitrary commutative ring (exact arithmetic). Shapes are naturals: Python's negative sizes and
    negative axes are not modelled. *)
From Coq Require Import List Bool Arith ZArith Lia Permutation Ring_theory Ring.
Require Import Verif.Base Verif.Tensor.
Import ListNotations. Open Scope nat_scope.

(** ** index arithmetic (numpy's row-major order) *)
Definition prod (l : list nat) : nat := fold_right Nat.mul 1 l.
Fixpoint ravel (sh idx : list nat) : nat := match sh, idx with _ :: ds, i :: is => i * prod ds + ravel ds is | _, _ => 0 end.
Fixpoint unravel (sh : list nat) (n : nat) : list nat := match sh with [] => [] | _ :: ds => n / prod ds :: unravel ds (n mod prod ds) end.
(** is [k] an index of an array of shape [sh]? *)
Fixpoint inb (k sh : list nat) : bool := match k, sh with [], [] => true | i :: k', d :: sh' => (i <? d) && inb k' sh' | _, _ => false end.
Lemma inb_box : forall k sh, inb k sh = true <-> In k (box sh).
Proof.
  intros k sh. rewrite in_box. revert sh. induction k as [|i k IH]; intros [|d sh]; simpl.
  - split; [constructor|auto].
  - split; [discriminate|intros H; inversion H].
  - split; [discriminate|intros H; inversion H].
  - rewrite andb_true_iff, Nat.ltb_lt, IH. split; [intros [A B]; now constructor|intros H; inversion H; auto].
Qed.
Lemma inb_length : forall k sh, inb k sh = true -> length k = length sh.
Proof. intros k sh H. apply inb_box in H. now apply box_length_in in H. Qed.
Lemma inb_app : forall k1 s1 k2 s2, length k1 = length s1 -> inb (k1 ++ k2) (s1 ++ s2) = inb k1 s1 && inb k2 s2.
Proof. induction k1 as [|i k1 IH]; intros [|d s1] k2 s2 L; simpl in *; try lia; auto. rewrite IH by lia. now rewrite andb_assoc. Qed.
Lemma prod_app : forall a b, prod (a ++ b) = prod a * prod b.
Proof. unfold prod. induction a as [|x a IH]; intros; simpl; [symmetry; apply Nat.add_0_r|]. rewrite IH. apply Nat.mul_assoc. Qed.
Lemma ravel_lt : forall sh k, inb k sh = true -> ravel sh k < prod sh.
Proof.
  induction sh as [|d sh IH]; intros [|i k] H; simpl in H; try discriminate; [simpl; lia|].
  apply andb_true_iff in H. destruct H as [H1 H2]. apply Nat.ltb_lt in H1. specialize (IH k H2).
  cbn [ravel prod fold_right]. fold (prod sh). nia.
Qed.
Lemma unravel_ravel : forall sh k, inb k sh = true -> unravel sh (ravel sh k) = k.
Proof.
  induction sh as [|d sh IH]; intros [|i k] H; simpl in H; try discriminate; auto.
  apply andb_true_iff in H. destruct H as [H1 H2]. apply Nat.ltb_lt in H1. pose proof (ravel_lt sh k H2) as L.
  cbn [ravel unravel]. assert (P : prod sh <> 0) by lia.
  rewrite Nat.div_add_l, Nat.div_small, Nat.add_0_r by assumption. f_equal.
  rewrite Nat.add_comm, Nat.mod_add, Nat.mod_small by assumption. now apply IH.
Qed.
Lemma ravel_app : forall s1 k1 s2 k2, length k1 = length s1 -> ravel (s1 ++ s2) (k1 ++ k2) = ravel s1 k1 * prod s2 + ravel s2 k2.
Proof.
  induction s1 as [|d s1 IH]; intros [|i k1] s2 k2 L; simpl in L; try lia; [reflexivity|].
  cbn [app ravel]. rewrite IH, prod_app by lia. lia.
Qed.
Lemma ravel_box : forall sh, map (ravel sh) (box sh) = seq 0 (prod sh).
Proof.
  induction sh as [|d sh IH]; [reflexivity|]. cbn [box prod fold_right]. fold (prod sh).
  assert (G : forall m, map (ravel (d :: sh)) (flat_map (fun i => map (cons i) (box sh)) (seq 0 m)) = seq 0 (m * prod sh)).
  { induction m as [|m IHm]; [reflexivity|]. rewrite seq_S, flat_map_app, map_app, IHm. cbn [flat_map]. rewrite app_nil_r, map_map.
    cbn [ravel Nat.add]. replace (S m * prod sh) with (m * prod sh + prod sh) by lia. rewrite seq_app. f_equal. cbn [Nat.add].
    rewrite <- (map_map (ravel sh) (fun x => m * prod sh + x)), IH. clear. generalize (m * prod sh). generalize (prod sh). intros p q.
    assert (Z : forall z, map (fun x => q + x) (seq z p) = seq (q + z) p).
    { induction p as [|p IHp]; intros z; simpl; [reflexivity|]. f_equal. now rewrite IHp, <- plus_n_Sm. }
    rewrite Z. now rewrite Nat.add_0_r. }
  apply G.
Qed.
Definition le_all (s t : list nat) : bool := forallb (fun p => fst p <=? snd p) (combine s t).
Lemma le_all_inb : forall s t k, length s = length t -> le_all s t = true -> inb k s = true -> inb k t = true.
Proof.
  induction s as [|a s IH]; intros [|b t] [|i k] L H I; simpl in *; try lia; auto; try discriminate.
  unfold le_all in H. simpl in H. apply andb_true_iff in H, I. destruct H as [H1 H2], I as [I1 I2].
  apply Nat.leb_le in H1. apply Nat.ltb_lt in I1. rewrite (IH t k) by (auto; lia). rewrite andb_true_r. apply Nat.ltb_lt. lia.
Qed.
Lemma le_all_refl : forall s, le_all s s = true.
Proof. induction s; unfold le_all in *; simpl; auto. rewrite Nat.leb_refl. auto. Qed.
Lemma le_all_app : forall b s t, le_all (b ++ s) (b ++ t) = le_all s t.
Proof. induction b as [|x b IH]; intros; unfold le_all in *; simpl; auto. now rewrite Nat.leb_refl, IH. Qed.
Lemma le_all_antisym : forall s t, length s = length t -> le_all s t = true -> le_all t s = true -> s = t.
Proof.
  induction s as [|a s IH]; intros [|b t] L H I; simpl in L; try lia; auto. unfold le_all in *. simpl in *.
  apply andb_true_iff in H, I. destruct H as [H1 H2], I as [I1 I2]. apply Nat.leb_le in H1, I1. f_equal; [lia|]. apply IH; auto.
Qed.
Lemma le_all_prod : forall s t, length s = length t -> le_all s t = true -> prod s <= prod t.
Proof.
  induction s as [|a s IH]; intros [|b t] L H; simpl in L; try lia; auto. unfold le_all in H. cbn [combine forallb fst snd] in H.
  apply andb_true_iff in H. destruct H as [H1 H2]. apply Nat.leb_le in H1. cbn [prod fold_right]. apply Nat.mul_le_mono; [assumption|]. apply IH; auto.
Qed.
Lemma prod_pos : forall s, Forall (fun d => 0 < d) s -> 0 < prod s.
Proof. induction 1; cbn [prod fold_right]; [lia|]. fold (prod l). nia. Qed.
Lemma le_all_prod_lt : forall s t, length s = length t -> le_all s t = true -> s <> t -> Forall (fun d => 0 < d) t -> prod s < prod t.
Proof.
  induction s as [|a s IH]; intros [|b t] L H N P; simpl in L; try lia; [congruence|].
  assert (H' := H). unfold le_all in H. cbn [combine forallb fst snd] in H. apply andb_true_iff in H. destruct H as [H1 H2]. apply Nat.leb_le in H1.
  inversion P; subst. pose proof (prod_pos t H4) as Q. assert (LT : length s = length t) by lia. pose proof (le_all_prod s t LT H2) as W.
  cbn [prod fold_right]. fold (prod s) (prod t). destruct (list_eq_dec Nat.eq_dec s t) as [->|M].
  - assert (a < b) by (destruct (Nat.eq_dec a b); [congruence|lia]). nia.
  - specialize (IH t LT H2 M H4). nia.
Qed.

Section Ops.
  Context {R : Type} (rO rI : R) (radd rmul rsub : R -> R -> R) (ropp : R -> R).
  Hypothesis Rth : ring_theory rO rI radd rmul rsub ropp eq.
  Add Ring Rr2 : Rth.
  Notation array := (@array R).
  Notation sum := (Tensor.sum rO radd).

  (** array_ansatz.py:56-62: an array and its number of leading batch axes *)
  Record ansatz := mkA { arr : array; bdims : nat }.
  Definition batch_shape (a : ansatz) : list nat := firstn (bdims a) (shape (arr a)).
  (** array_ansatz.py:102-107 *)
  Definition core_shape (a : ansatz) : list nat := skipn (bdims a) (shape (arr a)).
  Definition proper (a : ansatz) : Prop := bdims a <= length (shape (arr a)).
  Lemma shape_split : forall a, shape (arr a) = batch_shape a ++ core_shape a.
  Proof using. intros a. symmetry. apply firstn_skipn. Qed.
  Lemma batch_len : forall a, proper a -> length (batch_shape a) = bdims a.
  Proof using. intros a P. unfold batch_shape. rewrite firstn_length. unfold proper in P. lia. Qed.

  Lemma mk_split : forall a t f, proper a -> let m := mkA (mkArray (batch_shape a ++ t) f) (bdims a) in
    proper m /\ batch_shape m = batch_shape a /\ core_shape m = t.
  Proof using.
    intros a t f P m. pose proof (batch_len a P) as BL. 
    change (bdims a <= length (batch_shape a ++ t) /\ firstn (bdims a) (batch_shape a ++ t) = batch_shape a /\ skipn (bdims a) (batch_shape a ++ t) = t).
    rewrite app_length, BL. split; [lia|]. rewrite <- BL. split.
    - rewrite firstn_app, Nat.sub_diag, firstn_all. apply app_nil_r.
    - rewrite skipn_app, Nat.sub_diag, skipn_all. reflexivity.
  Qed.

  Definition list_eqb (s t : list nat) : bool := if list_eq_dec Nat.eq_dec s t then true else false.
  Lemma list_eqb_eq : forall s t, list_eqb s t = true <-> s = t.
  Proof using. intros s t. unfold list_eqb. destruct (list_eq_dec Nat.eq_dec s t); split; congruence. Qed.

  (** array_ansatz.py:264-268: numpy.pad with (0, s - t) on every core axis; a negative width raises ValueError *)
  Definition pad_core (a : ansatz) (s : list nat) : result ansatz :=
    if le_all (core_shape a) s then
      Ok (mkA (mkArray (batch_shape a ++ s) (fun k => if inb k (shape (arr a)) then at_ (arr a) k else rO)) (bdims a))
    else Err ValueError.
  (** array_ansatz.py:270: self.array[(..., slice(0,s_0), slice(0,s_1), ...)], every s_i at most the size of the axis *)
  Definition slice_core (a : ansatz) (s : list nat) : ansatz := mkA (mkArray (batch_shape a ++ s) (at_ (arr a))) (bdims a).
  (** array_ansatz.py:228-270. A shape given as a Python list is never equal to the tuple core_shape, in which case line 270
      slices to the same shape: the same array *)
  Definition reduce (a : ansatz) (s : list nat) : result ansatz :=
    if list_eqb s (core_shape a) then Ok a
    else if negb (length s =? length (core_shape a)) then Err ValueError
    else if existsb (fun p => snd p <? fst p) (combine s (core_shape a)) then pad_core a s
    else Ok (slice_core a s).

  (** ** specification: the amplitude at [k], zero outside of the array *)
  Definition amplitude (a : ansatz) (k : list nat) : R := if inb k (shape (arr a)) then at_ (arr a) k else rO.
  Definition same (a b : ansatz) : Prop := shape (arr a) = shape (arr b) /\ bdims a = bdims b /\ forall k, amplitude a k = amplitude b k.
  Definition comparable (s t : list nat) : Prop := length s = length t /\ (Forall2 le s t \/ Forall2 le t s).

  Lemma le_all_F2 : forall s t, length s = length t -> (le_all s t = true <-> Forall2 le s t).
  Proof using.
    induction s as [|x s IH]; intros [|y t] L; simpl in L; try lia; unfold le_all; simpl.
    - split; [constructor|auto].
    - rewrite andb_true_iff, Nat.leb_le. split; [intros [A B]; constructor; auto; apply IH; auto|].
      intros H. inversion H; subst. split; auto. apply IH; auto.
  Qed.
  Lemma existsb_le_all : forall s t, existsb (fun p => snd p <? fst p) (combine s t) = negb (le_all s t).
  Proof using. induction s as [|x s IH]; intros [|y t]; unfold le_all in *; simpl; auto. rewrite IH, negb_andb. f_equal. rewrite Nat.leb_antisym, negb_involutive. reflexivity. Qed.

  Lemma reduce_cases : forall a s, reduce a s =
    if list_eqb s (core_shape a) then Ok a
    else if negb (length s =? length (core_shape a)) then Err ValueError
    else if le_all s (core_shape a) then Ok (slice_core a s)
    else pad_core a s.
  Proof using.
    intros. unfold reduce. rewrite existsb_le_all. destruct (list_eqb _ _); auto. destruct (negb (length s =? _)); auto. now destruct (le_all s (core_shape a)).
  Qed.

  (** C32: the reduced array has the requested core shape, keeps every amplitude inside both shapes and is zero elsewhere *)
  Theorem C32_reduce : forall a s r, proper a -> reduce a s = Ok r ->
    proper r /\ batch_shape r = batch_shape a /\ core_shape r = s /\ bdims r = bdims a /\
    forall k, amplitude r k = if inb k (batch_shape a ++ s) then amplitude a k else rO.
  Proof using.
    intros a s r P. rewrite reduce_cases. destruct (list_eqb s (core_shape a)) eqn:E.
    { apply list_eqb_eq in E. intros [= <-]. repeat split; auto. intros k. subst s. rewrite <- shape_split. unfold amplitude. now destruct (inb k (shape (arr a))). }
    destruct (negb (length s =? length (core_shape a))) eqn:L; [discriminate|]. apply negb_false_iff, Nat.eqb_eq in L.
    pose proof (batch_len a P) as BL.
    destruct (le_all s (core_shape a)) eqn:H.
    - intros [= <-]. destruct (mk_split a s (at_ (arr a)) P) as [M1 [M2 M3]]. repeat split; auto. intros k. unfold amplitude, slice_core. cbn [arr shape at_].
      destruct (inb k (batch_shape a ++ s)) eqn:I; auto. assert (I' : inb k (shape (arr a)) = true).
      { rewrite shape_split. eapply le_all_inb; [| |exact I]; [rewrite !app_length; lia|].
        now rewrite le_all_app. }
      now rewrite I'.
    - unfold pad_core. destruct (le_all (core_shape a) s) eqn:H2; [|discriminate]. intros [= <-].
      destruct (mk_split a s (fun k => if inb k (shape (arr a)) then at_ (arr a) k else rO) P) as [M1 [M2 M3]]. repeat split; auto.
  Qed.

  (** C32: exactly when it is defined. It raises whenever some axis grows while another one shrinks. *)
  Theorem C32_defined : forall a s, (exists r, reduce a s = Ok r) <-> comparable s (core_shape a).
  Proof using.
    intros a s. rewrite reduce_cases. unfold comparable. destruct (list_eqb s (core_shape a)) eqn:E.
    { apply list_eqb_eq in E. subst s. split; [|eauto]. intros _. split; auto. left. apply le_all_F2; auto. apply le_all_refl. }
    destruct (negb (length s =? length (core_shape a))) eqn:L.
    { apply negb_true_iff, Nat.eqb_neq in L. split; [intros [r C]; discriminate|intros [C _]; contradiction]. }
    apply negb_false_iff, Nat.eqb_eq in L. rewrite <- le_all_F2, <- (le_all_F2 (core_shape a)) by auto.
    unfold pad_core. destruct (le_all s (core_shape a)), (le_all (core_shape a) s); split; eauto; try (intros [r C]; discriminate). intros [_ [C|C]]; discriminate.
  Qed.
  Theorem C32_error : forall a s, ~ comparable s (core_shape a) -> reduce a s = Err ValueError.
  Proof using.
    intros a s H. destruct (reduce a s) as [r|e] eqn:E; [exfalso; apply H; apply C32_defined; eauto|].
    rewrite reduce_cases in E. unfold pad_core in E. destruct (list_eqb s (core_shape a)); [congruence|]. destruct (negb (length s =? length (core_shape a))); [congruence|]. destruct (le_all s (core_shape a)), (le_all (core_shape a) s); congruence.
  Qed.
  (** C32 as stated (defined for every positive shape of the right length) is false *)
  Theorem C32_refuted_mixed : forall x : R, let a := mkA (mkArray [2; 2] (fun _ => x)) 0 in
    length [3; 1] = length (core_shape a) /\ Forall (fun d => 0 < d) [3; 1] /\ reduce a [3; 1] = Err ValueError.
  Proof using. intros x. repeat split; auto. Qed.

  (** C32: reducing in two steps, the second one not larger than the first, is reducing once *)
  Theorem C32_compose : forall a s t r, proper a -> reduce a s = Ok r -> Forall2 le t s -> comparable t (core_shape a) ->
    exists r1 r2, reduce r t = Ok r1 /\ reduce a t = Ok r2 /\ same r1 r2.
  Proof using.
    intros a s t r P E H C. destruct (C32_reduce a s r P E) as [Pr [Br [Cr [Dr Vr]]]].
    assert (LT : length t = length s) by (now apply Forall2_len in H).
    assert (Cr' : comparable t (core_shape r)) by (rewrite Cr; split; auto).
    apply C32_defined in Cr', C. destruct Cr' as [r1 E1], C as [r2 E2]. exists r1, r2. repeat split; auto;
      destruct (C32_reduce r t r1 Pr E1) as [P1 [B1 [C1 [D1 V1]]]]; destruct (C32_reduce a t r2 P E2) as [P2 [B2 [C2 [D2 V2]]]].
    - rewrite !shape_split. congruence.
    - congruence.
    - intros k. rewrite V1, V2, Vr, Br. destruct (inb k (batch_shape a ++ t)) eqn:I; auto.
      assert (I' : inb k (batch_shape a ++ s) = true); [|now rewrite I'].
      eapply le_all_inb; [| |exact I]; [rewrite !app_length; lia|]. rewrite le_all_app. apply le_all_F2; auto.
  Qed.

  (** numpy broadcasting of two arrays of the same rank *)
  Definition bcast_dim (d e : nat) : result nat := if d =? e then Ok d else if d =? 1 then Ok e else if e =? 1 then Ok d else Err ValueError.
  Fixpoint bcast_shape (s t : list nat) : result (list nat) :=
    match s, t with
    | [], [] => Ok []
    | d :: s', e :: t' => bind (bcast_dim d e) (fun x => bind (bcast_shape s' t') (fun r => Ok (x :: r)))
    | _, _ => Err ValueError
    end.
  Definition bidx (sh k : list nat) : list nat := map (fun p => if fst p =? 1 then 0 else snd p) (combine sh k).
  Definition add_arrays (x y : array) : result array :=
    bind (bcast_shape (shape x) (shape y)) (fun s => Ok (mkArray s (fun k => radd (at_ x (bidx (shape x) k)) (at_ y (bidx (shape y) k))))).
  (** array_ansatz.py:347-365 *)
  Definition add (a b : ansatz) : result ansatz :=
    if negb (bdims a =? bdims b) then Err ValueError
    else bind (if list_eqb (core_shape a) (core_shape b) then Ok (a, b)
               else if prod (core_shape b) <? prod (core_shape a) then bind (reduce b (core_shape a)) (fun b' => Ok (a, b'))
               else bind (reduce a (core_shape b)) (fun a' => Ok (a', b)))
         (fun ab => bind (add_arrays (arr (fst ab)) (arr (snd ab))) (fun s => Ok (mkA s (bdims a)))).

  Lemma bcast_same : forall s, bcast_shape s s = Ok s.
  Proof using. induction s as [|d s IH]; simpl; auto. unfold bcast_dim. rewrite Nat.eqb_refl. simpl. now rewrite IH. Qed.
  Lemma bidx_in : forall sh k, inb k sh = true -> bidx sh k = k.
  Proof using.
    induction sh as [|d sh IH]; intros [|i k] H; simpl in H; try discriminate; auto. apply andb_true_iff in H. destruct H as [H1 H2].
    unfold bidx in *. simpl. rewrite IH by auto. destruct (d =? 1) eqn:E; auto. apply Nat.eqb_eq in E. apply Nat.ltb_lt in H1. f_equal. lia.
  Qed.
  Lemma add_same_shape : forall x y n, shape x = shape y -> exists s, add_arrays x y = Ok s /\ shape s = shape x /\
    forall k, amplitude (mkA s n) k = radd (amplitude (mkA x n) k) (amplitude (mkA y n) k).
  Proof using Rth.
    intros x y n E. unfold add_arrays. rewrite <- E, bcast_same. simpl. eexists. split; [reflexivity|]. split; [reflexivity|].
    intros k. unfold amplitude. cbn [arr shape at_]. rewrite <- E. destruct (inb k (shape x)) eqn:I; [|ring]. now rewrite bidx_in by assumption.
  Qed.
  Lemma amplitude_dims : forall x n m k, amplitude (mkA x n) k = amplitude (mkA x m) k. Proof using. reflexivity. Qed.

  (** C52: the sum of two arrays whose core shapes are comparable has the larger of the two shapes, and each of its amplitudes
      is the sum of the amplitudes, absent ones counting as zero *)
  Theorem C52_add : forall a b, proper a -> proper b -> bdims a = bdims b -> batch_shape a = batch_shape b ->
    comparable (core_shape a) (core_shape b) -> Forall (fun d => 0 < d) (core_shape a) -> Forall (fun d => 0 < d) (core_shape b) ->
    exists r, add a b = Ok r /\ bdims r = bdims a /\ (shape (arr r) = shape (arr a) \/ shape (arr r) = shape (arr b)) /\
      Forall2 le (core_shape a) (core_shape r) /\ Forall2 le (core_shape b) (core_shape r) /\
      forall k, amplitude r k = radd (amplitude a k) (amplitude b k).
  Proof using Rth.
    intros a b Pa Pb D B [L C] Qa Qb. unfold add. rewrite D, Nat.eqb_refl. cbn [negb].
    assert (REFL : forall s, Forall2 le s s) by (intros s; apply le_all_F2; auto; apply le_all_refl).
    destruct (list_eqb (core_shape a) (core_shape b)) eqn:E.
    { apply list_eqb_eq in E. cbn [bind fst snd]. assert (SH : shape (arr a) = shape (arr b)) by (rewrite !shape_split; congruence).
      destruct (add_same_shape (arr a) (arr b) (bdims b) SH) as [s [Es [Ss Vs]]]. rewrite Es. cbn [bind]. eexists. split; [reflexivity|].
      split; [auto|]. split; [left; exact Ss|]. unfold core_shape. cbn [arr bdims]. rewrite Ss, D. fold (core_shape b). rewrite SH. fold (core_shape b).
      split; [apply REFL|]. split; [apply REFL|]. intros k. rewrite Vs. reflexivity. }
    assert (NE : core_shape a <> core_shape b) by (intros X; apply list_eqb_eq in X; congruence).
    assert (HALF : forall x y, proper x -> proper y -> bdims x = bdims y -> batch_shape x = batch_shape y -> length (core_shape x) = length (core_shape y) ->
              le_all (core_shape x) (core_shape y) = true -> exists x', reduce x (core_shape y) = Ok x' /\ shape (arr x') = shape (arr y) /\ forall k, amplitude x' k = amplitude x k).
    { intros x y Px Py Dxy Bxy Lxy Hxy. assert (Cx : comparable (core_shape y) (core_shape x)) by (split; [auto|right; apply le_all_F2; auto]).
      apply C32_defined in Cx. destruct Cx as [x' Ex]. exists x'. split; auto. destruct (C32_reduce x _ x' Px Ex) as [Px' [Bx' [Cx' [Dx' Vx']]]].
      split; [rewrite !shape_split; congruence|]. intros k. rewrite Vx'. destruct (inb k (batch_shape x ++ core_shape y)) eqn:I; auto.
      unfold amplitude. destruct (inb k (shape (arr x))) eqn:I2; auto. exfalso. rewrite shape_split in I2.
      assert (I3 : inb k (batch_shape x ++ core_shape y) = true); [|congruence]. eapply le_all_inb; [| |exact I2]; [rewrite !app_length; lia|].
      rewrite le_all_app. exact Hxy. }
    destruct C as [C|C].
    - apply le_all_F2 in C; auto. pose proof (le_all_prod_lt _ _ L C NE Qb) as LT. replace (prod (core_shape b) <? prod (core_shape a)) with false by (symmetry; apply Nat.ltb_ge; lia).
      destruct (HALF a b Pa Pb D B L C) as [a' [Ea [Sa Va]]]. rewrite Ea. cbn [bind fst snd].
      destruct (add_same_shape (arr a') (arr b) (bdims b) Sa) as [s [Es [Ss Vs]]]. rewrite Es. cbn [bind]. eexists. split; [reflexivity|].
      split; [auto|]. split; [right; rewrite <- Sa; exact Ss|]. assert (CS : core_shape (mkA s (bdims b)) = core_shape b) by (unfold core_shape; cbn [arr bdims]; now rewrite Ss, Sa). rewrite CS.
      split; [apply le_all_F2; auto|]. split; [apply REFL|]. intros k. rewrite <- Va. etransitivity; [apply Vs|]. reflexivity.
    - apply le_all_F2 in C; auto. assert (NE' : core_shape b <> core_shape a) by congruence. pose proof (le_all_prod_lt _ _ (eq_sym L) C NE' Qa) as LT.
      replace (prod (core_shape b) <? prod (core_shape a)) with true by (symmetry; apply Nat.ltb_lt; lia).
      destruct (HALF b a Pb Pa (eq_sym D) (eq_sym B) (eq_sym L) C) as [b' [Eb [Sb Vb]]]. rewrite Eb. cbn [bind fst snd].
      destruct (add_same_shape (arr a) (arr b') (bdims b) (eq_sym Sb)) as [s [Es [Ss Vs]]]. rewrite Es. cbn [bind]. eexists. split; [reflexivity|].
      split; [auto|]. split; [left; exact Ss|]. assert (CS : core_shape (mkA s (bdims b)) = core_shape a) by (unfold core_shape; cbn [arr bdims]; now rewrite Ss, D). rewrite CS.
      split; [apply REFL|]. split; [apply le_all_F2; auto|]. intros k. rewrite <- Vb. etransitivity; [apply Vs|]. reflexivity.
  Qed.
  Theorem C52_add_error : forall a b, ~ comparable (core_shape a) (core_shape b) -> add a b = Err ValueError.
  Proof using.
    intros a b H. unfold add. destruct (negb (bdims a =? bdims b)); auto. destruct (list_eqb (core_shape a) (core_shape b)) eqn:E.
    { apply list_eqb_eq in E. exfalso. apply H. rewrite E. split; auto. left. apply le_all_F2; auto. apply le_all_refl. }
    assert (H' : ~ comparable (core_shape b) (core_shape a)) by (intros [L [C|C]]; apply H; split; auto).
    destruct (prod (core_shape b) <? prod (core_shape a)).
    - now rewrite (C32_error b (core_shape a)).
    - now rewrite (C32_error a (core_shape b)).
  Qed.
  Corollary C52_add_comm : forall a b, proper a -> proper b -> bdims a = bdims b -> batch_shape a = batch_shape b ->
    comparable (core_shape a) (core_shape b) -> Forall (fun d => 0 < d) (core_shape a) -> Forall (fun d => 0 < d) (core_shape b) ->
    exists r r', add a b = Ok r /\ add b a = Ok r' /\ same r r'.
  Proof using Rth.
    intros a b Pa Pb D B C Qa Qb. assert (C' : comparable (core_shape b) (core_shape a)) by (destruct C as [L [C|C]]; split; auto).
    destruct (C52_add a b Pa Pb D B C Qa Qb) as [r [E [Dr [Sr [L1 [L2 V]]]]]].
    destruct (C52_add b a Pb Pa (eq_sym D) (eq_sym B) C' Qb Qa) as [r' [E' [Dr' [Sr' [L1' [L2' V']]]]]].
    exists r, r'. split; auto. split; auto. split; [|split; [congruence|intros k; rewrite V, V'; ring]].
    assert (BB : forall x y z, (shape (arr z) = shape (arr x) \/ shape (arr z) = shape (arr y)) -> bdims z = bdims x -> bdims x = bdims y -> batch_shape z = batch_shape x \/ batch_shape z = batch_shape y).
    { intros x y z [H|H] H1 H2; [left|right]; unfold batch_shape; rewrite H; congruence. }
    assert (BR : batch_shape r = batch_shape a) by (destruct (BB a b r Sr Dr D); congruence).
    assert (BR' : batch_shape r' = batch_shape a) by (destruct (BB b a r' Sr' Dr' (eq_sym D)); congruence).
    rewrite (shape_split r), (shape_split r'), BR, BR'. f_equal.
    assert (LL : length (core_shape r) = length (core_shape r')) by (apply Forall2_len in L1; apply Forall2_len in L2'; congruence).
    assert (WHICH : forall x y z, (shape (arr z) = shape (arr x) \/ shape (arr z) = shape (arr y)) -> bdims z = bdims x -> bdims x = bdims y -> core_shape z = core_shape x \/ core_shape z = core_shape y).
    { intros x y z [H|H] H1 H2; [left|right]; unfold core_shape; rewrite H; congruence. }
    apply le_all_antisym; auto; apply le_all_F2; auto.
    - destruct (WHICH a b r Sr Dr D) as [->| ->]; auto.
    - destruct (WHICH b a r' Sr' Dr' (eq_sym D)) as [->| ->]; auto.
  Qed.
  (** the docstring ("other will be reduced to the shape of self") does not hold *)
  Theorem C52_refuted_shape_of_self : forall x : R, let a := mkA (mkArray [1] (fun _ => x)) 0 in let b := mkA (mkArray [2] (fun _ => x)) 0 in
    exists r, add a b = Ok r /\ core_shape r <> core_shape a.
  Proof using. intros x. eexists. split; [reflexivity|]. discriminate. Qed.

  (** array_ansatz.py:380-388; [close] is numpy.allclose's elementwise test. Arrays with different numbers of core axes
      are not modelled *)
  Definition ansatz_eq (close : R -> R -> bool) (a b : ansatz) : bool :=
    if negb (list_eqb (batch_shape a) (batch_shape b)) then false
    else forallb (fun k => close (at_ (arr a) k) (at_ (arr b) k))
           (box (batch_shape a ++ map (fun p => Nat.min (fst p) (snd p)) (combine (core_shape a) (core_shape b)))).
  Lemma inb_min : forall s t k, length s = length t -> inb k (map (fun p => Nat.min (fst p) (snd p)) (combine s t)) = inb k s && inb k t.
  Proof using.
    induction s as [|x s IH]; intros [|y t] [|i k] L; simpl in *; try lia; auto. rewrite IH by lia.
    destruct (Nat.ltb_spec i (Nat.min x y)), (Nat.ltb_spec i x), (Nat.ltb_spec i y); try lia; simpl; auto; now rewrite ?andb_false_r.
  Qed.
  (** C52: == holds exactly when the batch shapes agree and the amplitudes present in both arrays agree *)
  Theorem C52_eq : forall close a b, proper a -> length (core_shape a) = length (core_shape b) ->
    (ansatz_eq close a b = true <-> batch_shape a = batch_shape b /\
      forall k, In k (box (shape (arr a))) -> In k (box (shape (arr b))) -> close (at_ (arr a) k) (at_ (arr b) k) = true).
  Proof using.
    clear rO rI radd rmul rsub ropp Rth. intros close a b P L. unfold ansatz_eq. destruct (list_eqb (batch_shape a) (batch_shape b)) eqn:E; cbn [negb].
    2: { split; [discriminate|]. intros [H _]. apply list_eqb_eq in H. congruence. }
    apply list_eqb_eq in E. rewrite forallb_forall.
    assert (K : forall k, In k (box (batch_shape a ++ map (fun p => Nat.min (fst p) (snd p)) (combine (core_shape a) (core_shape b)))) <-> In k (box (shape (arr a))) /\ In k (box (shape (arr b)))).
    { intros k. rewrite <- !inb_box, (shape_split a), (shape_split b), <- E.
      assert (LEN : forall t, inb k (batch_shape a ++ t) = true -> exists k1 k2, k = k1 ++ k2 /\ length k1 = length (batch_shape a)).
      { intros t H. apply inb_length in H. rewrite app_length in H. exists (firstn (length (batch_shape a)) k), (skipn (length (batch_shape a)) k).
        split; [symmetry; apply firstn_skipn|]. rewrite firstn_length. lia. }
      split; [intros H|intros [H H']]; (destruct (LEN _ H) as [k1 [k2 [-> L1]]]); rewrite !inb_app, ?andb_true_iff in * by assumption; rewrite inb_min, andb_true_iff in * by assumption; tauto. }
    split; [intros H; split; auto; intros k H1 H2; apply H, K; auto|intros [_ H] k Hk; apply K in Hk; now apply H].
  Qed.
  Corollary C52_eq_refl : forall close a, proper a -> (forall x, close x x = true) -> ansatz_eq close a a = true.
  Proof using. intros. apply C52_eq; auto. Qed.
  Corollary C52_eq_sym : forall close a b, proper a -> proper b -> (forall x y, close x y = close y x) -> length (core_shape a) = length (core_shape b) -> ansatz_eq close a b = ansatz_eq close b a.
  Proof using.
    intros close a b Pa Pb S L. apply eq_true_iff_eq. rewrite !C52_eq; auto. split; intros [H1 H2]; split; auto; intros k A B; rewrite S; auto.
  Qed.
  (** == is not transitive: a two-entry array equals its one-entry truncation *)
  Theorem C52_refuted_eq_trans : forall close (x y z : R), (forall u, close u u = true) -> close y z = false ->
    let a := mkA (mkArray [2] (fun k => match k with [0] => x | _ => y end)) 0 in
    let b := mkA (mkArray [1] (fun _ => x)) 0 in
    let c := mkA (mkArray [2] (fun k => match k with [0] => x | _ => z end)) 0 in
    ansatz_eq close a b = true /\ ansatz_eq close b c = true /\ ansatz_eq close a c = false.
  Proof using. intros close x y z H N. unfold ansatz_eq, batch_shape, core_shape. cbn. rewrite !H, N. repeat split; auto. Qed.

  (** numpy.reshape *)
  Definition reshape (A : array) (sh : list nat) : result array :=
    if prod sh =? prod (shape A) then Ok (mkArray sh (fun k => at_ A (unravel (shape A) (ravel sh k)))) else Err ValueError.
  (** numpy.reshape(array, (m, -1)): ValueError when the last size cannot be inferred *)
  Definition reshape_rows (A : array) (m : nat) : result array :=
    if m =? 0 then Err ValueError else if prod (shape A) mod m =? 0 then reshape A [m; prod (shape A) / m] else Err ValueError.
  (** array_ansatz.py:367-375 *)
  Definition and_ (a b : ansatz) : result ansatz :=
    if negb (list_eqb (batch_shape a) (batch_shape b)) then Err ValueError
    else let m := prod (batch_shape a) in
      bind (reshape_rows (arr a) m) (fun x => bind (reshape_rows (arr b) m) (fun y =>
      bind (reshape (Tensor.einsum rO radd rmul [0; 1] [0; 2] [0; 1; 2] x y) (batch_shape a ++ core_shape a ++ core_shape b)) (fun z =>
      Ok (mkA z (bdims a))))).
  (** C52: & is the tensor product, batch entry by batch entry *)
  Theorem C52_and : forall a b, proper a -> proper b -> batch_shape a = batch_shape b -> Forall (fun d => 0 < d) (batch_shape a) ->
    exists r, and_ a b = Ok r /\ batch_shape r = batch_shape a /\ core_shape r = core_shape a ++ core_shape b /\
      forall k i j, In k (box (batch_shape a)) -> In i (box (core_shape a)) -> In j (box (core_shape b)) ->
        at_ (arr r) (k ++ i ++ j) = rmul (at_ (arr a) (k ++ i)) (at_ (arr b) (k ++ j)).
  Proof using Rth.
    intros a b Pa Pb B Q. unfold and_. rewrite <- B. replace (list_eqb (batch_shape a) (batch_shape a)) with true by (symmetry; now apply list_eqb_eq). cbn [negb].
    pose proof (prod_pos _ Q) as MP. set (m := prod (batch_shape a)) in *. assert (SA := shape_split a). assert (SB := shape_split b). rewrite <- B in SB.
    set (p := prod (core_shape a)). set (q := prod (core_shape b)).
    assert (PA : prod (shape (arr a)) = m * p) by (rewrite SA, prod_app; reflexivity). assert (PB : prod (shape (arr b)) = m * q) by (rewrite SB, prod_app; reflexivity).
    assert (ROWS : forall A t, prod (shape A) = m * t -> reshape_rows A m = Ok (mkArray [m; t] (fun k => at_ A (unravel (shape A) (ravel [m; t] k))))).
    { intros A t E. unfold reshape_rows. replace (m =? 0) with false by (symmetry; apply Nat.eqb_neq; lia). rewrite E, Nat.mul_comm, Nat.mod_mul, Nat.eqb_refl by lia.
      unfold reshape. rewrite Nat.div_mul by lia. rewrite E. replace (prod [m; t] =? m * t) with true; [reflexivity|]. symmetry. apply Nat.eqb_eq. cbn. lia. }
    rewrite (ROWS (arr a) p PA), (ROWS (arr b) q PB). cbn [bind].
    unfold reshape at 1. match goal with |- context [if ?c then _ else _] => replace c with true end.
    2: { symmetry. apply Nat.eqb_eq. rewrite !prod_app. cbn. fold m p q. lia. }
    cbn [bind]. eexists. split; [reflexivity|]. pose proof (batch_len a Pa) as BL.
    match goal with |- context [mkArray (batch_shape a ++ ?t) ?f] => destruct (mk_split a t f Pa) as [_ [M2 M3]] end. split; [exact M2|]. split; [exact M3|]. clear M2 M3.
    intros k i j Hk Hi Hj. apply inb_box in Hk, Hi, Hj. cbn [arr at_ Tensor.einsum shape].
    pose proof (inb_length _ _ Hk) as Lk. pose proof (inb_length _ _ Hi) as Li. pose proof (inb_length _ _ Hj) as Lj.
    pose proof (ravel_lt _ _ Hk) as Rk. pose proof (ravel_lt _ _ Hi) as Ri. pose proof (ravel_lt _ _ Hj) as Rj. fold m in Rk. fold p in Ri. fold q in Rj.
    rewrite !ravel_app by assumption.
    assert (UN : unravel (map (label_dim [0; 1] [m; p] [0; 2] [m; q]) [0; 1; 2]) (ravel (batch_shape a) k * prod (core_shape a ++ core_shape b) + (ravel (core_shape a) i * prod (core_shape b) + ravel (core_shape b) j))
                 = [ravel (batch_shape a) k; ravel (core_shape a) i; ravel (core_shape b) j]).
    { cbn [map label_dim look Nat.eqb dim_of]. rewrite prod_app. fold p q.
      rewrite <- (unravel_ravel [m; p; q] [ravel (batch_shape a) k; ravel (core_shape a) i; ravel (core_shape b) j]).
      - f_equal. unfold ravel at 4. unfold prod. cbn [fold_right]. lia.
      - cbn [inb]. rewrite !andb_true_iff, !Nat.ltb_lt. auto. }
    rewrite UN. cbn [map summed filter nmem existsb Nat.eqb negb andb orb app box].
    rewrite (sum_single rO rI radd rmul rsub ropp Rth). cbn [env look Nat.eqb]. f_equal.
    - f_equal. rewrite SA. rewrite <- (unravel_ravel (batch_shape a ++ core_shape a) (k ++ i)) by (rewrite inb_app by assumption; now rewrite Hk, Hi).
      f_equal. rewrite ravel_app by assumption. cbn. fold p. lia.
    - f_equal. rewrite SB. rewrite <- (unravel_ravel (batch_shape a ++ core_shape b) (k ++ j)) by (rewrite inb_app by assumption; now rewrite Hk, Hj).
      f_equal. rewrite ravel_app by assumption. cbn. fold q. lia.
  Qed.

  (** numpy.transpose, with the check that the axes are a permutation *)
  Definition transposeR (order : list nat) (A : array) : result array :=
    if (length order =? length (shape A)) && forallb (fun q => nmem q order) (seq 0 (length (shape A)))
    then Ok (Tensor.transpose order A) else Err ValueError.
  (** Python slices of a tuple counted from the end: sh[-l:], sh[:-l], sh[-2*l:-l]. For l = 0 these are sh, () and () *)
  Definition last_dims (l : nat) (sh : list nat) : list nat := if l =? 0 then sh else skipn (length sh - l) sh.
  Definition but_last (l : nat) (sh : list nat) : list nat := if l =? 0 then [] else firstn (length sh - l) sh.
  Definition mid_dims (l : nat) (sh : list nat) : list nat := if l =? 0 then [] else firstn l (skipn (length sh - 2 * l) sh).
  (** array_ansatz.py:289-314; the traced axes are cut to the smaller of the two sizes *)
  Definition trace (a : ansatz) (z zc : list nat) : result ansatz :=
    if negb (length z =? length zc) || existsb (fun i => nmem i zc) z then Err ValueError
    else
      let B := bdims a in let C := length (core_shape a) in let l := length z in
      let rest := filter (fun i => negb (nmem i (z ++ zc))) (seq 0 C) in
      let order := seq 0 B ++ map (fun i => B + i) rest ++ map (fun i => B + i) z ++ map (fun i => B + i) zc in
      bind (transposeR order (arr a)) (fun T =>
      let mins := map (fun p => Nat.min (fst p) (snd p)) (combine (mid_dims l (shape T)) (last_dims l (shape T))) in
      let sh := if l =? 0 then shape T else but_last (2 * l) (shape T) ++ mins ++ mins in
      let n := prod (last_dims l sh) in
      bind (reshape (mkArray sh (at_ T)) (but_last (2 * l) sh ++ [n; n])) (fun M =>
      Ok (mkA (mkArray (but_last (2 * l) sh) (fun k => sum (seq 0 n) (fun i => at_ M (k ++ [i; i])))) (bdims a)))).

  (** ** specification of the partial trace *)
  (** photon numbers of the core axes 0..C-1 when the axes [rest] carry [kr] and the axes [z] and [zc] both carry [t] *)
  Definition place (C : nat) (rest z zc kr t : list nat) : list nat :=
    map (fun q => match look Nat.eqb rest kr q with Some v => v | None =>
                  match look Nat.eqb z t q with Some v => v | None =>
                  match look Nat.eqb zc t q with Some v => v | None => 0 end end end) (seq 0 C).
  Definition axis_dim (a : ansatz) (i : nat) : nat := nth i (core_shape a) 0.
  Definition other_axes (C : nat) (l : list nat) : list nat := filter (fun i => negb (nmem i l)) (seq 0 C).

  Lemma nmem_In : forall x l, nmem x l = true <-> In x l.
  Proof using. intros x l. unfold nmem. rewrite existsb_exists. split; [intros [y [H E]]; apply Nat.eqb_eq in E; now subst|intros H; exists x; split; auto; apply Nat.eqb_refl]. Qed.
  Lemma skipn_len_app : forall {X} (x y : list X) n, n = length x -> skipn n (x ++ y) = y.
  Proof using. intros X x y n ->. rewrite skipn_app, Nat.sub_diag, skipn_all. reflexivity. Qed.
  Lemma firstn_len_app : forall {X} (x y : list X) n, n = length x -> firstn n (x ++ y) = x.
  Proof using. intros X x y n ->. rewrite firstn_app, Nat.sub_diag, firstn_all. apply app_nil_r. Qed.
  Lemma look_seq : forall n kb q, length kb = n -> look Nat.eqb (seq 0 n) kb q = if q <? n then Some (nth q kb 0) else None.
  Proof using.
    intros n kb q L. destruct (Nat.ltb_spec q n).
    - assert (Q : nth q (seq 0 n) 0 = q) by (rewrite seq_nth by assumption; lia). rewrite <- Q at 1. apply (look_nth Nat.eqb Nat.eqb_eq); [apply seq_NoDup|now rewrite seq_length|now rewrite seq_length].
    - apply (look_notin Nat.eqb Nat.eqb_eq). rewrite in_seq. lia.
  Qed.
  Lemma map_nth_seq : forall (l : list nat), map (fun q => nth q l 0) (seq 0 (length l)) = l.
  Proof using. induction l as [|x l IH]; simpl; auto. f_equal. rewrite <- seq_shift, map_map. exact IH. Qed.
  Lemma combine_map2 : forall {X Y Z} (f : X -> Y) (g : Y -> Y -> Z) (x y : list X), map (fun p => g (fst p) (snd p)) (combine (map f x) (map f y)) = map (fun p => g (f (fst p)) (f (snd p))) (combine x y).
  Proof using. induction x as [|u x IH]; intros [|v y]; simpl; auto. now rewrite IH. Qed.

  (** trace sums the diagonal of the paired axes and keeps the other axes in order *)
  Theorem trace_correct : forall a z zc, proper a -> NoDup (z ++ zc) -> (forall i, In i (z ++ zc) -> i < length (core_shape a)) ->
    length z = length zc -> z <> [] ->
    let rest := other_axes (length (core_shape a)) (z ++ zc) in
    exists r, trace a z zc = Ok r /\ bdims r = bdims a /\ batch_shape r = batch_shape a /\ core_shape r = map (axis_dim a) rest /\ proper r /\
      forall kb kr, In kb (box (batch_shape a)) -> In kr (box (map (axis_dim a) rest)) ->
        at_ (arr r) (kb ++ kr) = sum (box (map (fun p => Nat.min (axis_dim a (fst p)) (axis_dim a (snd p))) (combine z zc)))
          (fun t => at_ (arr a) (kb ++ place (length (core_shape a)) rest z zc kr t)).
  Proof using Rth.
    intros a z zc P ND LT L NE rest. unfold trace.
    set (B := bdims a). set (C := length (core_shape a)) in *.
    assert (LP : length (shape (arr a)) = B + C). { rewrite shape_split, app_length, batch_len by assumption. reflexivity. }
    replace (negb (length z =? length zc) || existsb (fun i => nmem i zc) z) with false.
    2: { symmetry. apply orb_false_iff. split; [rewrite L, Nat.eqb_refl; reflexivity|].
         destruct (existsb (fun i => nmem i zc) z) eqn:E; auto. apply existsb_exists in E. destruct E as [i [I1 I2]]. apply nmem_In in I2. exfalso.
         eapply NoDup_app_disj; [exact ND|exact I1|exact I2]. }
    fold (other_axes C (z ++ zc)). fold rest. set (l := length z).
    assert (l <> 0) by (unfold l; destruct z; [congruence|simpl; lia]).
    set (order := seq 0 B ++ map (fun i => B + i) rest ++ map (fun i => B + i) z ++ map (fun i => B + i) zc).
    assert (PM : Permutation (rest ++ z ++ zc) (seq 0 C)).
    { apply NoDup_Permutation; [|apply seq_NoDup|].
      - apply NoDup_app_intro; auto; [apply NoDup_filter, seq_NoDup|]. intros x Hx Hx2. unfold rest, other_axes in Hx. apply filter_In in Hx.
        apply nmem_In in Hx2. rewrite Hx2 in Hx. destruct Hx. discriminate.
      - intros x. rewrite in_app_iff. unfold rest, other_axes. rewrite filter_In. split.
        + intros [[H1 _]|H1]; auto. apply in_seq. specialize (LT x H1). lia.
        + intros H1. destruct (nmem x (z ++ zc)) eqn:E; [right; now apply nmem_In|left; auto]. }
    assert (LR : length rest + (l + l) = C). { apply Permutation_length in PM. rewrite !app_length, seq_length in PM. fold l in PM. unfold l in *. lia. }
    assert (LO : length order = B + C). { unfold order. rewrite !app_length, !map_length, seq_length. unfold l in *. lia. }
    unfold transposeR. rewrite LO, LP, Nat.eqb_refl. cbn [andb].
    replace (forallb (fun q => nmem q order) (seq 0 (B + C))) with true.
    2: { symmetry. apply forallb_forall. intros q Hq. apply nmem_In. apply in_seq in Hq. unfold order. rewrite in_app_iff.
         destruct (Nat.lt_ge_cases q B); [left; apply in_seq; lia|right]. assert (HQ : In (q - B) (rest ++ z ++ zc)).
         { apply Permutation_sym in PM. apply (Permutation_in _ PM). apply in_seq. lia. }
         rewrite !in_app_iff in *. rewrite !in_map_iff. destruct HQ as [HQ|[HQ|HQ]]; [left|right; left|right; right]; exists (q - B); split; auto; lia. }
    cbn [bind Tensor.transpose shape at_].
    assert (DM : forall i, nth (B + i) (shape (arr a)) 0 = axis_dim a i).
    { intros i. unfold axis_dim. rewrite shape_split, app_nth2; rewrite batch_len by assumption; fold B; [|lia]. f_equal. lia. }
    assert (SH : map (fun p => nth p (shape (arr a)) 0) order = (batch_shape a ++ map (axis_dim a) rest) ++ map (axis_dim a) z ++ map (axis_dim a) zc).
    { unfold order. rewrite !map_app, !map_map, <- app_assoc. f_equal; [|f_equal; [|f_equal]]; try (apply map_ext; intros; apply DM).
      rewrite shape_split. transitivity (map (fun q => nth q (batch_shape a) 0) (seq 0 B)).
      - apply map_ext_in. intros q Hq. apply in_seq in Hq. apply app_nth1. rewrite batch_len by assumption. fold B. lia.
      - rewrite <- (batch_len a P : _ = B). apply map_nth_seq. }
    rewrite SH. set (pre := batch_shape a ++ map (axis_dim a) rest).
    assert (M1 : mid_dims l (pre ++ map (axis_dim a) z ++ map (axis_dim a) zc) = map (axis_dim a) z).
    { unfold mid_dims. replace (l =? 0) with false by (symmetry; now apply Nat.eqb_neq). rewrite skipn_len_app; [|rewrite !app_length, !map_length; unfold l in *; lia].
      apply firstn_len_app. now rewrite map_length. }
    assert (M2 : last_dims l (pre ++ map (axis_dim a) z ++ map (axis_dim a) zc) = map (axis_dim a) zc).
    { unfold last_dims. replace (l =? 0) with false by (symmetry; now apply Nat.eqb_neq). rewrite app_assoc. apply skipn_len_app. rewrite !app_length, !map_length. unfold l in *. lia. }
    rewrite M1, M2, combine_map2. set (mins := map (fun p => Nat.min (axis_dim a (fst p)) (axis_dim a (snd p))) (combine z zc)).
    assert (LM : length mins = l) by (unfold mins; rewrite map_length, combine_length; unfold l in *; lia).
    replace (l =? 0) with false by (symmetry; now apply Nat.eqb_neq).
    assert (BL1 : forall u v, length u = l -> length v = l -> but_last (2 * l) (pre ++ u ++ v) = pre).
    { intros u v Lu Lv. unfold but_last. replace (2 * l =? 0) with false by (symmetry; apply Nat.eqb_neq; lia). apply firstn_len_app. rewrite !app_length. lia. }
    rewrite BL1 by (rewrite map_length; unfold l in *; lia).
    assert (M3 : last_dims l (pre ++ mins ++ mins) = mins).
    { unfold last_dims. replace (l =? 0) with false by (symmetry; now apply Nat.eqb_neq). rewrite app_assoc. apply skipn_len_app. rewrite !app_length. lia. }
    rewrite M3, BL1 by assumption. set (n := prod mins). unfold reshape. cbn [shape at_].
    replace (prod (pre ++ [n; n]) =? prod (pre ++ mins ++ mins)) with true.
    2: { symmetry. apply Nat.eqb_eq. rewrite !prod_app. fold n. cbn. lia. }
    cbn [bind]. eexists. split; [reflexivity|]. split; [reflexivity|].
    match goal with |- context [mkArray pre ?f] => destruct (mk_split a (map (axis_dim a) rest) f P) as [M4 [M5 M6]] end. split; [exact M5|]. split; [exact M6|]. split; [exact M4|].
    clear M4 M5 M6. intros kb kr Hb Hr. cbn [arr at_]. unfold n at 1. rewrite <- (ravel_box mins), (sum_map rO radd).
    apply sum_ext. intros t Ht. apply inb_box in Hb, Hr, Ht.
    pose proof (inb_length _ _ Hb) as Lb. pose proof (inb_length _ _ Hr) as Lr. pose proof (inb_length _ _ Ht) as Ltt. rewrite map_length in Lr. rewrite batch_len in Lb by assumption.
    assert (IP : inb (kb ++ kr) pre = true) by (unfold pre; rewrite inb_app by (rewrite batch_len; assumption); now rewrite Hb, Hr).
    assert (LPp : length (kb ++ kr) = length pre) by (now apply inb_length).
    assert (RV : ravel (pre ++ [n; n]) ((kb ++ kr) ++ [ravel mins t; ravel mins t]) = ravel (pre ++ mins ++ mins) ((kb ++ kr) ++ t ++ t)).
    { rewrite !ravel_app, prod_app by assumption. fold n. cbn. lia. }
    rewrite RV, unravel_ravel by (rewrite !inb_app by assumption; now rewrite IP, Ht).
    f_equal. rewrite LP, seq_app, map_app. fold B in Lb. f_equal.
    - transitivity (map (fun q => nth q kb 0) (seq 0 B)); [|rewrite <- Lb; apply map_nth_seq]. apply map_ext_in. intros q Hq. apply in_seq in Hq. unfold order. rewrite <- app_assoc, look_app by (rewrite seq_length; auto).
      rewrite look_seq by assumption. replace (q <? B) with true by (symmetry; apply Nat.ltb_lt; lia). reflexivity.
    - unfold place. replace (seq (0 + B) C) with (map (fun q => B + q) (seq 0 C)).
      2: { clear. cbn [Nat.add]. generalize C. intros m. assert (Z : forall y, map (fun x => B + x) (seq y m) = seq (B + y) m).
           { induction m as [|m IH]; intros y; simpl; auto. f_equal. now rewrite IH, <- plus_n_Sm. } rewrite Z. now rewrite Nat.add_0_r. }
      rewrite map_map. apply map_ext. intros q. unfold order. rewrite <- app_assoc, look_app by (rewrite seq_length; auto).
      rewrite look_seq by assumption. replace (B + q <? B) with false by (symmetry; apply Nat.ltb_ge; lia).
      assert (SH2 : forall ks vs, look Nat.eqb (map (fun i => B + i) ks) vs (B + q) = look Nat.eqb ks vs q).
      { intros ks vs. apply (look_map_inj Nat.eqb Nat.eqb Nat.eqb_eq Nat.eqb_eq). intros; lia. }
      rewrite look_app by (rewrite map_length; auto). rewrite SH2. destruct (look Nat.eqb rest kr q); auto.
      rewrite look_app by (rewrite map_length; unfold l in *; lia). rewrite !SH2. destruct (look Nat.eqb z t q); auto.
  Qed.
  (** tracing nothing is not the identity: it raises for every array with at least two entries (the slices [-0:]) *)
  Theorem trace_nothing_raises : forall a, proper a -> 1 < prod (shape (arr a)) -> trace a [] [] = Err ValueError.
  Proof using.
    intros a P H. unfold trace. cbn [length Nat.eqb negb existsb orb app map Nat.mul Nat.add]. rewrite app_nil_r.
    assert (FS : forall C, filter (fun i => negb (nmem i [])) (seq 0 C) = seq 0 C). { intros C. generalize 0. induction C; intros x; simpl; auto. f_equal. auto. }
    rewrite FS. destruct (transposeR _ (arr a)) as [T|e] eqn:E.
    - cbn [bind]. unfold transposeR in E. destruct (_ && _); [|discriminate]. injection E as <-. cbn [shape last_dims but_last Nat.eqb app].
      unfold reshape. cbn [shape]. unfold last_dims. cbn [Nat.eqb].
      assert (SH : shape (Tensor.transpose (seq 0 (bdims a) ++ map (fun i => bdims a + i) (seq 0 (length (core_shape a)))) (arr a)) = shape (arr a)).
      { cbn [Tensor.transpose shape]. replace (seq 0 (bdims a) ++ map (fun i => bdims a + i) (seq 0 (length (core_shape a)))) with (seq 0 (length (shape (arr a)))).
        - apply map_nth_seq.
        - rewrite (shape_split a), app_length, (batch_len a P), seq_app. f_equal. cbn [Nat.add]. generalize (length (core_shape a)). intros m.
          assert (Z : forall y, map (fun x => bdims a + x) (seq y m) = seq (bdims a + y) m).
          { induction m as [|m IH]; intros y; simpl; auto. f_equal. now rewrite IH, <- plus_n_Sm. } rewrite Z. now rewrite Nat.add_0_r. }
      rewrite SH. replace (prod [prod (shape (arr a)); prod (shape (arr a))] =? prod (shape (arr a))) with false; [reflexivity|].
      symmetry. apply Nat.eqb_neq. unfold prod at 1. cbn [fold_right]. fold (prod (shape (arr a))). nia.
    - unfold transposeR in E. destruct (_ && _); [discriminate|]. injection E as <-. reflexivity.
  Qed.

  (** array_ansatz.py:272-274 *)
  Definition reorder (a : ansatz) (order : list nat) : result ansatz :=
    bind (transposeR (seq 0 (bdims a) ++ map (fun i => i + bdims a) order) (arr a)) (fun T => Ok (mkA T (bdims a))).
  (** array_ansatz.py:276-284 *)
  Definition reorder_batch (a : ansatz) (order : list nat) : result ansatz :=
    if negb (length order =? bdims a) then Err ValueError
    else bind (transposeR (order ++ seq (bdims a) (length (core_shape a))) (arr a)) (fun T => Ok (mkA T (bdims a))).
  (** C52: axis p of the reordered array is axis order[p] of the array *)
  Theorem C52_reorder : forall a order, proper a -> Permutation order (seq 0 (length (core_shape a))) ->
    exists r, reorder a order = Ok r /\ bdims r = bdims a /\ batch_shape r = batch_shape a /\ core_shape r = map (axis_dim a) order /\
      forall (kb : list nat) (photons : nat -> nat), length kb = bdims a ->
        at_ (arr r) (kb ++ map photons order) = at_ (arr a) (kb ++ map photons (seq 0 (length (core_shape a)))).
  Proof using.
    intros a order P PM. set (C := length (core_shape a)) in *. set (B := bdims a).
    assert (LP : length (shape (arr a)) = B + C). { rewrite shape_split, app_length, batch_len by assumption. reflexivity. }
    assert (LO : length order = C) by (apply Permutation_length in PM; now rewrite seq_length in PM).
    unfold reorder, transposeR. fold B. rewrite LP, app_length, seq_length, map_length, LO, Nat.eqb_refl. cbn [andb].
    replace (forallb (fun q => nmem q (seq 0 B ++ map (fun i => i + B) order)) (seq 0 (B + C))) with true.
    2: { symmetry. apply forallb_forall. intros q Hq. apply nmem_In. apply in_seq in Hq. rewrite in_app_iff.
         destruct (Nat.lt_ge_cases q B); [left; apply in_seq; lia|right]. apply in_map_iff. exists (q - B). split; [lia|].
         apply Permutation_sym in PM. apply (Permutation_in _ PM). apply in_seq. lia. }
    cbn [bind]. eexists. split; [reflexivity|]. split; [reflexivity|].
    assert (SH : shape (Tensor.transpose (seq 0 B ++ map (fun i => i + B) order) (arr a)) = batch_shape a ++ map (axis_dim a) order).
    { cbn [Tensor.transpose shape]. rewrite map_app, map_map. f_equal.
      - rewrite shape_split. transitivity (map (fun q => nth q (batch_shape a) 0) (seq 0 B)).
        + apply map_ext_in. intros q Hq. apply in_seq in Hq. apply app_nth1. rewrite batch_len by assumption. fold B. lia.
        + rewrite <- (batch_len a P : _ = B). apply map_nth_seq.
      - apply map_ext. intros i. unfold axis_dim. rewrite shape_split, app_nth2; rewrite batch_len by assumption; fold B; [|lia]. f_equal. lia. }
    split; [unfold batch_shape at 1; cbn [arr bdims]; rewrite SH; apply firstn_len_app; now rewrite batch_len|].
    split; [unfold core_shape at 1; cbn [arr bdims]; rewrite SH; apply skipn_len_app; now rewrite batch_len|].
    intros kb ph Lb. fold B in Lb. cbn [arr Tensor.transpose at_]. f_equal. rewrite LP, seq_app, map_app. f_equal.
    - transitivity (map (fun q => nth q kb 0) (seq 0 B)); [|rewrite <- Lb; apply map_nth_seq]. apply map_ext_in. intros q Hq. apply in_seq in Hq. rewrite look_app by (rewrite seq_length; auto).
      rewrite look_seq by assumption. now replace (q <? B) with true by (symmetry; apply Nat.ltb_lt; lia).
    - replace (seq (0 + B) C) with (map (fun q => q + B) (seq 0 C)).
      2: { clear. cbn [Nat.add]. generalize C. intros m. assert (Z : forall y, map (fun x => x + B) (seq y m) = seq (y + B) m).
           { induction m as [|m IH]; intros y; simpl; auto. f_equal. now rewrite IH. } now rewrite Z. }
      rewrite map_map. apply map_ext_in. intros q Hq. rewrite look_app by (rewrite seq_length; auto). rewrite look_seq by assumption.
      replace (q + B <? B) with false by (symmetry; apply Nat.ltb_ge; lia).
      rewrite (look_map_inj Nat.eqb Nat.eqb Nat.eqb_eq Nat.eqb_eq (fun i => i + B) order (map ph order) q) by (intros; lia). rewrite (look_map_val Nat.eqb Nat.eqb_eq); auto.
      apply Permutation_sym in PM. apply (Permutation_in _ PM Hq).
  Qed.
  (** C52: and the batch axes are permuted the same way, the core axes staying put *)
  Theorem C52_reorder_batch : forall a order, proper a -> Permutation order (seq 0 (bdims a)) ->
    exists r, reorder_batch a order = Ok r /\ bdims r = bdims a /\ core_shape r = core_shape a /\ batch_shape r = map (fun i => nth i (batch_shape a) 0) order /\
      forall (pos : nat -> nat) (k : list nat), length k = length (core_shape a) ->
        at_ (arr r) (map pos order ++ k) = at_ (arr a) (map pos (seq 0 (bdims a)) ++ k).
  Proof using.
    intros a order P PM. set (C := length (core_shape a)) in *. set (B := bdims a) in *.
    assert (LP : length (shape (arr a)) = B + C). { rewrite shape_split, app_length, batch_len by assumption. reflexivity. }
    assert (LO : length order = B) by (apply Permutation_length in PM; now rewrite seq_length in PM).
    assert (IO : forall i, In i order -> i < B). { intros i H. apply (Permutation_in _ PM) in H. apply in_seq in H. lia. }
    unfold reorder_batch, transposeR. fold B C. rewrite LP, app_length, seq_length, LO, !Nat.eqb_refl. cbn [andb negb].
    replace (forallb (fun q => nmem q (order ++ seq B C)) (seq 0 (B + C))) with true.
    2: { symmetry. apply forallb_forall. intros q Hq. apply nmem_In. apply in_seq in Hq. rewrite in_app_iff.
         destruct (Nat.lt_ge_cases q B); [left|right; apply in_seq; lia]. apply Permutation_sym in PM. apply (Permutation_in _ PM). apply in_seq. lia. }
    cbn [bind]. eexists. split; [reflexivity|]. split; [reflexivity|].
    assert (SH : shape (Tensor.transpose (order ++ seq B C) (arr a)) = map (fun i => nth i (batch_shape a) 0) order ++ core_shape a).
    { cbn [Tensor.transpose shape]. rewrite map_app. f_equal.
      - apply map_ext_in. intros q Hq. rewrite shape_split. apply app_nth1. rewrite batch_len by assumption. now apply IO.
      - rewrite shape_split. transitivity (map (fun q => nth q (core_shape a) 0) (seq 0 C)); [|apply map_nth_seq].
        replace (seq B C) with (map (fun q => q + B) (seq 0 C)).
        2: { clear. generalize C. intros m. assert (Z : forall y, map (fun x => x + B) (seq y m) = seq (y + B) m).
             { induction m as [|m IH]; intros y; simpl; auto. f_equal. now rewrite IH. } now rewrite Z. }
        rewrite map_map. apply map_ext. intros i. rewrite app_nth2; rewrite batch_len by assumption; fold B; [|lia]. f_equal. lia. }
    assert (LB : length (map (fun i => nth i (batch_shape a) 0) order) = B) by (now rewrite map_length).
    split; [unfold core_shape at 1; cbn [arr bdims]; rewrite SH; now apply skipn_len_app|].
    split; [unfold batch_shape at 1; cbn [arr bdims]; rewrite SH; now apply firstn_len_app|].
    intros pos k Lk. cbn [arr Tensor.transpose at_]. f_equal. rewrite LP, seq_app, map_app. f_equal.
    - apply map_ext_in. intros q Hq. rewrite look_app by (now rewrite map_length). rewrite (look_map_val Nat.eqb Nat.eqb_eq); auto.
      apply Permutation_sym in PM. apply (Permutation_in _ PM Hq).
    - cbn [Nat.add]. transitivity (map (fun q => nth q k 0) (seq 0 C)); [|rewrite <- Lk; apply map_nth_seq]. replace (seq B C) with (map (fun q => q + B) (seq 0 C)).
      2: { clear. generalize C. intros m. assert (Z : forall y, map (fun x => x + B) (seq y m) = seq (y + B) m).
           { induction m as [|m IH]; intros y; simpl; auto. f_equal. now rewrite IH. } now rewrite Z. }
      rewrite map_map. apply map_ext_in. intros q Hq. rewrite look_app by (now rewrite map_length).
      rewrite (look_notin Nat.eqb Nat.eqb_eq order) by (intros H; apply IO in H; lia).
      rewrite (look_map_inj Nat.eqb Nat.eqb Nat.eqb_eq Nat.eqb_eq (fun i => i + B) (seq 0 C) k q) by (intros; lia). apply in_seq in Hq.
      rewrite look_seq by assumption. now replace (q <? C) with true by (symmetry; apply Nat.ltb_lt; lia).
  Qed.
End Ops.

(** a concrete array: one batch axis of size 2, core shape (2, 3), entries 100 i + 10 j + k *)
Section Examples.
  Local Open Scope Z_scope.
  Definition exA : @ansatz Z := mkA (mkArray [2; 2; 3]%nat (fun k => match k with [i; j; l] => 100 * Z.of_nat i + 10 * Z.of_nat j + Z.of_nat l | _ => 0 end)) 1.
  Definition entries (r : result (@ansatz Z)) : list Z := match r with Ok a => map (at_ (arr a)) (box (shape (arr a))) | Err _ => [] end.
  Example C32_example : proper exA /\ entries (reduce 0 exA [1; 2]%nat) = [0; 1; 100; 101] /\
    entries (reduce 0 exA [2; 4]%nat) = [0; 1; 2; 0; 10; 11; 12; 0; 100; 101; 102; 0; 110; 111; 112; 0] /\ reduce 0 exA [1; 4]%nat = Err ValueError.
  Proof. repeat split. unfold proper. simpl. lia. Qed.
  Definition exB : @ansatz Z := mkA (mkArray [2; 1; 2]%nat (fun k => 1000)) 1.
  Example C52_example : entries (add 0 Z.add exA exB) = [1000; 1001; 2; 10; 11; 12; 1100; 1101; 102; 110; 111; 112] /\
    entries (add 0 Z.add exB exA) = entries (add 0 Z.add exA exB) /\
    entries (and_ 0 Z.add Z.mul exB exB) = [1000000; 1000000; 1000000; 1000000; 1000000; 1000000; 1000000; 1000000] /\
    entries (reorder exA [1; 0]%nat) = [0; 10; 1; 11; 2; 12; 100; 110; 101; 111; 102; 112] /\ ansatz_eq Z.eqb exA exA = true /\ ansatz_eq Z.eqb exA exB = false.
  Proof. vm_compute. repeat split. Qed.
End Examples.
