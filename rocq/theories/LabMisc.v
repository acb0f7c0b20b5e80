(** Density matrices in the Fock representation: partial trace (C15), phase noise (C14), photon-number distribution (C16).
    Model of mrmustard/lab/states/dm.py (__getitem__, probability), mrmustard/lab/circuit_components_utils/trace_out.py,
    mrmustard/lab/transformations/phasenoise.py, mrmustard/lab/states/base.py (fock_distribution).
    Mode labels are naturals. Entries are in an arbitrary commutative ring (exact arithmetic). *)
From Coq Require Import List Bool Arith Lia Permutation Sorted Ring_theory Ring ZArith.
Require Import Verif.Base Verif.Tensor Verif.ArrayOps.
Import ListNotations.

Definition keep (l : list nat) (m : nat) : bool := nmem m l.
(** the value of [f] at [m] unless [s] gives one *)
Definition over (f : nat -> nat) (s : nat -> option nat) (m : nat) : nat := match s m with Some v => v | None => f m end.

Section Lab.
  Context {R : Type} (rO rI : R) (radd rmul rsub : R -> R -> R) (ropp : R -> R).
  Hypothesis Rth : ring_theory rO rI radd rmul rsub ropp eq.
  Add Ring Rr3 : Rth.
  Notation sum := (Tensor.sum rO radd).
  Notation nsum := (Tensor.nsum rO radd Nat.eqb).
  Notation trace := (ArrayOps.trace rO radd).

  (** a density matrix in Fock representation: its modes and an array whose core axes are the bra axes of the modes, then the
      ket axes (wires.py:317-327, dm.py:140) *)
  Record dm := mkDM { ms : list nat; an : @ansatz R }.
  Definition wf (d : dm) : Prop := StronglySorted lt (ms d) /\ proper (an d) /\ length (core_shape (an d)) = 2 * length (ms d).
  (** ** specification *)
  (** the entry with photon numbers beta on the bra side and kappa on the ket side, batch position kb *)
  Definition entry (d : dm) (kb : list nat) (beta kappa : nat -> nat) : R :=
    at_ (arr (an d)) (kb ++ map beta (ms d) ++ map kappa (ms d)).
  (** Fock cutoffs of mode m *)
  Definition dim_bra (d : dm) (m : nat) : nat := match look Nat.eqb (ms d) (firstn (length (ms d)) (core_shape (an d))) m with Some v => v | None => 0 end.
  Definition dim_ket (d : dm) (m : nat) : nat := match look Nat.eqb (ms d) (skipn (length (ms d)) (core_shape (an d))) m with Some v => v | None => 0 end.
  Definition inside (d : dm) (beta kappa : nat -> nat) : Prop := forall m, In m (ms d) -> beta m < dim_bra d m /\ kappa m < dim_ket d m.
  (** sum of the diagonal over the modes L *)
  Definition diag_sum (d : dm) (L : list nat) (kb : list nat) (beta kappa : nat -> nat) : R :=
    nsum L (fun m => Nat.min (dim_bra d m) (dim_ket d m)) (fun s => entry d kb (over beta s) (over kappa s)).
  Definition traced (d : dm) (L : list nat) (r : dm) : Prop :=
    wf r /\ ms r = filter (fun m => negb (nmem m L)) (ms d) /\ batch_shape (an r) = batch_shape (an d) /\
    (forall m, In m (ms r) -> dim_bra r m = dim_bra d m /\ dim_ket r m = dim_ket d m) /\
    forall kb beta kappa, In kb (box (batch_shape (an d))) -> inside r beta kappa -> entry r kb beta kappa = diag_sum d L kb beta kappa.

  (** ** model *)
  (** dm.py:807-826 *)
  Definition getitem (d : dm) (idx : list nat) : result dm :=
    if negb (forallb (fun m => nmem m (ms d)) idx) then Err ValueError
    else
      let idxz := map fst (filter (fun im => negb (nmem (snd im) idx)) (combine (seq 0 (length (ms d))) (ms d))) in
      let idxz_conj := map (fun im => fst im + length (ms d)) (filter (fun im => negb (nmem (snd im) idx)) (combine (seq 0 (length (ms d))) (ms d))) in
      bind (trace (an d) idxz idxz_conj) (fun a => Ok (mkDM (filter (fun m => nmem m idx) (ms d)) a)).
  (** trace_out.py:104-111 for a density matrix that has all the traced modes: the axes are listed by iterating over the Python sets
      [self.wires.modes & bra.modes] and [self.wires.modes & ket.modes]. Python fixes no iteration order, and for modes whose
      hashes collide the two sets can be listed in different orders: [eb], [ek] are the two listings. *)
  Definition pos (d : dm) (m : nat) : nat := match look Nat.eqb (ms d) (seq 0 (length (ms d))) m with Some v => v | None => 0 end.
  Definition trace_out (eb ek : list nat) (d : dm) : result dm :=
    let idx_zconj := map (pos d) eb in
    let idx_z := map (fun m => length (ms d) + pos d m) ek in
    bind (trace (an d) idx_z idx_zconj) (fun a => Ok (mkDM (filter (fun m => negb (nmem m eb)) (ms d)) a)).
  (** dm.py:102-110, before taking the real part; rep.scalar is the entry at photon number 0 of the axes left (there are none) *)
  Definition probability (d : dm) (kb : list nat) : result R :=
    let n := length (ms d) in
    bind (trace (an d) (seq n n) (seq 0 n)) (fun a => Ok (at_ (arr a) kb)).

  (** ** lemmas *)
  Lemma SS_NoDup : forall l, StronglySorted lt l -> NoDup l.
  Proof using. induction 1; constructor; auto. intros C. rewrite Forall_forall in H0. specialize (H0 _ C). lia. Qed.
  Lemma SS_filter' : forall (p : nat -> bool) l, StronglySorted lt l -> StronglySorted lt (filter p l).
  Proof using.
    induction 1; simpl; [constructor|]. destruct (p a); auto. constructor; auto. rewrite Forall_forall in *. intros x Hx. apply filter_In in Hx. now apply H0.
  Qed.
  Lemma filter_pos : forall (p : nat -> bool) l, map fst (filter (fun im => p (snd im)) (combine (seq 0 (length l)) l)) = filter (fun i => p (nth i l 0)) (seq 0 (length l)).
  Proof using.
    intros p l. assert (G : forall l2 l1 , map fst (filter (fun im => p (snd im)) (combine (seq (length l1) (length l2)) l2)) = filter (fun i => p (nth i (l1 ++ l2) 0)) (seq (length l1) (length l2))).
    { induction l2 as [|x l2 IH]; intros l1; simpl; auto. rewrite app_nth2, Nat.sub_diag by lia. simpl. specialize (IH (l1 ++ [x])). rewrite app_length in IH. simpl in IH.
      rewrite <- app_assoc in IH. simpl in IH. rewrite Nat.add_1_r in IH. destruct (p x); simpl; now rewrite IH. }
    exact (G l []).
  Qed.
  Lemma filter_modes : forall (p : nat -> bool) l, map (fun i => nth i l 0) (filter (fun i => p (nth i l 0)) (seq 0 (length l))) = filter p l.
  Proof using.
    intros p l. transitivity (filter p (map (fun q => nth q l 0) (seq 0 (length l)))); [|now rewrite map_nth_seq]. generalize (seq 0 (length l)). induction l0 as [|x t IH]; simpl; auto. destruct (p (nth x l 0)); simpl; now rewrite IH.
  Qed.
  Lemma filter_app2 : forall (p : nat -> bool) n, filter p (seq 0 (2 * n)) = filter p (seq 0 n) ++ map (fun i => i + n) (filter (fun i => p (i + n)) (seq 0 n)).
  Proof using.
    intros p n. replace (2 * n) with (n + n) by lia. rewrite seq_app, filter_app. f_equal. cbn [Nat.add].
    replace (seq n n) with (map (fun i => i + n) (seq 0 n)).
    - generalize (seq 0 n). induction l as [|x t IH]; simpl; auto. destruct (p (x + n)); simpl; now rewrite IH.
    - assert (Z : forall m y, map (fun x => x + n) (seq y m) = seq (y + n) m) by (induction m as [|m IH]; intros y; simpl; auto; now rewrite IH). now rewrite Z.
  Qed.
  Lemma look_nth' : forall ks vs i, NoDup ks -> length ks = length vs -> i < length ks -> look Nat.eqb ks vs (nth i ks 0) = Some (nth i vs 0).
  Proof using. intros. now apply (look_nth Nat.eqb Nat.eqb_eq). Qed.
  Lemma look_map' : forall (f : nat -> nat) ks q, In q ks -> look Nat.eqb ks (map f ks) q = Some (f q).
  Proof using. intros. now apply (look_map_val Nat.eqb Nat.eqb_eq). Qed.
  Lemma look_None' : forall ks vs q, ~ In q ks -> look Nat.eqb ks vs q = None.
  Proof using. intros. now apply (look_notin Nat.eqb Nat.eqb_eq). Qed.

  Lemma pos_nth : forall d i, NoDup (ms d) -> i < length (ms d) -> pos d (nth i (ms d) 0) = i.
  Proof using. intros d i ND H. unfold pos. rewrite look_nth' by (auto; now rewrite seq_length). now rewrite seq_nth. Qed.
  Lemma pos_lt : forall d m, In m (ms d) -> NoDup (ms d) -> pos d m < length (ms d) /\ nth (pos d m) (ms d) 0 = m.
  Proof using. intros d m H ND. destruct (In_nth _ _ 0 H) as [i [Hi <-]]. rewrite pos_nth by assumption. auto. Qed.
  Lemma dim_bra_axis : forall d m, wf d -> In m (ms d) -> dim_bra d m = axis_dim (an d) (pos d m).
  Proof using.
    intros d m [S [P L]] H. apply SS_NoDup in S. destruct (In_nth _ _ 0 H) as [i [Hi <-]]. rewrite pos_nth by assumption. unfold dim_bra, axis_dim.
    rewrite look_nth' by (auto; rewrite firstn_length; lia). rewrite <- (firstn_skipn (length (ms d)) (core_shape (an d))) at 2. rewrite app_nth1; auto. rewrite firstn_length. lia.
  Qed.
  Lemma dim_ket_axis : forall d m, wf d -> In m (ms d) -> dim_ket d m = axis_dim (an d) (length (ms d) + pos d m).
  Proof using.
    intros d m [S [P L]] H. apply SS_NoDup in S. destruct (In_nth _ _ 0 H) as [i [Hi <-]]. rewrite pos_nth by assumption. unfold dim_ket, axis_dim.
    rewrite look_nth' by (auto; rewrite skipn_length; lia). rewrite <- (firstn_skipn (length (ms d)) (core_shape (an d))) at 2. rewrite app_nth2; rewrite firstn_length; [f_equal|]; lia.
  Qed.

  (** the common part: tracing the axes of the modes E (without repetition, in any order) *)
  Lemma trace_modes : forall d E z zc, wf d -> NoDup E -> incl E (ms d) -> E <> [] ->
    ((z = map (pos d) E /\ zc = map (fun m => length (ms d) + pos d m) E) \/ (zc = map (pos d) E /\ z = map (fun m => length (ms d) + pos d m) E)) ->
    exists a, trace (an d) z zc = Ok a /\ traced d E (mkDM (filter (fun m => negb (nmem m E)) (ms d)) a).
  Proof using Rth.
    intros d E z zc W ND I NE HZ. assert (W' := W). destruct W' as [S [P L]]. pose proof (SS_NoDup _ S) as NM. set (n := length (ms d)) in *.
    assert (PI : forall x y, In x E -> In y E -> pos d x = pos d y -> x = y).
    { intros x y Hx Hy Exy. destruct (pos_lt d x (I _ Hx) NM) as [_ <-]. destruct (pos_lt d y (I _ Hy) NM) as [_ <-]. now rewrite Exy. }
    assert (ND1 : NoDup (map (pos d) E)). { clear - ND PI. induction ND; simpl; constructor.
      - rewrite in_map_iff. intros [y [Hy1 Hy2]]. assert (y = x) by (apply PI; simpl; auto). congruence.
      - apply IHND. intros; apply PI; simpl; auto. }
    assert (ND2 : NoDup (map (fun m => n + pos d m) E)). { rewrite <- (map_map (pos d) (fun i => n + i)). apply FinFun.Injective_map_NoDup; auto. intros x y; lia. }
    assert (B1 : forall i, In i (map (pos d) E) -> i < n). { intros i Hi. apply in_map_iff in Hi. destruct Hi as [m [<- Hm]]. now apply pos_lt; [apply I|]. }
    assert (B2 : forall i, In i (map (fun m => n + pos d m) E) -> n <= i < 2 * n). { intros i Hi. apply in_map_iff in Hi. destruct Hi as [m [<- Hm]]. destruct (pos_lt d m (I _ Hm) NM). lia. }
    assert (NDz : NoDup (z ++ zc)).
    { destruct HZ as [[-> ->]|[-> ->]]; apply NoDup_app_intro; auto; intros x Hx Hy; [specialize (B1 x Hx); specialize (B2 x Hy)|specialize (B1 x Hy); specialize (B2 x Hx)]; lia. }
    assert (LTz : forall i, In i (z ++ zc) -> i < length (core_shape (an d))).
    { intros i Hi. rewrite L. rewrite in_app_iff in Hi. destruct HZ as [[-> ->]|[-> ->]]; destruct Hi as [Hi|Hi]; try (specialize (B1 i Hi); lia); specialize (B2 i Hi); lia. }
    assert (Lz : length z = length zc) by (destruct HZ as [[-> ->]|[-> ->]]; now rewrite !map_length).
    assert (NEz : z <> []) by (destruct HZ as [[-> ->]|[-> ->]]; destruct E; simpl; congruence).
    destruct (trace_correct rO rI radd rmul rsub ropp Rth (an d) z zc P NDz LTz Lz NEz) as [a [Ea [Da [Ba [Ca [Pa Va]]]]]].
    exists a. split; [exact Ea|]. rewrite L in *.
    (* the axes kept *)
    set (keepm := fun m => negb (nmem m E)).
    assert (MZ : forall i, i < n -> (nmem i (z ++ zc) = nmem (nth i (ms d) 0) E) /\ (nmem (i + n) (z ++ zc) = nmem (nth i (ms d) 0) E)).
    { intros i Hi. assert (G1 : In i (map (pos d) E) <-> In (nth i (ms d) 0) E).
      { rewrite in_map_iff. split; [intros [m [H1 H2]]; destruct (pos_lt d m (I _ H2) NM) as [_ H3]; rewrite H1 in H3; now rewrite H3|].
        intros H1. exists (nth i (ms d) 0). split; auto. now apply pos_nth. }
      assert (G2 : In (i + n) (map (fun m => n + pos d m) E) <-> In (nth i (ms d) 0) E).
      { rewrite in_map_iff. split; [intros [m [H1 H2]]; destruct (pos_lt d m (I _ H2) NM) as [_ H3]; replace (pos d m) with i in H3 by lia; now rewrite H3|].
        intros H1. exists (nth i (ms d) 0). split; auto. rewrite pos_nth by assumption. lia. }
      split; apply eq_true_iff_eq; rewrite !nmem_In, in_app_iff.
      - destruct HZ as [[-> ->]|[-> ->]]; rewrite <- G1; split; [intros [H|H]; auto; specialize (B2 i H); lia|auto|intros [H|H]; auto; specialize (B2 i H); lia|auto].
      - destruct HZ as [[-> ->]|[-> ->]]; rewrite <- G2; split; [intros [H|H]; auto; specialize (B1 _ H); lia|auto|intros [H|H]; auto; specialize (B1 _ H); lia|auto]. }
    set (K := filter (fun i => keepm (nth i (ms d) 0)) (seq 0 n)).
    assert (RE : other_axes (2 * n) (z ++ zc) = K ++ map (fun i => i + n) K).
    { unfold other_axes. rewrite filter_app2. unfold K, keepm. f_equal; [|f_equal]; apply filter_ext_in; intros i Hi; apply in_seq in Hi; assert (Hin : i < n) by lia; destruct (MZ i Hin) as [H1 H2]; [now rewrite H1|now rewrite H2]. }
    rewrite RE in *.
    assert (MK : map (fun i => nth i (ms d) 0) K = filter keepm (ms d)) by (unfold K, n; apply filter_modes).
    assert (KI : forall i, In i K -> i < n /\ In (nth i (ms d) 0) (ms d) /\ nmem (nth i (ms d) 0) E = false).
    { intros i Hi. unfold K in Hi. apply filter_In in Hi. destruct Hi as [H1 H2]. apply in_seq in H1. split; [lia|]. split; [apply nth_In; fold n; lia|]. unfold keepm in H2. now apply negb_true_iff. }
    assert (NK : NoDup K) by (apply NoDup_filter, seq_NoDup).
    set (r := mkDM (filter keepm (ms d)) a).
    assert (LK : length (filter keepm (ms d)) = length K) by (rewrite <- MK; apply map_length).
    assert (Wr : wf r). { split; [apply SS_filter'; exact S|]. split; [exact Pa|]. unfold r. cbn [an ms]. rewrite Ca, map_length, app_length, map_length, LK. lia. }
    assert (DR : forall m, In m (ms r) -> dim_bra r m = dim_bra d m /\ dim_ket r m = dim_ket d m).
    { intros m Hm. unfold dim_bra at 1, dim_ket at 1. unfold r in *. cbn [ms an] in *. rewrite Ca, map_app, map_map.
      rewrite firstn_len_app by (now rewrite map_length, LK). rewrite skipn_len_app by (now rewrite map_length, LK).
      rewrite <- MK. rewrite <- MK in Hm. apply in_map_iff in Hm. destruct Hm as [i [<- Hi]]. destruct (KI i Hi) as [H1 [H2 H3]].
      assert (INJ : forall y, In y K -> nth i (ms d) 0 = nth y (ms d) 0 -> i = y).
      { intros y Hy Q. destruct (KI y Hy) as [Y1 _]. apply (proj1 (NoDup_nth (ms d) 0) NM); auto. }
      rewrite !(look_map_inj Nat.eqb Nat.eqb Nat.eqb_eq Nat.eqb_eq (fun i => nth i (ms d) 0) K _ i) by exact INJ.
      rewrite !look_map' by assumption. rewrite dim_bra_axis, dim_ket_axis by assumption. rewrite pos_nth by assumption. fold n. split; [reflexivity|f_equal; lia]. }
    split; [exact Wr|]. split; [reflexivity|]. split; [exact Ba|]. split; [exact DR|].
    intros kb beta kappa Hb IN. unfold entry at 1. unfold r at 1 2 3. cbn [ms an].
    (* the value carried by each kept axis *)
    set (f := fun q => if q <? n then beta (nth q (ms d) 0) else kappa (nth (q - n) (ms d) 0)).
    assert (KR : map beta (filter keepm (ms d)) ++ map kappa (filter keepm (ms d)) = map f (K ++ map (fun i => i + n) K)).
    { rewrite <- MK, map_app, !map_map. f_equal; apply map_ext_in; intros i Hi; destruct (KI i Hi) as [H1 _]; unfold f.
      - now replace (i <? n) with true by (symmetry; apply Nat.ltb_lt; lia).
      - replace (i + n <? n) with false by (symmetry; apply Nat.ltb_ge; lia). now replace (i + n - n) with i by lia. }
    rewrite KR. rewrite Va; auto.
    2: { apply inb_box. rewrite <- KR. rewrite map_app, map_map, inb_app by (now rewrite !map_length, LK).
         rewrite <- MK, !map_map. apply andb_true_iff.
         split; apply inb_box, in_box; (assert (GF : forall (g h : nat -> nat) l, (forall i, In i l -> g i < h i) -> Forall2 lt (map g l) (map h l)) by (intros g h; induction l; simpl; intros; constructor; auto; apply IHl; auto));
           apply GF; intros i Hi; destruct (KI i Hi) as [H1 [H2 H3]].
         - assert (Hm : In (nth i (ms d) 0) (ms r)) by (unfold r; cbn [ms]; rewrite <- MK; apply in_map_iff; eauto).
           destruct (IN _ Hm) as [Q _]. destruct (DR _ Hm) as [Q2 _]. rewrite Q2, dim_bra_axis in Q by assumption. now rewrite pos_nth in Q by assumption.
         - assert (Hm : In (nth i (ms d) 0) (ms r)) by (unfold r; cbn [ms]; rewrite <- MK; apply in_map_iff; eauto).
           destruct (IN _ Hm) as [_ Q]. destruct (DR _ Hm) as [_ Q2]. rewrite Q2, dim_ket_axis in Q by assumption. rewrite pos_nth in Q by assumption. now rewrite Nat.add_comm. }
    unfold diag_sum, Tensor.nsum.
    assert (DIMS : map (fun p => Nat.min (axis_dim (an d) (fst p)) (axis_dim (an d) (snd p))) (combine z zc) = map (fun m => Nat.min (dim_bra d m) (dim_ket d m)) E).
    { assert (CM : forall (g h : nat -> nat) l, combine (map g l) (map h l) = map (fun x => (g x, h x)) l) by (intros g h; induction l; simpl; congruence).
      destruct HZ as [[-> ->]|[-> ->]]; rewrite CM, map_map; apply map_ext_in; intros m Hm; cbn [fst snd]; rewrite dim_bra_axis, dim_ket_axis by auto; fold n; lia. }
    rewrite DIMS. apply sum_ext. intros t Ht. apply box_length_in in Ht. rewrite map_length in Ht. unfold entry. f_equal. f_equal.
    unfold place. replace (seq 0 (2 * n)) with (seq 0 n ++ map (fun i => i + n) (seq 0 n)).
    2: { replace (2 * n) with (n + n) by lia. rewrite seq_app. f_equal. cbn [Nat.add]. assert (Z : forall m y, map (fun x => x + n) (seq y m) = seq (y + n) m) by (induction m as [|m IH]; intros y; simpl; auto; now rewrite IH). now rewrite Z. }
    rewrite map_app, map_map.
    assert (VAL : forall q, q < n ->
      (match look Nat.eqb (K ++ map (fun i => i + n) K) (map f (K ++ map (fun i => i + n) K)) q with Some v => v | None =>
         match look Nat.eqb z t q with Some v => v | None => match look Nat.eqb zc t q with Some v => v | None => 0 end end end) = over beta (look Nat.eqb E t) (nth q (ms d) 0) /\
      (match look Nat.eqb (K ++ map (fun i => i + n) K) (map f (K ++ map (fun i => i + n) K)) (q + n) with Some v => v | None =>
         match look Nat.eqb z t (q + n) with Some v => v | None => match look Nat.eqb zc t (q + n) with Some v => v | None => 0 end end end) = over kappa (look Nat.eqb E t) (nth q (ms d) 0)).
    { intros q Hq. set (m := nth q (ms d) 0). assert (Hm : In m (ms d)) by (apply nth_In; exact Hq).
      assert (LE : forall c, In c E -> look Nat.eqb (map (pos d) E) t (pos d c) = look Nat.eqb E t c).
      { intros c Hc. apply (look_map_inj Nat.eqb Nat.eqb Nat.eqb_eq Nat.eqb_eq). intros y Hy. apply PI; auto. }
      assert (LE2 : forall c, In c E -> look Nat.eqb (map (fun m => n + pos d m) E) t (n + pos d c) = look Nat.eqb E t c).
      { intros c Hc. apply (look_map_inj Nat.eqb Nat.eqb Nat.eqb_eq Nat.eqb_eq (fun m => n + pos d m)). intros y Hy Q. apply PI; auto. lia. }
      assert (PQ : pos d m = q) by (apply pos_nth; auto).
      destruct (nmem m E) eqn:EM.
      - assert (HE : In m E) by (now apply nmem_In).
        assert (NI : ~ In q (K ++ map (fun i => i + n) K)). { rewrite in_app_iff, in_map_iff. intros [H|[i [H1 H2]]]; [destruct (KI q H) as [_ [_ H3]]; fold m in H3; congruence|lia]. }
        assert (NI2 : ~ In (q + n) (K ++ map (fun i => i + n) K)).
        { rewrite in_app_iff, in_map_iff. intros [H|[i [H1 H2]]]; [destruct (KI _ H); lia|]. assert (i = q) by lia. subst i. destruct (KI q H2) as [_ [_ H3]]. fold m in H3. congruence. }
        rewrite (look_None' _ _ q NI), (look_None' _ _ (q + n) NI2). unfold over.
        assert (SOME : exists v, look Nat.eqb E t m = Some v). { destruct (In_nth _ _ 0 HE) as [j [Hj1 Hj2]]. exists (nth j t 0). rewrite <- Hj2. apply look_nth'; auto. }
        destruct SOME as [v Sv]. rewrite Sv.
        assert (A1 : look Nat.eqb (map (pos d) E) t q = Some v) by (rewrite <- PQ, LE; auto).
        assert (A2 : look Nat.eqb (map (fun m => n + pos d m) E) t (q + n) = Some v) by (replace (q + n) with (n + pos d m) by lia; rewrite LE2; auto).
        assert (A3 : look Nat.eqb (map (fun m => n + pos d m) E) t q = None) by (apply look_None'; intros H; specialize (B2 _ H); lia).
        assert (A4 : look Nat.eqb (map (pos d) E) t (q + n) = None) by (apply look_None'; intros H; specialize (B1 _ H); lia).
        destruct HZ as [[-> ->]|[-> ->]]; rewrite ?A1, ?A2, ?A3, ?A4; auto.
      - assert (HK : In q K) by (unfold K; apply filter_In; split; [apply in_seq; lia|]; unfold keepm; fold m; now rewrite EM).
        rewrite look_map' by (apply in_or_app; auto). rewrite look_map' by (apply in_or_app; right; apply in_map_iff; eauto).
        assert (NE' : look Nat.eqb E t m = None) by (apply look_None'; intros H; apply nmem_In in H; congruence).
        unfold over. rewrite NE'. unfold f. replace (q <? n) with true by (symmetry; apply Nat.ltb_lt; lia). replace (q + n <? n) with false by (symmetry; apply Nat.ltb_ge; lia).
        replace (q + n - n) with q by lia. auto. }
    transitivity (map (over beta (look Nat.eqb E t)) (map (fun q => nth q (ms d) 0) (seq 0 n)) ++ map (over kappa (look Nat.eqb E t)) (map (fun q => nth q (ms d) 0) (seq 0 n))).
    2: { unfold n. now rewrite map_nth_seq. }
    rewrite !map_map. f_equal; apply map_ext_in; intros q Hq; apply in_seq in Hq; assert (Hqn : q < n) by lia; destruct (VAL q Hqn) as [V1 V2]; auto.
  Qed.

  (** ** C15 *)
  Lemma over_ext : forall f s t l, (forall x, s x = t x) -> map (over f s) l = map (over f t) l.
  Proof using. intros f s t l H. apply map_ext. intros m. unfold over. now rewrite H. Qed.
  Lemma entry_ext : forall d kb beta kappa, ext (fun s => entry d kb (over beta s) (over kappa s)).
  Proof using. intros d kb beta kappa s t H. unfold entry. now rewrite (over_ext beta s t), (over_ext kappa s t). Qed.
  Lemma nth_map_in : forall (f : nat -> nat) l j, j < length l -> nth j (map f l) 0 = f (nth j l 0).
  Proof using. intros f. induction l as [|x l IH]; intros [|j] H; simpl in *; try lia; auto. apply IH. lia. Qed.
  Lemma traced_perm : forall d L L' r, NoDup L -> Permutation L L' -> traced d L r -> traced d L' r.
  Proof using Rth.
    intros d L L' r ND PM [W [M [B [D V]]]]. split; auto. split; [|split; [auto|split; [auto|]]].
    - rewrite M. apply filter_ext. intros m. f_equal. apply eq_true_iff_eq. rewrite !nmem_In. split; intros H; [now apply (Permutation_in _ PM)|apply Permutation_sym in PM; now apply (Permutation_in _ PM)].
    - intros kb beta kappa Hb IN. rewrite V by assumption. unfold diag_sum. apply (nsum_perm rO rI radd rmul rsub ropp Rth Nat.eqb Nat.eqb_eq); auto. apply entry_ext.
  Qed.

  (** rho[idx] keeps the modes idx and sums the diagonal of the others *)
  Theorem C15_getitem : forall d idx, wf d -> incl idx (ms d) -> (exists m, In m (ms d) /\ ~ In m idx) ->
    exists r, getitem d idx = Ok r /\ (forall m, In m (ms r) <-> In m idx) /\ traced d (filter (fun m => negb (nmem m idx)) (ms d)) r.
  Proof using Rth.
    intros d idx W I [m0 [M1 M2]]. assert (NM : NoDup (ms d)) by (apply SS_NoDup, W). unfold getitem.
    replace (forallb (fun m => nmem m (ms d)) idx) with true by (symmetry; apply forallb_forall; intros m H; apply nmem_In; auto). cbn [negb].
    set (E := filter (fun m => negb (nmem m idx)) (ms d)).
    set (n := length (ms d)).
    assert (Q : forall i, In i (filter (fun i => negb (nmem (nth i (ms d) 0) idx)) (seq 0 n)) -> i < n) by (intros i H; apply filter_In in H; destruct H as [H _]; apply in_seq in H; lia).
    assert (Z1 : map fst (filter (fun im => negb (nmem (snd im) idx)) (combine (seq 0 n) (ms d))) = map (pos d) E).
    { unfold n. rewrite (filter_pos (fun m => negb (nmem m idx))). unfold E. rewrite <- (filter_modes (fun m => negb (nmem m idx)) (ms d)), map_map.
      rewrite <- (map_id (filter _ _)) at 1. apply map_ext_in. intros i Hi. symmetry. apply pos_nth; auto. }
    assert (Z2 : map (fun im => fst im + n) (filter (fun im => negb (nmem (snd im) idx)) (combine (seq 0 n) (ms d))) = map (fun m => n + pos d m) E).
    { rewrite <- (map_map fst (fun i => i + n)), Z1, map_map. apply map_ext. intros; lia. }
    rewrite Z1, Z2. assert (ME : forall m, nmem m E = nmem m (ms d) && negb (nmem m idx)).
    { intros m. apply eq_true_iff_eq. rewrite andb_true_iff, !nmem_In. unfold E. now rewrite filter_In. }
    assert (FE : filter (fun m => negb (nmem m E)) (ms d) = filter (fun m => nmem m idx) (ms d)).
    { apply filter_ext_in. intros m H. rewrite ME. apply nmem_In in H. rewrite H. cbn [andb]. now rewrite negb_involutive. }
    destruct (trace_modes d E (map (pos d) E) (map (fun m => n + pos d m) E) W) as [a [Ea Ta]].
    - now apply NoDup_filter.
    - intros m H. unfold E in H. now apply filter_In in H.
    - intros C. assert (H : In m0 E); [|rewrite C in H; destruct H]. unfold E. apply filter_In. split; auto. apply negb_true_iff. destruct (nmem m0 idx) eqn:N; auto. apply nmem_In in N. contradiction.
    - left. auto.
    - rewrite Ea. cbn [bind]. eexists. split; [reflexivity|]. rewrite <- FE. split; [|exact Ta]. cbn [ms]. rewrite FE. intros m. rewrite filter_In, nmem_In. split; [tauto|]. intros H. split; auto.
  Qed.
  Theorem C15_getitem_error : forall d idx m, In m idx -> ~ In m (ms d) -> getitem d idx = Err ValueError.
  Proof using.
    intros d idx m H N. unfold getitem. replace (forallb (fun m => nmem m (ms d)) idx) with false; auto. symmetry. apply not_true_iff_false. intros F.
    rewrite forallb_forall in F. apply F, nmem_In in H. contradiction.
  Qed.
  (** asking for all the modes of a density matrix raises instead of returning it *)
  Theorem C15_refuted_keep_all : forall d, wf d -> 1 < prod (shape (arr (an d))) -> getitem d (ms d) = Err ValueError.
  Proof using.
    intros d W H. unfold getitem. replace (forallb (fun m => nmem m (ms d)) (ms d)) with true by (symmetry; apply forallb_forall; intros m Hm; now apply nmem_In). cbn [negb].
    assert (FN : filter (fun im : nat * nat => negb (nmem (snd im) (ms d))) (combine (seq 0 (length (ms d))) (ms d)) = []).
    { destruct (filter _ _) as [|x t] eqn:E; auto. assert (Hx : In x (x :: t)) by (now left). rewrite <- E in Hx. apply filter_In in Hx. destruct Hx as [H1 H2].
      destruct x as [i m]. apply in_combine_r in H1. apply nmem_In in H1. simpl in H2. now rewrite H1 in H2. }
    rewrite FN. cbn [map]. now rewrite trace_nothing_raises by (auto; apply W).
  Qed.
  (** rho >> TraceOut(e), when the two sets are listed in the same order *)
  Theorem C15_trace_out_same_order : forall d e, wf d -> NoDup e -> incl e (ms d) -> e <> [] ->
    exists r, trace_out e e d = Ok r /\ traced d e r.
  Proof using Rth.
    intros d e W ND I NE. unfold trace_out. destruct (trace_modes d e (map (fun m => length (ms d) + pos d m) e) (map (pos d) e) W ND I NE) as [a [Ea Ta]]; auto.
    rewrite Ea. cbn [bind]. eauto.
  Qed.
  (** tracing modes in two steps is tracing them at once *)
  Theorem C15_two_steps : forall d L1 L2 r1 r2, wf d -> NoDup (L1 ++ L2) -> incl (L1 ++ L2) (ms d) -> traced d L1 r1 -> traced r1 L2 r2 -> traced d (L1 ++ L2) r2.
  Proof using Rth.
    intros d L1 L2 r1 r2 W ND I [W1 [M1 [B1 [D1 V1]]]] [W2 [M2 [B2 [D2 V2]]]].
    assert (IN2 : forall m, In m (ms r2) -> In m (ms r1)) by (intros m H; rewrite M2 in H; now apply filter_In in H).
    split; auto. split; [|split; [congruence|split]].
    - rewrite M2, M1. clear. induction (ms d) as [|m l IH]; simpl; auto. assert (NA : nmem m (L1 ++ L2) = nmem m L1 || nmem m L2) by (unfold nmem; apply existsb_app). rewrite NA.
      destruct (nmem m L1); simpl; auto. destruct (nmem m L2); simpl; now rewrite IH.
    - intros m H. destruct (D2 m H) as [-> ->]. apply D1; auto.
    - intros kb beta kappa Hb IN. rewrite V2 by (auto; congruence). unfold diag_sum.
      assert (L2in : forall m, In m L2 -> In m (ms r1)).
      { intros m H. rewrite M1. apply filter_In. split; [apply I, in_or_app; auto|]. apply negb_true_iff. destruct (nmem m L1) eqn:E; auto. apply nmem_In in E. exfalso. eapply NoDup_app_disj; eauto. }
      rewrite (nsum_perm rO rI radd rmul rsub ropp Rth Nat.eqb Nat.eqb_eq (L1 ++ L2) (L2 ++ L1)); [|auto|apply entry_ext|apply Permutation_app_comm].
      rewrite (nsum_app rO rI radd rmul rsub ropp Rth Nat.eqb) by apply entry_ext.
      rewrite (nsum_dim rO radd Nat.eqb L2 (fun m => Nat.min (dim_bra r1 m) (dim_ket r1 m)) (fun m => Nat.min (dim_bra d m) (dim_ket d m))) by (intros m H; destruct (D1 m (L2in m H)) as [-> ->]; auto).
      unfold Tensor.nsum at 1 2. apply sum_ext. intros i2 H2. pose proof (box_length_in _ _ H2) as LI2. rewrite map_length in LI2.
      rewrite V1; auto.
      + unfold diag_sum, Tensor.nsum. apply sum_ext. intros i1 H1.
        assert (OV : forall f l, map (over (over f (look Nat.eqb L2 i2)) (look Nat.eqb L1 i1)) l = map (over f (orelse (look Nat.eqb L2 i2) (look Nat.eqb L1 i1))) l).
        { intros f l. apply map_ext. intros m. unfold over, orelse. destruct (look Nat.eqb L2 i2 m) eqn:E2.
          - apply (look_some_in Nat.eqb Nat.eqb_eq) in E2. rewrite (look_None' L1); auto. intros H. eapply NoDup_app_disj; eauto.
          - destruct (look Nat.eqb L1 i1 m); auto. }
        unfold entry. now rewrite !OV.
      + intros m Hm. apply in_box in H2. unfold over. destruct (look Nat.eqb L2 i2 m) eqn:E2.
        * assert (ML : In m L2) by (now apply (look_some_in Nat.eqb Nat.eqb_eq) in E2). destruct (In_nth _ _ 0 ML) as [j [Hj1 Hj2]].
          rewrite <- Hj2, look_nth' in E2 by (auto; eapply NoDup_app_r; eauto). injection E2 as <-.
          assert (Q : nth j i2 0 < nth j (map (fun m => Nat.min (dim_bra d m) (dim_ket d m)) L2) 0).
          { clear - H2 Hj1 LI2. assert (G : forall a b, Forall2 lt a b -> forall j, j < length a -> nth j a 0 < nth j b 0) by (induction 1; intros [|j'] Hj; simpl in *; try lia; apply IHForall2; lia). apply G; auto. lia. }
          rewrite nth_map_in, Hj2 in Q by assumption.
          destruct (D1 m Hm) as [-> ->]. lia.
        * assert (Hm2 : In m (ms r2)). { rewrite M2. apply filter_In. split; auto. apply negb_true_iff. destruct (nmem m L2) eqn:N; auto. apply nmem_In in N. exfalso.
            destruct (In_nth _ _ 0 N) as [j [Hj1 Hj2]]. rewrite <- Hj2, look_nth' in E2 by (auto; eapply NoDup_app_r; eauto). discriminate. }
          destruct (IN m Hm2) as [Q1 Q2]. destruct (D2 m Hm2) as [Q3 Q4]. lia.
  Qed.
  (** two density matrices obtained by tracing the same modes have the same entries *)
  Theorem C15_unique : forall d L r r', traced d L r -> traced d L r' -> ms r = ms r' /\
    forall kb beta kappa, In kb (box (batch_shape (an d))) -> inside r beta kappa -> entry r kb beta kappa = entry r' kb beta kappa.
  Proof using.
    intros d L r r' [W [M [B [D V]]]] [W' [M' [B' [D' V']]]]. split; [congruence|]. intros kb beta kappa Hb IN. rewrite V, V'; auto.
    intros m Hm. assert (Hm2 : In m (ms r)) by congruence. destruct (D' m Hm) as [-> ->]. destruct (IN m Hm2). destruct (D m Hm2). lia.
  Qed.
  (** tracing every mode gives the probability *)
  Theorem C15_probability : forall d kb, wf d -> ms d <> [] -> In kb (box (batch_shape (an d))) ->
    exists p, probability d kb = Ok p /\ (forall beta kappa, p = diag_sum d (ms d) kb beta kappa) /\
      forall r beta kappa, traced d (ms d) r -> entry r kb beta kappa = p.
  Proof using Rth.
    intros d kb W NE Hb. assert (NM : NoDup (ms d)) by (apply SS_NoDup, W). unfold probability.
    assert (E1 : map (pos d) (ms d) = seq 0 (length (ms d))).
    { rewrite <- (map_nth_seq (ms d)) at 1. rewrite map_map. rewrite <- (map_id (seq 0 _)) at 2. apply map_ext_in. intros q Hq. apply in_seq in Hq. apply pos_nth; auto. lia. }
    assert (E2 : map (fun m => length (ms d) + pos d m) (ms d) = seq (length (ms d)) (length (ms d))).
    { rewrite <- (map_map (pos d) (fun i => length (ms d) + i)), E1. assert (Z : forall k m y, map (fun x => k + x) (seq y m) = seq (k + y) m) by (intros k; induction m as [|m IH]; intros y; simpl; auto; f_equal; now rewrite IH, <- plus_n_Sm). rewrite Z. now rewrite Nat.add_0_r. }
    destruct (trace_modes d (ms d) (seq (length (ms d)) (length (ms d))) (seq 0 (length (ms d))) W NM (incl_refl _) NE) as [a [Ea Ta]]; [right; auto|].
    rewrite Ea. cbn [bind]. eexists. split; [reflexivity|].
    assert (FN : filter (fun m => negb (nmem m (ms d))) (ms d) = []).
    { destruct (filter _ _) as [|x t] eqn:E; auto. assert (Hx : In x (x :: t)) by (now left). rewrite <- E in Hx. apply filter_In in Hx. destruct Hx as [H1 H2]. apply nmem_In in H1. now rewrite H1 in H2. }
    assert (V : forall beta kappa, at_ (arr a) kb = diag_sum d (ms d) kb beta kappa).
    { intros beta kappa. destruct Ta as [_ [_ [_ [_ V]]]]. rewrite <- V; auto.
      - unfold entry. cbn [ms an]. rewrite FN. cbn [map app]. now rewrite app_nil_r.
      - intros m Hm. cbn [ms] in Hm. rewrite FN in Hm. destruct Hm. }
    split; [exact V|]. intros r beta kappa [_ [Mr [_ [_ Vr]]]]. rewrite (V beta kappa). apply Vr; auto. intros m Hm. rewrite Mr, FN in Hm. destruct Hm.
  Qed.
End Lab.

(** ** C15 fails when the two sets of modes are iterated in different orders: for modes 0 and 8, whose hashes collide in a small
    CPython set, the state |1,0><1,0| of trace 1 is traced to 0 *)
Definition ex_dm : @dm Z := mkDM [0; 8] (mkA (mkArray [2; 2; 2; 2] (fun k => if list_eqb k [1; 0; 1; 0] then 1%Z else 0%Z)) 0).
Theorem C15_refuted_set_order : wf ex_dm /\ Permutation [0; 8] [8; 0] /\
  (exists r, trace_out 0%Z Z.add [0; 8] [0; 8] ex_dm = Ok r /\ at_ (arr (an r)) [] = 1%Z) /\
  (exists r, trace_out 0%Z Z.add [8; 0] [0; 8] ex_dm = Ok r /\ at_ (arr (an r)) [] = 0%Z).
Proof.
  split; [|split; [constructor|split; eexists; (split; [reflexivity|reflexivity])]].
  split; [repeat constructor|]. split; [unfold proper; simpl; lia|reflexivity].
Qed.
Example C15_example : exists r, getitem 0%Z Z.add ex_dm [8] = Ok r /\ ms r = [8] /\ core_shape (an r) = [2; 2] /\
  map (at_ (arr (an r))) (box [2; 2]) = [1%Z; 0%Z; 0%Z; 0%Z].
Proof. eexists. split; [reflexivity|]. repeat split; reflexivity. Qed.
