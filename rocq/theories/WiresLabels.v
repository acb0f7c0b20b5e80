From Coq Require Import ZArith List Bool Lia Permutation Sorted Arith.
Require Import Verif.Base Verif.Wires Verif.WiresSpec Verif.WiresLemmas Verif.WiresMatmul.
Import ListNotations.

Definition labels_core (a b' : wires) : result (list nat * list nat * list nat) :=
  let (idxA, idxB) := contracted_indices a b' in
  let lblA := seq 0 (length a) in
  let lblB := join_labels idxA idxB lblA (seq (length a) (length b')) in
  let is_output l := xorb (memn l lblA) (memn l lblB) in
  let id2label := combine (ids a) lblA ++ combine (ids b') lblB in
  bind (matmul a b') (fun r =>
  bind (mapM (fun w => lookup_id id2label (wid w)) (sorted_wires (fst r))) (fun all =>
  Ok (lblA, lblB, filter is_output all))).
Lemma labels_core_eq : forall f a b, contracted_labels f a b = labels_core a (with_ids f b).
Proof. reflexivity. Qed.

(** ** pairing of contracted indices *)
Lemma sorted_Z_unique : forall l1 l2 : list Z,
  StronglySorted Z.lt l1 -> StronglySorted Z.lt l2 -> (forall x, In x l1 <-> In x l2) -> l1 = l2.
Proof.
  intros l1 l2 S1 S2 H. apply (sorted_perm_unique (fun z => z)); auto.
  assert (ND : forall l, StronglySorted Z.lt l -> NoDup l).
  { induction 1; constructor; auto. intros C. rewrite Forall_forall in H1. specialize (H1 _ C). lia. }
  apply NoDup_Permutation; auto.
Qed.

Definition pick (s : side) (o : bool) (ms : list Z) (ws : wires) : wires :=
  sorted_wires (at_modes (filter (sel s o) ws) ms).

Lemma in_pick : forall s o ms ws w, In w (pick s o ms ws) <-> In w ws /\ wside w = s /\ is_out w = o /\ In (mode w) ms.
Proof.
  intros. unfold pick, at_modes. rewrite sorted_wires_in, filter_In, in_sel, mem_mode_In. tauto.
Qed.

Lemma order_same_group : forall x y, wside x = wside y -> is_out x = is_out y ->
  ((order x < order y)%Z <-> (mode x < mode y)%Z).
Proof.
  intros [m1 o1 s1 i1 r1 k1] [m2 o2 s2 i2 r2 k2] H1 H2. unfold order, is_ketb; cbn [mode is_out wside] in *.
  subst. destruct s2; cbn [side_eqb]; unfold b2z; lia.
Qed.

Lemma pick_modes_sorted : forall s o ms ws, distinct ws -> StronglySorted Z.lt (map mode (pick s o ms ws)).
Proof.
  intros s o ms ws D. apply (proj1 (StronglySorted_map mode Z.lt _)).
  assert (N : NoDup (map order (at_modes (filter (sel s o) ws) ms))).
  { apply NoDup_map_of_inj.
    - unfold at_modes. apply NoDup_filter, NoDup_filter. now apply (NoDup_of_map desc).
    - intros x y Hx Hy E. unfold at_modes in Hx, Hy. rewrite filter_In, in_sel in Hx, Hy.
      destruct Hx as [[Hx [Sx Ox]] _], Hy as [[Hy [Sy Oy]] _].
      apply (distinct_inj ws); auto. unfold desc.
      assert (mode x = mode y).
      { destruct (Z.lt_trichotomy (mode x) (mode y)) as [L|[L|L]]; [|assumption|].
        - apply order_same_group in L; [lia|congruence|congruence].
        - apply order_same_group in L; [lia|congruence|congruence]. }
      congruence. }
  eapply StronglySorted_impl_in; [|apply isort_strict, N].
  intros x y Hx Hy L. fold (sorted_wires (at_modes (filter (sel s o) ws) ms)) in Hx, Hy.
  fold (pick s o ms ws) in Hx, Hy. apply in_pick in Hx. apply in_pick in Hy.
  apply order_same_group; [destruct Hx as [_ [-> _]], Hy as [_ [-> _]]; reflexivity
                          |destruct Hx as [_ [_ [-> _]]], Hy as [_ [_ [-> _]]]; reflexivity|exact L].
Qed.

Lemma pick_modes_eq : forall s a b,
  distinct a -> distinct b ->
  let ov := inter_modes (modes (filter (sel s true) a)) (modes (filter (sel s false) b)) in
  map mode (pick s true ov a) = map mode (pick s false ov b).
Proof.
  intros s a b Da Db ov. apply sorted_Z_unique; try now apply pick_modes_sorted.
  intros m. rewrite !in_map_iff.
  assert (OV : In m ov <-> In (m, true, s) (descs a) /\ In (m, false, s) (descs b)).
  { unfold ov, inter_modes. rewrite filter_In, mem_mode_In, !in_modes_sel. tauto. }
  split; intros [w [E Hw]]; apply in_pick in Hw; destruct Hw as [_ [_ [_ Hm]]]; rewrite E in Hm;
    pose proof (proj1 OV Hm) as [HA HB].
  - apply in_map_iff in HB. destruct HB as [v [Ev Hv]]. exists v. unfold desc in Ev. injection Ev; intros.
    split; [assumption|]. apply in_pick. repeat split; auto. congruence.
  - apply in_map_iff in HA. destruct HA as [v [Ev Hv]]. exists v. unfold desc in Ev. injection Ev; intros.
    split; [assumption|]. apply in_pick. repeat split; auto. congruence.
Qed.

(** the list of joined pairs of wires *)
Definition pairs (a b : wires) : list (wire * wire) :=
  let ob := inter_modes (modes (filter (sel Bra true) a)) (modes (filter (sel Bra false) b)) in
  let ok := inter_modes (modes (filter (sel Ket true) a)) (modes (filter (sel Ket false) b)) in
  combine (pick Bra true ob a) (pick Bra false ob b) ++ combine (pick Ket true ok a) (pick Ket false ok b).

Lemma combine_map_fst : forall {A B} (l1 : list A) (l2 : list B), length l1 = length l2 -> map fst (combine l1 l2) = l1.
Proof. induction l1 as [|x t IH]; intros [|y u] H; simpl in *; try lia; [reflexivity|]. f_equal. apply IH. lia. Qed.
Lemma combine_map_snd : forall {A B} (l1 : list A) (l2 : list B), length l1 = length l2 -> map snd (combine l1 l2) = l2.
Proof. induction l1 as [|x t IH]; intros [|y u] H; simpl in *; try lia; [reflexivity|]. f_equal. apply IH. lia. Qed.

Lemma contracted_indices_pairs : forall a b, distinct a -> distinct b ->
  contracted_indices a b = (map index (map fst (pairs a b)), map index (map snd (pairs a b))).
Proof.
  intros a b Da Db. unfold contracted_indices, overlap.
  rewrite !bra_output_sel, !ket_output_sel, !bra_input_sel, !ket_input_sel.
  unfold pairs. cbv zeta.
  set (ob := inter_modes (modes (filter (sel Bra true) a)) (modes (filter (sel Bra false) b))).
  set (ok := inter_modes (modes (filter (sel Ket true) a)) (modes (filter (sel Ket false) b))).
  assert (L1 : length (pick Bra true ob a) = length (pick Bra false ob b)).
  { rewrite <- (map_length mode), <- (map_length mode (pick Bra false ob b)). f_equal. now apply pick_modes_eq. }
  assert (L2 : length (pick Ket true ok a) = length (pick Ket false ok b)).
  { rewrite <- (map_length mode), <- (map_length mode (pick Ket false ok b)). f_equal. now apply pick_modes_eq. }
  rewrite !map_app, !combine_map_fst, !combine_map_snd by assumption. reflexivity.
Qed.

Lemma combine_in_modes : forall l1 l2 x y, map mode l1 = map mode l2 -> In (x, y) (combine l1 l2) -> mode x = mode y.
Proof.
  induction l1 as [|u t IH]; intros [|v w] x y E H; simpl in *; try contradiction.
  injection E; intros. destruct H as [H|H]; [congruence|eauto].
Qed.
Lemma combine_in_exists : forall l1 l2 x, map mode l1 = map mode l2 -> In x l1 -> exists y, In (x, y) (combine l1 l2).
Proof.
  induction l1 as [|u t IH]; intros [|v w] x E H; simpl in *; try contradiction; try discriminate.
  injection E; intros. destruct H as [->|H]; [eauto|]. destruct (IH w x) as [y Hy]; eauto.
Qed.

Lemma pairs_spec : forall a b, distinct a -> distinct b ->
  forall x y, In (x, y) (pairs a b) <-> In x a /\ In y b /\ joined x y /\ wside x <> Cl.
Proof.
  intros a b Da Db x y. unfold pairs. cbv zeta. rewrite in_app_iff.
  assert (G : forall s, In (x, y) (combine
      (pick s true (inter_modes (modes (filter (sel s true) a)) (modes (filter (sel s false) b))) a)
      (pick s false (inter_modes (modes (filter (sel s true) a)) (modes (filter (sel s false) b))) b))
    <-> In x a /\ In y b /\ joined x y /\ wside x = s).
  { intros s. pose proof (pick_modes_eq s a b Da Db) as PM. cbv zeta in PM.
    set (ov := inter_modes (modes (filter (sel s true) a)) (modes (filter (sel s false) b))) in *.
    split.
    - intros H. pose proof (in_combine_l _ _ _ _ H) as HA. pose proof (in_combine_r _ _ _ _ H) as HB.
      apply in_pick in HA. apply in_pick in HB. apply combine_in_modes in H; [|assumption].
      destruct HA as [A1 [A2 [A3 A4]]], HB as [B1 [B2 [B3 B4]]].
      repeat split; auto. unfold desc, flip, d_mode, d_out, d_side; simpl. rewrite A3. simpl. congruence.
    - intros [HA [HB [[Jo Jd] Js]]].
      unfold desc, flip, d_mode, d_out, d_side in Jd; simpl in Jd. injection Jd; intros Es Eo Em.
      rewrite Jo in Eo. simpl in Eo.
      assert (OV : In (mode x) ov).
      { unfold ov, inter_modes. rewrite filter_In, mem_mode_In, !in_modes_sel. split.
        - apply in_map_iff. exists x. split; [unfold desc; congruence|assumption].
        - apply in_map_iff. exists y. split; [unfold desc; congruence|assumption]. }
      assert (PX : In x (pick s true ov a)) by (apply in_pick; auto).
      destruct (combine_in_exists _ _ _ PM PX) as [y' Hy'].
      assert (y' = y).
      { pose proof (in_combine_r _ _ _ _ Hy') as HB'. apply in_pick in HB'.
        apply combine_in_modes in Hy'; [|assumption].
        apply (distinct_inj b); [assumption|tauto|assumption|].
        unfold desc. destruct HB' as [_ [S' [O' _]]]. congruence. }
      subst. assumption. }
  rewrite !G. destruct (wside x); intuition congruence.
Qed.

(** ** join_labels *)
Lemma set_nth_length : forall l i v, length (set_nth l i v) = length l.
Proof. induction l as [|x t IH]; intros [|i] v; simpl; auto. Qed.
Lemma set_nth_same : forall l i v d, i < length l -> nth i (set_nth l i v) d = v.
Proof. induction l as [|x t IH]; intros [|i] v d H; simpl in *; try lia; auto. apply IH. lia. Qed.
Lemma set_nth_other : forall l i j v d, i <> j -> nth j (set_nth l i v) d = nth j l d.
Proof. induction l as [|x t IH]; intros [|i] [|j] v d H; simpl; auto; try congruence. Qed.

Definition join_pairs (ps : list (nat * nat)) (lblA lblB : list nat) : list nat :=
  fold_left (fun l ij => set_nth l (snd ij) (nth (fst ij) lblA 0)) ps lblB.

Lemma join_pairs_length : forall ps A B, length (join_pairs ps A B) = length B.
Proof. induction ps as [|p t IH]; intros; simpl; [reflexivity|]. rewrite IH. apply set_nth_length. Qed.
Lemma join_pairs_out : forall ps A B j d, ~ In j (map snd ps) -> nth j (join_pairs ps A B) d = nth j B d.
Proof.
  induction ps as [|p t IH]; intros A B j d H; simpl; [reflexivity|]. rewrite IH.
  - apply set_nth_other. intros E. apply H. left. assumption.
  - intros C. apply H. now right.
Qed.
Lemma join_pairs_in : forall ps A B i j d, NoDup (map snd ps) -> In (i, j) ps -> j < length B ->
  nth j (join_pairs ps A B) d = nth i A 0.
Proof.
  induction ps as [|p t IH]; intros A B i j d ND H L; [destruct H|]. simpl in *. inversion ND; subst.
  destruct H as [->|H].
  - fold (join_pairs t A (set_nth B j (nth i A 0))). simpl. rewrite join_pairs_out by assumption.
    now apply set_nth_same.
  - fold (join_pairs t A (set_nth B (snd p) (nth (fst p) A 0))). apply IH; auto. now rewrite set_nth_length.
Qed.

Lemma combine_map2 : forall {A B C D} (f : A -> C) (g : B -> D) (ps : list (A * B)),
  combine (map f (map fst ps)) (map g (map snd ps)) = map (fun p => (f (fst p), g (snd p))) ps.
Proof. induction ps as [|p t IH]; simpl; [reflexivity|]. now rewrite IH. Qed.

(** position of a wire = its index *)
Lemma well_indexed_nth : forall ws i w d, well_indexed ws -> i < length ws -> nth i (sorted_wires ws) d = w -> index w = i.
Proof.
  intros ws i w d H L E. unfold well_indexed, indices in H.
  rewrite <- E, <- (map_nth index).
  rewrite H. rewrite seq_nth; [reflexivity|]. assumption.
Qed.

Lemma index_inj : forall ws x y, well_indexed ws -> In x ws -> In y ws -> index x = index y -> x = y.
Proof.
  intros ws x y H Hx Hy E.
  rewrite <- sorted_wires_in in Hx, Hy.
  destruct (In_nth _ _ x Hx) as [i [Li Ei]]. destruct (In_nth _ _ x Hy) as [j [Lj Ej]].
  rewrite sorted_wires_length in Li, Lj.
  pose proof (well_indexed_nth ws i x x H Li Ei). pose proof (well_indexed_nth ws j y x H Lj Ej).
  congruence.
Qed.
Lemma index_bound : forall ws x, well_indexed ws -> In x ws -> index x < length ws.
Proof.
  intros ws x H Hx. rewrite <- sorted_wires_in in Hx.
  destruct (In_nth _ _ x Hx) as [i [Li Ei]]. rewrite sorted_wires_length in Li.
  now rewrite (well_indexed_nth ws i x x H Li Ei).
Qed.
Lemma nth_index : forall ws x d, well_indexed ws -> In x ws -> nth (index x) (sorted_wires ws) d = x.
Proof.
  intros ws x d H Hx. rewrite <- sorted_wires_in in Hx.
  destruct (In_nth _ _ d Hx) as [i [Li Ei]]. rewrite sorted_wires_length in Li.
  now rewrite (well_indexed_nth ws i x d H Li Ei).
Qed.

Section Labels.
  Variables a b : wires.
  Hypothesis Da : distinct a.
  Hypothesis Db : distinct b.
  Hypothesis Wa : well_indexed a.
  Hypothesis Wb : well_indexed b.

  Let ps := map (fun p => (index (fst p), index (snd p))) (pairs a b).
  Definition labelsB := join_pairs ps (seq 0 (length a)) (seq (length a) (length b)).

  Lemma labelsB_eq : let (idxA, idxB) := contracted_indices a b in
    join_labels idxA idxB (seq 0 (length a)) (seq (length a) (length b)) = labelsB.
  Proof.
    rewrite contracted_indices_pairs by assumption. unfold join_labels, labelsB, join_pairs.
    now rewrite combine_map2.
  Qed.

  Lemma labelsB_length : length labelsB = length b.
  Proof. unfold labelsB. now rewrite join_pairs_length, seq_length. Qed.

  Lemma ps_spec : forall i j, In (i, j) ps <->
    exists x y, In x a /\ In y b /\ joined x y /\ wside x <> Cl /\ index x = i /\ index y = j.
  Proof.
    intros i j. unfold ps. rewrite in_map_iff. split.
    - intros [[x y] [E H]]. apply pairs_spec in H; try assumption. simpl in E. injection E; intros.
      exists x, y. tauto.
    - intros [x [y [H1 [H2 [H3 [H4 [<- <-]]]]]]]. exists (x, y). split; [reflexivity|].
      apply pairs_spec; auto.
  Qed.

  Lemma joined_func_l : forall x x' y, In x a -> In x' a -> joined x y -> joined x' y -> x = x'.
  Proof.
    intros x x' y Hx Hx' [O1 D1] [O2 D2]. apply (distinct_inj a); auto.
    rewrite D1 in D2. unfold flip, desc, d_mode, d_out, d_side in *; simpl in *. injection D2; intros. congruence.
  Qed.
  Lemma joined_func_r : forall x y y', In y b -> In y' b -> joined x y -> joined x y' -> y = y'.
  Proof. intros x y y' Hy Hy' [O1 D1] [O2 D2]. apply (distinct_inj b); auto. congruence. Qed.

  Lemma NoDup_ps_snd : NoDup (map snd ps).
  Proof.
    unfold ps. rewrite map_map. simpl.
    assert (ND : NoDup (map snd (pairs a b))).
    { unfold pairs. cbv zeta. rewrite map_app.
      set (ob := inter_modes (modes (filter (sel Bra true) a)) (modes (filter (sel Bra false) b))).
      set (ok := inter_modes (modes (filter (sel Ket true) a)) (modes (filter (sel Ket false) b))).
      assert (L1 : length (pick Bra true ob a) = length (pick Bra false ob b)).
      { rewrite <- (map_length mode), <- (map_length mode (pick Bra false ob b)). f_equal. now apply pick_modes_eq. }
      assert (L2 : length (pick Ket true ok a) = length (pick Ket false ok b)).
      { rewrite <- (map_length mode), <- (map_length mode (pick Ket false ok b)). f_equal. now apply pick_modes_eq. }
      rewrite !combine_map_snd by assumption.
      assert (Np : forall s o ms, NoDup (pick s o ms b)).
      { intros. unfold pick. eapply Permutation_NoDup; [symmetry; apply sorted_wires_perm|].
        unfold at_modes. apply NoDup_filter, NoDup_filter. now apply (NoDup_of_map desc). }
      apply NoDup_app_intro; auto. intros w H1 H2. apply in_pick in H1. apply in_pick in H2.
      destruct H1 as [_ [H1 _]], H2 as [_ [H2 _]]. congruence. }
    rewrite <- map_map. apply NoDup_map_of_inj; [assumption|].
    intros x y Hx Hy E. apply (index_inj b); auto.
    - apply in_map_iff in Hx. destruct Hx as [[u v] [<- Hx]]. apply pairs_spec in Hx; tauto.
    - apply in_map_iff in Hy. destruct Hy as [[u v] [<- Hy]]. apply pairs_spec in Hy; tauto.
  Qed.

  (** label of a wire of b *)
  Lemma labelB_joined : forall x y, In x a -> In y b -> joined x y -> wside x <> Cl ->
    nth (index y) labelsB 0 = index x.
  Proof.
    intros x y Hx Hy J S. unfold labelsB.
    rewrite (join_pairs_in _ _ _ (index x) (index y)).
    - rewrite seq_nth; [reflexivity|]. now apply index_bound.
    - apply NoDup_ps_snd.
    - apply ps_spec. exists x, y. tauto.
    - rewrite seq_length. now apply index_bound.
  Qed.
  Lemma labelB_free : forall y, In y b -> (forall x, In x a -> joined x y -> wside x = Cl) ->
    nth (index y) labelsB 0 = length a + index y.
  Proof.
    intros y Hy F. unfold labelsB. rewrite join_pairs_out.
    - rewrite seq_nth; [reflexivity|]. now apply index_bound.
    - intros C. apply in_map_iff in C. destruct C as [[i j] [E H]]. simpl in E. subst j.
      apply ps_spec in H. destruct H as [x [y' [H1 [H2 [H3 [H4 [H5 H6]]]]]]].
      assert (y' = y) by (apply (index_inj b); auto). subst y'. apply H4. now apply F.
  Qed.

  Lemma joined_dec : forall y, In y b ->
    (exists x, In x a /\ joined x y /\ wside x <> Cl) \/ (forall x, In x a -> joined x y -> wside x = Cl).
  Proof.
    intros y Hy.
    destruct (existsb (fun x => is_out x && desc_eqb (desc y) (flip (desc x)) && negb (is_clb x)) a) eqn:E.
    - left. apply existsb_exists in E. destruct E as [x [Hx E]]. rewrite !andb_true_iff, desc_eqb_eq in E.
      exists x. destruct E as [[E1 E2] E3]. repeat split; auto.
      unfold is_clb in E3. intros C. rewrite C in E3. discriminate.
    - right. intros x Hx [J1 J2].
      destruct (wside x) eqn:S; auto; exfalso;
      (enough (X : existsb (fun x => is_out x && desc_eqb (desc y) (flip (desc x)) && negb (is_clb x)) a = true) by congruence;
       apply existsb_exists; exists x; split; [assumption|]; rewrite !andb_true_iff, desc_eqb_eq; unfold is_clb; rewrite S; auto).
  Qed.

  Lemma labelB_cases : forall j, j < length b -> forall d,
    let y := nth j (sorted_wires b) d in
    (exists x, In x a /\ joined x y /\ wside x <> Cl /\ nth j labelsB 0 = index x)
    \/ ((forall x, In x a -> joined x y -> wside x = Cl) /\ nth j labelsB 0 = length a + j).
  Proof.
    intros j Hj d y.
    assert (Hy : In y b). { apply sorted_wires_in. apply nth_In. now rewrite sorted_wires_length. }
    assert (Ij : index y = j) by (apply (well_indexed_nth b j y d); auto).
    destruct (joined_dec y Hy) as [[x [H1 [H2 H3]]]|H].
    - left. exists x. repeat split; auto; try apply H2. rewrite <- Ij. now apply labelB_joined.
    - right. split; [assumption|]. rewrite <- Ij. now apply labelB_free.
  Qed.

  Lemma labelsB_NoDup : NoDup labelsB.
  Proof.
    apply NoDup_nth with (d := 0). rewrite labelsB_length. intros i j Hi Hj E.
    pose (d := mkWire 0 false Bra 0 Bargmann 0).
    destruct (labelB_cases i Hi d) as [[x [X1 [X2 [X3 X4]]]]|[X1 X2]];
    destruct (labelB_cases j Hj d) as [[x' [Y1 [Y2 [Y3 Y4]]]]|[Y1 Y2]].
    - assert (x = x') by (apply (index_inj a); auto; congruence). subst x'.
      assert (nth i (sorted_wires b) d = nth j (sorted_wires b) d).
      { eapply joined_func_r; eauto; apply sorted_wires_in, nth_In; now rewrite sorted_wires_length. }
      assert (ND : NoDup (sorted_wires b)).
      { eapply Permutation_NoDup; [symmetry; apply sorted_wires_perm|]. now apply (NoDup_of_map desc). }
      eapply (NoDup_nth_inj (sorted_wires b) d); eauto; now rewrite sorted_wires_length.
    - pose proof (index_bound a x Wa X1). lia.
    - pose proof (index_bound a x' Wa Y1). lia.
    - lia.
  Qed.

  Lemma label_eq_iff : forall i j d, i < length a -> j < length b ->
    (i = nth j labelsB 0 <-> joined (nth i (sorted_wires a) d) (nth j (sorted_wires b) d)
                             /\ wside (nth i (sorted_wires a) d) <> Cl).
  Proof.
    intros i j d Hi Hj.
    assert (HA : In (nth i (sorted_wires a) d) a). { apply sorted_wires_in. apply nth_In. now rewrite sorted_wires_length. }
    assert (IA : index (nth i (sorted_wires a) d) = i) by (apply (well_indexed_nth a i _ d); auto).
    destruct (labelB_cases j Hj d) as [[x [X1 [X2 [X3 X4]]]]|[X1 X2]].
    - split.
      + intros E. assert (x = nth i (sorted_wires a) d) by (apply (index_inj a); auto; congruence).
        subst x. auto.
      + intros [J S]. assert (x = nth i (sorted_wires a) d) by (eapply joined_func_l; eauto). congruence.
    - split.
      + intros E. lia.
      + intros [J S]. exfalso. apply S. now apply X1.
  Qed.
End Labels.

(** ** labels by id *)
Lemma find_rev_unique : forall (tbl : list (nat * nat)) k v,
  NoDup (map fst tbl) -> In (k, v) tbl -> find (fun p => Nat.eqb (fst p) k) (rev tbl) = Some (k, v).
Proof.
  intros tbl k v ND H.
  assert (ND' : NoDup (map fst (rev tbl))) by (rewrite map_rev; now apply NoDup_rev).
  apply in_rev in H. revert ND' H. generalize (rev tbl) as l. clear.
  induction l as [|p t IH]; intros ND H; [destruct H|]. simpl in *. inversion ND; subst.
  destruct H as [->|H].
  - simpl. now rewrite Nat.eqb_refl.
  - destruct (Nat.eqb (fst p) k) eqn:E; [|auto]. apply Nat.eqb_eq in E. exfalso. apply H2.
    rewrite E. change k with (fst (k, v)). now apply in_map.
Qed.

Lemma lookup_unique : forall tbl k v, NoDup (map fst tbl) -> In (k, v) tbl -> lookup_id tbl k = Ok v.
Proof. intros. unfold lookup_id. now rewrite (find_rev_unique tbl k v). Qed.

Lemma in_combine_nth : forall {A B} (l1 : list A) (l2 : list B) i d1 d2,
  length l1 = length l2 -> i < length l1 -> In (nth i l1 d1, nth i l2 d2) (combine l1 l2).
Proof.
  induction l1 as [|x t IH]; intros [|y u] [|i] d1 d2 L H; simpl in *; try lia; [left; reflexivity|].
  right. apply IH; lia.
Qed.

Lemma memn_In : forall x l, memn x l = true <-> In x l.
Proof.
  intros. unfold memn. rewrite existsb_exists. split.
  - intros [y [H E]]. apply Nat.eqb_eq in E. now subst.
  - intros H. exists x. split; auto. apply Nat.eqb_refl.
Qed.
Lemma memn_false : forall x l, ~ In x l -> memn x l = false.
Proof. intros. destruct (memn x l) eqn:E; auto. apply memn_In in E. contradiction. Qed.

Lemma filter_all : forall {A} (f : A -> bool) l, (forall x, In x l -> f x = true) -> filter f l = l.
Proof. induction l as [|x t IH]; intros H; simpl; [reflexivity|]. rewrite H by now left. f_equal. apply IH. intros; apply H; now right. Qed.

Theorem labels_core_spec : forall a b r,
  distinct a -> distinct b -> same_repr a b -> distinct_ids a b ->
  well_indexed a -> well_indexed b ->
  matmul_wires a b = Ok r -> no_cl_clash r ->
  exists la lb lo, labels_core a b = Ok (la, lb, lo)
    /\ length la = length a /\ length lb = length b /\ length lo = length r
    /\ NoDup la /\ NoDup lb /\ NoDup lo
    /\ (forall i j d, i < length a -> j < length b ->
         (nth i la 0 = nth j lb 0 <->
           joined (nth i (sorted_wires a) d) (nth j (sorted_wires b) d)
           /\ wside (nth i (sorted_wires a) d) <> Cl))
    /\ (forall k d, k < length r ->
         (exists i, i < length a /\ nth k lo 0 = nth i la 0 /\ ~ In (nth i la 0) lb
             /\ desc (nth i (sorted_wires a) d) = desc (nth k (sorted_wires r) d))
         \/ (exists j, j < length b /\ nth k lo 0 = nth j lb 0 /\ ~ In (nth j lb 0) la
             /\ desc (nth j (sorted_wires b) d) = desc (nth k (sorted_wires r) d))).
Proof.
  intros a b r Da Db SR DI Wa Wb E NCL.
  destruct (matmul_perm_spec a b r Da Db SR DI E NCL) as [perm [EM [PP [LC PN]]]].
  set (comb := filter (survA b) (sorted_wires a) ++ filter (survB a) (sorted_wires b)) in *.
  unfold labels_core. pose proof (labelsB_eq a b Da Db) as LB.
  destruct (contracted_indices a b) as [iA iB]. rewrite LB, EM. cbn [bind fst].
  set (la := seq 0 (length a)). set (lb := labelsB a b).
  set (tbl := combine (ids a) la ++ combine (ids b) lb).
  assert (Lb : length lb = length b) by apply labelsB_length.
  assert (La : length la = length a) by apply seq_length.
  assert (LIa : length (ids a) = length a) by (unfold ids; now rewrite map_length, sorted_wires_length).
  assert (LIb : length (ids b) = length b) by (unfold ids; now rewrite map_length, sorted_wires_length).
  assert (NT : NoDup (map fst tbl)).
  { unfold tbl. rewrite map_app, !combine_map_fst by congruence. unfold ids.
    eapply Permutation_NoDup; [|exact DI]. unfold distinct_ids. rewrite map_app.
    apply Permutation_app; apply Permutation_map; symmetry; apply sorted_wires_perm. }
  assert (LKA : forall i d, i < length a -> lookup_id tbl (wid (nth i (sorted_wires a) d)) = Ok i).
  { intros i d Hi. apply lookup_unique; [assumption|]. unfold tbl. apply in_or_app. left.
    replace (wid (nth i (sorted_wires a) d)) with (nth i (ids a) (wid d)) by (unfold ids; now rewrite map_nth).
    replace i with (nth i la 0) at 2 by (unfold la; now rewrite seq_nth).
    apply in_combine_nth; congruence. }
  assert (LKB : forall j d, j < length b -> lookup_id tbl (wid (nth j (sorted_wires b) d)) = Ok (nth j lb 0)).
  { intros j d Hj. apply lookup_unique; [assumption|]. unfold tbl. apply in_or_app. right.
    replace (wid (nth j (sorted_wires b) d)) with (nth j (ids b) (wid d)) by (unfold ids; now rewrite map_nth).
    apply in_combine_nth; congruence. }
  (* classification of every output wire *)
  pose (good := fun (w : wire) (l : nat) =>
     (exists i, i < length a /\ l = i /\ ~ In i lb /\ forall d, desc (nth i (sorted_wires a) d) = desc w)
     \/ (exists j, j < length b /\ l = nth j lb 0 /\ length a <= l /\ forall d, desc (nth j (sorted_wires b) d) = desc w)).
  assert (CL : forall w, In w (sorted_wires r) -> exists l, lookup_id tbl (wid w) = Ok l /\ good w l).
  { intros w Hw. destruct (In_nth _ _ w Hw) as [k [Hk Ek]]. rewrite sorted_wires_length in Hk.
    destruct (PN k w Hk) as [Dk Ik]. rewrite Ek in Dk, Ik.
    assert (Pk : nth k perm 0 < length comb).
    { assert (In (nth k perm 0) (seq 0 (length r))).
      { apply (Permutation_in _ PP). apply nth_In. rewrite (Permutation_length PP), seq_length. assumption. }
      apply in_seq in H. lia. }
    pose proof (nth_In comb w Pk) as Hc. set (v := nth (nth k perm 0) comb w) in *.
    unfold comb in Hc. apply in_app_or in Hc. rewrite Ik.
    destruct Hc as [Hc|Hc]; apply filter_In in Hc; destruct Hc as [Hc Hs]; rewrite sorted_wires_in in Hc.
    - pose proof (index_bound a v Wa Hc) as B. pose proof (fun d => nth_index a v d Wa Hc) as N.
      exists (index v). split; [rewrite <- (N w) at 1; now apply LKA|].
      left. exists (index v). split; [assumption|]. split; [reflexivity|]. split.
      + intros C. destruct (In_nth _ _ 0 C) as [j [Hj Ej]]. rewrite Lb in Hj.
        symmetry in Ej. apply (label_eq_iff a b Da Db Wa Wb (index v) j w B Hj) in Ej. rewrite N in Ej.
        destruct Ej as [[Jo Jd] _]. rewrite survA_true in Hs. apply (Hs Jo). rewrite <- Jd.
        apply in_map. apply sorted_wires_in. apply nth_In. now rewrite sorted_wires_length.
      + intros d. rewrite N. congruence.
    - pose proof (index_bound b v Wb Hc) as B. pose proof (fun d => nth_index b v d Wb Hc) as N.
      exists (nth (index v) lb 0). split; [rewrite <- (N w) at 1; now apply LKB|].
      right. exists (index v). split; [assumption|]. split; [reflexivity|]. split.
      + destruct (labelB_cases a b Da Db Wa Wb (index v) B w) as [[x [X1 [[X2 X2'] [X3 X4]]]]|[_ X2]].
        * exfalso. rewrite N in X2'. rewrite survB_true in Hs.
          assert (is_out v = false).
          { unfold desc, flip, d_mode, d_out, d_side in X2'. simpl in X2'. injection X2'; intros. rewrite X2 in *. assumption. }
          apply (Hs H). assert (flip (desc v) = desc x) as ->; [|now apply in_map].
          rewrite X2'. unfold flip, desc, d_mode, d_out, d_side; simpl. now rewrite negb_involutive.
        * unfold lb. rewrite X2. lia.
      + intros d. rewrite N. congruence. }
  destruct (mapM_spec (fun w => lookup_id tbl (wid w)) good (sorted_wires r) CL) as [all [EA FA]].
  rewrite EA. cbn [bind].
  assert (LA : length all = length r). { apply Forall2_len in FA. now rewrite <- FA, sorted_wires_length. }
  assert (GN : forall k d, k < length r -> good (nth k (sorted_wires r) d) (nth k all 0)).
  { intros k d Hk. rewrite <- LA in Hk. clear - FA Hk. revert k Hk.
    induction FA; intros [|k] Hk; simpl in *; try lia; auto. apply IHFA. lia. }
  assert (FI : filter (fun l => xorb (memn l la) (memn l lb)) all = all).
  { apply filter_all. intros l Hl. destruct (In_nth _ _ 0 Hl) as [k [Hk Ek]]. rewrite LA in Hk.
    pose (d := mkWire 0 false Bra 0 Bargmann 0).
    destruct (GN k d Hk) as [[i [I1 [I2 [I3 I4]]]]|[j [J1 [J2 [J3 J4]]]]]; rewrite Ek in *.
    - subst i. rewrite (memn_false l lb) by assumption.
      rewrite (proj2 (memn_In l la)); [reflexivity|]. unfold la. apply in_seq. lia.
    - rewrite (memn_false l la) by (unfold la; rewrite in_seq; lia).
      rewrite (proj2 (memn_In l lb)); [reflexivity|]. rewrite J2. apply nth_In. lia. }
  rewrite FI. exists la, lb, all. split; [reflexivity|].
  split; [assumption|]. split; [assumption|]. split; [assumption|].
  split; [apply seq_NoDup|]. split; [now apply labelsB_NoDup|]. split; [|split].
  - (* NoDup all: equal labels give equal descriptors *)
    apply NoDup_nth with (d := 0). rewrite LA. intros k k' Hk Hk' Ekk.
    pose (d := mkWire 0 false Bra 0 Bargmann 0).
    assert (desc (nth k (sorted_wires r) d) = desc (nth k' (sorted_wires r) d)).
    { destruct (GN k d Hk) as [[i [I1 [I2 [I3 I4]]]]|[j [J1 [J2 [J3 J4]]]]];
      destruct (GN k' d Hk') as [[i' [I1' [I2' [I3' I4']]]]|[j' [J1' [J2' [J3' J4']]]]]; try lia.
      - rewrite <- (I4 d), <- (I4' d). congruence.
      - rewrite <- (J4 d), <- (J4' d). f_equal. f_equal.
        apply (NoDup_nth_inj lb 0); [now apply labelsB_NoDup|lia|lia|congruence]. }
    assert (ND : NoDup (descs (sorted_wires r))).
    { destruct (matmul_wires_spec a b Da Db SR) as [[r' [E' [_ [D _]]]]|[E' _]]; [|congruence].
      assert (r' = r) by congruence. subst r'.
      eapply Permutation_NoDup; [symmetry; apply descs_perm, sorted_wires_perm|]. exact D. }
    apply (NoDup_nth_inj (descs (sorted_wires r)) (desc d)); auto;
      unfold descs; rewrite ?map_length, ?sorted_wires_length, ?map_nth; auto.
  - intros i j d Hi Hj. unfold la. rewrite seq_nth by assumption. simpl. now apply label_eq_iff.
  - intros k d Hk. destruct (GN k d Hk) as [[i [I1 [I2 [I3 I4]]]]|[j [J1 [J2 [J3 J4]]]]].
    + left. exists i. unfold la at 1 2. rewrite seq_nth by assumption. simpl. auto.
    + right. exists j. split; [assumption|]. split; [assumption|]. split; [|auto].
      unfold la. rewrite in_seq. lia.
Qed.
