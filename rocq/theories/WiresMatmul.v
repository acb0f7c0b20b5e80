From Coq Require Import ZArith List Bool Lia Permutation Sorted Arith.
Require Import Verif.Base Verif.Wires Verif.WiresSpec Verif.WiresLemmas.
Import ListNotations.

Lemma NoDup_of_map : forall {A B} (f : A -> B) l, NoDup (map f l) -> NoDup l.
Proof. intros A B f l. apply NoDup_map_inv. Qed.

Lemma distinct_inj : forall ws x y, distinct ws -> In x ws -> In y ws -> desc x = desc y -> x = y.
Proof.
  induction ws as [|w t IH]; intros x y HD Hx Hy E; [destruct Hx|].
  inversion HD; subst. destruct Hx as [->|Hx], Hy as [->|Hy]; auto.
  - exfalso. apply H1. rewrite E. now apply in_map.
  - exfalso. apply H1. rewrite <- E. now apply in_map.
Qed.

Lemma NoDup_map_of_inj : forall {A B} (f : A -> B) l,
  NoDup l -> (forall x y, In x l -> In y l -> f x = f y -> x = y) -> NoDup (map f l).
Proof.
  induction l as [|x t IH]; intros N H; simpl; [constructor|]. inversion N; subst. constructor.
  - intros C. apply in_map_iff in C. destruct C as [y [E Hy]].
    assert (y = x) by (apply H; simpl; auto). subst. contradiction.
  - apply IH; auto. intros; apply H; simpl; auto.
Qed.

Lemma matmul_wires_parts : forall a b,
  matmul_wires a b =
  bind (part Bra true b a) (fun bra_out =>
  bind (part Ket true b a) (fun ket_out =>
  bind (part Bra false a b) (fun bra_in =>
  bind (part Ket false a b) (fun ket_in =>
  bind (part Cl true b a) (fun cl_out =>
  bind (part Cl false a b) (fun cl_in =>
  Ok (reindex (sorted_wires bra_out ++ sorted_wires bra_in ++ sorted_wires ket_out
               ++ sorted_wires ket_in ++ sorted_wires cl_out ++ sorted_wires cl_in)))))))).
Proof.
  intros. unfold matmul_wires, part.
  rewrite !bra_output_sel, !ket_output_sel, !bra_input_sel, !ket_input_sel, !cl_output_sel, !cl_input_sel.
  reflexivity.
Qed.

(** the surviving wires themselves *)
Definition survW (a b : wires) (w : wire) : Prop :=
  if is_out w then In w b \/ (In w a /\ ~ In (flip (desc w)) (descs b))
  else In w a \/ (In w b /\ ~ In (flip (desc w)) (descs a)).

(** a collision seen by the equality of wires *)
Definition clash (a b : wires) : Prop :=
  exists x y, In x a /\ In y b /\ desc x = desc y /\ wrepr x = wrepr y /\
    (if is_out x then ~ In (flip (desc x)) (descs b) else ~ In (flip (desc x)) (descs a)).

Lemma matmul_wires_cases : forall a b,
  (exists u, matmul_wires a b = Ok (reindex u) /\ ~ clash a b /\ (forall w, In w u <-> survW a b w)
     /\ (distinct a -> distinct b -> same_repr a b -> distinct u))
  \/ (matmul_wires a b = Err ValueError /\ clash a b).
Proof.
  intros a b. rewrite matmul_wires_parts.
  assert (CE : forall s o x y,
     (exists w w', In w x /\ In w' y /\ wside w = s /\ is_out w = o /\ desc w = desc w' /\
        ~ In (flip (desc w)) (descs x) /\ wrepr w = wrepr w') ->
     (o = true /\ x = b /\ y = a) \/ (o = false /\ x = a /\ y = b) -> clash a b).
  { intros s o x y [w [w' [H1 [H2 [H3 [H4 [H5 [H6 H7]]]]]]]] [[-> [-> ->]]|[-> [-> ->]]].
    - exists w', w. repeat split; auto.
      assert (is_out w' = true) as -> by (unfold desc in H5; congruence). now rewrite <- H5.
    - exists w, w'. repeat split; auto. now rewrite H4. }
  destruct (part_cases Bra true b a) as [[g1 [E1 [I1 [C1 N1]]]]|[E1 X1]];
    rewrite E1; simpl; [|right; split; [reflexivity|]; apply (CE _ _ _ _ X1); tauto].
  destruct (part_cases Ket true b a) as [[g2 [E2 [I2 [C2 N2]]]]|[E2 X2]];
    rewrite E2; simpl; [|right; split; [reflexivity|]; apply (CE _ _ _ _ X2); tauto].
  destruct (part_cases Bra false a b) as [[g3 [E3 [I3 [C3 N3]]]]|[E3 X3]];
    rewrite E3; simpl; [|right; split; [reflexivity|]; apply (CE _ _ _ _ X3); tauto].
  destruct (part_cases Ket false a b) as [[g4 [E4 [I4 [C4 N4]]]]|[E4 X4]];
    rewrite E4; simpl; [|right; split; [reflexivity|]; apply (CE _ _ _ _ X4); tauto].
  destruct (part_cases Cl true b a) as [[g5 [E5 [I5 [C5 N5]]]]|[E5 X5]];
    rewrite E5; simpl; [|right; split; [reflexivity|]; apply (CE _ _ _ _ X5); tauto].
  destruct (part_cases Cl false a b) as [[g6 [E6 [I6 [C6 N6]]]]|[E6 X6]];
    rewrite E6; simpl; [|right; split; [reflexivity|]; apply (CE _ _ _ _ X6); tauto].
  left. eexists. split; [reflexivity|].
  assert (NC : ~ clash a b).
  { intros [x [y [Hx [Hy [Hd [Hr Hf]]]]]].
    assert (Hs : wside y = wside x) by (unfold desc in Hd; congruence).
    assert (Ho : is_out y = is_out x) by (unfold desc in Hd; congruence).
    destruct (is_out x) eqn:O.
    - rewrite Hd in Hf. destruct (wside x) eqn:S.
      + apply (C1 y x); auto.
      + apply (C2 y x); auto.
      + apply (C5 y x); auto.
    - destruct (wside x) eqn:S.
      + apply (C3 x y); auto.
      + apply (C4 x y); auto.
      + apply (C6 x y); auto. }
  assert (IU : forall w, In w (sorted_wires g1 ++ sorted_wires g3 ++ sorted_wires g2
               ++ sorted_wires g4 ++ sorted_wires g5 ++ sorted_wires g6) <-> survW a b w).
  { intros w. rewrite !in_app_iff, !sorted_wires_in, I1, I2, I3, I4, I5, I6. unfold survW.
    destruct (wside w) eqn:S, (is_out w) eqn:O; intuition congruence. }
  split; [exact NC|]. split; [exact IU|].
  intros Da Db SR.
  assert (Na : NoDup a) by now apply (NoDup_of_map desc).
  assert (Nb : NoDup b) by now apply (NoDup_of_map desc).
  apply NoDup_map_of_inj.
  - assert (NG : forall s o x y g,
       (forall w, In w g <-> wside w = s /\ is_out w = o /\ (In w x \/ (In w y /\ ~ In (flip (desc w)) (descs x)))) ->
       True) by auto. clear NG.
    assert (G : forall s o x y g,
       part s o x y = Ok g -> NoDup x -> NoDup y ->
       (forall w w', In w x -> In w' y -> wside w = s -> is_out w = o -> desc w = desc w' ->
        ~ In (flip (desc w)) (descs x) -> wrepr w <> wrepr w') -> NoDup g).
    { intros s o x y g E Nx Ny Cx. unfold part in E.
      destruct (add_ok_iff (filter (sel s o) x) (sub (filter (sel s o) y) (filter (sel s (negb o)) x)))
        as [[E' H]|[E' _]]; rewrite E' in E; [|discriminate]. injection E as <-.
      apply NoDup_app_intro.
      - now apply NoDup_filter.
      - unfold sub. apply NoDup_filter. now apply NoDup_filter.
      - intros w H1 H2. apply in_sel in H1. apply in_sub_sel in H2.
        apply (Cx w w); tauto. }
    repeat apply NoDup_app_intro;
      try (eapply Permutation_NoDup; [symmetry; apply sorted_wires_perm|]; eapply G; eauto);
      intros w; rewrite ?in_app_iff, ?sorted_wires_in, ?I1, ?I2, ?I3, ?I4, ?I5, ?I6; intuition congruence.
  - intros x y Hx Hy E. rewrite IU in Hx, Hy. unfold survW in *.
    assert (Ho : is_out y = is_out x) by (unfold desc in E; congruence).
    rewrite Ho, <- E in Hy.
    destruct (is_out x) eqn:O; destruct Hx as [Hx|[Hx Fx]], Hy as [Hy|[Hy Fy]];
      try (first [apply (distinct_inj a); assumption | apply (distinct_inj b); assumption]);
      exfalso; apply NC;
      [exists y, x; rewrite Ho, <- E | exists x, y; rewrite O
      |exists x, y; rewrite O | exists y, x; rewrite Ho, <- E]; repeat split; auto.
Qed.

Lemma survW_desc : forall a b u, (forall w, In w u <-> survW a b w) ->
  forall d, In d (descs u) <-> survives a b d.
Proof.
  intros a b u H d. unfold descs at 1. rewrite in_map_iff. split.
  - intros [w [<- Hw]]. apply H in Hw. unfold survW in Hw. unfold survives. change (d_out (desc w)) with (is_out w).
    destruct (is_out w).
    + destruct Hw as [Hw|[Hw F]]; [left|right; split; auto]; now apply in_map.
    + destruct Hw as [Hw|[Hw F]]; [left|right; split; auto]; now apply in_map.
  - unfold survives. destruct (d_out d) eqn:O.
    + intros [Hd|[Hd F]]; apply in_map_iff in Hd; destruct Hd as [w [<- Hw]]; exists w; (split; [reflexivity|]);
        apply H; unfold survW; change (is_out w) with (d_out (desc w)); rewrite O; auto.
    + intros [Hd|[Hd F]]; apply in_map_iff in Hd; destruct Hd as [w [<- Hw]]; exists w; (split; [reflexivity|]);
        apply H; unfold survW; change (is_out w) with (d_out (desc w)); rewrite O; auto.
Qed.

Lemma clash_collision : forall a b, same_repr a b -> (clash a b <-> exists d, collision a b d).
Proof.
  intros a b SR. split.
  - intros [x [y [Hx [Hy [Hd [Hr Hf]]]]]]. exists (desc x). unfold collision.
    change (d_out (desc x)) with (is_out x).
    assert (In (desc x) (descs a)) by now apply in_map.
    assert (In (desc x) (descs b)) by (rewrite Hd; now apply in_map).
    destruct (is_out x); auto.
  - intros [d H]. unfold collision in H.
    assert (In d (descs a) /\ In d (descs b)) as [Ha Hb] by (destruct (d_out d); tauto).
    apply in_map_iff in Ha. destruct Ha as [x [Ex Hx]]. apply in_map_iff in Hb. destruct Hb as [y [Ey Hy]].
    exists x, y. repeat split; auto; try congruence.
    + apply SR; auto; congruence.
    + change (is_out x) with (d_out (desc x)). rewrite Ex. destruct (d_out d); tauto.
Qed.

Lemma survives_sub : forall a b d, survives a b d -> In d (descs (a ++ b)).
Proof. unfold survives, descs. intros a b d. rewrite map_app, in_app_iff. destruct (d_out d); tauto. Qed.

Lemma window_l : forall a b, window (a ++ b) -> window a.
Proof. intros a b H x y Hx Hy. apply H; apply in_or_app; auto. Qed.
Lemma window_r : forall a b, window (a ++ b) -> window b.
Proof. intros a b H x y Hx Hy. apply H; apply in_or_app; auto. Qed.

Theorem matmul_wires_spec : forall a b,
  distinct a -> distinct b -> same_repr a b ->
  (exists r, matmul_wires a b = Ok r /\ ~ (exists d, collision a b d)
     /\ distinct r /\ well_indexed r
     /\ (forall d, In d (descs r) <-> survives a b d)
     /\ (window (a ++ b) -> StronglySorted std_lt (descs (sorted_wires r))))
  \/ (matmul_wires a b = Err ValueError /\ exists d, collision a b d).
Proof.
  intros a b Da Db SR. destruct (matmul_wires_cases a b) as [[u [E [NC [IU DU]]]]|[E C]].
  - left. exists (reindex u). split; [assumption|]. rewrite <- clash_collision by assumption. split; [assumption|].
    assert (D : distinct (reindex u)).
    { eapply Permutation_NoDup; [symmetry; apply reindex_descs_perm|]. now apply DU. }
    assert (ID : forall d, In d (descs (reindex u)) <-> survives a b d).
    { intros d. rewrite <- (survW_desc _ _ _ IU). split; apply Permutation_in; [|symmetry]; apply reindex_descs_perm. }
    repeat split; auto.
    + apply reindex_well_indexed.
    + apply ID.
    + apply ID.
    + intros W. apply sorted_std; [|assumption].
      eapply window_perm_descs; [|exact W]. intros d Hd. apply ID in Hd. now apply survives_sub.
  - right. split; [assumption|]. now apply clash_collision.
Qed.

(** ** the permutation *)
Lemma wire_py_eq_spec : forall x w, (forall (_ : mode x = mode w) (_ : is_out x = is_out w), is_clb x = is_clb w) ->
  wire_py_eq x w = Ok (wire_eqb x w).
Proof.
  intros x w H. unfold wire_py_eq, wire_eqb.
  destruct (Z.eqb (mode x) (mode w)) eqn:M; destruct (Bool.eqb (is_out x) (is_out w)) eqn:O; simpl;
    try (destruct (is_clb x); reflexivity).
  apply Z.eqb_eq in M. apply Bool.eqb_prop in O. specialize (H M O).
  unfold is_clb in *. destruct (wside x), (wside w); simpl in *; try discriminate; reflexivity.
Qed.

(** no quantum wire shares mode and direction with a classical wire *)
Definition no_cl_clash (l : list wire) : Prop :=
  forall x y, In x l -> In y l -> mode x = mode y -> is_out x = is_out y -> is_clb x = is_clb y.

Lemma py_index_spec : forall w l i,
  (forall x, In x l -> wire_py_eq x w = Ok (wire_eqb x w)) ->
  (exists x, In x l /\ wire_eqb x w = true) ->
  exists k, py_index w l i = Ok (i + k) /\ k < length l /\ wire_eqb (nth k l w) w = true.
Proof.
  induction l as [|x t IH]; intros i H [y [Hy E]]; [destruct Hy|].
  simpl. rewrite (H x) by now left. simpl. destruct (wire_eqb x w) eqn:X.
  - exists 0. simpl. rewrite Nat.add_0_r. repeat split; auto. lia.
  - destruct Hy as [->|Hy]; [congruence|].
    destruct (IH (S i)) as [k [K1 [K2 K3]]]; [intros; apply H; now right|eauto|].
    exists (S k). simpl. rewrite K1. repeat split; auto; [f_equal; lia|lia].
Qed.

Lemma mapM_spec : forall {A B} (f : A -> result B) (P : A -> B -> Prop) l,
  (forall x, In x l -> exists y, f x = Ok y /\ P x y) ->
  exists ys, mapM f l = Ok ys /\ Forall2 P l ys.
Proof.
  induction l as [|x t IH]; intros H; simpl; [eexists; split; [reflexivity|constructor]|].
  destruct (H x) as [y [Ey Py]]; [now left|]. rewrite Ey. simpl.
  destruct IH as [ys [Eys Pys]]; [intros; apply H; now right|]. rewrite Eys. simpl.
  eexists; split; [reflexivity|]. constructor; assumption.
Qed.

Definition distinct_ids (a b : wires) : Prop := NoDup (map wid (a ++ b)).

Lemma wid_inj : forall ws x y, NoDup (map wid ws) -> In x ws -> In y ws -> wid x = wid y -> x = y.
Proof.
  induction ws as [|w t IH]; intros x y HD Hx Hy E; [destruct Hx|].
  inversion HD; subst. destruct Hx as [->|Hx], Hy as [->|Hy]; auto.
  - exfalso. apply H1. rewrite E. now apply in_map.
  - exfalso. apply H1. rewrite <- E. now apply in_map.
Qed.

Lemma in_reindex : forall u w, In w (reindex u) ->
  exists v, In v u /\ desc v = desc w /\ wid v = wid w /\ wrepr v = wrepr w.
Proof.
  intros u w H. unfold reindex in H. destruct (In_nth _ _ w H) as [k [Hk E]].
  rewrite number_from_length in Hk. rewrite number_from_nth in E by assumption. simpl in E.
  exists (nth k (sorted_wires u) w). split; [apply sorted_wires_in, nth_In; assumption|].
  rewrite <- E at 2 4 6. unfold desc. simpl. auto.
Qed.
Lemma in_reindex_back : forall u v, In v u ->
  exists w, In w (reindex u) /\ desc v = desc w /\ wid v = wid w /\ wrepr v = wrepr w.
Proof.
  intros u v H. apply sorted_wires_in in H. destruct (In_nth _ _ v H) as [k [Hk E]].
  exists (nth k (reindex u) v). split.
  - apply nth_In. unfold reindex. now rewrite number_from_length.
  - unfold reindex. rewrite number_from_nth by assumption. simpl. rewrite E. auto.
Qed.

Lemma existsb_ids : forall w ws, existsb (Nat.eqb (wid w)) (ids ws) = true <-> exists v, In v ws /\ wid v = wid w.
Proof.
  intros. unfold ids. rewrite existsb_exists. split.
  - intros [i [H E]]. apply Nat.eqb_eq in E. apply in_map_iff in H. destruct H as [v [Ev Hv]].
    rewrite sorted_wires_in in Hv. exists v. split; [assumption|congruence].
  - intros [v [H E]]. exists (wid v). split; [apply in_map, sorted_wires_in; assumption|].
    apply Nat.eqb_eq. congruence.
Qed.

Lemma survA_true : forall b w, survA b w = true <-> (is_out w = true -> ~ In (flip (desc w)) (descs b)).
Proof.
  intros. unfold survA. destruct (is_out w); [|split; auto; discriminate].
  rewrite negb_true_iff, memd_false. split; auto.
Qed.
Lemma survB_true : forall a w, survB a w = true <-> (is_out w = false -> ~ In (flip (desc w)) (descs a)).
Proof.
  intros. unfold survB. destruct (is_out w); [split; auto; discriminate|].
  rewrite negb_true_iff, memd_false. split; auto.
Qed.

Lemma combined_survivors : forall a b u,
  distinct_ids a b -> (forall w, In w u <-> survW a b w) ->
  combined a b (reindex u) = filter (survA b) (sorted_wires a) ++ filter (survB a) (sorted_wires b).
Proof.
  intros a b u DI IU. unfold combined. f_equal; apply filter_ext_in; intros w Hw; rewrite sorted_wires_in in Hw.
  - apply eq_true_iff_eq. rewrite existsb_ids, survA_true. split.
    + intros [v [Hv E]] O. apply in_reindex in Hv. destruct Hv as [v' [Hv' [_ [E' _]]]].
      apply IU in Hv'. assert (In v' (a ++ b)).
      { apply in_or_app. unfold survW in Hv'. destruct (is_out v'); tauto. }
      assert (v' = w). { apply (wid_inj (a ++ b)); auto; [apply in_or_app; auto|congruence]. }
      subst v'. unfold survW in Hv'. rewrite O in Hv'. destruct Hv' as [Hb|[_ ?]]; [|assumption].
      exfalso. unfold distinct_ids in DI. rewrite map_app in DI.
      clear - DI Hw Hb. induction a as [|x t IH]; [destruct Hw|]. simpl in DI. inversion DI; subst.
      destruct Hw as [->|Hw]; [|auto]. apply H1. apply in_or_app. right. now apply in_map.
    + intros H. destruct (in_reindex_back u w) as [v [Hv [_ [E _]]]].
      * apply IU. unfold survW. destruct (is_out w); auto.
      * exists v. auto.
  - apply eq_true_iff_eq. rewrite existsb_ids, survB_true. split.
    + intros [v [Hv E]] O. apply in_reindex in Hv. destruct Hv as [v' [Hv' [_ [E' _]]]].
      apply IU in Hv'. assert (In v' (a ++ b)).
      { apply in_or_app. unfold survW in Hv'. destruct (is_out v'); tauto. }
      assert (v' = w). { apply (wid_inj (a ++ b)); auto; [apply in_or_app; auto|congruence]. }
      subst v'. unfold survW in Hv'. rewrite O in Hv'. destruct Hv' as [Hb|[_ ?]]; [|assumption].
      exfalso. unfold distinct_ids in DI. rewrite map_app in DI.
      clear - DI Hw Hb. induction a as [|x t IH]; [destruct Hb|]. simpl in DI. inversion DI; subst.
      destruct Hb as [->|Hb]; [|auto]. apply H1. apply in_or_app. right. now apply in_map.
    + intros H. destruct (in_reindex_back u w) as [v [Hv [_ [E _]]]].
      * apply IU. unfold survW. destruct (is_out w); auto.
      * exists v. auto.
Qed.

Lemma combined_in : forall a b w,
  In w (filter (survA b) (sorted_wires a) ++ filter (survB a) (sorted_wires b)) <-> survW a b w.
Proof.
  intros. rewrite in_app_iff, !filter_In, !sorted_wires_in, survA_true, survB_true.
  unfold survW. assert (true <> false) by discriminate. assert (false <> true) by discriminate.
  destruct (is_out w); assert (true = true) by reflexivity; assert (false = false) by reflexivity; tauto.
Qed.

Lemma NoDup_nth_error_perm : forall n (l : list nat),
  NoDup l -> length l = n -> (forall x, In x l -> x < n) -> Permutation l (seq 0 n).
Proof.
  intros n l ND L B. apply NoDup_Permutation_bis; auto.
  - rewrite seq_length. lia.
  - intros x Hx. apply in_seq. specialize (B _ Hx). lia.
Qed.

Theorem matmul_perm_spec : forall a b r,
  distinct a -> distinct b -> same_repr a b -> distinct_ids a b ->
  matmul_wires a b = Ok r -> no_cl_clash r ->
  exists perm, matmul a b = Ok (r, perm) /\ Permutation perm (seq 0 (length r)) /\
    let comb := filter (survA b) (sorted_wires a) ++ filter (survB a) (sorted_wires b) in
    length comb = length r /\
    forall k d, k < length r -> desc (nth k (sorted_wires r) d) = desc (nth (nth k perm 0) comb d)
                               /\ wid (nth k (sorted_wires r) d) = wid (nth (nth k perm 0) comb d).
Proof.
  intros a b r Da Db SR DI E NCL. unfold matmul. rewrite E. simpl.
  destruct (matmul_wires_cases a b) as [[u [E' [NC [IU DU]]]]|[E' C]]; [|congruence].
  assert (r = reindex u) by congruence. subst r. clear E'.
  rewrite (combined_survivors a b u DI IU).
  set (comb := filter (survA b) (sorted_wires a) ++ filter (survB a) (sorted_wires b)).
  assert (IC : forall w, In w comb <-> In w u).
  { intros w. unfold comb. rewrite combined_in. symmetry. apply IU. }
  specialize (DU Da Db SR).
  assert (NDu : NoDup u) by now apply (NoDup_of_map desc).
  assert (NDI : NoDup (map wid comb)).
  { unfold comb. assert (X : distinct_ids (sorted_wires a) (sorted_wires b)).
    { unfold distinct_ids. eapply Permutation_NoDup; [|exact DI]. apply Permutation_map.
      apply Permutation_app; symmetry; apply sorted_wires_perm. }
    unfold distinct_ids in X. clear - X. revert X.
    generalize (sorted_wires a) as l1, (sorted_wires b) as l2. intros l1 l2 X.
    rewrite map_app in *. apply NoDup_app_intro.
    - apply NoDup_map_filter. now apply NoDup_app_l in X.
    - apply NoDup_map_filter. now apply NoDup_app_r in X.
    - intros i H1 H2. apply (NoDup_app_disj _ _ i X).
      + apply in_map_iff in H1. destruct H1 as [x [<- H1]]. apply filter_In in H1. apply in_map. tauto.
      + apply in_map_iff in H2. destruct H2 as [x [<- H2]]. apply filter_In in H2. apply in_map. tauto. }
  assert (NDc : NoDup comb) by now apply (NoDup_of_map wid).
  assert (PC : Permutation comb u) by now apply NoDup_Permutation.
  assert (LC : length comb = length (reindex u)).
  { rewrite reindex_length. now apply Permutation_length. }
  assert (Dc : NoDup (map desc comb)).
  { eapply Permutation_NoDup; [|exact DU]. apply Permutation_map. now symmetry. }
  destruct (mapM_spec (fun w => py_index w comb 0)
     (fun w k => k < length comb /\ desc (nth k comb w) = desc w /\ wid (nth k comb w) = wid w) (sorted_wires (reindex u)))
    as [perm [EP FP]].
  { intros w Hw. apply (proj1 (sorted_wires_in _ _)) in Hw. pose proof Hw as HwR.
    apply in_reindex in Hw. destruct Hw as [v [Hv [Hd [Hi Hr]]]].
    destruct (py_index_spec w comb 0) as [k [K1 [K2 K3]]].
    - intros x Hx. apply wire_py_eq_spec. intros Em Eo.
      apply IC in Hx. apply in_reindex_back in Hx. destruct Hx as [x' [Hx' [Dx _]]].
      assert (is_clb x = is_clb x') by (unfold is_clb; unfold desc in Dx; injection Dx; intros; congruence).
      rewrite H. apply NCL; auto; unfold desc in Dx; injection Dx; intros; congruence.
    - exists v. split; [now apply IC|]. apply wire_eqb_true. auto.
    - exists k. split; [exact K1|]. apply wire_eqb_true in K3. destruct K3 as [K3 K4]. split; [assumption|].
      split; [assumption|].
      assert (nth k comb w = v).
      { assert (In (nth k comb w) u) by (apply IC; now apply nth_In).
        apply (distinct_inj u); auto. congruence. }
      congruence. }
  rewrite EP. simpl. exists perm. split; [reflexivity|].
  assert (LP : length perm = length (reindex u)).
  { apply Forall2_len in FP. rewrite <- FP. apply sorted_wires_length. }
  assert (NTH : forall k d, k < length (reindex u) ->
     nth k perm 0 < length comb /\ desc (nth (nth k perm 0) comb d) = desc (nth k (sorted_wires (reindex u)) d)
     /\ wid (nth (nth k perm 0) comb d) = wid (nth k (sorted_wires (reindex u)) d)).
  { intros k d Hk. clear - FP Hk LC. rewrite <- (sorted_wires_length (reindex u)) in Hk.
    revert FP k Hk. generalize (sorted_wires (reindex u)) as l. revert perm.
    induction perm as [|q t IH]; intros l FP k Hk; [inversion FP; subst; simpl in Hk; lia|].
    destruct l as [|x l]; [inversion FP|].
    assert (Q : q < length comb /\ desc (nth q comb x) = desc x /\ wid (nth q comb x) = wid x)
      by (inversion FP; assumption).
    assert (FT : Forall2 (fun w k => k < length comb /\ desc (nth k comb w) = desc w /\ wid (nth k comb w) = wid w) l t)
      by (inversion FP; assumption).
    destruct k as [|k]; simpl.
    - destruct Q as [Q1 [Q2 Q3]]. rewrite (nth_indep comb d x Q1). auto.
    - apply IH; auto. simpl in Hk. lia. }
  split; [|split; [assumption|]].
  - apply NoDup_nth_error_perm; auto.
    + apply NoDup_nth with (d := 0). intros i j Hi Hj Eij. rewrite LP in Hi, Hj.
      pose (d := mkWire 0 false Bra 0 Bargmann 0).
      destruct (NTH i d Hi) as [_ [Di _]]. destruct (NTH j d Hj) as [_ [Dj _]].
      rewrite Eij in Di. rewrite Di in Dj.
      assert (ND : NoDup (descs (sorted_wires (reindex u)))).
      { eapply Permutation_NoDup; [symmetry; apply descs_perm, sorted_wires_perm|].
        eapply Permutation_NoDup; [symmetry; apply reindex_descs_perm|]. exact DU. }
      apply (NoDup_nth_inj (descs (sorted_wires (reindex u))) (desc d) i j ND).
      * unfold descs. now rewrite map_length, sorted_wires_length.
      * unfold descs. now rewrite map_length, sorted_wires_length.
      * unfold descs. rewrite !map_nth. assumption.
    + intros x Hx. destruct (In_nth _ _ 0 Hx) as [k [Hk Ek]]. rewrite LP in Hk.
      destruct (NTH k (mkWire 0 false Bra 0 Bargmann 0) Hk) as [B _]. rewrite Ek in B. lia.
  - intros k d Hk. destruct (NTH k d Hk) as [_ [H1 H2]]. auto.
Qed.
