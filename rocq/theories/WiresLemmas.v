From Coq Require Import ZArith List Bool Lia Permutation Sorted Arith.
Require Import Verif.Base Verif.Wires Verif.WiresSpec.
Import ListNotations.

(** ** orders *)
Lemma order_std : forall w1 w2,
  (mode w1 - mode w2 < 20000)%Z -> (mode w2 - mode w1 < 20000)%Z ->
  ((order w1 < order w2)%Z <-> std_lt (desc w1) (desc w2)).
Proof.
  intros [m1 o1 s1 i1 r1 k1] [m2 o2 s2 i2 r2 k2] H1 H2.
  unfold std_lt, desc, group_rank, order, d_mode, d_out, d_side, is_ketb, b2z in *; cbn [mode is_out wside fst snd] in *.
  destruct s1, o1, s2, o2; cbn [side_eqb]; (split; [intros H; try (left; lia); try (right; split; [reflexivity|lia]); exfalso; lia
    | intros [H|[H H3]]; lia]).
Qed.

Lemma order_inj : forall w1 w2,
  (mode w1 - mode w2 < 20000)%Z -> (mode w2 - mode w1 < 20000)%Z ->
  order w1 = order w2 -> desc w1 = desc w2.
Proof.
  intros [m1 o1 s1 i1 r1 k1] [m2 o2 s2 i2 r2 k2] H1 H2.
  unfold desc, order, is_ketb, b2z in *; cbn [mode is_out wside] in *.
  destruct s1, o1, s2, o2; cbn [side_eqb]; intros E; first [exfalso; lia | f_equal; f_equal; lia].
Qed.

Lemma desc_order : forall w1 w2, desc w1 = desc w2 -> order w1 = order w2.
Proof.
  intros [m1 o1 s1 i1 r1 k1] [m2 o2 s2 i2 r2 k2]. unfold desc; cbn [mode is_out wside].
  intros E; injection E; intros; subst. reflexivity.
Qed.

Lemma distinct_orders : forall ws, window ws -> distinct ws -> NoDup (map order ws).
Proof.
  intros ws. induction ws as [|w t IH]; intros HW HD; [constructor|].
  inversion HD; subst. simpl. constructor.
  - intros C. apply in_map_iff in C. destruct C as [x [E Hx]]. apply H1.
    assert (desc w = desc x).
    { apply order_inj; [apply HW; simpl; auto|apply HW; simpl; auto|congruence]. }
    unfold descs. rewrite H. now apply in_map.
  - apply IH; [|assumption]. intros a b Ha Hb. apply HW; simpl; auto.
Qed.

Lemma sorted_strict : forall ws, window ws -> distinct ws -> StronglySorted (key_lt order) (sorted_wires ws).
Proof. intros. apply isort_strict. now apply distinct_orders. Qed.

Lemma sorted_wires_perm : forall ws, Permutation (sorted_wires ws) ws.
Proof. intros. apply isort_perm. Qed.
Lemma sorted_wires_in : forall w ws, In w (sorted_wires ws) <-> In w ws.
Proof. intros. apply isort_in. Qed.
Lemma sorted_wires_length : forall ws, length (sorted_wires ws) = length ws.
Proof. intros. apply isort_length. Qed.

Lemma StronglySorted_impl_in : forall {A} (R S : A -> A -> Prop) l,
  (forall x y, In x l -> In y l -> R x y -> S x y) -> StronglySorted R l -> StronglySorted S l.
Proof.
  induction l as [|x t IH]; intros H HS; [constructor|]. inversion HS; subst. constructor.
  - apply IH; auto. intros; apply H; simpl; auto.
  - rewrite Forall_forall in *. intros y Hy. apply H; simpl; auto.
Qed.

Lemma sorted_std : forall ws, window ws -> distinct ws ->
  StronglySorted std_lt (descs (sorted_wires ws)).
Proof.
  intros ws HW HD. unfold descs. apply (proj1 (StronglySorted_map desc std_lt _)).
  apply (StronglySorted_impl_in (key_lt order)); [|now apply sorted_strict].
  intros x y Hx Hy. rewrite sorted_wires_in in Hx, Hy. unfold key_lt.
  apply order_std; apply HW; assumption.
Qed.

Lemma std_lt_irrefl : forall d, ~ std_lt d d.
Proof. unfold std_lt; intros d [H|[_ H]]; lia. Qed.
Lemma std_lt_trans : forall a b c, std_lt a b -> std_lt b c -> std_lt a c.
Proof. unfold std_lt; intros; lia. Qed.

Lemma std_sorted_unique : forall l1 l2,
  StronglySorted std_lt l1 -> StronglySorted std_lt l2 -> (forall d, In d l1 <-> In d l2) -> l1 = l2.
Proof.
  induction l1 as [|x t IH]; intros l2 S1 S2 H.
  - destruct l2 as [|y u]; [reflexivity|]. destruct (proj2 (H y)); now left.
  - destruct l2 as [|y u]; [destruct (proj1 (H x)); now left|].
    inversion S1 as [|? ? A1 B1]; inversion S2 as [|? ? A2 B2]; subst.
    rewrite Forall_forall in B1, B2.
    assert (x = y) as ->.
    { destruct (proj1 (H x) (or_introl eq_refl)) as [E|Hx]; [congruence|].
      destruct (proj2 (H y) (or_introl eq_refl)) as [E|Hy]; [congruence|].
      exfalso. apply (std_lt_irrefl x). eapply std_lt_trans; [apply B1, Hy|apply B2, Hx]. }
    f_equal. apply IH; auto. intros d. split; intros Hd.
    + destruct (proj1 (H d) (or_intror Hd)) as [E|]; [|assumption]. subst d.
      exfalso. apply (std_lt_irrefl y). now apply B1.
    + destruct (proj2 (H d) (or_intror Hd)) as [E|]; [|assumption]. subst d.
      exfalso. apply (std_lt_irrefl y). now apply B2.
Qed.

Lemma std_sorted_NoDup : forall l, StronglySorted std_lt l -> NoDup l.
Proof.
  induction 1; constructor; auto. intros C. rewrite Forall_forall in H0.
  apply (std_lt_irrefl a). now apply H0.
Qed.

(** ** views *)
Lemma mem_mode_In : forall m l, mem_mode m l = true <-> In m l.
Proof.
  intros. unfold mem_mode. rewrite existsb_exists. split.
  - intros [x [H E]]. apply Z.eqb_eq in E. now subst.
  - intros H. exists m. split; [assumption|apply Z.eqb_refl].
Qed.

Lemma side_eqb_refl : forall s, side_eqb s s = true.
Proof. intros []; reflexivity. Qed.

Lemma in_view : forall s o ws w,
  In w (filter (fun w => side_eqb (wside w) s) (filter (fun w => Bool.eqb (is_out w) o) ws))
  <-> In w ws /\ wside w = s /\ is_out w = o.
Proof.
  intros. rewrite !filter_In, side_eqb_eq, Bool.eqb_true_iff. tauto.
Qed.

Definition sel (s : side) (o : bool) (w : wire) : bool := side_eqb (wside w) s && Bool.eqb (is_out w) o.

Lemma filter_filter : forall {A} (f g : A -> bool) l, filter f (filter g l) = filter (fun x => g x && f x) l.
Proof.
  induction l as [|x t IH]; simpl; [reflexivity|].
  destruct (g x) eqn:G; simpl; [|assumption]. destruct (f x); simpl; congruence.
Qed.
Lemma filter_ext' : forall {A} (f g : A -> bool) l, (forall x, f x = g x) -> filter f l = filter g l.
Proof. intros. apply filter_ext. auto. Qed.

Lemma bra_output_sel : forall ws, bra (output ws) = filter (sel Bra true) ws.
Proof. intros. unfold bra, output. rewrite filter_filter. apply filter_ext. intros w. unfold sel, is_brab. destruct (is_out w), (wside w); reflexivity. Qed.
Lemma ket_output_sel : forall ws, ket (output ws) = filter (sel Ket true) ws.
Proof. intros. unfold ket, output. rewrite filter_filter. apply filter_ext. intros w. unfold sel, is_ketb. destruct (is_out w), (wside w); reflexivity. Qed.
Lemma bra_input_sel : forall ws, bra (input ws) = filter (sel Bra false) ws.
Proof. intros. unfold bra, input. rewrite filter_filter. apply filter_ext. intros w. unfold sel, is_brab. destruct (is_out w), (wside w); reflexivity. Qed.
Lemma ket_input_sel : forall ws, ket (input ws) = filter (sel Ket false) ws.
Proof. intros. unfold ket, input. rewrite filter_filter. apply filter_ext. intros w. unfold sel, is_ketb. destruct (is_out w), (wside w); reflexivity. Qed.
Lemma cl_output_sel : forall ws, output (classical ws) = filter (sel Cl true) ws.
Proof. intros. unfold classical, output. rewrite filter_filter. apply filter_ext. intros w. unfold sel, is_clb. destruct (is_out w), (wside w); reflexivity. Qed.
Lemma cl_input_sel : forall ws, input (classical ws) = filter (sel Cl false) ws.
Proof. intros. unfold classical, input. rewrite filter_filter. apply filter_ext. intros w. unfold sel, is_clb. destruct (is_out w), (wside w); reflexivity. Qed.
Lemma output_bra_sel : forall ws, output (bra ws) = filter (sel Bra true) ws.
Proof. intros. unfold bra, output. rewrite filter_filter. apply filter_ext. intros w. unfold sel, is_brab. destruct (is_out w), (wside w); reflexivity. Qed.
Lemma output_ket_sel : forall ws, output (ket ws) = filter (sel Ket true) ws.
Proof. intros. unfold ket, output. rewrite filter_filter. apply filter_ext. intros w. unfold sel, is_ketb. destruct (is_out w), (wside w); reflexivity. Qed.
Lemma input_bra_sel : forall ws, input (bra ws) = filter (sel Bra false) ws.
Proof. intros. unfold bra, input. rewrite filter_filter. apply filter_ext. intros w. unfold sel, is_brab. destruct (is_out w), (wside w); reflexivity. Qed.
Lemma input_ket_sel : forall ws, input (ket ws) = filter (sel Ket false) ws.
Proof. intros. unfold ket, input. rewrite filter_filter. apply filter_ext. intros w. unfold sel, is_ketb. destruct (is_out w), (wside w); reflexivity. Qed.

Lemma sel_true : forall s o w, sel s o w = true <-> wside w = s /\ is_out w = o.
Proof. intros. unfold sel. now rewrite andb_true_iff, side_eqb_eq, Bool.eqb_true_iff. Qed.

Lemma in_sel : forall s o w ws, In w (filter (sel s o) ws) <-> In w ws /\ wside w = s /\ is_out w = o.
Proof. intros. now rewrite filter_In, sel_true. Qed.

Lemma in_modes_sel : forall m s o ws,
  In m (modes (filter (sel s o) ws)) <-> In (m, o, s) (descs ws).
Proof.
  intros. unfold modes, descs. rewrite !in_map_iff. split.
  - intros [w [E H]]. apply in_sel in H. destruct H as [H [Hs Ho]].
    exists w. split; [|assumption]. unfold desc. congruence.
  - intros [w [E H]]. unfold desc in E. injection E; intros. exists w.
    split; [assumption|]. apply in_sel. auto.
Qed.

Lemma wire_eqb_true : forall x y, wire_eqb x y = true <-> desc x = desc y /\ wrepr x = wrepr y.
Proof.
  intros. unfold wire_eqb, desc. rewrite !andb_true_iff, Z.eqb_eq, Bool.eqb_true_iff, side_eqb_eq, repr_eqb_eq.
  split.
  - intros [[[-> ->] ->] ->]; auto.
  - intros [E ->]; injection E; auto.
Qed.

Lemma overlaps_true : forall a b, overlaps a b = true <->
  exists x y, In x a /\ In y b /\ desc x = desc y /\ wrepr x = wrepr y.
Proof.
  intros. unfold overlaps. rewrite existsb_exists. split.
  - intros [x [Hx H]]. apply existsb_exists in H. destruct H as [y [Hy E]].
    apply wire_eqb_true in E. exists x, y. tauto.
  - intros [x [y [Hx [Hy E]]]]. exists x. split; [assumption|].
    apply existsb_exists. exists y. split; [assumption|]. now apply wire_eqb_true.
Qed.

Lemma add_ok_iff : forall a b,
  (add a b = Ok (a ++ b) /\ forall x y, In x a -> In y b -> desc x = desc y -> wrepr x <> wrepr y)
  \/ (add a b = Err ValueError /\ exists x y, In x a /\ In y b /\ desc x = desc y /\ wrepr x = wrepr y).
Proof.
  intros a b. unfold add.
  destruct (overlaps (classical a) (classical b)) eqn:E1.
  { right. split; [reflexivity|]. apply overlaps_true in E1. destruct E1 as [x [y [Hx [Hy H]]]].
    apply filter_In in Hx. apply filter_In in Hy. exists x, y. tauto. }
  destruct (overlaps (quantum a) (quantum b)) eqn:E2.
  { right. split; [reflexivity|]. apply overlaps_true in E2. destruct E2 as [x [y [Hx [Hy H]]]].
    apply filter_In in Hx. apply filter_In in Hy. exists x, y. tauto. }
  left. split; [reflexivity|]. intros x y Hx Hy Hd Hr.
  assert (Hs : wside x = wside y) by (unfold desc in Hd; congruence).
  destruct (is_clb x) eqn:C.
  - enough (overlaps (classical a) (classical b) = true) by congruence.
    apply overlaps_true. exists x, y. unfold classical. rewrite !filter_In.
    unfold is_clb in *. rewrite <- Hs. auto.
  - enough (overlaps (quantum a) (quantum b) = true) by congruence.
    apply overlaps_true. exists x, y. unfold quantum. rewrite !filter_In.
    unfold quantumb, is_clb in *. rewrite <- Hs, C. auto.
Qed.

(** ** renumbering *)
Lemma number_from_desc : forall l i, map desc (number_from i l) = map desc l.
Proof. induction l as [|w t IH]; intros i; simpl; [reflexivity|]. f_equal. apply IH. Qed.
Lemma number_from_wid : forall l i, map wid (number_from i l) = map wid l.
Proof. induction l as [|w t IH]; intros i; simpl; [reflexivity|]. f_equal. apply IH. Qed.
Lemma number_from_repr : forall l i, map wrepr (number_from i l) = map wrepr l.
Proof. induction l as [|w t IH]; intros i; simpl; [reflexivity|]. f_equal. apply IH. Qed.
Lemma number_from_index : forall l i, map index (number_from i l) = seq i (length l).
Proof. induction l as [|w t IH]; intros i; simpl; [reflexivity|]. f_equal. apply IH. Qed.
Lemma number_from_length : forall l i, length (number_from i l) = length l.
Proof. induction l as [|w t IH]; intros i; simpl; [reflexivity|]. f_equal. apply IH. Qed.
Lemma number_from_order : forall l i, map order (number_from i l) = map order l.
Proof. induction l as [|w t IH]; intros i; simpl; [reflexivity|]. f_equal. apply IH. Qed.

Lemma number_from_nth : forall l i k d, k < length l ->
  nth k (number_from i l) d =
  let w := nth k l d in mkWire (mode w) (is_out w) (wside w) (i + k) (wrepr w) (wid w).
Proof.
  induction l as [|w t IH]; intros i [|k] d H; simpl in *; try lia.
  - now rewrite Nat.add_0_r.
  - rewrite IH by lia. simpl. now replace (i + S k) with (S (i + k)) by lia.
Qed.

Lemma reindex_sorted : forall ws, sorted_wires (reindex ws) = reindex ws.
Proof.
  intros. unfold sorted_wires at 1. apply isort_id.
  unfold reindex. change (StronglySorted (fun a b => Z.le (order a) (order b)) (number_from 0 (sorted_wires ws))).
  apply (proj2 (StronglySorted_map order Z.le _)). rewrite number_from_order.
  apply (proj1 (StronglySorted_map order Z.le _)).
  apply isort_sorted.
Qed.

Lemma reindex_well_indexed : forall ws, well_indexed (reindex ws).
Proof.
  intros. unfold well_indexed, indices. rewrite reindex_sorted.
  unfold reindex. now rewrite number_from_index, number_from_length.
Qed.

Lemma reindex_descs : forall ws, descs (reindex ws) = descs (sorted_wires ws).
Proof. intros. unfold reindex, descs. apply number_from_desc. Qed.

Lemma reindex_length : forall ws, length (reindex ws) = length ws.
Proof. intros. unfold reindex. now rewrite number_from_length, sorted_wires_length. Qed.

Lemma descs_perm : forall a b, Permutation a b -> Permutation (descs a) (descs b).
Proof. intros. now apply Permutation_map. Qed.

Lemma reindex_descs_perm : forall ws, Permutation (descs (reindex ws)) (descs ws).
Proof. intros. rewrite reindex_descs. apply descs_perm, sorted_wires_perm. Qed.

Lemma window_perm_descs : forall a b, (forall d, In d (descs b) -> In d (descs a)) -> window a -> window b.
Proof.
  intros a b H HW w1 w2 H1 H2.
  assert (X : forall w, In w b -> exists w', In w' a /\ mode w' = mode w).
  { intros w Hw. apply in_map with (f := desc) in Hw. apply H in Hw.
    apply in_map_iff in Hw. destruct Hw as [w' [E Hw']]. exists w'. unfold desc in E. split; congruence. }
  destruct (X _ H1) as [v1 [I1 <-]]. destruct (X _ H2) as [v2 [I2 <-]]. auto.
Qed.

(** ** the constructor *)
Lemma group_descs : forall o s r f l n, descs (group o s r f n l) = map (fun m => (m, o, s)) l.
Proof. induction l as [|m t IH]; intros n; simpl; [reflexivity|]. unfold desc at 1; simpl. f_equal. apply IH. Qed.
Lemma group_index : forall o s r f l n, map index (group o s r f n l) = seq n (length l).
Proof. induction l as [|m t IH]; intros n; simpl; [reflexivity|]. f_equal. apply IH. Qed.
Lemma group_length : forall o s r f l n, length (group o s r f n l) = length l.
Proof. induction l as [|m t IH]; intros n; simpl; [reflexivity|]. f_equal. apply IH. Qed.
Lemma group_wid : forall o s r f l n, map wid (group o s r f n l) = map f (seq n (length l)).
Proof. induction l as [|m t IH]; intros n; simpl; [reflexivity|]. f_equal. apply IH. Qed.
Lemma group_modes : forall o s r f l n, map mode (group o s r f n l) = l.
Proof. induction l as [|m t IH]; intros n; simpl; [reflexivity|]. f_equal. apply IH. Qed.

Lemma zsort_sorted : forall l, NoDup l -> StronglySorted Z.lt (zsort l).
Proof.
  intros l H. apply (isort_strict (fun z => z)). now rewrite map_id.
Qed.
Lemma zsort_length : forall l, length (zsort l) = length l.
Proof. intros; apply isort_length. Qed.
Lemma zsort_perm : forall l, Permutation (zsort l) l.
Proof. intros; apply isort_perm. Qed.
Lemma zsort_in : forall x l, In x (zsort l) <-> In x l.
Proof. intros; apply isort_in. Qed.

Lemma StronglySorted_app : forall {A} (R : A -> A -> Prop) l1 l2,
  StronglySorted R l1 -> StronglySorted R l2 -> (forall x y, In x l1 -> In y l2 -> R x y) ->
  StronglySorted R (l1 ++ l2).
Proof.
  induction l1 as [|x t IH]; simpl; intros l2 S1 S2 H; [assumption|].
  inversion S1; subst. constructor; [apply IH; auto|].
  rewrite Forall_forall in *. intros y Hy. apply in_app_or in Hy. destruct Hy; auto.
Qed.

Lemma SS_group : forall o s l, StronglySorted Z.lt l -> StronglySorted std_lt (map (fun m => (m, o, s)) l).
Proof.
  intros. apply (proj1 (StronglySorted_map _ std_lt _)).
  eapply StronglySorted_impl_in; [|exact H]. intros x y _ _ L. right. simpl. split; [reflexivity|exact L].
Qed.

Definition std_list (ob ib ok ik co ci : list Z) : list descr :=
  map (fun m => (m, true, Bra)) (zsort ob) ++ map (fun m => (m, false, Bra)) (zsort ib)
  ++ map (fun m => (m, true, Ket)) (zsort ok) ++ map (fun m => (m, false, Ket)) (zsort ik)
  ++ map (fun m => (m, true, Cl)) (zsort co) ++ map (fun m => (m, false, Cl)) (zsort ci).

Lemma make_descs : forall f ob ib ok ik co ci,
  descs (make f ob ib ok ik co ci) = std_list ob ib ok ik co ci.
Proof.
  intros. unfold make, std_list, descs. rewrite !map_app. repeat (f_equal; try apply group_descs).
Qed.

Lemma std_list_sorted : forall ob ib ok ik co ci,
  NoDup ob -> NoDup ib -> NoDup ok -> NoDup ik -> NoDup co -> NoDup ci ->
  StronglySorted std_lt (std_list ob ib ok ik co ci).
Proof.
  intros. unfold std_list.
  repeat apply StronglySorted_app; try (apply SS_group; now apply zsort_sorted);
  intros x y Hx Hy; repeat (apply in_app_or in Hy; destruct Hy as [Hy|Hy]);
  apply in_map_iff in Hx; apply in_map_iff in Hy;
  destruct Hx as [mx [<- _]]; destruct Hy as [my [<- _]]; left; cbv; lia.
Qed.

Lemma make_index : forall f ob ib ok ik co ci,
  map index (make f ob ib ok ik co ci) = seq 0 (length (make f ob ib ok ik co ci)).
Proof.
  intros. unfold make. rewrite !map_app, !app_length, !group_length, !group_index, !zsort_length.
  rewrite !seq_app, !Nat.add_0_l. reflexivity.
Qed.

Lemma sorted_of_std : forall ws, window ws -> StronglySorted std_lt (descs ws) -> sorted_wires ws = ws.
Proof.
  intros ws HW HS. unfold sorted_wires. apply isort_id.
  apply (proj2 (StronglySorted_map desc std_lt _)) in HS.
  eapply StronglySorted_impl_in; [|exact HS]. intros x y Hx Hy L. unfold key_le.
  apply order_std in L; [lia|apply HW; assumption|apply HW; assumption].
Qed.

Lemma make_sorted : forall f ob ib ok ik co ci,
  NoDup ob -> NoDup ib -> NoDup ok -> NoDup ik -> NoDup co -> NoDup ci ->
  window (make f ob ib ok ik co ci) ->
  sorted_wires (make f ob ib ok ik co ci) = make f ob ib ok ik co ci.
Proof.
  intros. apply sorted_of_std; [assumption|]. rewrite make_descs. now apply std_list_sorted.
Qed.

(** ** composition *)
Definition desc_eqb (d1 d2 : descr) : bool :=
  Z.eqb (d_mode d1) (d_mode d2) && Bool.eqb (d_out d1) (d_out d2) && side_eqb (d_side d1) (d_side d2).
Lemma desc_eqb_eq : forall d1 d2, desc_eqb d1 d2 = true <-> d1 = d2.
Proof.
  intros [[m1 o1] s1] [[m2 o2] s2]. unfold desc_eqb, d_mode, d_out, d_side; simpl.
  rewrite !andb_true_iff, Z.eqb_eq, Bool.eqb_true_iff, side_eqb_eq. split.
  - intros [[-> ->] ->]; reflexivity.
  - intros E; injection E; auto.
Qed.
Definition memd (d : descr) (l : list descr) : bool := existsb (desc_eqb d) l.
Lemma memd_In : forall d l, memd d l = true <-> In d l.
Proof.
  intros. unfold memd. rewrite existsb_exists. split.
  - intros [x [H E]]. apply desc_eqb_eq in E. now subst.
  - intros H. exists d. split; [assumption|]. now apply desc_eqb_eq.
Qed.
Lemma memd_false : forall d l, memd d l = false <-> ~ In d l.
Proof. intros. rewrite <- memd_In. destruct (memd d l); split; congruence. Qed.

(** survivors of the first / second operand *)
Definition survA (b : wires) (w : wire) : bool :=
  if is_out w then negb (memd (flip (desc w)) (descs b)) else true.
Definition survB (a : wires) (w : wire) : bool :=
  if is_out w then true else negb (memd (flip (desc w)) (descs a)).

Lemma in_sub_sel : forall s o w x y,
  In w (sub (filter (sel s o) y) (filter (sel s (negb o)) x)) <->
  In w y /\ wside w = s /\ is_out w = o /\ ~ In (flip (desc w)) (descs x).
Proof.
  intros. unfold sub. rewrite filter_In, in_sel, negb_true_iff.
  split.
  - intros [[H1 [H2 H3]] H4]. repeat split; auto. intros C.
    enough (mem_mode (mode w) (modes (filter (sel s (negb o)) x)) = true) by congruence.
    apply mem_mode_In, in_modes_sel. subst s o. exact C.
  - intros [H1 [H2 [H3 H4]]]. repeat split; auto.
    destruct (mem_mode (mode w) (modes (filter (sel s (negb o)) x))) eqn:E; [|reflexivity].
    apply mem_mode_In, in_modes_sel in E. exfalso. apply H4. subst s o. exact E.
Qed.

(** one of the six additions of __matmul__ *)
Definition part (s : side) (o : bool) (x y : wires) : result wires :=
  add (filter (sel s o) x) (sub (filter (sel s o) y) (filter (sel s (negb o)) x)).

Lemma part_cases : forall s o x y,
  (exists g, part s o x y = Ok g /\
     (forall w, In w g <-> wside w = s /\ is_out w = o /\ (In w x \/ (In w y /\ ~ In (flip (desc w)) (descs x)))) /\
     (forall w w', In w x -> In w' y -> wside w = s -> is_out w = o -> desc w = desc w' ->
        ~ In (flip (desc w)) (descs x) -> wrepr w <> wrepr w') /\
     (NoDup x -> NoDup y -> (forall w, In w x -> In w y -> False) -> NoDup g))
  \/ (part s o x y = Err ValueError /\
      exists w w', In w x /\ In w' y /\ wside w = s /\ is_out w = o /\ desc w = desc w' /\
        ~ In (flip (desc w)) (descs x) /\ wrepr w = wrepr w').
Proof.
  intros. unfold part.
  destruct (add_ok_iff (filter (sel s o) x) (sub (filter (sel s o) y) (filter (sel s (negb o)) x)))
    as [[E H]|[E [w [w' [H1 [H2 [H3 H4]]]]]]].
  - left. rewrite E. eexists; split; [reflexivity|]. split; [|split].
    + intros w. rewrite in_app_iff, in_sel, in_sub_sel. tauto.
    + intros w w' Hx Hy Hs Ho Hd Hf Hr.
      assert (Hs' : wside w' = s) by (unfold desc in Hd; congruence).
      assert (Ho' : is_out w' = o) by (unfold desc in Hd; congruence).
      apply (H w w'); auto.
      * apply in_sel; auto.
      * apply in_sub_sel. repeat split; auto. now rewrite <- Hd.
    + intros Nx Ny D.
      assert (N1 : NoDup (filter (sel s o) x)) by now apply NoDup_filter.
      assert (N2 : NoDup (sub (filter (sel s o) y) (filter (sel s (negb o)) x)))
        by (unfold sub; apply NoDup_filter; now apply NoDup_filter).
      revert N1 N2. generalize (fun w => in_sel s o w x). generalize (fun w => in_sub_sel s o w x y).
      generalize (filter (sel s o) x), (sub (filter (sel s o) y) (filter (sel s (negb o)) x)).
      clear - D. intros l1 l2 I2 I1 N1 N2.
      apply NoDup_app_intro; auto. intros w H1 H2. apply I1 in H1. apply I2 in H2. apply (D w); tauto.
  - right. split; [assumption|]. apply in_sel in H1. apply in_sub_sel in H2.
    exists w, w'. repeat split; try tauto. now rewrite H3.
Qed.
