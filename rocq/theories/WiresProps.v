(** Claims C01-C04 about Wires (statements use only WiresSpec's vocabulary), with examples and
    counterexamples. *)
From Coq Require Import ZArith List Bool Lia Permutation Sorted Arith.
Require Import Verif.Base Verif.Wires Verif.WiresSpec Verif.WiresLemmas Verif.WiresMatmul Verif.WiresLabels.
Import ListNotations.

(** * C01 *)
(** the standard list of descriptors of six mode sets, sorted: specification *)
Definition asc (l : list Z) : Prop := StronglySorted Z.lt l.

Theorem C01_standard_order : forall f ob ib ok ik co ci,
  NoDup ob -> NoDup ib -> NoDup ok -> NoDup ik -> NoDup co -> NoDup ci ->
  let ws := make f ob ib ok ik co ci in
  window ws ->
  (* iteration lists exactly the requested wires, in standard order *)
  StronglySorted std_lt (descs (sorted_wires ws))
  /\ (forall m o s, In (m, o, s) (descs (sorted_wires ws)) <->
        match o, s with
        | true, Bra => In m ob | false, Bra => In m ib | true, Ket => In m ok | false, Ket => In m ik
        | true, Cl => In m co | false, Cl => In m ci end)
  /\ indices ws = seq 0 (length ws)
  /\ length ws = length ob + length ib + length ok + length ik + length co + length ci.
Proof.
  intros f ob ib ok ik co ci N1 N2 N3 N4 N5 N6 ws W.
  assert (S : sorted_wires ws = ws) by (now apply make_sorted).
  rewrite S. split; [|split; [|split]].
  - unfold ws. rewrite make_descs. now apply std_list_sorted.
  - intros m o s. unfold ws. rewrite make_descs. unfold std_list. rewrite !in_app_iff, !in_map_iff.
    assert (G : forall o' s' l, (exists x, (x, o', s') = (m, o, s) /\ In x (zsort l)) <-> o' = o /\ s' = s /\ In m l).
    { intros o' s' l. split.
      - intros [x [E H]]. injection E as -> -> ->. rewrite zsort_in in H. auto.
      - intros [-> [-> H]]. exists m. rewrite zsort_in. auto. }
    rewrite !G. destruct o, s; intuition discriminate.
  - unfold indices. rewrite S. apply make_index.
  - unfold ws, make. rewrite !app_length, !group_length, !zsort_length. lia.
Qed.

(** [args] gives back the six sets (as sets) *)
Theorem C01_args : forall f ob ib ok ik co ci,
  Forall2 (fun l l' => forall m, In m l <-> In m l')
    (args (make f ob ib ok ik co ci)) [ob; ib; ok; ik; co; ci].
Proof.
  intros f ob ib ok ik co ci. unfold args.
  rewrite !output_bra_sel, !output_ket_sel, !input_bra_sel, !input_ket_sel, !cl_output_sel, !cl_input_sel.
  assert (K : forall s o m, In m (modes (filter (sel s o) (make f ob ib ok ik co ci))) <->
     In (m, o, s) (std_list ob ib ok ik co ci)).
  { intros s o m. rewrite <- (make_descs f). unfold modes, descs. rewrite !in_map_iff. split.
    - intros [w [<- H]]. apply in_sel in H. destruct H as [H [<- <-]]. exists w. auto.
    - intros [w [E H]]. injection E as <- <- <-. exists w. split; auto. apply in_sel. auto. }
  assert (G : forall (m : Z) (o : bool) (s : side) o' s' l, (exists x, (x, o', s') = (m, o, s) /\ In x (zsort l)) <-> o' = o /\ s' = s /\ In m l).
  { intros m o s o' s' l. split.
    - intros [x [E H]]. injection E as -> -> ->. rewrite zsort_in in H. auto.
    - intros [-> [-> H]]. exists m. rewrite zsort_in. auto. }
  repeat constructor; intros; (try apply K in H; try apply K; unfold std_list in *;
    rewrite !in_app_iff, !in_map_iff, !G in *; intuition discriminate).
Qed.

(** hypotheses are met: modes 0..3, all six groups *)
Theorem C01_example :
  let ws := make (fun n => n) [3; 1]%Z [0]%Z [1; 2]%Z [0; 2]%Z [5]%Z [4; 0]%Z in
  window ws /\ indices ws = seq 0 10 /\ map mode (sorted_wires ws) = [1; 3; 0; 1; 2; 0; 2; 5; 0; 4]%Z.
Proof. split; [|split; reflexivity]. intros w1 w2 H1 H2. simpl in H1, H2.
  repeat (destruct H1 as [<-|H1]; [repeat (destruct H2 as [<-|H2]; [cbn; lia|]); destruct H2|]). destruct H1. Qed.

(** without the window the claim is false of the code: mode 20001 as a bra output sorts after mode 0 as
    a bra input, and [indices] is (1, 0) *)
Theorem C01_refuted_far_modes :
  let ws := make (fun n => n) [20001]%Z [0]%Z [] [] [] [] in
  indices ws = [1; 0] /\ ~ StronglySorted std_lt (descs (sorted_wires ws)).
Proof.
  split; [reflexivity|]. intros H.
  change (StronglySorted std_lt [(0%Z, false, Bra); (20001%Z, true, Bra)]) in H.
  inversion H; subst. inversion H3; subst. destruct H4 as [C|[C _]]; cbv in C; lia.
Qed.

(** * C02 *)
Theorem C02_compose : forall a b,
  distinct a -> distinct b -> same_repr a b ->
  (* either a new object with exactly the surviving wires, in standard order with indices 0..n-1 *)
  (exists r, matmul_wires a b = Ok r /\ ~ (exists d, collision a b d)
     /\ distinct r /\ indices r = seq 0 (length r)
     /\ (forall d, In d (descs r) <-> survives a b d)
     /\ (window (a ++ b) -> StronglySorted std_lt (descs (sorted_wires r))))
  (* or ValueError, exactly on a collision *)
  \/ (matmul_wires a b = Err ValueError /\ exists d, collision a b d).
Proof. exact matmul_wires_spec. Qed.

(** the surviving wires of the two operands, in their own orders, one operand after the other *)
Definition survives_in_a (b : wires) (w : wire) : Prop := is_out w = true -> ~ In (flip (desc w)) (descs b).
Definition survives_in_b (a : wires) (w : wire) : Prop := is_out w = false -> ~ In (flip (desc w)) (descs a).

Theorem C02_permutation : forall a b r,
  distinct a -> distinct b -> same_repr a b -> distinct_ids a b ->
  matmul_wires a b = Ok r -> no_cl_clash r ->
  exists perm sa sb,
    matmul a b = Ok (r, perm)
    (* sa (sb) = the surviving wires of a (b), in the order of a (b) *)
    /\ (exists ka, sa = filter ka (sorted_wires a) /\ forall w, In w a -> (ka w = true <-> survives_in_a b w))
    /\ (exists kb, sb = filter kb (sorted_wires b) /\ forall w, In w b -> (kb w = true <-> survives_in_b a w))
    /\ Permutation perm (seq 0 (length r)) /\ length (sa ++ sb) = length r
    (* output axis k of the result is axis perm[k] of the concatenation *)
    /\ forall k d, k < length r -> desc (nth k (sorted_wires r) d) = desc (nth (nth k perm 0) (sa ++ sb) d).
Proof.
  intros a b r Da Db SR DI E NCL.
  destruct (matmul_perm_spec a b r Da Db SR DI E NCL) as [perm [EM [PP [LC PN]]]].
  exists perm, (filter (survA b) (sorted_wires a)), (filter (survB a) (sorted_wires b)).
  split; [assumption|]. split; [exists (survA b); split; [reflexivity|intros; apply survA_true]|].
  split; [exists (survB a); split; [reflexivity|intros; apply survB_true]|].
  split; [assumption|]. split; [assumption|]. intros k d Hk. now apply PN.
Qed.

(** a state on modes 0,1 (ket) followed by a gate on modes (1,2) *)
Definition ex_a := make (fun n => n) [] [] [0; 1]%Z [] [] [].
Definition ex_b := make (fun n => 100 + n) [] [] [1; 2]%Z [1; 2]%Z [] [].
Theorem C02_example : exists r perm, matmul ex_a ex_b = Ok (r, perm)
  /\ descs (sorted_wires r) = [(0, true, Ket); (1, true, Ket); (2, true, Ket); (2, false, Ket)]%Z
  /\ perm = [0; 1; 2; 3].
Proof. eexists; eexists. split; [vm_compute; reflexivity|]. split; reflexivity. Qed.
Lemma same_repr_q : forall a b, (forall w, In w (a ++ b) -> wrepr w = Bargmann) -> same_repr a b.
Proof. intros a b H x y Hx Hy _. rewrite (H x), (H y); auto; apply in_or_app; auto. Qed.
Ltac wcases H := repeat (destruct H as [<-|H]; [try reflexivity; try (cbn; lia)|]); try destruct H.
Theorem C02_hyps : distinct ex_a /\ distinct ex_b /\ same_repr ex_a ex_b /\ distinct_ids ex_a ex_b
  /\ exists r, matmul_wires ex_a ex_b = Ok r /\ no_cl_clash r.
Proof.
  split; [|split; [|split; [|split]]].
  - unfold distinct. cbv. repeat constructor; simpl; intuition congruence.
  - unfold distinct. cbv. repeat constructor; simpl; intuition congruence.
  - apply same_repr_q. intros w H. simpl in H. wcases H.
  - unfold distinct_ids. cbv. repeat constructor; simpl; intuition congruence.
  - eexists. split; [vm_compute; reflexivity|]. intros x y Hx Hy _ _. cbn [In] in Hx, Hy.
    assert (is_clb x = false) by (wcases Hx). assert (is_clb y = false) by (wcases Hy). congruence.
Qed.

(** the code raises AttributeError on a legal composition when a quantum and a classical wire of the
    result share mode and direction: a state on mode 0 and an object with a classical output on mode 0 *)
Theorem C02_refuted_classical :
  let a := make (fun n => n) [] [] [0]%Z [] [] [] in
  let b := make (fun n => 100 + n) [] [] [] [] [0]%Z [] in
  is_ok (matmul_wires a b) = true /\ matmul a b = Err AttributeError.
Proof. split; vm_compute; reflexivity. Qed.

(** * C03 *)
Lemma with_ids_descs : forall f ws, descs (with_ids f ws) = descs ws.
Proof. intros. unfold descs, with_ids. rewrite map_map. reflexivity. Qed.
Definition upd (f : wire -> nat) (w : wire) : wire := mkWire (mode w) (is_out w) (wside w) (index w) (wrepr w) (f w).
Lemma with_ids_map : forall f ws, with_ids f ws = map (upd f) ws.
Proof. reflexivity. Qed.
Lemma insert_map : forall (g : wire -> wire) (H : forall w, order (g w) = order w) x l,
  insert order (g x) (map g l) = map g (insert order x l).
Proof.
  intros g H x l. induction l as [|y t IH]; [reflexivity|]. simpl. rewrite !H.
  destruct (order x <=? order y)%Z; simpl; [reflexivity|]. now rewrite IH.
Qed.
Lemma sorted_with_ids : forall f ws, sorted_wires (with_ids f ws) = with_ids f (sorted_wires ws).
Proof.
  intros f ws. rewrite !with_ids_map. unfold sorted_wires. induction ws as [|w t IH]; [reflexivity|].
  cbn [map isort]. rewrite IH. apply insert_map. reflexivity.
Qed.
Lemma with_ids_indices : forall f ws, indices (with_ids f ws) = indices ws.
Proof. intros. unfold indices. rewrite sorted_with_ids. unfold with_ids. rewrite map_map. reflexivity. Qed.
Lemma with_ids_nth : forall f ws k d, desc (nth k (sorted_wires (with_ids f ws)) d) = desc (nth k (sorted_wires ws) d).
Proof.
  intros f ws k d. rewrite <- !(map_nth desc). f_equal. rewrite sorted_with_ids.
  unfold with_ids. rewrite map_map. reflexivity.
Qed.

Theorem C03_contraction_labels : forall f a b r,
  distinct a -> distinct b -> same_repr a b -> distinct_ids a (with_ids f b) ->
  well_indexed a -> well_indexed b ->
  matmul_wires a (with_ids f b) = Ok r -> no_cl_clash r ->
  exists la lb lo, contracted_labels f a b = Ok (la, lb, lo)
    /\ length la = length a /\ length lb = length b /\ length lo = length r
    /\ NoDup la /\ NoDup lb /\ NoDup lo
    (* equal labels exactly on the joined quantum wires *)
    /\ (forall i j d, i < length a -> j < length b ->
         (nth i la 0 = nth j lb 0 <->
           joined (nth i (sorted_wires a) d) (nth j (sorted_wires b) d)
           /\ wside (nth i (sorted_wires a) d) <> Cl))
    (* output label k is the (unshared) label of the operand wire that becomes wire k of the result *)
    /\ (forall k d, k < length r ->
         (exists i, i < length a /\ nth k lo 0 = nth i la 0 /\ ~ In (nth i la 0) lb
             /\ desc (nth i (sorted_wires a) d) = desc (nth k (sorted_wires r) d))
         \/ (exists j, j < length b /\ nth k lo 0 = nth j lb 0 /\ ~ In (nth j lb 0) la
             /\ desc (nth j (sorted_wires b) d) = desc (nth k (sorted_wires r) d))).
Proof.
  intros f a b r Da Db SR DI Wa Wb E NCL. rewrite labels_core_eq.
  assert (LB : length (with_ids f b) = length b) by (unfold with_ids; apply map_length).
  destruct (labels_core_spec a (with_ids f b) r) as [la [lb [lo [H1 [H2 [H3 [H4 [H5 [H6 [H7 [H8 H9]]]]]]]]]]]; auto.
  - unfold distinct. now rewrite with_ids_descs.
  - intros x y Hx Hy D. rewrite with_ids_map in Hy. apply in_map_iff in Hy. destruct Hy as [y' [<- Hy]].
    change (wrepr x = wrepr y'). now apply SR.
  - unfold well_indexed. rewrite with_ids_indices. now rewrite LB.
  - rewrite LB in *. exists la, lb, lo. split; [assumption|].
    do 6 (split; [assumption|]). split.
    + intros i j d Hi Hj. rewrite (H8 i j d Hi Hj). unfold joined. now rewrite with_ids_nth.
    + intros k d Hk. destruct (H9 k d Hk) as [L|[j R]]; [now left|right; exists j].
      rewrite with_ids_nth in R. exact R.
Qed.

(** hypotheses met by ex_a, ex_b, with fresh ids *)
Theorem C03_example : exists la lb lo, contracted_labels (fun w => 200 + index w) ex_a ex_b = Ok (la, lb, lo)
  /\ la = [0; 1] /\ lb = [2; 3; 1; 5] /\ lo = [0; 2; 3; 5].
Proof. do 3 eexists. split; [vm_compute; reflexivity|auto]. Qed.

(** joined classical wires are consumed by [@] but keep different labels: outputs of the code's
    contraction do not match the wires of the result *)
Theorem C03_refuted_classical :
  let a := make (fun n => n) [] [] [] [] [0]%Z [] in
  let b := make (fun n => 100 + n) [] [] [] [] [] [0]%Z in
  matmul_wires a b = Ok [] /\ contracted_labels (fun w => 200 + index w) a b = Ok ([0], [1], []).
Proof. split; vm_compute; reflexivity. Qed.

(** * C04 *)
Definition reprs_agree (ws : wires) : Prop := forall x y, In x ws -> In y ws -> desc x = desc y -> wrepr x = wrepr y.

Lemma matmul_repr : forall a b r, distinct a -> distinct b -> matmul_wires a b = Ok r ->
  forall w, In w r -> exists v, In v (a ++ b) /\ desc v = desc w /\ wrepr v = wrepr w.
Proof.
  intros a b r Da Db E w Hw. destruct (matmul_wires_cases a b) as [[u [E' [_ [IU _]]]]|[E' _]]; [|congruence].
  assert (r = reindex u) by congruence. subst r. apply in_reindex in Hw. destruct Hw as [v [Hv H]].
  exists v. split.
  - apply IU in Hv. unfold survW in Hv. apply in_or_app. destruct (is_out v); tauto.
  - tauto.
Qed.
Lemma same_repr_l : forall a b r c, distinct a -> distinct b -> reprs_agree (a ++ b ++ c) ->
  matmul_wires a b = Ok r -> same_repr r c.
Proof.
  intros a b r c Da Db RA E x y Hx Hy D. destruct (matmul_repr a b r Da Db E x Hx) as [v [Hv [D1 R1]]].
  rewrite <- R1. apply RA; [| |congruence]; rewrite !in_app_iff in *; tauto.
Qed.
Lemma same_repr_r : forall a b c r, distinct b -> distinct c -> reprs_agree (a ++ b ++ c) ->
  matmul_wires b c = Ok r -> same_repr a r.
Proof.
  intros a b c r Da Db RA E x y Hx Hy D. destruct (matmul_repr b c r Da Db E y Hy) as [v [Hv [D1 R1]]].
  rewrite <- R1. apply RA; [| |congruence]; rewrite !in_app_iff in *; tauto.
Qed.

Lemma flip_flip : forall d, flip (flip d) = d.
Proof. intros [[m o] s]. unfold flip, d_mode, d_out, d_side. simpl. now rewrite negb_involutive. Qed.
Lemma d_out_flip : forall d, d_out (flip d) = negb (d_out d).
Proof. reflexivity. Qed.

Definition bothway (b : wires) : Prop := forall d, In d (descs b) -> In (flip d) (descs b).

Section Assoc.
  Variables a b c : wires.
  Hypothesis Da : distinct a. Hypothesis Db : distinct b. Hypothesis Dc : distinct c.
  Hypothesis RA : reprs_agree (a ++ b ++ c).
  Lemma SRab : same_repr a b.
  Proof using RA. intros x y Hx Hy D. apply RA; auto; rewrite !in_app_iff; tauto. Qed.
  Lemma SRbc : same_repr b c.
  Proof using RA. intros x y Hx Hy D. apply RA; auto; rewrite !in_app_iff; tauto. Qed.
  Lemma SRac : same_repr a c.
  Proof using RA. intros x y Hx Hy D. apply RA; auto; rewrite !in_app_iff; tauto. Qed.

  (** collisions, existence free *)
  Lemma mm_ok : forall x y r, distinct x -> distinct y -> same_repr x y -> matmul_wires x y = Ok r ->
    (forall d, ~ collision x y d) /\ (forall d, In d (descs r) <-> survives x y d) /\ distinct r /\ well_indexed r
    /\ (window (x ++ y) -> StronglySorted std_lt (descs (sorted_wires r))).
  Proof using.
    intros x y r Dx Dy SR E. destruct (matmul_wires_spec x y Dx Dy SR) as [[r' [E' [NC [D [I [S W]]]]]]|[E' _]]; [|congruence].
    assert (r' = r) by congruence. subst r'. repeat split; auto; try apply S.
    intros d C. apply NC. now exists d.
  Qed.
  Lemma mm_ok_back : forall x y, distinct x -> distinct y -> same_repr x y ->
    (forall d, ~ collision x y d) -> exists r, matmul_wires x y = Ok r.
  Proof using.
    intros x y Dx Dy SR NC. destruct (matmul_wires_spec x y Dx Dy SR) as [[r' [E' _]]|[_ [d C]]]; [now exists r'|].
    exfalso. now apply (NC d).
  Qed.
End Assoc.

(** boolean form: has the object the wire d *)
Definition has (d : descr) (ws : wires) : bool := memd d (descs ws).
Definition surv_b (x y : wires) (d : descr) : bool :=
  if d_out d then has d y || (has d x && negb (has (flip d) y))
  else has d x || (has d y && negb (has (flip d) x)).
Definition coll_b (x y : wires) (d : descr) : bool :=
  if d_out d then has d y && has d x && negb (has (flip d) y)
  else has d x && has d y && negb (has (flip d) x).
Lemma has_In : forall d ws, has d ws = true <-> In d (descs ws).
Proof. intros. apply memd_In. Qed.
Lemma has_not : forall d ws, negb (has d ws) = true <-> ~ In d (descs ws).
Proof. intros. rewrite negb_true_iff. apply memd_false. Qed.
Lemma surv_b_iff : forall x y d, surv_b x y d = true <-> survives x y d.
Proof. intros. unfold surv_b, survives. destruct (d_out d); rewrite orb_true_iff, andb_true_iff, has_not, !has_In; reflexivity. Qed.
Lemma coll_b_iff : forall x y d, coll_b x y d = true <-> collision x y d.
Proof. intros. unfold coll_b, collision. destruct (d_out d); rewrite !andb_true_iff, has_not, !has_In; tauto. Qed.
Lemma coll_b_false : forall x y, (forall d, ~ collision x y d) <-> (forall d, coll_b x y d = false).
Proof.
  intros x y. split; intros H d.
  - destruct (coll_b x y d) eqn:E; [|reflexivity]. apply coll_b_iff in E. now apply H in E.
  - intros C. apply coll_b_iff in C. now rewrite H in C.
Qed.
Lemma has_surv : forall x y r, (forall d, In d (descs r) <-> survives x y d) -> forall d, has d r = surv_b x y d.
Proof. intros x y r H d. apply eq_true_iff_eq. rewrite has_In, surv_b_iff. apply H. Qed.

Ltac bits d a b c :=
  repeat match goal with H : _ = _ |- _ => revert H end;
  generalize (has d a) (has (flip d) a) (has d b) (has (flip d) b) (has d c) (has (flip d) c);
  destruct (d_out d); intros [] [] [] [] [] []; cbn; intros; congruence.

(** when both bracketings are defined they give the same object (same wires, in the same order) *)
Theorem C04_assoc : forall a b c ab bc l r,
  distinct a -> distinct b -> distinct c -> reprs_agree (a ++ b ++ c) ->
  matmul_wires a b = Ok ab -> matmul_wires ab c = Ok l ->
  matmul_wires b c = Ok bc -> matmul_wires a bc = Ok r ->
  (forall d, In d (descs l) <-> In d (descs r))
  /\ (window (a ++ b ++ c) -> descs (sorted_wires l) = descs (sorted_wires r)).
Proof.
  intros a b c ab bc l r Da Db Dc RA E1 E2 E3 E4.
  destruct (mm_ok _ _ _ Da Db (SRab a b c RA) E1) as [N1 [S1 [D1 _]]].
  destruct (mm_ok _ _ _ Db Dc (SRbc a b c RA) E3) as [N3 [S3 [D3 _]]].
  destruct (mm_ok _ _ _ D1 Dc (same_repr_l a b ab c Da Db RA E1) E2) as [N2 [S2 [D2 [_ W2]]]].
  destruct (mm_ok _ _ _ Da D3 (same_repr_r a b c bc Db Dc RA E3) E4) as [N4 [S4 [D4 [_ W4]]]].
  assert (EQ : forall d, In d (descs l) <-> In d (descs r)).
  { intros d. rewrite <- !has_In. enough (X : has d l = has d r) by (rewrite X; reflexivity).
    rewrite coll_b_false in N1, N2, N3, N4.
    pose proof (has_surv _ _ _ S1) as T1. pose proof (has_surv _ _ _ S3) as T3.
    rewrite (has_surv _ _ _ S2), (has_surv _ _ _ S4).
    pose proof (N1 d) as M1. pose proof (N1 (flip d)) as M1'. pose proof (N2 d) as M2. pose proof (N2 (flip d)) as M2'.
    pose proof (N3 d) as M3. pose proof (N3 (flip d)) as M3'. pose proof (N4 d) as M4. pose proof (N4 (flip d)) as M4'.
    clear - T1 T3 M1 M1' M2 M2' M3 M3' M4 M4'.
    unfold coll_b, surv_b in *. rewrite ?T1, ?T3 in *. unfold surv_b in *. clear T1 T3.
    rewrite ?d_out_flip, ?flip_flip in *. bits d a b c. }
  split; [exact EQ|]. intros W.
  assert (W' : forall x, (forall d, In d (descs x) -> In d (descs (a ++ b ++ c))) -> window x).
  { intros x H. eapply window_perm_descs; eauto. }
  assert (ID : forall x d, In d (descs (sorted_wires x)) <-> In d (descs x)).
  { intros x d. split; apply Permutation_in; [|symmetry]; apply descs_perm, sorted_wires_perm. }
  apply std_sorted_unique.
  - apply W2. apply W'. intros d. unfold descs in *. rewrite !map_app, !in_app_iff. intros [H|H]; [|tauto].
    apply S1 in H. apply survives_sub in H. unfold descs in H. rewrite map_app, in_app_iff in H. tauto.
  - apply W4. apply W'. intros d. unfold descs in *. rewrite !map_app, !in_app_iff. intros [H|H]; [tauto|].
    apply S3 in H. apply survives_sub in H. unfold descs in H. rewrite map_app, in_app_iff in H. tauto.
  - intros d. rewrite !ID. apply EQ.
Qed.

(** if the middle object has an input wherever it has an output and conversely (gates, channels),
    each bracketing is defined as soon as the other is *)
Theorem C04_assoc_defined : forall a b c,
  distinct a -> distinct b -> distinct c -> reprs_agree (a ++ b ++ c) -> bothway b ->
  ((exists ab l, matmul_wires a b = Ok ab /\ matmul_wires ab c = Ok l)
   <-> (exists bc r, matmul_wires b c = Ok bc /\ matmul_wires a bc = Ok r)).
Proof.
  intros a b c Da Db Dc RA BW.
  assert (BW' : forall d, has d b = has (flip d) b).
  { intros d. apply eq_true_iff_eq. rewrite !has_In. split; [apply BW|].
    intros H. apply BW in H. now rewrite flip_flip in H. }
  split.
  - intros [ab [l [E1 E2]]].
    destruct (mm_ok _ _ _ Da Db (SRab a b c RA) E1) as [N1 [S1 [D1 _]]]; rewrite coll_b_false in N1; pose proof (has_surv _ _ _ S1) as T1.
    destruct (mm_ok _ _ _ D1 Dc (same_repr_l a b ab c Da Db RA E1) E2) as [N2 [S2 _]]; rewrite coll_b_false in N2.
    assert (K : forall d, ~ collision b c d).
    { rewrite coll_b_false. intros d. pose proof (N1 d) as M1. pose proof (N1 (flip d)) as M1'. pose proof (N2 d) as M2. pose proof (N2 (flip d)) as M2'.
      pose proof (BW' d) as B1. pose proof (BW' (flip d)) as B2. rewrite flip_flip in B2.
      unfold coll_b, surv_b in *. rewrite ?T1 in *. unfold surv_b in *. clear - M1 M1' M2 M2' B1 B2. rewrite ?d_out_flip, ?flip_flip in *. bits d a b c. }
    destruct (mm_ok_back b c Db Dc (SRbc a b c RA) K) as [bc E3]. exists bc.
    destruct (mm_ok _ _ _ Db Dc (SRbc a b c RA) E3) as [N3 [S3 [D3 _]]]; rewrite coll_b_false in N3; pose proof (has_surv _ _ _ S3) as T3.
    destruct (mm_ok_back a bc Da D3 (same_repr_r a b c bc Db Dc RA E3)) as [r E4]; [|exists r; auto].
    rewrite coll_b_false. intros d. pose proof (N1 d) as M1. pose proof (N1 (flip d)) as M1'. pose proof (N2 d) as M2. pose proof (N2 (flip d)) as M2'.
    pose proof (BW' d) as B1. pose proof (BW' (flip d)) as B2. rewrite flip_flip in B2.
    unfold coll_b, surv_b in *. rewrite ?T1, ?T3 in *. unfold surv_b in *. clear - M1 M1' M2 M2' B1 B2. rewrite ?d_out_flip, ?flip_flip in *. bits d a b c.
  - intros [bc [r [E3 E4]]].
    destruct (mm_ok _ _ _ Db Dc (SRbc a b c RA) E3) as [N3 [S3 [D3 _]]]; rewrite coll_b_false in N3; pose proof (has_surv _ _ _ S3) as T3.
    destruct (mm_ok _ _ _ Da D3 (same_repr_r a b c bc Db Dc RA E3) E4) as [N4 [S4 _]]; rewrite coll_b_false in N4.
    assert (K : forall d, ~ collision a b d).
    { rewrite coll_b_false. intros d. pose proof (N3 d) as M1. pose proof (N3 (flip d)) as M1'. pose proof (N4 d) as M2. pose proof (N4 (flip d)) as M2'.
      pose proof (BW' d) as B1. pose proof (BW' (flip d)) as B2. rewrite flip_flip in B2.
      unfold coll_b, surv_b in *. rewrite ?T3 in *. unfold surv_b in *. clear - M1 M1' M2 M2' B1 B2. rewrite ?d_out_flip, ?flip_flip in *. bits d a b c. }
    destruct (mm_ok_back a b Da Db (SRab a b c RA) K) as [ab E1]. exists ab.
    destruct (mm_ok _ _ _ Da Db (SRab a b c RA) E1) as [N1 [S1 [D1 _]]]; rewrite coll_b_false in N1; pose proof (has_surv _ _ _ S1) as T1.
    destruct (mm_ok_back ab c D1 Dc (same_repr_l a b ab c Da Db RA E1)) as [l E2]; [|exists l; auto].
    rewrite coll_b_false. intros d. pose proof (N3 d) as M1. pose proof (N3 (flip d)) as M1'. pose proof (N4 d) as M2. pose proof (N4 (flip d)) as M2'.
    pose proof (BW' d) as B1. pose proof (BW' (flip d)) as B2. rewrite flip_flip in B2.
    unfold coll_b, surv_b in *. rewrite ?T1, ?T3 in *. unfold surv_b in *. clear - M1 M1' M2 M2' B1 B2. rewrite ?d_out_flip, ?flip_flip in *. bits d a b c.
Qed.

Definition cst (o : nat) (n : nat) : nat := o + n.
(** state, gate, projector on mode 0: both bracketings defined, empty result *)
Theorem C04_example :
  let a := make (cst 0) [] [] [0]%Z [] [] [] in
  let b := make (cst 10) [] [] [0]%Z [0]%Z [] [] in
  let c := make (cst 20) [] [] [] [0]%Z [] [] in
  bothway b /\ bind (matmul_wires a b) (fun ab => matmul_wires ab c) = Ok []
  /\ bind (matmul_wires b c) (fun bc => matmul_wires a bc) = Ok [].
Proof.
  split; [|split; vm_compute; reflexivity]. intros d H. simpl in H.
  destruct H as [<-|[<-|[]]]; simpl; auto.
Qed.

(** without that hypothesis definedness is not associative, in either direction *)
Theorem C04_refuted :
  (let a := make (cst 0) [] [] [0]%Z [] [] [] in
   let b := make (cst 10) [] [] [] [0]%Z [] [] in
   let c := make (cst 20) [] [] [] [0]%Z [] [] in
   is_ok (bind (matmul_wires a b) (fun ab => matmul_wires ab c)) = true
   /\ bind (matmul_wires b c) (fun bc => matmul_wires a bc) = Err ValueError)
  /\ (let a := make (cst 0) [] [] [0]%Z [] [] [] in
      let b := make (cst 10) [] [] [0]%Z [] [] [] in
      let c := make (cst 20) [] [] [] [0]%Z [] [] in
      bind (matmul_wires a b) (fun ab => matmul_wires ab c) = Err ValueError
      /\ is_ok (bind (matmul_wires b c) (fun bc => matmul_wires a bc)) = true).
Proof. split; split; vm_compute; reflexivity. Qed.
