(** mrmustard/physics/ansatz/polyexp_ansatz.py:306-413 PolyExpAnsatz.contract: which variables are integrated together, and the labels of the result *)
From Coq Require Import List Arith Bool Lia Permutation Sorted ZArith.
From Verif Require Import Base Wires WiresSpec WiresLemmas WiresMatmul WiresLabels WiresProps.
Import ListNotations.

Fixpoint position (x : nat) (l : list nat) (i : nat) : result nat := match l with [] => Err ValueError | y :: t => if Nat.eqb y x then Ok i else position x t (S i) end.
Definition nsort (l : list nat) : list nat := isort Z.of_nat l.
Definition dedup (l : list nat) : list nat := nodup Nat.eq_dec l.
Definition contracted (core1 core2 : list nat) : list nat := filter (fun l => memn l core2) (dedup core1).
(** polyexp_ansatz.py:379-381 contracted_core, idx1_cv, idx2_cv *)
Definition idx_cv (core1 core2 : list nat) : result (list nat * list nat) :=
  bind (mapM (fun l => position l core1 0) (contracted core1 core2)) (fun i1 =>
  bind (mapM (fun l => position l core2 0) (contracted core1 core2)) (fun i2 => Ok (nsort i1, nsort i2))).
(** a variable of the result: a position in the first or in the second operand *)
Definition var := (nat + nat)%type.
(** the variables left by the integral, in order (gaussian_integrals.py complex_gaussian_integral_2: those of the first operand, then those of the second) *)
Definition remaining (n : nat) (idx : list nat) : list nat := filter (fun i => negb (memn i idx)) (seq 0 n).
(** polyexp_ansatz.py:342-413 for the core (integer) labels; n1, n2 are the numbers of CV variables of the operands.  Returns the integrated pairs
    and the variables of the result.  The batch labels are treated in BatchStr.v. *)
Definition contract_core (n1 n2 : nat) (core1 core2 core_out : list nat) : result (list (nat * nat) * list var) :=
  if negb (Nat.eqb (length core1) n1) then Err ValueError
  else if negb (Nat.eqb (length core2) n2) then Err ValueError
  else if negb (Nat.eqb (length core_out) (length (filter (fun l => xorb (memn l core1) (memn l core2)) (dedup (core1 ++ core2))))) then Err ValueError
  else if existsb (fun l => memn l core1 && memn l core2) core_out then Err ValueError
  else
    bind (idx_cv core1 core2) (fun '(i1, i2) =>
    let leftover := filter (fun l => negb (memn l (contracted core1 core2))) (core1 ++ core2) in
    bind (mapM (fun l => position l leftover 0) core_out) (fun perm =>
    let vars := map inl (remaining n1 i1) ++ map inr (remaining n2 i2) in
    Ok (combine i1 i2, map (fun p => nth p vars (inl 0)) perm))).

(** * Specification *)
Definition label_of (core1 core2 : list nat) (v : var) : nat := match v with inl i => nth i core1 0 | inr i => nth i core2 0 end.

Lemma position_spec : forall x l k, In x l -> exists i, position x l k = Ok (k + i) /\ i < length l /\ nth i l 0 = x.
Proof.
  induction l as [|y l IH]; intros k H; [destruct H|]. cbn [position]. destruct (Nat.eqb y x) eqn:E.
  - apply Nat.eqb_eq in E. subst. exists 0. rewrite Nat.add_0_r. simpl. repeat split; lia.
  - destruct H as [->|H]; [rewrite Nat.eqb_refl in E; discriminate|]. destruct (IH (S k) H) as [i [E1 [E2 E3]]]. exists (S i). rewrite E1. simpl. repeat split; [f_equal; lia|lia|exact E3].
Qed.
Lemma mapM_position : forall L l, (forall x, In x L -> In x l) -> exists ps, mapM (fun x => position x l 0) L = Ok ps /\ map (fun p => nth p l 0) ps = L /\ Forall (fun p => p < length l) ps.
Proof.
  induction L as [|x L IH]; intros l H; [exists []; repeat split; constructor|]. destruct (IH l (fun y Hy => H y (or_intror Hy))) as [ps [E1 [E2 E3]]].
  destruct (position_spec x l 0 (H x (or_introl eq_refl))) as [i [F1 [F2 F3]]]. exists (i :: ps). cbn [mapM]. rewrite F1, E1. cbn [bind map]. rewrite E2. simpl in F1. rewrite F3. repeat split. now constructor.
Qed.
Lemma SSlt_unique : forall l l', StronglySorted lt l -> StronglySorted lt l' -> (forall x, In x l <-> In x l') -> l = l'.
Proof.
  assert (C : forall (l : list nat) x y, In x l -> y < x -> StronglySorted lt (y :: l) -> True) by auto. clear C.
  induction l as [|x l IH]; intros l' S1 S2 H; [destruct l' as [|y l']; [reflexivity|exfalso; apply (proj2 (H y)); now left]|].
  destruct l' as [|y l']; [exfalso; apply (proj1 (H x)); now left|]. inversion S1 as [|? ? A1 A2]; inversion S2 as [|? ? B1 B2]; subst. rewrite Forall_forall in A2, B2.
  assert (E : x = y).
  { destruct (proj1 (H x) (or_introl eq_refl)) as [E|K]; [auto|]. destruct (proj2 (H y) (or_introl eq_refl)) as [E|K']; [auto|]. specialize (A2 _ K'). specialize (B2 _ K). lia. }
  subst y. f_equal. apply IH; auto. intros z. split; intros Hz.
  - destruct (proj1 (H z) (or_intror Hz)) as [<-|K]; [specialize (A2 _ Hz); lia|exact K].
  - destruct (proj2 (H z) (or_intror Hz)) as [<-|K]; [specialize (B2 _ Hz); lia|exact K].
Qed.
Lemma nsort_strict : forall l, NoDup l -> StronglySorted lt (nsort l).
Proof.
  intros l N. assert (S' : StronglySorted (key_lt Z.of_nat) (isort Z.of_nat l)) by (apply isort_strict; apply FinFun.Injective_map_NoDup; [intros x y; lia|exact N]).
  unfold nsort. induction S' as [|x l' H1 H2 H3]; constructor; auto. eapply Forall_impl; [|exact H3]. intros y Hy. unfold key_lt in Hy. lia.
Qed.
Lemma filter_seq_map : forall (p : nat -> bool) l s, map (fun i => nth (i - s) l 0) (filter (fun i => p (nth (i - s) l 0)) (seq s (length l))) = filter p l.
Proof.
  intros p l. induction l as [|x l IH]; intros s; [reflexivity|]. cbn [length seq filter]. rewrite Nat.sub_diag. change (nth 0 (x :: l) 0) with x.
  assert (E : map (fun i => nth (i - s) (x :: l) 0) (filter (fun i => p (nth (i - s) (x :: l) 0)) (seq (S s) (length l))) = filter p l).
  { rewrite <- (IH (S s)). assert (Q : forall i, In i (seq (S s) (length l)) -> nth (i - s) (x :: l) 0 = nth (i - S s) l 0).
    { intros i Hi. apply in_seq in Hi. replace (i - s) with (S (i - S s)) by lia. reflexivity. }
    rewrite (filter_ext_in _ (fun i => p (nth (i - S s) l 0))) by (intros i Hi; now rewrite Q). apply map_ext_in. intros i Hi. apply filter_In in Hi. now apply Q. }
  destruct (p x); [cbn [map]; rewrite Nat.sub_diag; change (nth 0 (x :: l) 0) with x; now rewrite E|exact E].
Qed.
Lemma filter_seq_map0 : forall (p : nat -> bool) l, map (fun i => nth i l 0) (filter (fun i => p (nth i l 0)) (seq 0 (length l))) = filter p l.
Proof.
  intros p l. transitivity (map (fun i => nth (i - 0) l 0) (filter (fun i => p (nth (i - 0) l 0)) (seq 0 (length l)))); [|apply filter_seq_map]. rewrite (filter_ext (fun i => p (nth (i - 0) l 0)) (fun i => p (nth i l 0))) by (intros i; now rewrite Nat.sub_0_r).
  apply map_ext. intros i. now rewrite Nat.sub_0_r.
Qed.
Lemma SS_filter_seq : forall p n s, StronglySorted lt (filter p (seq s n)).
Proof.
  intros p n. induction n as [|n IH]; intros s; [constructor|]. cbn [seq filter]. destruct (p s); [|apply IH]. constructor; [apply IH|]. apply Forall_forall. intros y Hy. apply filter_In in Hy. destruct Hy as [Hy _]. apply in_seq in Hy. lia.
Qed.
Lemma in_contracted : forall c1 c2 l, In l (contracted c1 c2) <-> In l c1 /\ In l c2.
Proof. intros. unfold contracted, dedup. rewrite filter_In, nodup_In, memn_In. tauto. Qed.
Lemma idx_one : forall L core, NoDup core -> NoDup L -> (forall x, In x L -> In x core) ->
  exists ps, mapM (fun l => position l core 0) L = Ok ps /\ nsort ps = filter (fun i => memn (nth i core 0) L) (seq 0 (length core)).
Proof.
  intros L core N NL H. destruct (mapM_position L core H) as [ps [E1 [E2 E3]]]. exists ps. split; [exact E1|]. rewrite Forall_forall in E3.
  assert (NP : NoDup ps) by (apply (NoDup_of_map (fun p => nth p core 0)); now rewrite E2).
  apply SSlt_unique; [now apply nsort_strict|apply SS_filter_seq|]. intros i. unfold nsort. rewrite isort_in, filter_In, in_seq, memn_In. split.
  - intros Hi. split; [specialize (E3 i Hi); lia|]. rewrite <- E2. now apply (in_map (fun p => nth p core 0)).
  - intros [Hi Hl]. rewrite <- E2 in Hl. apply in_map_iff in Hl. destruct Hl as [p [Ep Hp]]. replace i with p; [exact Hp|]. apply (proj1 (NoDup_nth core 0) N); [now apply E3|lia|exact Ep].
Qed.
Lemma idx_cv_spec : forall c1 c2, NoDup c1 -> NoDup c2 ->
  idx_cv c1 c2 = Ok (filter (fun i => memn (nth i c1 0) c2) (seq 0 (length c1)), filter (fun i => memn (nth i c2 0) c1) (seq 0 (length c2))).
Proof.
  intros c1 c2 N1 N2. unfold idx_cv. assert (NC : NoDup (contracted c1 c2)) by (apply NoDup_filter, NoDup_nodup).
  destruct (idx_one (contracted c1 c2) c1 N1 NC) as [p1 [E1 F1]]; [intros x Hx; now apply in_contracted in Hx|]. destruct (idx_one (contracted c1 c2) c2 N2 NC) as [p2 [E2 F2]]; [intros x Hx; now apply in_contracted in Hx|].
  rewrite E1. cbn [bind]. rewrite E2. cbn [bind]. rewrite F1, F2. f_equal. f_equal.
  - apply filter_ext_in. intros i Hi. apply in_seq in Hi. apply eq_true_iff_eq. rewrite !memn_In, in_contracted. split; [tauto|]. intros K; split; [apply nth_In; lia|exact K].
  - apply filter_ext_in. intros i Hi. apply in_seq in Hi. apply eq_true_iff_eq. rewrite !memn_In, in_contracted. split; [tauto|]. intros K; split; [exact K|apply nth_In; lia].
Qed.
Lemma remaining_spec : forall core p, remaining (length core) (filter (fun i => p (nth i core 0)) (seq 0 (length core))) = filter (fun i => negb (p (nth i core 0))) (seq 0 (length core)).
Proof.
  intros core p. unfold remaining. apply filter_ext_in. intros i Hi. f_equal. apply eq_true_iff_eq. rewrite memn_In, filter_In. tauto.
Qed.
Lemma combine_eq_iff : forall (l1 l2 : list nat), length l1 = length l2 -> (Forall (fun '(x, y) => x = y) (combine l1 l2) <-> l1 = l2).
Proof.
  induction l1 as [|x l1 IH]; intros [|y l2] L; try discriminate L; [split; auto; constructor|]. simpl in *. split.
  - intros H. inversion H; subst. f_equal. apply IH; [lia|assumption].
  - intros H. injection H as -> ->. constructor; [reflexivity|]. apply IH; auto.
Qed.

(** C31: for operands with distinct labels and an output that lists, in any order, the labels that are not shared, the call succeeds;
    every variable of the result carries its label; every shared label is integrated once on each side; and the integrated pairs
    carry equal labels exactly when the shared labels have the same order in both operands *)
Theorem C31_pairing : forall core1 core2 core_out, NoDup core1 -> NoDup core2 -> NoDup core_out ->
  (forall l, In l core_out <-> (In l core1 /\ ~ In l core2) \/ (In l core2 /\ ~ In l core1)) ->
  exists ps out, contract_core (length core1) (length core2) core1 core2 core_out = Ok (ps, out)
    /\ map (label_of core1 core2) out = core_out
    /\ NoDup (map fst ps) /\ NoDup (map snd ps)
    /\ (forall i, In i (map fst ps) <-> i < length core1 /\ In (nth i core1 0) core2) /\ (forall j, In j (map snd ps) <-> j < length core2 /\ In (nth j core2 0) core1)
    /\ (Forall (fun '(i, j) => nth i core1 0 = nth j core2 0) ps <-> filter (fun l => memn l core2) core1 = filter (fun l => memn l core1) core2).
Proof.
  intros c1 c2 co N1 N2 NO HO. unfold contract_core. rewrite !Nat.eqb_refl. cbn [negb].
  assert (X : Permutation co (filter (fun l => xorb (memn l c1) (memn l c2)) (dedup (c1 ++ c2)))).
  { apply NoDup_Permutation; [exact NO|apply NoDup_filter, NoDup_nodup|]. intros l. unfold dedup. rewrite HO, filter_In, nodup_In, in_app_iff.
    rewrite <- !memn_In. destruct (memn l c1), (memn l c2); simpl; intuition congruence. }
  rewrite (Permutation_length X), Nat.eqb_refl. cbn [negb].
  destruct (existsb (fun l => memn l c1 && memn l c2) co) eqn:EX.
  { apply existsb_exists in EX. destruct EX as [l [H1 H2]]. apply HO in H1. apply andb_true_iff in H2. rewrite !memn_In in H2. tauto. }
  rewrite idx_cv_spec by assumption. cbn [bind]. set (i1 := filter (fun i => memn (nth i c1 0) c2) (seq 0 (length c1))). set (i2 := filter (fun i => memn (nth i c2 0) c1) (seq 0 (length c2))).
  set (left := filter (fun l => negb (memn l (contracted c1 c2))) (c1 ++ c2)).
  destruct (mapM_position co left) as [perm [E1 [E2 E3]]].
  { intros l Hl. unfold left. rewrite filter_In, in_app_iff. apply HO in Hl. split; [tauto|]. apply negb_true_iff. apply memn_false. rewrite in_contracted. tauto. }
  rewrite E1. cbn [bind]. set (vars := map inl (remaining (length c1) i1) ++ map inr (remaining (length c2) i2)).
  assert (LV : map (label_of c1 c2) vars = left).
  { unfold vars, left. rewrite map_app, !map_map. unfold label_of at 1 2. unfold i1, i2. rewrite (remaining_spec c1 (fun l => memn l c2)), (remaining_spec c2 (fun l => memn l c1)).
    rewrite (filter_seq_map0 (fun l => negb (memn l c2)) c1), (filter_seq_map0 (fun l => negb (memn l c1)) c2), filter_app. f_equal; apply filter_ext_in; intros l Hl; f_equal; apply eq_true_iff_eq; rewrite !memn_In, in_contracted; tauto. }
  assert (M1 : map (fun i => nth i c1 0) i1 = filter (fun l => memn l c2) c1) by apply (filter_seq_map0 (fun l => memn l c2)).
  assert (M2 : map (fun i => nth i c2 0) i2 = filter (fun l => memn l c1) c2) by apply (filter_seq_map0 (fun l => memn l c1)).
  assert (PF : Permutation (filter (fun l => memn l c2) c1) (filter (fun l => memn l c1) c2)).
  { apply NoDup_Permutation; [now apply NoDup_filter|now apply NoDup_filter|]. intros l. rewrite !filter_In, !memn_In. tauto. }
  assert (LI : length i1 = length i2). { rewrite <- (map_length (fun i => nth i c1 0) i1), <- (map_length (fun i => nth i c2 0) i2), M1, M2. now apply Permutation_length. }
  exists (combine i1 i2), (map (fun p => nth p vars (inl 0)) perm). split; [reflexivity|]. split.
  { rewrite map_map. rewrite <- E2. apply map_ext_in. intros p Hp. rewrite <- LV. rewrite Forall_forall in E3. specialize (E3 p Hp). rewrite <- LV, map_length in E3.
    rewrite (nth_indep _ 0 (label_of c1 c2 (inl 0))) by (now rewrite map_length). now rewrite map_nth. }
  rewrite combine_map_fst, combine_map_snd by (assumption || now symmetry). split; [apply NoDup_filter, seq_NoDup|]. split; [apply NoDup_filter, seq_NoDup|].
  split; [intros i; unfold i1; rewrite filter_In, in_seq, memn_In; split; [intros [? ?]; split; [lia|assumption]|intros [? ?]; split; [lia|assumption]]|].
  split; [intros i; unfold i2; rewrite filter_In, in_seq, memn_In; split; [intros [? ?]; split; [lia|assumption]|intros [? ?]; split; [lia|assumption]]|].
  rewrite <- M1, <- M2. rewrite <- combine_eq_iff by (now rewrite !map_length). generalize i1 i2. clear. induction i1 as [|a i1 IH]; intros [|b i2]; simpl; try solve [split; constructor].
  split; intros H; (constructor; [exact (Forall_inv H)|apply IH; exact (Forall_inv_tail H)]).
Qed.
(** false when the shared labels come in different orders: variables with different labels are integrated together *)
Theorem C31_refuted : contract_core 2 2 [0; 1] [1; 0] [] = Ok ([(0, 0); (1, 1)], []).
Proof. reflexivity. Qed.
(** the labels computed for components (Wires.contracted_labels) always have the same order in both operands, so contractions of components pair the right variables *)
Lemma contracted_la : forall f a b la lb lo, contracted_labels f a b = Ok (la, lb, lo) -> la = seq 0 (length a).
Proof.
  intros f a b la lb lo. unfold contracted_labels. destruct (contracted_indices a (with_ids f b)) as [iA iB]. destruct (matmul a (with_ids f b)) as [r|]; cbn [bind]; [|discriminate].
  destruct (mapM _ _) as [all|]; cbn [bind]; [|discriminate]. intros H. now injection H.
Qed.
Lemma SS_nth' : forall (A : Type) (R : A -> A -> Prop) d l, StronglySorted R l -> forall i j, i < j -> j < length l -> R (nth i l d) (nth j l d).
Proof.
  induction l as [|t l IH]; intros Ss i j Lt B; [simpl in B; lia|]. inversion Ss as [|? ? S1 F1]; subst. destruct j as [|j]; [lia|]. simpl in B. destruct i as [|i]; simpl.
  - rewrite Forall_forall in F1. apply F1, nth_In. lia.
  - apply IH; auto; lia.
Qed.
Theorem C31_components : forall f a b r,
  distinct a -> distinct b -> same_repr a b -> distinct_ids a (with_ids f b) -> well_indexed a -> well_indexed b -> window a -> window b ->
  matmul_wires a (with_ids f b) = Ok r -> no_cl_clash r ->
  exists la lb lo, contracted_labels f a b = Ok (la, lb, lo) /\ filter (fun l => memn l lb) la = filter (fun l => memn l la) lb.
Proof.
  intros f a b r Da Db SR DI Wa Wb Wia Wib E NC.
  destruct (C03_contraction_labels f a b r Da Db SR DI Wa Wb E NC) as [la [lb [lo [H1 [H2 [H3 [_ [N1 [N2 [_ [J _]]]]]]]]]]].
  exists la, lb, lo. split; [exact H1|]. pose proof (contracted_la _ _ _ _ _ _ H1) as LA.
  apply SSlt_unique.
  - rewrite LA. apply SS_filter_seq.
  - assert (Sa : StronglySorted std_lt (descs (sorted_wires a))) by (now apply sorted_std).
    assert (Sb : StronglySorted std_lt (descs (sorted_wires b))) by (now apply sorted_std).
    set (d0 := mkWire 0 true Ket 0 Bargmann 0).
    assert (Key : forall j j', j < j' -> j' < length b -> memn (nth j lb 0) la = true -> memn (nth j' lb 0) la = true -> nth j lb 0 < nth j' lb 0).
    { intros j j' Lj Lj' M M'. rewrite memn_In, LA, in_seq in M, M'. 
      assert (Jn : forall k, k < length b -> nth k lb 0 < length a -> joined (nth (nth k lb 0) (sorted_wires a) d0) (nth k (sorted_wires b) d0) /\ wside (nth (nth k lb 0) (sorted_wires a) d0) <> Cl).
      { intros k Hk Hi. apply (J (nth k lb 0) k d0 Hi Hk). rewrite LA, seq_nth by exact Hi. reflexivity. }
      destruct (Jn j ltac:(lia) ltac:(lia)) as [[O1 F1] C1]. destruct (Jn j' Lj' ltac:(lia)) as [[O2 F2] C2].
      set (i := nth j lb 0) in *. set (i' := nth j' lb 0) in *. clearbody i i'.
      pose proof (SS_nth' _ _ (desc d0) _ Sb j j' Lj ltac:(unfold descs; rewrite map_length, sorted_wires_length; exact Lj')) as SB. unfold descs in SB. rewrite !map_nth in SB. rewrite F1, F2 in SB.
      set (x := nth i (sorted_wires a) d0) in *. set (y := nth i' (sorted_wires a) d0) in *.
      assert (LT : std_lt (desc x) (desc y)).
      { clearbody x y. destruct x as [m1 o1 s1 k1 r1 w1], y as [m2 o2 s2 k2 r2 w2]. unfold std_lt, flip, desc, group_rank, d_mode, d_out, d_side in *. cbn in *. subst o1 o2. destruct s1, s2; cbn in *; try lia; congruence. }
      destruct (Nat.lt_trichotomy i i') as [L|[L|L]]; [exact L|exfalso|exfalso].
      - unfold x, y in LT. rewrite L in LT. exact (std_lt_irrefl _ LT).
      - pose proof (SS_nth' _ _ (desc d0) _ Sa i' i L ltac:(unfold descs; rewrite map_length, sorted_wires_length; lia)) as SA. unfold descs in SA. rewrite !map_nth in SA. fold x in SA. fold y in SA.
        exact (std_lt_irrefl _ (std_lt_trans _ _ _ LT SA)). }
    assert (G : forall L, (forall j j', j < j' -> j' < length L -> memn (nth j L 0) la = true -> memn (nth j' L 0) la = true -> nth j L 0 < nth j' L 0) -> StronglySorted lt (filter (fun l => memn l la) L)).
    { induction L as [|x L IH]; intros K; [constructor|]. assert (IH' : StronglySorted lt (filter (fun l => memn l la) L)). { apply IH. intros j j' A1 A2 A3 A4. apply (K (S j) (S j')); simpl; auto; lia. }
      cbn [filter]. destruct (memn x la) eqn:Mx; [|exact IH']. constructor; [exact IH'|]. apply Forall_forall. intros y Hy. apply filter_In in Hy. destruct Hy as [Hy My].
      destruct (In_nth _ _ 0 Hy) as [k [Hk Ek]]. specialize (K 0 (S k) ltac:(lia) ltac:(simpl; lia)). simpl in K. rewrite Ek in K. auto. }
    apply G. intros j j' A1 A2. rewrite H3 in A2. now apply Key.
  - intros x. rewrite !filter_In, !memn_In. tauto.
Qed.
Theorem C31_example : contract_core 3 3 [0; 1; 2] [1; 5; 2] [5; 0] = Ok ([(1, 0); (2, 2)], [inr 1; inl 0]).
Proof. reflexivity. Qed.
