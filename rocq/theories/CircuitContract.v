(** Claim C09: Circuit.contract and the contraction path. Model of mrmustard/lab/circuits.py:77-128 (the constructor's default
    path and contract) on top of the model of >> (RShift.v). *)
From Coq Require Import ZArith List Bool Lia Permutation Sorted Arith Ring_theory Ring.
Require Import Verif.Base Verif.Wires Verif.WiresSpec Verif.WiresLemmas Verif.WiresMatmul Verif.WiresLabels
  Verif.WiresProps Verif.WiresAdj Verif.Tensor Verif.Contract Verif.ContractAssoc Verif.CompAdj Verif.RShift.
Import ListNotations.

(** ** the dictionary [ret] of Circuit.contract: an insertion-ordered dict *)
Section Dict.
  Context {X : Type}.
  Definition dict := list (nat * X).
  Fixpoint get (k : nat) (d : dict) : result X :=
    match d with [] => Err KeyError | (i, x) :: t => if Nat.eqb i k then Ok x else get k t end.
  Fixpoint del (k : nat) (d : dict) : dict :=
    match d with [] => [] | (i, x) :: t => if Nat.eqb i k then t else (i, x) :: del k t end.
  Fixpoint put (k : nat) (v : X) (d : dict) : dict :=
    match d with [] => [(k, v)] | (i, x) :: t => if Nat.eqb i k then (i, v) :: t else (i, x) :: put k v t end.
  Context (op : X -> X -> result X).
  (** circuits.py:125-126: ret[idx0] = ret[idx0] >> ret.pop(idx1) *)
  Definition step (d : dict) (p : nat * nat) : result dict :=
    bind (get (fst p) d) (fun x => bind (get (snd p) d) (fun y =>
    bind (op x y) (fun z => Ok (put (fst p) z (del (snd p) d))))).
  Fixpoint run (d : dict) (path : list (nat * nat)) : result dict :=
    match path with [] => Ok d | p :: t => bind (step d p) (fun d' => run d' t) end.
  (** circuits.py:106-128 *)
  Definition circuit_contract (comps : list X) (path : list (nat * nat)) : result X :=
    if negb (Z.eqb (Z.of_nat (length path)) (Z.of_nat (length comps) - 1)) then Err ValueError
    else bind (run (combine (seq 0 (length comps)) comps) path) (fun d =>
         match d with [] => Err RuntimeError (* StopIteration, unreachable *) | (_, x) :: _ => Ok x end).
  (** circuits.py:82-84 *)
  Definition default_path (n : nat) : list (nat * nat) := map (fun i => (0, i)) (seq 1 (n - 1)).
End Dict.
Arguments dict : clear implicits.

Section Circuit.
  Context {R : Type} (rO rI : R) (radd rmul rsub : R -> R -> R) (ropp : R -> R).
  Hypothesis Rth : ring_theory rO rI radd rmul rsub ropp eq.
  Notation comp := (@comp R).
  Notation contract := (Contract.contract rO radd rmul).
  Notation product := (ContractAssoc.product rO radd rmul).

  (** ** the same component: wires, cutoffs and all entries *)
  Definition same (v w : comp) : Prop :=
    (forall d, In d (descs (cw v)) <-> In d (descs (cw w)))
    /\ (forall d, In d (descs (cw v)) -> wdim v d = wdim w d)
    /\ (forall al, amp v al = amp w al).
  Lemma same_refl : forall v, same v v. Proof using. intros v. split; [reflexivity|]. split; reflexivity. Qed.
  Lemma same_sym : forall v w, same v w -> same w v.
  Proof using. intros v w [A [B C]]. split; [intros d; symmetry; apply A|]. split; [|intros; symmetry; apply C]. intros d H. symmetry. apply B. now apply A. Qed.
  Lemma same_trans : forall u v w, same u v -> same v w -> same u w.
  Proof using.
    intros u v w [A [B C]] [A' [B' C']]. split; [intros; rewrite A; apply A'|]. split.
    - intros d H. rewrite B by assumption. apply B'. now apply A.
    - intros. rewrite C. apply C'.
  Qed.

  Lemma product_dim : forall a b r d, product a b r -> In d (descs (cw r)) ->
    wdim r d = if d_out d then (if has d (cw b) then wdim b d else wdim a d) else (if has d (cw a) then wdim a d else wdim b d).
  Proof using.
    intros a b r d [_ [N [S [D _]]]] H. specialize (N d). unfold collision in N. destruct (D d H) as [[I [F E]]|[I [F E]]]; rewrite E.
    - destruct (d_out d) eqn:O; [|apply has_true in I; now rewrite I].
      destruct (has d (cw b)) eqn:X; [|reflexivity]. apply has_true in X. specialize (F eq_refl). tauto.
    - destruct (d_out d) eqn:O; [apply has_true in I; now rewrite I|].
      destruct (has d (cw a)) eqn:X; [|reflexivity]. apply has_true in X. specialize (F eq_refl). tauto.
  Qed.

  Lemma same_collision : forall a a' b b' d, same a a' -> same b b' -> collision (cw a) (cw b) d -> collision (cw a') (cw b') d.
  Proof using. intros a a' b b' d [A _] [B _]. unfold collision. destruct (d_out d); rewrite <- !A, <- !B; tauto. Qed.
  Lemma same_has : forall a a' d, same a a' -> has d (cw a) = has d (cw a').
  Proof using. intros a a' d [A _]. apply eq_true_iff_eq. rewrite !has_true. apply A. Qed.

  Lemma product_same : forall a a' b b' r r', wf a -> wf a' -> product a b r -> product a' b' r' -> same a a' -> same b b' -> same r r'.
  Proof using Rth.
    intros a a' b b' r r' Wa Wa' P P' SA SB. pose proof P as [_ [_ [S [_ A]]]]. pose proof P' as [_ [_ [S' [_ A']]]].
    pose proof SA as [IA [DA AA]]. pose proof SB as [IB [DB AB]].
    assert (SV : forall d, In d (descs (cw r)) <-> In d (descs (cw r'))).
    { intros d. rewrite S, S'. unfold survives. destruct (d_out d); rewrite !IA, !IB; tauto. }
    split; [exact SV|]. split.
    - intros d H. rewrite (product_dim a b r d P H). rewrite (product_dim a' b' r' d P') by now apply SV.
      rewrite (same_has a a' d SA), (same_has b b' d SB).
      assert (X : has d (cw a) = false -> has d (cw b) = false -> False).
      { rewrite !has_false. apply S in H. apply survives_sub in H. unfold descs in H. rewrite map_app, in_app_iff in H. tauto. }
      rewrite (same_has a a' d SA), (same_has b b' d SB) in X.
      destruct (d_out d), (has d (cw a')) eqn:Ea, (has d (cw b')) eqn:Eb; try (exfalso; now apply X);
        try (apply DA, IA; now apply has_true); try (apply DB, IB; now apply has_true).
    - intros al. rewrite A, A'. rewrite !rule_nsum.
      assert (PJ : Permutation (joins a b) (joins a' b')).
      { apply NoDup_Permutation; try now apply joins_NoDup. intros d. rewrite !joins_in, IA, IB. tauto. }
      rewrite (nsum_perm rO rI radd rmul rsub ropp Rth desc_eqb desc_eqb_eq _ (joins a' b')); [| |intros s t E|exact PJ].
      + rewrite (nsum_dim rO radd desc_eqb _ _ (cut_dim a' b')).
        * apply nsum_ext. intros s. now rewrite AA, AB.
        * intros d H. apply (Permutation_in _ (Permutation_sym PJ)) in H. rewrite joins_in in H. destruct H as [H1 [_ H2]].
          unfold cut_dim. now rewrite DA, DB.
      + now apply joins_NoDup.
      + f_equal; apply amp_ext; intros d _; unfold ovr; now rewrite E.
  Qed.

  Lemma assoc_same : forall a b c ab bc l r, wf a -> wf b -> wf c ->
    product a b ab -> product ab c l -> product b c bc -> product a bc r -> same l r.
  Proof using Rth.
    intros a b c ab bc l r Wa Wb Wc P1 P2 P3 P4.
    pose proof P1 as [_ [N1 [S1 _]]]. pose proof P2 as [_ [N2 [S2 _]]]. pose proof P3 as [_ [N3 [S3 _]]]. pose proof P4 as [_ [N4 [S4 _]]].
    rewrite coll_b_false in N1, N2, N3, N4.
    pose proof (has_surv _ _ _ S1) as T1. pose proof (has_surv _ _ _ S3) as T3.
    pose proof (has_surv _ _ _ S2) as T2. pose proof (has_surv _ _ _ S4) as T4.
    assert (SV : forall d, In d (descs (cw l)) <-> In d (descs (cw r))).
    { intros d. rewrite <- !has_true. enough (X : has d (cw l) = has d (cw r)) by (rewrite X; reflexivity). rewrite T2, T4.
      pose proof (N1 d) as M1. pose proof (N1 (flip d)) as M1'. pose proof (N2 d) as M2. pose proof (N2 (flip d)) as M2'.
      pose proof (N3 d) as M3. pose proof (N3 (flip d)) as M3'. pose proof (N4 d) as M4. pose proof (N4 (flip d)) as M4'.
      clear - T1 T3 M1 M1' M2 M2' M3 M3' M4 M4'.
      unfold coll_b, surv_b in *. rewrite ?T1, ?T3 in *. unfold surv_b in *. clear T1 T3.
      rewrite ?d_out_flip, ?flip_flip in *. bits d (cw a) (cw b) (cw c). }
    split; [exact SV|]. split.
    - intros d H. assert (H' := H). apply SV in H'. rewrite (product_dim ab c l d P2 H), (product_dim a bc r d P4 H').
      assert (Dab : has d (cw ab) = true -> _) by exact (fun h => product_dim a b ab d P1 (proj1 (has_true _ _) h)).
      assert (Dbc : has d (cw bc) = true -> _) by exact (fun h => product_dim b c bc d P3 (proj1 (has_true _ _) h)).
      apply has_true in H. rewrite T2 in H. apply has_true in H'. rewrite T4 in H'.
      pose proof (N1 d) as M1. pose proof (N2 d) as M2. pose proof (N3 d) as M3. pose proof (N4 d) as M4.
      pose proof (T1 d) as X1. pose proof (T3 d) as X3. pose proof (T1 (flip d)) as X1'. pose proof (T3 (flip d)) as X3'.
      clear - H H' Dab Dbc M1 M2 M3 M4 X1 X3 X1' X3'.
      unfold coll_b, surv_b in *. rewrite d_out_flip, flip_flip in *. revert H H' Dab Dbc M1 M2 M3 M4 X1 X3 X1' X3'.
      generalize (has d (cw ab)) (has d (cw bc)) (has (flip d) (cw ab)) (has (flip d) (cw bc)).
      generalize (wdim ab d) (wdim bc d) (wdim a d) (wdim b d) (wdim c d).
      generalize (has d (cw a)) (has d (cw b)) (has d (cw c)) (has (flip d) (cw b)) (has (flip d) (cw c)) (has (flip d) (cw a)).
      destruct (d_out d); intros [] [] [] [] [] [] ? ? ? ? ? ? ? ? ?; cbn; intros; subst; cbn in *;
        try (specialize (Dab eq_refl)); try (specialize (Dbc eq_refl)); congruence.
    - apply (product_assoc rO rI radd rmul rsub ropp Rth a b c ab bc l r); auto.
  Qed.

  (** ** ids: [F a b] gives the ids of the copy of b's wires made when a is contracted with b *)
  Context (F : comp -> comp -> wire -> nat).
  Hypothesis HF : forall a b, NoDup (map wid (cw a)) -> wf b -> distinct_ids (cw a) (with_ids (F a b) (cw b)).

  (** the circuits considered: well-formed components, distinct ids, one representation, modes in a window *)
  Definition circuit_ok (l : list comp) : Prop :=
    (forall c, In c l -> wf c) /\ NoDup (map wid (concat (map cw l)))
    /\ reprs_agree (concat (map cw l)) /\ window (concat (map cw l)).
  Definition inv (l : list comp) (v : comp) : Prop :=
    wf v /\ NoDup (map wid (cw v))
    /\ forall w, In w (cw v) -> exists x, In x (concat (map cw l)) /\ desc x = desc w /\ wrepr x = wrepr w /\ wid x = wid w.

  Lemma nodup_wid_inj : forall (l : wires) x y, NoDup (map wid l) -> In x l -> In y l -> wid x = wid y -> x = y.
  Proof using. intros l x y H Hx Hy E. apply (wid_inj l); auto. Qed.

  (** contraction of two pieces of a circuit *)
  Lemma piece : forall l1 l2 v1 v2, circuit_ok (l1 ++ l2) -> inv l1 v1 -> inv l2 v2 ->
    (forall d, ~ collision (cw v1) (cw v2) d) ->
    exists v, contract (F v1 v2) v1 v2 = Ok v /\ product v1 v2 v /\ inv (l1 ++ l2) v.
  Proof using Rth HF.
    intros l1 l2 v1 v2 [_ [ND [RA W]]] [W1 [I1 O1]] [W2 [I2 O2]] NC.
    rewrite map_app, concat_app in *.
    set (C1 := concat (map cw l1)) in *. set (C2 := concat (map cw l2)) in *.
    assert (SR : same_repr (cw v1) (cw v2)).
    { intros x y Hx Hy D. destruct (O1 x Hx) as [x' [Hx' [D1 [R1 _]]]]. destruct (O2 y Hy) as [y' [Hy' [D2 [R2 _]]]].
      rewrite <- R1, <- R2. apply RA; [apply in_or_app; auto|apply in_or_app; auto|congruence]. }
    assert (WW : window (cw v1 ++ cw v2)).
    { eapply window_perm_descs; [|exact W]. intros d. unfold descs. rewrite !map_app, !in_app_iff.
      intros [H|H]; [left|right]; apply in_map_iff in H; destruct H as [w [<- H]].
      - destruct (O1 w H) as [x [Hx [D _]]]. rewrite <- D. now apply in_map.
      - destruct (O2 w H) as [x [Hx [D _]]]. rewrite <- D. now apply in_map. }
    destruct (C07_contract rO rI radd rmul rsub ropp Rth (F v1 v2) v1 v2 W1 W2 SR (HF v1 v2 I1 W2) WW) as [[v [E [P _]]]|[_ [d C]]];
      [|exfalso; now apply (NC d)].
    exists v. split; [exact E|]. split; [exact P|].
    assert (EW : exists u, cw v = reindex u /\ forall w, In w u -> In w (cw v1 ++ cw v2)).
    { unfold Contract.contract in E. destruct (matmul (cw v1) (cw v2)) as [[r0 p0]|] eqn:EM; [|discriminate]. cbn [bind] in E.
      destruct (contracted_labels (F v1 v2) (cw v1) (cw v2)) as [[[a1 a2] lo]|]; [|discriminate]. cbn [bind] in E.
      destruct (array_contract rO radd rmul (carr v1) (carr v2) a1 a2 lo); [|discriminate]. cbn [bind fst] in E. injection E as <-.
      unfold matmul in EM. destruct (matmul_wires (cw v1) (cw v2)) eqn:EU; [|discriminate]. cbn [bind] in EM.
      destruct (mapM _ _); [|discriminate]. cbn [bind] in EM. injection EM as <- _. cbn [cw].
      destruct (matmul_wires_cases (cw v1) (cw v2)) as [[u [EU' [_ [IU _]]]]|[EU' _]]; [|congruence].
      exists u. split; [congruence|]. intros w0 Hw. apply IU in Hw. unfold survW in Hw. apply in_or_app. destruct (is_out w0); tauto. }
    destruct EW as [u [EW IU]].
    assert (OR : forall w, In w (cw v) -> exists x, In x (C1 ++ C2) /\ desc x = desc w /\ wrepr x = wrepr w /\ wid x = wid w).
    { intros w Hw. rewrite EW in Hw. apply in_reindex in Hw. destruct Hw as [y [Hy [D [Iy Ry]]]]. apply IU in Hy. apply in_app_or in Hy.
      destruct Hy as [Hy|Hy]; [destruct (O1 y Hy) as [x [Hx [Dx [Rx Ix]]]]|destruct (O2 y Hy) as [x [Hx [Dx [Rx Ix]]]]];
        exists x; (split; [apply in_or_app; auto|]); repeat split; congruence. }
    split; [apply P|]. split; [|rewrite map_app, concat_app; exact OR].
    pose proof (proj1 P) as [DV _]. unfold distinct, descs in DV.
    assert (INJ : forall x y, In x (cw v) -> In y (cw v) -> wid x = wid y -> desc x = desc y).
    { intros x y Hx Hy E'. destruct (OR x Hx) as [x' [Hx' [Dx [_ Ix]]]]. destruct (OR y Hy) as [y' [Hy' [Dy [_ Iy]]]].
      assert (x' = y') by (apply (nodup_wid_inj _ x' y' ND); auto; congruence). congruence. }
    clear - DV INJ. induction (cw v) as [|w t IH]; [constructor|]. simpl in *. inversion DV; subst. constructor.
    - intros C. apply in_map_iff in C. destruct C as [y [E Hy]]. apply H1. rewrite (INJ w y); auto. now apply in_map.
    - apply IH; auto.
  Qed.

  (** ** strict circuits: on every line (mode and side), if a component is followed on this line by another one, then
      the first has an output there exactly when the second has an input there *)
  Definition touches (d : descr) (c : comp) : bool := has d (cw c) || has (flip d) (cw c).
  Definition last_touch (d : descr) (l : list comp) := find (touches d) (rev l).
  Definition first_touch (d : descr) (l : list comp) := find (touches d) l.
  Definition strict (l : list comp) : Prop :=
    forall l1 l2 d a b, l = l1 ++ l2 -> d_out d = true -> last_touch d l1 = Some a -> first_touch d l2 = Some b ->
      (In d (descs (cw a)) <-> In (flip d) (descs (cw b))).

  (** left-to-right contraction *)
  Inductive chain : list comp -> comp -> Prop :=
  | chain1 : forall a, chain [a] a
  | chainS : forall l v b r, chain l v -> contract (F v b) v b = Ok r -> product v b r -> chain (l ++ [b]) r.

  Definition ohas (d : descr) (o : option comp) : Prop := match o with Some a => In d (descs (cw a)) | None => False end.
  Lemma touches_flip : forall d c, touches (flip d) c = touches d c.
  Proof using. intros. unfold touches. rewrite flip_flip. apply orb_comm. Qed.
  Lemma find_app : forall {A} (f : A -> bool) l1 l2, find f (l1 ++ l2) = match find f l1 with Some a => Some a | None => find f l2 end.
  Proof using. intros A f l1 l2. induction l1 as [|x t IH]; simpl; [reflexivity|]. now destruct (f x). Qed.
  Lemma find_ext : forall {A} (f g : A -> bool) l, (forall x, f x = g x) -> find f l = find g l.
  Proof using. intros A f g l H. induction l as [|x t IH]; simpl; [reflexivity|]. now rewrite H, IH. Qed.
  Lemma first_touch_flip : forall d l, first_touch (flip d) l = first_touch d l.
  Proof using. intros. apply find_ext. intros. apply touches_flip. Qed.
  Lemma last_touch_flip : forall d l, last_touch (flip d) l = last_touch d l.
  Proof using. intros. apply find_ext. intros. apply touches_flip. Qed.
  Lemma find_none_rev : forall {A} (f : A -> bool) l, find f (rev l) = None <-> find f l = None.
  Proof using.
    intros A f l. split; intros H; (destruct (find f _) eqn:E at 1; [|reflexivity]).
    - apply find_some in E. destruct E as [I E]. apply in_rev in I. apply (find_none _ _ H) in I. congruence.
    - apply find_some in E. destruct E as [I E]. apply in_rev in I. apply (find_none _ _ H) in I. congruence.
  Qed.

  Lemma strict_sub : forall x l y, strict (x ++ l ++ y) -> strict l.
  Proof using.
    intros x l y H l1 l2 d a b E O L Fi. apply (H (x ++ l1) (l2 ++ y) d a b); auto.
    - subst l. now rewrite <- !app_assoc.
    - unfold last_touch in *. rewrite rev_app_distr, find_app, L. reflexivity.
    - unfold first_touch in *. rewrite find_app, Fi. reflexivity.
  Qed.

  (** the wires of a block: the output of the last component on the line, the input of the first *)
  Lemma chain_wires : forall l v, chain l v -> strict l -> forall d,
    In d (descs (cw v)) <-> ohas d (if d_out d then last_touch d l else first_touch d l).
  Proof using.
    intros l v H. induction H as [a|l v b r H IH E P]; intros ST d.
    - unfold last_touch, first_touch. simpl. unfold touches. destruct (has d (cw a)) eqn:X.
      + simpl. destruct (d_out d); simpl; tauto.
      + apply has_false in X. simpl. destruct (d_out d), (has (flip d) (cw a)); simpl; tauto.
    - assert (STl : strict l) by (apply (strict_sub [] l [b]); exact ST). specialize (IH STl).
      pose proof P as [_ [_ [S _]]]. rewrite S. unfold survives. destruct (d_out d) eqn:O.
      + unfold last_touch. rewrite rev_app_distr. simpl. unfold touches at 1.
        destruct (has d (cw b)) eqn:X; simpl; [apply has_true in X; tauto|]. apply has_false in X.
        destruct (has (flip d) (cw b)) eqn:Y; simpl; [apply has_true in Y; tauto|]. apply has_false in Y.
        fold (last_touch d l). specialize (IH d). rewrite O in IH. tauto.
      + unfold first_touch. rewrite find_app. fold (first_touch d l).
        pose proof (IH d) as IHd. rewrite O in IHd. pose proof (IH (flip d)) as IHf. rewrite d_out_flip, O in IHf. cbn [negb] in IHf.
        destruct (first_touch d l) as [a|] eqn:Fa.
        * cbn [ohas] in *. split; [|tauto]. intros [K|[Kb Kf]]; [tauto|]. exfalso. apply Kf. apply IHf.
          destruct (last_touch (flip d) l) as [a'|] eqn:La.
          -- cbn [ohas]. apply (ST l [b] (flip d) a' b eq_refl); auto.
             ++ rewrite d_out_flip, O. reflexivity.
             ++ unfold first_touch. simpl. rewrite touches_flip. unfold touches. apply has_true in Kb. rewrite Kb. reflexivity.
             ++ now rewrite flip_flip.
          -- rewrite last_touch_flip in La. unfold last_touch in La. apply (proj1 (find_none_rev _ _)) in La. unfold first_touch in Fa. congruence.
        * cbn [ohas] in IHd. assert (NF : ~ In (flip d) (descs (cw v))).
          { rewrite IHf, last_touch_flip. unfold last_touch. unfold first_touch in Fa. apply (proj2 (find_none_rev _ _)) in Fa. rewrite Fa. tauto. }
          simpl. unfold touches. destruct (has d (cw b)) eqn:X; simpl; [apply has_true in X; tauto|]. apply has_false in X.
          destruct (has (flip d) (cw b)); simpl; tauto.
  Qed.

  (** no collision between consecutive blocks of a strict circuit *)
  Lemma strict_no_collision : forall l1 l2 v1 v2, chain l1 v1 -> chain l2 v2 -> strict (l1 ++ l2) ->
    forall d, ~ collision (cw v1) (cw v2) d.
  Proof using.
    intros l1 l2 v1 v2 H1 H2 ST d C.
    assert (S1 : strict l1) by (apply (strict_sub [] l1 l2); exact ST).
    assert (S2 : strict l2) by (apply (strict_sub l1 l2 []); now rewrite app_nil_r).
    pose proof (chain_wires l1 v1 H1 S1 d) as A1. pose proof (chain_wires l2 v2 H2 S2 d) as A2.
    pose proof (chain_wires l1 v1 H1 S1 (flip d)) as B1. pose proof (chain_wires l2 v2 H2 S2 (flip d)) as B2.
    rewrite d_out_flip in B1, B2. unfold collision in C. destruct (d_out d) eqn:O; cbn [negb] in *.
    - destruct C as [C2 [C1 NC]]. apply NC, B2. clear NC. apply A1 in C1. apply A2 in C2.
      destruct (last_touch d l1) as [a|] eqn:La; [|destruct C1]. rewrite first_touch_flip.
      destruct (first_touch d l2) as [b|] eqn:Fb.
      + cbn [ohas] in *. now apply (ST l1 l2 d a b).
      + unfold first_touch in Fb. apply (proj2 (find_none_rev _ _)) in Fb. unfold last_touch in C2. now rewrite Fb in C2.
    - destruct C as [C1 [C2 NC]]. apply NC, B1. clear NC. apply A1 in C1. apply A2 in C2.
      destruct (first_touch d l2) as [b|] eqn:Fb; [|destruct C2].
      destruct (last_touch (flip d) l1) as [a|] eqn:La.
      + cbn [ohas] in *. apply (ST l1 l2 (flip d) a b); auto; [now rewrite d_out_flip, O|now rewrite first_touch_flip|now rewrite flip_flip].
      + rewrite last_touch_flip in La. unfold last_touch in La. apply (proj1 (find_none_rev _ _)) in La. unfold first_touch in C1. now rewrite La in C1.
  Qed.

  Lemma nodup_app_r : forall {A} (l1 l2 : list A), NoDup (l1 ++ l2) -> NoDup l2.
  Proof using. intros A l1 l2 H. induction l1; [exact H|]. inversion H; auto. Qed.
  Lemma nodup_app_l : forall {A} (l1 l2 : list A), NoDup (l1 ++ l2) -> NoDup l1.
  Proof using.
    intros A l1 l2 H. induction l1 as [|x t IH]; [constructor|]. simpl in H. inversion H; subst. constructor; [|auto].
    intros C. apply H2. apply in_or_app. now left.
  Qed.
  Lemma circuit_ok_sub : forall x l y, circuit_ok (x ++ l ++ y) -> circuit_ok l.
  Proof using.
    intros x l y [A [B [C D]]]. rewrite !map_app, !concat_app in *. split; [intros c H; apply A; rewrite !in_app_iff; auto|].
    split; [|split].
    - rewrite !map_app in B. apply nodup_app_r in B. now apply nodup_app_l in B.
    - intros u v Hu Hv. apply C; rewrite !in_app_iff; auto.
    - intros u v Hu Hv. apply D; rewrite !in_app_iff; auto.
  Qed.
  Lemma inv_leaf : forall l a, circuit_ok l -> In a l -> inv [a] a.
  Proof using.
    intros l a CO H. apply in_split in H. destruct H as [l1 [l2 ->]]. assert (C := circuit_ok_sub l1 [a] l2 CO).
    destruct C as [A [B _]]. simpl in *. rewrite app_nil_r in *. split; [apply A; auto|]. split; [exact B|]. intros w Hw. exists w. simpl. rewrite app_nil_r. auto.
  Qed.
  Lemma chain_inv : forall l v, chain l v -> circuit_ok l -> strict l -> inv l v.
  Proof using Rth HF.
    intros l v H. induction H as [a|l v b r H IH E P]; intros CO ST; [apply (inv_leaf [a]); auto; now left|].
    assert (C1 : circuit_ok l) by (apply (circuit_ok_sub [] l [b]); exact CO).
    assert (S1 : strict l) by (apply (strict_sub [] l [b]); exact ST).
    destruct (piece l [b] v b CO (IH C1 S1)) as [r' [E' [_ I]]].
    - apply (inv_leaf (l ++ [b])); auto. apply in_or_app. right. now left.
    - intros d. apply P.
    - congruence.
  Qed.

  Lemma same_no_collision : forall a a' b b', same a a' -> same b b' -> (forall d, ~ collision (cw a) (cw b) d) -> forall d, ~ collision (cw a') (cw b') d.
  Proof using. intros a a' b b' SA SB H d C. apply (H d). apply (same_collision a' a b' b); auto using same_sym. Qed.

  (** contracting two consecutive blocks is contracting the components one after the other *)
  Lemma blocks : forall l2 v2, chain l2 v2 -> forall l1 v1, chain l1 v1 -> circuit_ok (l1 ++ l2) -> strict (l1 ++ l2) ->
    forall u1 u2, inv l1 u1 -> inv l2 u2 -> same u1 v1 -> same u2 v2 ->
    exists u v, contract (F u1 u2) u1 u2 = Ok u /\ inv (l1 ++ l2) u /\ chain (l1 ++ l2) v /\ same u v.
  Proof using Rth HF.
    intros l2 v2 H2. induction H2 as [b|m w b r H2 IH E P]; intros l1 v1 H1 CO ST u1 u2 I1 I2 E1 E2.
    - assert (C1 : circuit_ok l1) by (apply (circuit_ok_sub [] l1 [b]); exact CO).
      assert (S1 : strict l1) by (apply (strict_sub [] l1 [b]); exact ST).
      assert (J1 : inv l1 v1) by now apply chain_inv.
      assert (Jb : inv [b] b) by (apply (inv_leaf (l1 ++ [b])); auto; apply in_or_app; right; now left).
      assert (NC := strict_no_collision l1 [b] v1 b H1 (chain1 b) ST).
      destruct (piece l1 [b] v1 b CO J1 Jb NC) as [v [Ev [Pv _]]].
      destruct (piece l1 [b] u1 u2 CO I1 I2) as [u [Eu [Pu Iu]]].
      { apply (same_no_collision v1 u1 b u2); auto using same_sym. }
      exists u, v. split; [exact Eu|]. split; [exact Iu|]. split; [now apply (chainS l1 v1 b v)|].
      apply (product_same u1 v1 u2 b u v); auto; [apply I1|apply J1].
    - rewrite app_assoc in CO, ST.
      assert (C1m : circuit_ok (l1 ++ m)) by (apply (circuit_ok_sub [] (l1 ++ m) [b]); exact CO).
      assert (S1m : strict (l1 ++ m)) by (apply (strict_sub [] (l1 ++ m) [b]); exact ST).
      assert (C1 : circuit_ok l1) by (apply (circuit_ok_sub [] l1 m); exact C1m).
      assert (S1 : strict l1) by (apply (strict_sub [] l1 m); exact S1m).
      assert (Cmb : circuit_ok (m ++ [b])) by (rewrite <- app_assoc in CO; apply (circuit_ok_sub l1 (m ++ [b]) []); now rewrite app_nil_r).
      assert (Smb : strict (m ++ [b])) by (rewrite <- app_assoc in ST; apply (strict_sub l1 (m ++ [b]) []); now rewrite app_nil_r).
      assert (Cm : circuit_ok m) by (apply (circuit_ok_sub [] m [b]); exact Cmb).
      assert (Sm : strict m) by (apply (strict_sub [] m [b]); exact Smb).
      assert (J1 : inv l1 v1) by now apply chain_inv.
      assert (Jm : inv m w) by now apply chain_inv.
      assert (Jr : inv (m ++ [b]) r) by (apply chain_inv; auto; now apply (chainS m w b r)).
      assert (Jb : inv [b] b) by (apply (inv_leaf (m ++ [b])); auto; apply in_or_app; right; now left).
      destruct (IH l1 v1 H1 C1m S1m v1 w J1 Jm (same_refl v1) (same_refl w)) as [x [x' [Ex [Ix [Hx' Exx]]]]].
      assert (Px : product v1 w x).
      { destruct (piece l1 m v1 w C1m J1 Jm) as [y [Ey [Py _]]]; [|congruence]. apply (strict_no_collision l1 m); auto. }
      assert (NCb := strict_no_collision (l1 ++ m) [b] x' b Hx' (chain1 b) ST).
      assert (Jx' : inv (l1 ++ m) x') by now apply chain_inv.
      destruct (piece (l1 ++ m) [b] x' b CO Jx' Jb NCb) as [v [Ev [Pv _]]].
      destruct (piece (l1 ++ m) [b] x b CO Ix Jb) as [y [Ey [Py _]]].
      { apply (same_no_collision x' x b b); auto using same_sym, same_refl. }
      rewrite <- app_assoc in CO, ST.
      assert (NCr := strict_no_collision l1 (m ++ [b]) v1 r H1 (chainS m w b r H2 E P) ST).
      destruct (piece l1 (m ++ [b]) v1 r CO J1 Jr NCr) as [z [Ez [Pz _]]].
      destruct (piece l1 (m ++ [b]) u1 u2 CO I1 I2) as [u [Eu [Pu Iu]]].
      { apply (same_no_collision v1 u1 r u2); auto using same_sym. }
      exists u, v. split; [exact Eu|]. split; [exact Iu|]. split; [rewrite app_assoc; now apply (chainS (l1 ++ m) x' b v)|].
      apply (same_trans u z v); [apply (product_same u1 v1 u2 r u z); auto; [apply I1|apply J1]|].
      apply (same_trans z y v).
      + apply same_sym. apply (assoc_same v1 w b x r y z); auto; [apply J1|apply Jm|apply Jb].
      + apply (product_same x x' b b y v); auto using same_refl; [apply Ix|apply Jx'].
  Qed.

  (** ** the operands of >> inside Circuit.contract: components, or scalars when a contraction leaves no wires *)
  Inductive val := VC (c : comp) | VS (z : R).
  Definition scalar (c : comp) : R := amp c (fun _ => 0).          (* array_ansatz.py:118-123 *)
  Definition scale (z : R) (c : comp) : comp := mkComp (cw c) (mkArray (shape (carr c)) (fun k => rmul (at_ (carr c) k) z)).
  Definition fin (c : comp) : val := if nonempty (cw c) then VC c else VS (scalar c).  (* circuit_components.py:809-816 *)
  (** ** specification of the paths: each step joins a remaining component with the one that follows it *)
  Inductive adjacent_path : list nat -> list (nat * nat) -> Prop :=
  | ap_nil : forall ks, adjacent_path ks []
  | ap_cons : forall x i j y p, adjacent_path (x ++ i :: y) p -> adjacent_path (x ++ i :: j :: y) ((i, j) :: p).
  (** d is an open wire of the block m *)
  Definition open (m : list comp) (d : descr) : Prop := ohas d (if d_out d then last_touch d m else first_touch d m).
  Definition uniform (l : list comp) : Prop :=
    (exists s, s <> Cl /\ forall c, In c l -> one_sided s c)
    \/ (forall c, In c l -> forall d, In d (descs (cw c)) -> In (swap_side d) (descs (cw c))).
  Definition stays_open (l : list comp) : Prop :=
    forall x m y, l = x ++ m ++ y -> m <> [] -> m <> l -> exists d, open m d.
  Definition same_val (x y : val) : Prop :=
    match x, y with VC a, VC b => same a b | VS z, VS w => z = w | _, _ => False end.

  Lemma touches_swap : forall d c, (forall d, In d (descs (cw c)) -> In (swap_side d) (descs (cw c))) -> touches (swap_side d) c = touches d c.
  Proof using.
    intros d c H.
    assert (X : forall e, has (swap_side e) (cw c) = has e (cw c)).
    { intros e. apply eq_true_iff_eq. rewrite !has_true. split; [|apply H]. intros K. apply H in K. now rewrite swap_swap in K. }
    unfold touches. rewrite <- swap_flip, !X. reflexivity.
  Qed.
  Lemma find_ext_in : forall {A} (f g : A -> bool) l, (forall x, In x l -> f x = g x) -> find f l = find g l.
  Proof using. intros A f g l H. induction l as [|x t IH]; simpl; [reflexivity|]. rewrite H by now left. rewrite IH; [reflexivity|]. intros. apply H. now right. Qed.

  Lemma open_swap : forall l, (forall c, In c l -> forall d, In d (descs (cw c)) -> In (swap_side d) (descs (cw c))) ->
    forall d, open l d -> open l (swap_side d).
  Proof using.
    intros l H d. unfold open, last_touch, first_touch. change (d_out (swap_side d)) with (d_out d).
    destruct (d_out d).
    - rewrite (find_ext_in (touches (swap_side d)) (touches d)).
      + destruct (find (touches d) (rev l)) as [c|] eqn:E; [|auto]. cbn. apply H. apply find_some in E. apply in_rev. apply E.
      + intros c Hc. apply touches_swap. apply H. now apply in_rev.
    - rewrite (find_ext_in (touches (swap_side d)) (touches d)).
      + destruct (find (touches d) l) as [c|] eqn:E; [|auto]. cbn. apply H. apply find_some in E. apply E.
      + intros c Hc. apply touches_swap. now apply H.
  Qed.

  Lemma uniform_sub : forall x m y, uniform (x ++ m ++ y) -> uniform m.
  Proof using.
    intros x m y [[s [N H]]|H]; [left; exists s; split; [exact N|]|right]; intros c Hc; apply H; rewrite !in_app_iff; auto.
  Qed.

  (** the blocks of a uniform circuit are contracted directly, without adjoints *)
  Lemma direct_blocks : forall l1 l2 u1 u2 v1 v2, uniform (l1 ++ l2) -> strict (l1 ++ l2) ->
    chain l1 v1 -> chain l2 v2 -> inv l1 u1 -> inv l2 u2 -> same u1 v1 -> same u2 v2 ->
    (exists d, In d (descs (cw u1))) -> (exists d, In d (descs (cw u2))) ->
    rshift_plan (cw u1) (cw u2) = Direct.
  Proof using.
    intros l1 l2 u1 u2 v1 v2 U ST H1 H2 I1 I2 E1 E2 [d1 K1] [d2 K2].
    assert (ORI : forall l u d, inv l u -> In d (descs (cw u)) -> exists c, In c l /\ In d (descs (cw c))).
    { intros l u d [_ [_ O]] H. apply in_map_iff in H. destruct H as [w [<- H]]. destruct (O w H) as [x [Hx [D _]]].
      apply in_concat in Hx. destruct Hx as [ws [Hws Hx]]. apply in_map_iff in Hws. destruct Hws as [c [<- Hc]].
      exists c. split; [exact Hc|]. rewrite <- D. now apply in_map. }
    apply (proj1 (proj2 (proj2 (C08_plan u1 u2)))).
    destruct U as [[s [NS U]]|U].
    - assert (OS : forall l u d, inv l u -> (forall c, In c l -> one_sided s c) -> In d (descs (cw u)) -> d_side d = s).
      { intros l u d I O H. destruct (ORI l u d I H) as [c [Hc Hd]]. now apply (O c). }
      assert (O1 : forall d, In d (descs (cw u1)) -> d_side d = s) by (intros d H; apply (OS l1 u1 d I1); auto; intros; apply U, in_or_app; auto).
      assert (O2 : forall d, In d (descs (cw u2)) -> d_side d = s) by (intros d H; apply (OS l2 u2 d I2); auto; intros; apply U, in_or_app; auto).
      assert (Y1 : has_side s u1) by (exists d1; auto). assert (Y2 : has_side s u2) by (exists d2; auto).
      assert (N1 : forall s', s' <> s -> ~ has_side s' u1) by (intros s' Ns [d [H S]]; apply O1 in H; congruence).
      assert (N2 : forall s', s' <> s -> ~ has_side s' u2) by (intros s' Ns [d [H S]]; apply O2 in H; congruence).
      destruct s; [right; left|left|congruence]; (split; [exact Y1|]; split; [apply N1; discriminate|]; split; [exact Y2|]; apply N2; discriminate).
    - right; right.
      assert (S1 : strict l1) by (apply (strict_sub [] l1 l2); exact ST).
      assert (S2 : strict l2) by (apply (strict_sub l1 l2 []); now rewrite app_nil_r).
      assert (BOTH : forall l u v d, chain l v -> strict l -> inv l u -> same u v ->
          (forall c, In c l -> forall d, In d (descs (cw c)) -> In (swap_side d) (descs (cw c))) ->
          In d (descs (cw u)) -> has_side Ket u /\ has_side Bra u).
      { intros l u v d Hc Hs [[_ [_ [Q _]]] _] [A _] Hl Hd.
        assert (Hd' : In (swap_side d) (descs (cw u))).
        { apply A. apply (chain_wires l v Hc Hs). apply open_swap; [exact Hl|]. apply (chain_wires l v Hc Hs). now apply A. }
        assert (SD : d_side d <> Cl). { apply in_map_iff in Hd. destruct Hd as [w [<- Hw]]. now apply Q. }
        destruct (d_side d) eqn:E; [| |congruence]; split;
          solve [exists d; auto | exists (swap_side d); split; [exact Hd'|]; unfold swap_side, d_side in *; cbn; rewrite E; reflexivity]. }
      destruct (BOTH l1 u1 v1 d1 H1 S1 I1 E1) as [B1 B2]; auto; [intros; eapply U; eauto; apply in_or_app; auto|].
      destruct (BOTH l2 u2 v2 d2 H2 S2 I2 E2) as [B3 B4]; auto. intros; eapply U; eauto; apply in_or_app; auto.
  Qed.

  (** the remaining dictionary: consecutive blocks of the circuit *)
  Inductive parts : list (nat * comp) -> list comp -> Prop :=
  | parts_nil : parts [] []
  | parts_cons : forall k u v B t l, chain B v -> inv B u -> same u v -> parts t l -> parts ((k, u) :: t) (B ++ l).

  Lemma parts_split : forall X d l, parts (X ++ d) l -> exists l1 l2, l = l1 ++ l2 /\ parts X l1 /\ parts d l2.
  Proof using.
    induction X as [|[k u] t IH]; intros d l H; [exists [], l; auto using parts_nil|].
    simpl in H. inversion H; subst. destruct (IH d l0 H7) as [l1 [l2 [-> [P1 P2]]]].
    exists (B ++ l1), l2. rewrite app_assoc. split; [reflexivity|]. split; [|exact P2]. econstructor; eauto.
  Qed.
  Lemma parts_app : forall X d l1 l2, parts X l1 -> parts d l2 -> parts (X ++ d) (l1 ++ l2).
  Proof using. intros X d l1 l2 H. induction H; intros; [exact H|]. simpl. rewrite <- app_assoc. econstructor; eauto. Qed.
  Lemma chain_ne : forall l v, chain l v -> l <> [].
  Proof using. intros l v H. inversion H; [discriminate|]. intros C. apply app_eq_nil in C. destruct C. discriminate. Qed.
  Lemma parts_ne : forall d l, parts d l -> d <> [] -> l <> [].
  Proof using.
    intros d l H N. inversion H; subst; [congruence|]. apply chain_ne in H0. intros C. apply app_eq_nil in C. tauto.
  Qed.

  Context (cj : R -> R) (F2 G : comp -> comp -> wire -> nat).
  (** circuit_components.py:957-1008 and 945-955 (scalar >> component) *)
  Definition vrshift (x y : val) : result val :=
    match x, y with
    | VC a, VC b => bind (RShift.rshift rO radd rmul cj (F a b) (F2 a b) (G a b) a b) (fun r => Ok (fin r))
    | VC a, VS z => Ok (VC (scale z a))
    | VS z, VC b => Ok (VS (scalar (scale z b)))
    | VS _, VS _ => Err TypeError
    end.

  Notation tovals d := (map (fun p => (fst p, VC (snd p))) d).
  Lemma step_spec : forall (X Y : list (nat * val)) i j x y, NoDup (map fst (X ++ (i, x) :: (j, y) :: Y)) ->
    step vrshift (X ++ (i, x) :: (j, y) :: Y) (i, j) = bind (vrshift x y) (fun z => Ok (X ++ (i, z) :: Y)).
  Proof using.
    intros X Y i j x y ND.
    assert (NX : ~ In i (map fst X) /\ ~ In j (map fst X) /\ i <> j).
    { rewrite map_app in ND. simpl in ND. split; [|split]; intros C.
      - apply (Base.NoDup_app_disj _ _ i ND); [exact C|now left].
      - apply (Base.NoDup_app_disj _ _ j ND); [exact C|right; now left].
      - apply NoDup_app_r in ND. inversion ND; subst. apply H1. now left. }
    destruct NX as [Ni [Nj Nij]].
    assert (G1 : forall k (D : list (nat * val)) , ~ In k (map fst X) -> get k (X ++ D) = get k D).
    { clear. intros k D. induction X as [|[a b] t IH]; intros H; [reflexivity|]. simpl in *. destruct (Nat.eqb_spec a k); [tauto|]. apply IH. tauto. }
    assert (D1 : forall (D : list (nat * val)), del j (X ++ D) = X ++ del j D).
    { clear - Nj. intros D. induction X as [|[a b] t IH]; [reflexivity|]. simpl in *. destruct (Nat.eqb_spec a j); [tauto|]. rewrite IH; tauto. }
    assert (P1 : forall z (D : list (nat * val)), put i z (X ++ D) = X ++ put i z D).
    { clear - Ni. intros z D. induction X as [|[a b] t IH]; [reflexivity|]. simpl in *. destruct (Nat.eqb_spec a i); [tauto|]. rewrite IH; tauto. }
    unfold step. cbn [fst snd]. rewrite !G1 by assumption. simpl. rewrite Nat.eqb_refl. destruct (Nat.eqb_spec i j); [tauto|].
    rewrite Nat.eqb_refl. cbn [bind]. destruct (vrshift x y) as [z|e]; [|reflexivity]. cbn [bind]. rewrite D1. simpl.
    destruct (Nat.eqb_spec i j); [tauto|]. rewrite Nat.eqb_refl, P1. simpl. rewrite Nat.eqb_refl. reflexivity.
  Qed.

  Lemma run_spec : forall path d l, circuit_ok l -> strict l -> uniform l -> stays_open l ->
    parts d l -> NoDup (map fst d) -> adjacent_path (map fst d) path -> S (length path) = length d ->
    exists k u v r, run vrshift (tovals d) path = Ok [(k, r)] /\ chain l v /\ same u v
      /\ r = (match path with [] => VC u | _ => fin u end).
  Proof using Rth HF.
    induction path as [|[i j] p IH]; intros d l CO ST UN SO P ND AP LEN.
    - destruct d as [|[k u] [|? ?]]; try discriminate. inversion P; subst. inversion H6; subst. rewrite app_nil_r.
      exists k, u, v, (VC u). split; [reflexivity|]. auto.
    - inversion AP as [|x i' j' y p' AP' E1 E2]; subst.
      assert (SPL : exists X Y a b, d = X ++ (i, a) :: (j, b) :: Y /\ map fst X = x /\ map fst Y = y).
      { clear - E1. revert d E1. induction x as [|k t IHx]; intros d E.
        - destruct d as [|[k1 a] [|[k2 b] Y]]; try discriminate. simpl in E. injection E as Q1 Q2 Q3; subst. exists [], Y, a, b. auto.
        - destruct d as [|[k1 a] d]; [discriminate|]. simpl in E. injection E as Q1 E; subst. destruct (IHx d E) as [X [Y [a' [b' [-> [<- <-]]]]]].
          exists ((k1, a) :: X), Y, a', b'. auto. }
      destruct SPL as [X [Y [a [b [-> [EX EY]]]]]].
      destruct (parts_split X _ l P) as [l1 [l' [-> [PX P']]]].
      inversion P' as [|k1 u1 v1 B1 t1 lr C1 I1 S1 P'' Q1 Q2]; subst. inversion P'' as [|k2 u2 v2 B2 t2 ly C2 I2 S2 PY Q1 Q2]; subst.
      assert (CB : circuit_ok (B1 ++ B2)).
      { apply (circuit_ok_sub l1 (B1 ++ B2) ly). rewrite <- !app_assoc. exact CO. }
      assert (SB : strict (B1 ++ B2)).
      { apply (strict_sub l1 (B1 ++ B2) ly). rewrite <- !app_assoc. exact ST. }
      assert (UB : uniform (B1 ++ B2)).
      { apply (uniform_sub l1 (B1 ++ B2) ly). rewrite <- !app_assoc. exact UN. }
      assert (NB1 : B1 <> []) by (eapply chain_ne; eauto). assert (NB2 : B2 <> []) by (eapply chain_ne; eauto).
      assert (LENNE : forall u w : list comp, w <> [] -> u <> u ++ w /\ u <> w ++ u).
      { clear. intros u w N. assert (0 < length w) by (destruct w; [congruence|simpl; lia]).
        split; intros C; apply (f_equal (@length _)) in C; rewrite app_length in C; lia. }
      assert (OP : forall m c x' y', l1 ++ B1 ++ B2 ++ ly = x' ++ m ++ y' -> m <> [] -> (x' <> [] \/ y' <> []) -> strict m ->
                 forall v, chain m v -> same c v -> exists d, In d (descs (cw c))).
      { intros m c x' y' E N NE Sm v Hv Sv. destruct (SO x' m y' E N) as [d Hd].
        - rewrite E. intros C. apply (f_equal (@length _)) in C. rewrite !app_length in C.
          destruct NE as [NE|NE]; [destruct x'|destruct y']; simpl in C; try congruence; lia.
        - exists d. apply Sv. apply (chain_wires m v Hv Sm). exact Hd. }
      destruct (blocks B2 v2 C2 B1 v1 C1 CB SB a b I1 I2 S1 S2) as [u [v [Eu [Iu [Hv Suv]]]]].
      assert (DP : rshift_plan (cw a) (cw b) = Direct).
      { apply (direct_blocks B1 B2 a b v1 v2); auto.
        - apply (OP B1 a l1 (B2 ++ ly)) with (v := v1); auto.
          + right. intros C. apply app_eq_nil in C. tauto.
          + apply (strict_sub [] B1 B2). exact SB.
        - apply (OP B2 b (l1 ++ B1) ly) with (v := v2); auto.
          + now rewrite <- !app_assoc.
          + left. intros C. apply app_eq_nil in C. tauto.
          + apply (strict_sub B1 B2 []). now rewrite app_nil_r. }
      assert (RS : vrshift (VC a) (VC b) = Ok (fin u)).
      { unfold vrshift, RShift.rshift. rewrite DP, Eu. reflexivity. }
      cbn [run]. rewrite map_app. cbn [map fst snd]. rewrite step_spec.
      2:{ rewrite map_app in ND |- *. cbn [map fst] in *. rewrite !map_map. cbn [fst]. exact ND. }
      rewrite RS. cbn [bind].
      rewrite !app_length in LEN. cbn [length] in LEN.
      destruct p as [|q p].
      + cbn [length] in LEN. assert (X = [] /\ Y = []) as [-> ->] by (destruct X, Y; simpl in LEN; split; try reflexivity; lia).
        inversion PX; subst. inversion PY; subst. cbn [map app run]. rewrite app_nil_r.
        exists i, u, v, (fin u). auto.
      + assert (NE : l1 <> [] \/ ly <> []).
        { cbn [length] in LEN. destruct X as [|x0 X0].
          - right. apply (parts_ne Y ly PY). destruct Y; [simpl in LEN; lia|discriminate].
          - left. apply (parts_ne _ l1 PX). discriminate. }
        assert (FU : fin u = VC u).
        { unfold fin. destruct (OP (B1 ++ B2) u l1 ly) with (v := v) as [d0 Hd0]; auto.
          - now rewrite <- !app_assoc.
          - intros C. apply app_eq_nil in C. tauto.
          - destruct (cw u); [destruct Hd0|reflexivity]. }
        rewrite FU. destruct (IH (X ++ (i, u) :: Y) (l1 ++ (B1 ++ B2) ++ ly)) as [k [u' [v' [r [Er [Hv' [S' Q]]]]]]]; auto.
        * now rewrite <- !app_assoc.
        * now rewrite <- !app_assoc.
        * now rewrite <- !app_assoc.
        * now rewrite <- !app_assoc.
        * apply parts_app; [exact PX|]. econstructor; eauto.
        * rewrite !map_app in ND |- *. cbn [map fst] in *. clear - ND.
          change (i :: j :: map fst Y) with ([i] ++ j :: map fst Y) in ND. change (i :: map fst Y) with ([i] ++ map fst Y). rewrite app_assoc in ND |- *.
          apply NoDup_remove_1 in ND. exact ND.
        * rewrite map_app. exact AP'.
        * rewrite app_length. cbn [length] in *. lia.
        * rewrite map_app in Er. cbn [map fst snd] in Er. exists k, u', v', r. split; [exact Er|].
          split; [rewrite <- !app_assoc in Hv'; exact Hv'|]. split; [exact S'|]. exact Q.
  Qed.

  Lemma default_adjacent : forall n, adjacent_path (seq 0 n) (default_path n).
  Proof using.
    intros [|n]; [apply ap_nil|]. unfold default_path. simpl. rewrite Nat.sub_0_r. generalize 1.
    induction n as [|n IH]; intros k; [apply ap_nil|]. simpl. apply (ap_cons [] 0 k (seq (S k) n)). apply IH.
  Qed.

  Lemma leaf_parts : forall l n, (forall c, In c l -> inv [c] c) -> parts (combine (seq n (length l)) l) l.
  Proof using.
    induction l as [|c t IH]; intros n H; [constructor|]. simpl. change (c :: t) with ([c] ++ t).
    apply (parts_cons n c c [c]); auto using same_refl, chain1; [apply H; now left|]. apply IH. intros. apply H. now right.
  Qed.
  Lemma combine_keys : forall {X} (l : list X) n, map fst (combine (seq n (length l)) l) = seq n (length l).
  Proof using. intros X. induction l as [|c t IH]; intros n; [reflexivity|]. simpl. now rewrite IH. Qed.
  Lemma chain_det : forall l v, chain l v -> forall w, chain l w -> v = w.
  Proof using.
    assert (LEN : forall l v, chain l v -> 0 < length l) by (intros l v H; apply chain_ne in H; destruct l; [congruence|simpl; lia]).
    intros l v H. induction H as [a|l v b r H IH E P]; intros w K; inversion K as [a' Ea Eb|l' v' b' r' H' E' P' El Er]; subst.
    - reflexivity.
    - exfalso. apply (f_equal (@length _)) in El. rewrite app_length in El. simpl in El. apply LEN in H'. lia.
    - exfalso. match goal with X : [_] = _ ++ _ |- _ => rename X into El end.
      apply (f_equal (@length _)) in El. rewrite app_length in El. simpl in El. apply LEN in H. lia.
    - apply app_inj_tail in El. destruct El as [-> ->]. rewrite (IH _ H') in E. congruence.
  Qed.

  (** C09: contracting along any path that always joins neighbours gives the same component (or scalar) as the
      default left-to-right path. *)
  Theorem C09_any_adjacent_path : forall l path,
    circuit_ok l -> strict l -> uniform l -> stays_open l -> l <> [] ->
    adjacent_path (seq 0 (length l)) path -> S (length path) = length l ->
    exists r r0, circuit_contract vrshift (map VC l) path = Ok r
      /\ circuit_contract vrshift (map VC l) (default_path (length l)) = Ok r0
      /\ same_val r r0.
  Proof using Rth HF.
    intros l path CO ST UN SO NE AP LEN.
    assert (RUN : forall q, adjacent_path (seq 0 (length l)) q -> S (length q) = length l ->
      exists u v, circuit_contract vrshift (map VC l) q = Ok (match q with [] => VC u | _ => fin u end) /\ chain l v /\ same u v).
    { intros q AQ LQ. destruct (run_spec q (combine (seq 0 (length l)) l) l CO ST UN SO) as [k [u [v [r [E [Hv [S Q]]]]]]].
      - apply leaf_parts. intros c Hc. now apply (inv_leaf l).
      - rewrite combine_keys. apply seq_NoDup.
      - now rewrite combine_keys.
      - rewrite combine_length, seq_length. lia.
      - exists u, v. split; [|auto]. unfold circuit_contract. rewrite map_length.
        replace (Z.of_nat (length q) =? Z.of_nat (length l) - 1)%Z with true by (symmetry; apply Z.eqb_eq; lia). cbn [negb].
        replace (combine (seq 0 (length l)) (map VC l)) with (map (fun p => (fst p, VC (snd p))) (combine (seq 0 (length l)) l)).
        + rewrite E. cbn [bind]. now rewrite Q.
        + generalize 0. clear. induction l as [|c t IH]; intros n; [reflexivity|]. simpl. now rewrite IH. }
    destruct (RUN path AP LEN) as [u [v [E [Hv S]]]].
    destruct (RUN (default_path (length l))) as [u0 [v0 [E0 [Hv0 S0]]]].
    { apply default_adjacent. }
    { unfold default_path. rewrite map_length, seq_length. lia. }
    rewrite <- (chain_det l v Hv v0 Hv0) in S0.
    assert (SU : same u u0) by (apply (same_trans u v u0); auto using same_sym).
    eexists. eexists. split; [exact E|]. split; [exact E0|].
    assert (FIN : same_val (fin u) (fin u0)).
    { unfold fin. pose proof SU as [A [_ M]].
      destruct (cw u) as [|w t] eqn:X, (cw u0) as [|w0 t0] eqn:Y; simpl in A |- *.
      - unfold scalar. apply M.
      - exfalso. apply (proj2 (A (desc w0))). now left.
      - exfalso. apply (proj1 (A (desc w))). now left.
      - exact SU. }
    destruct path as [|p q]; cbn [length] in LEN; destruct (default_path (length l)) as [|p0 q0] eqn:D; auto.
    - exfalso. apply (f_equal (@length _)) in D. unfold default_path in D. rewrite map_length, seq_length in D. simpl in D. lia.
    - exfalso. apply (f_equal (@length _)) in D. unfold default_path in D. rewrite map_length, seq_length in D. simpl in D. lia.
  Qed.

  (** paths of the wrong length are refused (in particular every path of an empty circuit) *)
  Theorem C09_wrong_length : forall l path, S (length path) <> length l ->
    circuit_contract vrshift (map VC l) path = Err ValueError.
  Proof using.
    intros l path H. unfold circuit_contract. rewrite map_length.
    replace (Z.of_nat (length path) =? Z.of_nat (length l) - 1)%Z with false; [reflexivity|].
    symmetry. apply Z.eqb_neq. lia.
  Qed.
End Circuit.
