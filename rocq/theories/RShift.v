(** Claim C08: the >> operator. Model of mrmustard/lab/circuit_components.py:957-1008
    (components without a __custom_rrshift__ method; scalars and batch axes are not modelled). *)
From Coq Require Import ZArith List Bool Lia Permutation Sorted Arith Ring_theory Ring.
Require Import Verif.Base Verif.Wires Verif.WiresSpec Verif.WiresLemmas Verif.WiresMatmul Verif.WiresLabels
  Verif.WiresProps Verif.WiresAdj Verif.Tensor Verif.Contract Verif.ContractAssoc Verif.CompAdj.
Import ListNotations.

(** circuit_components.py:983-995 *)
Definition nonempty (ws : wires) : bool := match ws with [] => false | _ => true end.
Inductive plan := Direct | SelfTwice | OtherTwice | Refuse.
Definition rshift_plan (a b : wires) : plan :=
  let s_k := nonempty (ket a) in let s_b := nonempty (bra a) in
  let o_k := nonempty (ket b) in let o_b := nonempty (bra b) in
  let only_ket := (negb s_b && s_k) && (negb o_b && o_k) in
  let only_bra := (negb s_k && s_b) && (negb o_k && o_b) in
  let both_sides := s_b && s_k && o_b && o_k in
  let self_needs_bra := (negb s_b && s_k) && (o_b && o_k) in
  let self_needs_ket := (negb s_k && s_b) && (o_b && o_k) in
  let other_needs_bra := (s_b && s_k) && (negb o_b && o_k) in
  let other_needs_ket := (s_b && s_k) && (negb o_k && o_b) in
  if only_ket || only_bra || both_sides then Direct
  else if self_needs_bra || self_needs_ket then SelfTwice
  else if other_needs_bra || other_needs_ket then OtherTwice
  else Refuse.

Section RShift.
  Context {R : Type} (rO rI : R) (radd rmul rsub : R -> R -> R) (ropp : R -> R).
  Hypothesis Rth : ring_theory rO rI radd rmul rsub ropp eq.
  Context (cj : R -> R).
  Notation comp := (@comp R).
  Notation contract := (Contract.contract rO radd rmul).
  Notation product := (ContractAssoc.product rO radd rmul).
  Notation adj := (CompAdj.comp_adjoint cj).

  (** circuit_components.py:997-1004; f1, f2 give fresh ids to the wires copied by the two contractions, g to
      those of the adjoint *)
  Definition rshift (f1 f2 g : wire -> nat) (a b : comp) : result comp :=
    match rshift_plan (cw a) (cw b) with
    | Direct => contract f1 a b
    | SelfTwice => bind (contract f1 a b) (fun ab => contract f2 (adj g a) ab)
    | OtherTwice => bind (contract f1 a (adj g b)) (fun ab => contract f2 ab b)
    | Refuse => Err ValueError
    end.

  (** ** specification *)
  Definition has_side (s : side) (c : comp) : Prop := exists d, In d (descs (cw c)) /\ d_side d = s.
  Definition one_sided (s : side) (c : comp) : Prop := forall d, In d (descs (cw c)) -> d_side d = s.
  Definition two_sided (c : comp) : Prop := has_side Bra c /\ has_side Ket c.

  Lemma nonempty_side : forall (c : comp) s, s <> Cl ->
    nonempty (filter (fun w => side_eqb (wside w) s) (cw c)) = true <-> has_side s c.
  Proof using.
    intros c s _. split.
    - destruct (filter _ (cw c)) as [|w t] eqn:E; [discriminate|]. intros _.
      assert (H : In w (filter (fun w => side_eqb (wside w) s) (cw c))) by (rewrite E; now left).
      apply filter_In in H. destruct H as [H S]. apply side_eqb_eq in S. exists (desc w). split; [now apply in_map|exact S].
    - intros [d [H S]]. apply in_map_iff in H. destruct H as [w [<- H]].
      destruct (filter _ (cw c)) as [|x t] eqn:E; [|reflexivity].
      assert (C : In w (filter (fun w => side_eqb (wside w) s) (cw c))) by (apply filter_In; split; [exact H|now apply side_eqb_eq]).
      rewrite E in C. destruct C.
  Qed.
  Lemma ket_b : forall c : comp, nonempty (ket (cw c)) = true <-> has_side Ket c.
  Proof using. intros. apply (nonempty_side c Ket). discriminate. Qed.
  Lemma bra_b : forall c : comp, nonempty (bra (cw c)) = true <-> has_side Bra c.
  Proof using. intros. apply (nonempty_side c Bra). discriminate. Qed.

  (** the decision: when adjoints are added and when >> refuses *)
  Theorem C08_plan : forall a b : comp,
    let K c := has_side Ket c in let B c := has_side Bra c in
    (rshift_plan (cw a) (cw b) = SelfTwice <-> ((K a /\ ~ B a) \/ (B a /\ ~ K a)) /\ K b /\ B b)
    /\ (rshift_plan (cw a) (cw b) = OtherTwice <-> ((K b /\ ~ B b) \/ (B b /\ ~ K b)) /\ K a /\ B a)
    /\ (rshift_plan (cw a) (cw b) = Direct <->
          (K a /\ ~ B a /\ K b /\ ~ B b) \/ (B a /\ ~ K a /\ B b /\ ~ K b) \/ (K a /\ B a /\ K b /\ B b))
    /\ (rshift_plan (cw a) (cw b) = Refuse <->
          (~ K a /\ ~ B a) \/ (~ K b /\ ~ B b) \/ (K a /\ ~ B a /\ B b /\ ~ K b) \/ (B a /\ ~ K a /\ K b /\ ~ B b)).
  Proof using.
    intros a b K B. unfold K, B. clear - a b. rewrite <- !ket_b, <- !bra_b. unfold rshift_plan.
    destruct (nonempty (ket (cw a))), (nonempty (bra (cw a))), (nonempty (ket (cw b))), (nonempty (bra (cw b)));
      simpl; repeat split; intros; try discriminate; intuition discriminate.
  Qed.

  Theorem C08_refuses : forall f1 f2 g (a b : comp),
    rshift_plan (cw a) (cw b) = Refuse -> rshift f1 f2 g a b = Err ValueError.
  Proof using. intros. unfold rshift. now rewrite H. Qed.

  Lemma adj_descs : forall g (c : comp) d, In d (descs (cw (adj g c))) <-> In (swap_side d) (descs (cw c)).
  Proof using.
    intros g c d. cbn [cw comp_adjoint]. pose proof (adjoint_perm g (cw c)) as P. split; intros H.
    - apply (Permutation_in _ P) in H. apply in_map_iff in H. destruct H as [e [<- H]]. now rewrite swap_swap.
    - apply (Permutation_in _ (Permutation_sym P)). rewrite <- (swap_swap d). now apply in_map.
  Qed.
  Lemma swap_out : forall d, d_out (swap_side d) = d_out d. Proof using. reflexivity. Qed.

  (** wires of a together with those of its adjoint *)
  Definition both (a : comp) (d : descr) : Prop := In d (descs (cw a)) \/ In (swap_side d) (descs (cw a)).

  Definition opposite (s : side) : side := match s with Bra => Ket | Ket => Bra | Cl => Cl end.
  Lemma swap_d_side : forall d, d_side (swap_side d) = opposite (d_side d). Proof using. reflexivity. Qed.
  Lemma one_sided_not_both : forall s (a : comp) d, s <> Cl -> one_sided s a -> In d (descs (cw a)) -> ~ In (swap_side d) (descs (cw a)).
  Proof using.
    intros s a d NC O H C. apply O in H. apply O in C. rewrite swap_d_side, H in C. destruct s; discriminate || congruence.
  Qed.

  (** a one-sided, b two-sided: a >> b is (a together with its adjoint) contracted with b *)
  Theorem C08_self_twice : forall f1 f2 g s (a b : comp),
    wf a -> wf b -> s <> Cl -> one_sided s a -> two_sided b -> a.(cw) <> [] ->
    reprs_agree (cw a ++ cw b ++ cw (adj g a)) ->
    window (cw a ++ cw b ++ cw (adj g a)) ->
    distinct_ids (cw a) (with_ids f1 (cw b)) ->
    (forall r, matmul_wires (cw a) (cw b) = Ok r -> distinct_ids (cw (adj g a)) (with_ids f2 r)) ->
    let coll d := (if d_out d then In d (descs (cw b)) /\ both a d /\ ~ In (flip d) (descs (cw b))
                   else both a d /\ In d (descs (cw b)) /\ ~ both a (flip d)) in
    (exists r, rshift f1 f2 g a b = Ok r /\ wf r /\ (forall d, ~ coll d)
       (* wires: as for an object carrying the wires of a and of its adjoint *)
       /\ (forall d, In d (descs (cw r)) <->
            if d_out d then In d (descs (cw b)) \/ (both a d /\ ~ In (flip d) (descs (cw b)))
            else both a d \/ (In d (descs (cw b)) /\ ~ both a (flip d)))
       (* value: every component dd that is a (x) a-adjoint and every product of dd with b has the same amplitudes *)
       /\ (forall al dd r', product (adj g a) a dd -> product dd b r' -> amp r al = amp r' al))
    \/ (rshift f1 f2 g a b = Err ValueError /\ exists d, coll d).
  Proof using Rth.
    intros f1 f2 g s a b Wa Wb NC OS TS NE RA WW DI1 DI2 coll.
    assert (PL : rshift_plan (cw a) (cw b) = SelfTwice).
    { apply (proj1 (C08_plan a b)). split; [|split; apply TS].
      assert (HS : has_side s a).
      { destruct (cw a) as [|w t] eqn:E; [congruence|]. exists (desc w). split; [rewrite E; now left|]. apply OS. rewrite E. now left. }
      assert (NO : forall s', s' <> s -> ~ has_side s' a) by (intros s' N [d [H S]]; apply OS in H; congruence).
      destruct s; [right|left|congruence]; (split; [exact HS|]); apply NO; discriminate. }
    unfold rshift. rewrite PL.
    assert (Wadj : wf (adj g a)) by now apply wf_adjoint.
    assert (SR1 : same_repr (cw a) (cw b)).
    { intros x y Hx Hy D. apply RA; auto; rewrite !in_app_iff; tauto. }
    assert (W1 : window (cw a ++ cw b)).
    { intros x y Hx Hy. apply WW; rewrite !in_app_iff in *; tauto. }
    assert (COL1 : forall d, collision (cw a) (cw b) d -> coll d).
    { intros d. unfold collision, coll, both. destruct (d_out d) eqn:O; [tauto|]. intros [H1 [H2 H3]]. split; [tauto|]. split; [tauto|].
      intros [C|C]; [tauto|]. rewrite swap_flip in C. pose proof (OS _ H1) as S1. pose proof (OS _ C) as S2.
      unfold flip, swap_side, d_side in S1, S2. simpl in S2. rewrite S1 in S2. destruct s; discriminate || congruence. }
    destruct (C07_contract rO rI radd rmul rsub ropp Rth f1 a b Wa Wb SR1 DI1 W1) as [[ab [E1 [P1 _]]]|[E1 [d C]]].
    2:{ right. rewrite E1. split; [reflexivity|]. exists d. now apply COL1. }
    rewrite E1. cbn [bind].
    pose proof P1 as [Wab [N1 [S1 _]]].
    assert (EW : matmul_wires (cw a) (cw b) = Ok (cw ab)).
    { unfold Contract.contract in E1. destruct (matmul (cw a) (cw b)) as [[r0 p0]|] eqn:EM; [|discriminate]. cbn [bind] in E1.
      destruct (contracted_labels f1 (cw a) (cw b)) as [[[l1 l2] lo]|]; [|discriminate]. cbn [bind] in E1.
      destruct (array_contract rO radd rmul (carr a) (carr b) l1 l2 lo); [|discriminate]. cbn [bind fst] in E1. injection E1 as <-.
      unfold matmul in EM. destruct (matmul_wires (cw a) (cw b)); [|discriminate]. cbn [bind] in EM.
      destruct (mapM _ _); [|discriminate]. cbn [bind] in EM. injection EM as <- _. reflexivity. }
    assert (Dab : distinct (cw ab)) by apply Wab.
    assert (SR2 : same_repr (cw (adj g a)) (cw ab)).
    { intros x y Hx Hy D. destruct (matmul_repr _ _ _ (proj1 Wa) (proj1 Wb) EW y Hy) as [v [Hv [Dv Rv]]].
      rewrite <- Rv. apply RA; [| |congruence]; rewrite !in_app_iff in *; tauto. }
    assert (W2 : window (cw (adj g a) ++ cw ab)).
    { eapply window_perm_descs; [|exact WW]. intros d. unfold descs. rewrite !map_app, !in_app_iff. intros [H|H]; [tauto|].
      apply S1 in H. apply survives_sub in H. unfold descs in H. rewrite map_app, in_app_iff in H. tauto. }
    assert (NB : forall d, In d (descs (cw a)) -> ~ In (swap_side d) (descs (cw a))) by (intros d; now apply (one_sided_not_both s)).
    assert (SF : forall d, swap_side (flip d) = flip (swap_side d)) by apply swap_flip.
    assert (FS : forall d, In d (descs (cw a)) -> In (swap_side (flip d)) (descs (cw a)) -> False).
    { intros d H C. rewrite SF in C. apply OS in H. apply OS in C. unfold flip, swap_side, d_side in *. simpl in C. rewrite H in C. destruct s; discriminate || congruence. }
    assert (FS' : forall d, In (swap_side d) (descs (cw a)) -> In (flip d) (descs (cw a)) -> False).
    { intros d H C. apply (FS (flip d) C). now rewrite flip_flip. }
    assert (ABo : forall d, d_out d = true -> (In d (descs (cw ab)) <->
        In d (descs (cw b)) \/ (In d (descs (cw a)) /\ ~ In (flip d) (descs (cw b))))).
    { intros d O. rewrite S1. unfold survives. rewrite O. reflexivity. }
    assert (ABi : forall d, d_out d = false -> (In d (descs (cw ab)) <->
        In d (descs (cw a)) \/ (In d (descs (cw b)) /\ ~ In (flip d) (descs (cw a))))).
    { intros d O. rewrite S1. unfold survives. rewrite O. reflexivity. }
    assert (ADJ : forall d, In d (descs (cw (adj g a))) <-> In (swap_side d) (descs (cw a))) by (intros; apply adj_descs).
    destruct (C07_contract rO rI radd rmul rsub ropp Rth f2 (adj g a) ab Wadj Wab SR2 (DI2 _ EW) W2) as [[r [E2 [P2 _]]]|[E2 [d C]]].
    - left. exists r. split; [exact E2|]. pose proof P2 as [Wr [N2 [S2 _]]]. split; [exact Wr|]. split; [|split].
      + intros d. pose proof (N1 d) as M1. pose proof (N2 d) as M2. unfold collision in M1, M2. unfold coll, both.
        pose proof (ABo d) as Ao. pose proof (ABi d) as Ai. pose proof (ABo (flip d)) as Fo. pose proof (ABi (flip d)) as Fi.
        pose proof (ADJ d) as Ad. pose proof (ADJ (flip d)) as Af. rewrite d_out_flip, flip_flip in Fo, Fi.
        specialize (NB d). specialize (FS d). specialize (FS' d). clear - M1 M2 Ao Ai Fo Fi Ad Af NB FS FS'.
        destruct (d_out d); cbn [negb] in *; [clear Ai Fo|clear Ao Fi];
          repeat match goal with H : ?x = ?x -> _ |- _ => specialize (H eq_refl) end; tauto.
      + intros d. rewrite S2. unfold survives, both.
        pose proof (ABo d) as Ao. pose proof (ABi d) as Ai. pose proof (ABo (flip d)) as Fo. pose proof (ABi (flip d)) as Fi.
        pose proof (ADJ d) as Ad. pose proof (ADJ (flip d)) as Af. rewrite d_out_flip, flip_flip in Fo, Fi.
        specialize (NB d). specialize (FS d). specialize (FS' d). clear - Ao Ai Fo Fi Ad Af NB FS FS'.
        destruct (d_out d); cbn [negb] in *; [clear Ai Fo|clear Ao Fi];
          repeat match goal with H : ?x = ?x -> _ |- _ => specialize (H eq_refl) end; tauto.
      + intros al dd r' PD PR. symmetry. apply (product_assoc rO rI radd rmul rsub ropp Rth (adj g a) a b dd ab r' r); auto.
    - right. rewrite E2. split; [reflexivity|]. exists d. unfold collision in C. unfold coll, both.
      pose proof (ABo d) as Ao. pose proof (ABi d) as Ai. pose proof (ABo (flip d)) as Fo. pose proof (ABi (flip d)) as Fi.
      pose proof (ADJ d) as Ad. pose proof (ADJ (flip d)) as Af. rewrite d_out_flip, flip_flip in Fo, Fi.
      specialize (NB d). specialize (FS d). specialize (FS' d). clear - C Ao Ai Fo Fi Ad Af NB FS FS'.
      destruct (d_out d); cbn [negb] in *; [clear Ai Fo|clear Ao Fi];
        repeat match goal with H : ?x = ?x -> _ |- _ => specialize (H eq_refl) end; tauto.
  Qed.

  (** b one-sided, a two-sided: a >> b is a contracted with (the adjoint of b together with b) *)
  Theorem C08_other_twice : forall f1 f2 g s (a b : comp),
    wf a -> wf b -> s <> Cl -> one_sided s b -> two_sided a -> b.(cw) <> [] ->
    reprs_agree (cw a ++ cw b ++ cw (adj g b)) ->
    window (cw a ++ cw b ++ cw (adj g b)) ->
    distinct_ids (cw a) (with_ids f1 (cw (adj g b))) ->
    (forall r, matmul_wires (cw a) (cw (adj g b)) = Ok r -> distinct_ids r (with_ids f2 (cw b))) ->
    let coll d := (if d_out d then both b d /\ In d (descs (cw a)) /\ ~ both b (flip d)
                   else In d (descs (cw a)) /\ both b d /\ ~ In (flip d) (descs (cw a))) in
    (exists r, rshift f1 f2 g a b = Ok r /\ wf r /\ (forall d, ~ coll d)
       /\ (forall d, In d (descs (cw r)) <->
            if d_out d then both b d \/ (In d (descs (cw a)) /\ ~ both b (flip d))
            else In d (descs (cw a)) \/ (both b d /\ ~ In (flip d) (descs (cw a))))
       /\ (forall al dd r', product (adj g b) b dd -> product a dd r' -> amp r al = amp r' al))
    \/ (rshift f1 f2 g a b = Err ValueError /\ exists d, coll d).
  Proof using Rth.
    intros f1 f2 g s a b Wa Wb NC OS TS NE RA WW DI1 DI2 coll.
    assert (PL : rshift_plan (cw a) (cw b) = OtherTwice).
    { apply (proj1 (proj2 (C08_plan a b))). split; [|split; apply TS].
      assert (HS : has_side s b).
      { destruct (cw b) as [|w t] eqn:E; [congruence|]. exists (desc w). split; [rewrite E; now left|]. apply OS. rewrite E. now left. }
      assert (NO : forall s', s' <> s -> ~ has_side s' b) by (intros s' N [d [H S]]; apply OS in H; congruence).
      destruct s; [right|left|congruence]; (split; [exact HS|]); apply NO; discriminate. }
    unfold rshift. rewrite PL.
    assert (Wadj : wf (adj g b)) by now apply wf_adjoint.
    assert (SR1 : same_repr (cw a) (cw (adj g b))).
    { intros x y Hx Hy D. apply RA; auto; rewrite !in_app_iff; tauto. }
    assert (W1 : window (cw a ++ cw (adj g b))).
    { intros x y Hx Hy. apply WW; rewrite !in_app_iff in *; tauto. }
    assert (ADJ : forall d, In d (descs (cw (adj g b))) <-> In (swap_side d) (descs (cw b))) by (intros; apply adj_descs).
    assert (NB : forall d, In d (descs (cw b)) -> ~ In (swap_side d) (descs (cw b))) by (intros d; now apply (one_sided_not_both s)).
    assert (SF : forall d, swap_side (flip d) = flip (swap_side d)) by apply swap_flip.
    assert (FS : forall d, In d (descs (cw b)) -> In (swap_side (flip d)) (descs (cw b)) -> False).
    { intros d H C. rewrite SF in C. apply OS in H. apply OS in C. unfold flip, swap_side, d_side in *. simpl in C. rewrite H in C. destruct s; discriminate || congruence. }
    assert (FS' : forall d, In (swap_side d) (descs (cw b)) -> In (flip d) (descs (cw b)) -> False).
    { intros d H C. apply (FS (flip d) C). now rewrite flip_flip. }
    destruct (C07_contract rO rI radd rmul rsub ropp Rth f1 a (adj g b) Wa Wadj SR1 DI1 W1) as [[ab [E1 [P1 _]]]|[E1 [d C]]].
    2:{ right. rewrite E1. split; [reflexivity|]. exists d. unfold collision in C. unfold coll, both.
        pose proof (ADJ d) as Ad. pose proof (ADJ (flip d)) as Af.
        specialize (NB d). specialize (FS d). specialize (FS' d). clear - C Ad Af NB FS FS'.
        destruct (d_out d); tauto. }
    rewrite E1. cbn [bind].
    pose proof P1 as [Wab [N1 [S1 _]]].
    assert (EW : matmul_wires (cw a) (cw (adj g b)) = Ok (cw ab)).
    { unfold Contract.contract in E1. destruct (matmul (cw a) (cw (adj g b))) as [[r0 p0]|] eqn:EM; [|discriminate]. cbn [bind] in E1.
      destruct (contracted_labels f1 (cw a) (cw (adj g b))) as [[[l1 l2] lo]|]; [|discriminate]. cbn [bind] in E1.
      destruct (array_contract rO radd rmul (carr a) (carr (adj g b)) l1 l2 lo); [|discriminate]. cbn [bind fst] in E1. injection E1 as <-.
      unfold matmul in EM. destruct (matmul_wires (cw a) (cw (adj g b))); [|discriminate]. cbn [bind] in EM.
      destruct (mapM _ _); [|discriminate]. cbn [bind] in EM. injection EM as <- _. reflexivity. }
    assert (SR2 : same_repr (cw ab) (cw b)).
    { intros x y Hx Hy D. destruct (matmul_repr _ _ _ (proj1 Wa) (proj1 Wadj) EW x Hx) as [v [Hv [Dv Rv]]].
      rewrite <- Rv. apply RA; [| |congruence]; rewrite !in_app_iff in *; tauto. }
    assert (W2 : window (cw ab ++ cw b)).
    { eapply window_perm_descs; [|exact WW]. intros d. unfold descs. rewrite !map_app, !in_app_iff. intros [H|H]; [|tauto].
      apply S1 in H. apply survives_sub in H. unfold descs in H. rewrite map_app, in_app_iff in H. tauto. }
    assert (ABo : forall d, d_out d = true -> (In d (descs (cw ab)) <->
        In d (descs (cw (adj g b))) \/ (In d (descs (cw a)) /\ ~ In (flip d) (descs (cw (adj g b)))))).
    { intros d O. rewrite S1. unfold survives. rewrite O. reflexivity. }
    assert (ABi : forall d, d_out d = false -> (In d (descs (cw ab)) <->
        In d (descs (cw a)) \/ (In d (descs (cw (adj g b))) /\ ~ In (flip d) (descs (cw a))))).
    { intros d O. rewrite S1. unfold survives. rewrite O. reflexivity. }
    destruct (C07_contract rO rI radd rmul rsub ropp Rth f2 ab b Wab Wb SR2 (DI2 _ EW) W2) as [[r [E2 [P2 _]]]|[E2 [d C]]].
    - left. exists r. split; [exact E2|]. pose proof P2 as [Wr [N2 [S2 _]]]. split; [exact Wr|]. split; [|split].
      + intros d. pose proof (N1 d) as M1. pose proof (N2 d) as M2. unfold collision in M1, M2. unfold coll, both.
        pose proof (ABo d) as Ao. pose proof (ABi d) as Ai. pose proof (ABo (flip d)) as Fo. pose proof (ABi (flip d)) as Fi.
        pose proof (ADJ d) as Ad. pose proof (ADJ (flip d)) as Af. rewrite d_out_flip, flip_flip in Fo, Fi.
        specialize (NB d). specialize (FS d). specialize (FS' d). clear - M1 M2 Ao Ai Fo Fi Ad Af NB FS FS'.
        destruct (d_out d); cbn [negb] in *; [clear Ai Fo|clear Ao Fi];
          repeat match goal with H : ?x = ?x -> _ |- _ => specialize (H eq_refl) end; tauto.
      + intros d. rewrite S2. unfold survives, both.
        pose proof (ABo d) as Ao. pose proof (ABi d) as Ai. pose proof (ABo (flip d)) as Fo. pose proof (ABi (flip d)) as Fi.
        pose proof (ADJ d) as Ad. pose proof (ADJ (flip d)) as Af. rewrite d_out_flip, flip_flip in Fo, Fi.
        specialize (NB d). specialize (FS d). specialize (FS' d). clear - Ao Ai Fo Fi Ad Af NB FS FS'.
        destruct (d_out d); cbn [negb] in *; [clear Ai Fo|clear Ao Fi];
          repeat match goal with H : ?x = ?x -> _ |- _ => specialize (H eq_refl) end; tauto.
      + intros al dd r' PD PR. apply (product_assoc rO rI radd rmul rsub ropp Rth a (adj g b) b ab dd r r'); auto.
    - right. rewrite E2. split; [reflexivity|]. exists d. unfold collision in C. unfold coll, both.
      pose proof (ABo d) as Ao. pose proof (ABi d) as Ai. pose proof (ABo (flip d)) as Fo. pose proof (ABi (flip d)) as Fi.
      pose proof (ADJ d) as Ad. pose proof (ADJ (flip d)) as Af. rewrite d_out_flip, flip_flip in Fo, Fi.
      specialize (NB d). specialize (FS d). specialize (FS' d). clear - C Ao Ai Fo Fi Ad Af NB FS FS'.
      destruct (d_out d); cbn [negb] in *; [clear Ai Fo|clear Ao Fi];
        repeat match goal with H : ?x = ?x -> _ |- _ => specialize (H eq_refl) end; tauto.
  Qed.

  (** same kind of sides: >> is plain contraction *)
  Theorem C08_direct : forall f1 f2 g (a b : comp), rshift_plan (cw a) (cw b) = Direct -> rshift f1 f2 g a b = contract f1 a b.
  Proof using. intros. unfold rshift. now rewrite H. Qed.
End RShift.
