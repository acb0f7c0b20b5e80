(** Claim C07 and associativity of the contraction of components (used by C09). *)
From Coq Require Import ZArith List Bool Lia Permutation Sorted Arith Ring_theory Ring.
Require Import Verif.Base Verif.Wires Verif.WiresSpec Verif.WiresLemmas Verif.WiresMatmul Verif.WiresLabels
  Verif.WiresProps Verif.WiresAdj Verif.Tensor Verif.Contract.
Import ListNotations.

Section Assoc.
  Context {R : Type} (rO rI : R) (radd rmul rsub : R -> R -> R) (ropp : R -> R).
  Hypothesis Rth : ring_theory rO rI radd rmul rsub ropp eq.
  Add Ring Rr : Rth.
  Notation comp := (@comp R).
  Notation rule := (Contract.rule rO radd rmul).
  Notation contract := (Contract.contract rO radd rmul).
  Notation "x * y" := (rmul x y).

  (** what "ab is the contraction of a with b" means *)
  Definition product (a b ab : comp) : Prop :=
    wf ab
    /\ (forall d, ~ collision (cw a) (cw b) d)
    /\ (forall d, In d (descs (cw ab)) <-> survives (cw a) (cw b) d)
    /\ (forall d, In d (descs (cw ab)) ->
            (In d (descs (cw a)) /\ (d_out d = true -> ~ In (flip d) (descs (cw b))) /\ wdim ab d = wdim a d)
            \/ (In d (descs (cw b)) /\ (d_out d = false -> ~ In (flip d) (descs (cw a))) /\ wdim ab d = wdim b d))
    /\ (forall al, amp ab al = rule a b al).

  (** C07: contraction succeeds unless an output or input would be duplicated, and the entry of the result at
      every assignment of photon numbers is the sum over the joined wires (below the smaller cutoff) of
      the products of entries *)
  Theorem C07_contract : forall f a b,
    wf a -> wf b -> same_repr (cw a) (cw b) -> distinct_ids (cw a) (with_ids f (cw b)) ->
    window (cw a ++ cw b) ->
    (exists c, contract f a b = Ok c /\ product a b c /\ StronglySorted std_lt (shown (cw c)))
    \/ (contract f a b = Err ValueError /\ exists d, collision (cw a) (cw b) d).
  Proof using Rth.
    intros f a b Wa Wb SR DI WW.
    destruct (matmul_wires_spec (cw a) (cw b) (proj1 Wa) (proj1 Wb) SR) as [[r [E [NC [D [I [S W]]]]]]|[E C]].
    - left. destruct (contract_rule rO radd rmul a b f r Wa Wb SR DI WW E) as [c [EC [Ec [Wc [DM AM]]]]].
      exists c. split; [exact EC|]. split; [|rewrite Ec; now apply W]. split; [exact Wc|]. split; [|split; [|split]]; auto.
      + intros d Hd. apply NC. now exists d.
      + rewrite Ec. exact S.
    - right. split; [|exact C]. unfold Contract.contract, matmul. rewrite E. reflexivity.
  Qed.

  Definition ovr (al : descr -> nat) (s : descr -> option nat) (d : descr) : nat :=
    match s d with Some v => v | None => al d end.
  Lemma amp_ext : forall (c : comp) al be, (forall d, In d (descs (cw c)) -> al d = be d) -> amp c al = amp c be.
  Proof using. intros c al be H. unfold amp. f_equal. apply map_ext_in. intros d Hd. apply H. now apply shown_In. Qed.

  Notation nsum := (Tensor.nsum rO radd desc_eqb).
  Lemma rule_nsum : forall a b al, rule a b al =
    nsum (joins a b) (cut_dim a b) (fun s => amp a (ovr al s) * amp b (ovr al (fun d => s (flip d)))).
  Proof using.
    intros a b al. unfold Contract.rule, Tensor.nsum. apply sum_ext. intros idx _. f_equal.
    apply amp_ext. intros d _. unfold repl, ovr.
    rewrite <- (flip_flip d) at 1.
    rewrite (look_map_inj desc_eqb desc_eqb desc_eqb_eq desc_eqb_eq flip) by (intros y _; apply flip_inj). reflexivity.
  Qed.

  Definition onto (L : list descr) (s : descr -> option nat) : Prop :=
    (forall d, In d L -> s d <> None) /\ (forall d, ~ In d L -> s d = None).
  Lemma nsum_ext_onto : forall L dim H G, NoDup L -> (forall s, onto L s -> H s = G s) -> nsum L dim H = nsum L dim G.
  Proof using.
    intros L dim H G ND E. unfold Tensor.nsum. apply sum_ext. intros idx Hi. apply box_length_in in Hi. rewrite map_length in Hi.
    apply E. split.
    - intros d Hd. destruct (In_nth _ _ d Hd) as [i [Hi' Ei]]. rewrite <- Ei at 1.
      rewrite (look_nth desc_eqb desc_eqb_eq) by auto. discriminate.
    - intros d Hd. now apply (look_notin desc_eqb desc_eqb_eq).
  Qed.
  Lemma nsum_scal_r : forall L dim H c, nsum L dim H * c = nsum L dim (fun s => H s * c).
  Proof using Rth. intros. unfold Tensor.nsum. symmetry. eapply sum_scal_r; eauto. Qed.
  Lemma nsum_scal_l : forall L dim H c, c * nsum L dim H = nsum L dim (fun s => c * H s).
  Proof using Rth. intros. unfold Tensor.nsum. symmetry. eapply sum_scal_l; eauto. Qed.

  Lemma joins_in : forall (a b : comp) d, In d (joins a b) <->
    In d (descs (cw a)) /\ d_out d = true /\ In (flip d) (descs (cw b)).
  Proof using. intros. unfold joins. rewrite filter_In, andb_true_iff, shown_In, has_true. tauto. Qed.
  Lemma joins_NoDup : forall (a b : comp), wf a -> NoDup (joins a b).
  Proof using. intros a b [D _]. unfold joins. apply NoDup_filter. now apply shown_NoDup. Qed.

  Lemma NoDup_app' : forall (l1 l2 : list descr), NoDup l1 -> NoDup l2 -> (forall d, In d l1 -> ~ In d l2) -> NoDup (l1 ++ l2).
  Proof using. intros. apply NoDup_app_intro; auto. Qed.

  Theorem product_assoc : forall a b c ab bc l r,
    wf a -> wf b -> wf c ->
    product a b ab -> product ab c l -> product b c bc -> product a bc r ->
    forall al, amp l al = amp r al.
  Proof using Rth.
    intros a b c ab bc l r Wa Wb Wc [Wab [N1 [S1 [D1 A1]]]] [_ [N2 [S2 [D2 A2]]]] [Wbc [N3 [S3 [D3 A3]]]] [_ [N4 [S4 [D4 A4]]]] al.
    set (K := filter (fun d => d_out d && negb (has (flip d) (cw b)) && has (flip d) (cw c)) (shown (cw a))).
    assert (KI : forall d, In d K <-> In d (descs (cw a)) /\ d_out d = true /\ ~ In (flip d) (descs (cw b)) /\ In (flip d) (descs (cw c))).
    { intros d. unfold K. rewrite filter_In, !andb_true_iff, shown_In, negb_true_iff, has_false, has_true. tauto. }
    assert (NK : NoDup K) by (apply NoDup_filter, shown_NoDup, Wa).
    assert (C1 : forall d, d_out d = true -> In d (descs (cw a)) -> In d (descs (cw b)) -> In (flip d) (descs (cw b))).
    { intros d O Ha Hb. destruct (has (flip d) (cw b)) eqn:E; [now apply has_true|]. exfalso. apply (N1 d). unfold collision. rewrite O. apply has_false in E. auto. }
    assert (C1i : forall d, d_out d = false -> In d (descs (cw a)) -> In d (descs (cw b)) -> In (flip d) (descs (cw a))).
    { intros d O Ha Hb. destruct (has (flip d) (cw a)) eqn:E; [now apply has_true|]. exfalso. apply (N1 d). unfold collision. rewrite O. apply has_false in E. auto. }
    assert (C3i : forall d, d_out d = false -> In d (descs (cw b)) -> In d (descs (cw c)) -> In (flip d) (descs (cw b))).
    { intros d O Ha Hb. destruct (has (flip d) (cw b)) eqn:E; [now apply has_true|]. exfalso. apply (N3 d). unfold collision. rewrite O. apply has_false in E. auto. }
    assert (FO : forall d, d_out (flip d) = negb (d_out d)) by reflexivity.
    (* the joined wires of the two bracketings *)
    assert (P1 : Permutation (joins ab c) (joins b c ++ K)).
    { apply NoDup_Permutation.
      - now apply joins_NoDup.
      - apply NoDup_app'; [now apply joins_NoDup|exact NK|]. intros d Hd Hk. rewrite joins_in in Hd. rewrite KI in Hk.
        destruct Hk as [Ha [O [Hb Hc]]]. apply Hb. apply C1; tauto.
      - intros d. rewrite in_app_iff, !joins_in, KI, S1. unfold survives. split.
        + intros [H [O Hc]]. rewrite O in H. tauto.
        + intros [[H [O Hc]]|[H [O [Hb Hc]]]]; rewrite O; tauto. }
    assert (P2 : Permutation (joins a bc) (joins a b ++ K)).
    { apply NoDup_Permutation.
      - now apply joins_NoDup.
      - apply NoDup_app'; [now apply joins_NoDup|exact NK|]. intros d Hd Hk. rewrite joins_in in Hd. rewrite KI in Hk. tauto.
      - intros d. rewrite in_app_iff, !joins_in, KI, S3. unfold survives. rewrite FO. split.
        + intros [H [O Hc]]. rewrite O in Hc. simpl in Hc. rewrite flip_flip in Hc.
          destruct (has (flip d) (cw b)) eqn:Eb; [apply has_true in Eb; tauto|apply has_false in Eb; tauto].
        + intros [[H [O Hb]]|[H [O [Hb Hc]]]]; rewrite O; simpl; rewrite ?flip_flip; [tauto|].
          split; [exact H|]. split; [reflexivity|]. right. split; [exact Hc|]. intros Hbo. apply Hb. now apply C1. }
    assert (E1 : forall d, In d (joins b c) -> cut_dim ab c d = cut_dim b c d).
    { intros d Hd. rewrite joins_in in Hd. destruct Hd as [Hb [O Hc]]. unfold cut_dim. f_equal.
      destruct (D1 d) as [[Ha [F _]]|[_ [_ E]]]; [|exfalso|exact E].
      - apply S1. unfold survives. rewrite O. tauto.
      - apply (F O). now apply C1. }
    assert (E2 : forall d, In d K -> cut_dim ab c d = Nat.min (wdim a d) (wdim c (flip d))).
    { intros d Hd. rewrite KI in Hd. destruct Hd as [Ha [O [Hb Hc]]]. unfold cut_dim. f_equal.
      destruct (D1 d) as [[_ [_ E]]|[Hb' _]]; [|exact E|exfalso; apply Hb; now apply C1].
      apply S1. unfold survives. rewrite O. tauto. }
    assert (E3 : forall d, In d (joins a b) -> cut_dim a bc d = cut_dim a b d).
    { intros d Hd. rewrite joins_in in Hd. destruct Hd as [Ha [O Hb]]. unfold cut_dim. f_equal.
      assert (Of : d_out (flip d) = false) by (rewrite FO, O; reflexivity).
      destruct (D3 (flip d)) as [[_ [_ E]]|[Hc [F _]]]; [|exact E|exfalso].
      - apply S3. unfold survives. rewrite Of. tauto.
      - apply (F Of). apply C3i; auto. }
    assert (E4 : forall d, In d K -> cut_dim a bc d = Nat.min (wdim a d) (wdim c (flip d))).
    { intros d Hd. rewrite KI in Hd. destruct Hd as [Ha [O [Hb Hc]]]. unfold cut_dim. f_equal.
      assert (Of : d_out (flip d) = false) by (rewrite FO, O; reflexivity).
      destruct (D3 (flip d)) as [[Hb' _]|[_ [_ E]]]; [|contradiction|exact E].
      apply S3. unfold survives. rewrite Of, flip_flip. right. split; [exact Hc|]. intros Hbo. apply Hb. now apply C1. }
    rewrite A2, A4, !rule_nsum.
    rewrite (nsum_perm rO rI radd rmul rsub ropp Rth desc_eqb desc_eqb_eq (joins ab c) (joins b c ++ K) _ _ (joins_NoDup ab c Wab)); [| |exact P1].
    2:{ intros s t Hst. f_equal; apply amp_ext; intros d _; unfold ovr; now rewrite Hst. }
    rewrite (nsum_perm rO rI radd rmul rsub ropp Rth desc_eqb desc_eqb_eq (joins a bc) (joins a b ++ K) _ _ (joins_NoDup a bc Wa)); [| |exact P2].
    2:{ intros s t Hst. f_equal; apply amp_ext; intros d _; unfold ovr; now rewrite Hst. }
    rewrite !(nsum_app rO rI radd rmul rsub ropp Rth desc_eqb).
    2,3: intros s t Hst; f_equal; apply amp_ext; intros d _; unfold ovr; now rewrite Hst.
    (* common form: sum over joins b c, K, joins a b *)
    set (dk := fun d => Nat.min (wdim a d) (wdim c (flip d))).
    set (F := fun s1 s2 t : descr -> option nat =>
       amp a (ovr al (orelse t s2)) * amp b (ovr al (orelse (fun d => t (flip d)) s1)) * amp c (ovr al (fun d => orelse s1 s2 (flip d)))).
    transitivity (nsum (joins b c) (cut_dim b c) (fun s1 => nsum K dk (fun s2 => nsum (joins a b) (cut_dim a b) (fun t => F s1 s2 t)))).
    - rewrite (nsum_dim rO radd desc_eqb _ _ (cut_dim b c)) by exact E1.
      apply nsum_ext_onto; [now apply joins_NoDup|]. intros s1 [T1 T1'].
      rewrite (nsum_dim rO radd desc_eqb _ _ dk) by exact E2.
      apply nsum_ext_onto; [exact NK|]. intros s2 [T2 T2'].
      rewrite A1, rule_nsum, nsum_scal_r. apply nsum_ext_onto; [now apply joins_NoDup|]. intros t [T3 T3'].
      unfold F. f_equal. f_equal; apply amp_ext; intros d Hd; unfold ovr, orelse.
      + destruct (t d) eqn:Et; [reflexivity|]. destruct (s1 d) eqn:Es; [exfalso|reflexivity].
        assert (In d (joins b c)) as Hj.
        { destruct (has d (cw b)) eqn:?; destruct (memd d (joins b c)) eqn:Em; try (now apply memd_In in Em); apply memd_false in Em; rewrite T1' in Es by assumption; discriminate. }
        rewrite joins_in in Hj. destruct Hj as [Hb [O Hc]]. apply (T3 d); [|exact Et]. rewrite joins_in. split; [exact Hd|]. split; [exact O|]. now apply C1.
      + destruct (t (flip d)) eqn:Et; [reflexivity|]. destruct (s1 d) eqn:Es; [reflexivity|].
        rewrite T2'; [reflexivity|]. rewrite KI. intros [Ha [O [Hb Hc]]]. apply Hb. now apply C1.
    - transitivity (nsum (joins a b) (cut_dim a b) (fun t => nsum K dk (fun s2 => nsum (joins b c) (cut_dim b c) (fun s1 => F s1 s2 t)))).
      + (* exchange of the sums *)
        transitivity (nsum K dk (fun s2 => nsum (joins b c) (cut_dim b c) (fun s1 => nsum (joins a b) (cut_dim a b) (fun t => F s1 s2 t)))).
        { apply (nsum_swap rO rI radd rmul rsub ropp Rth desc_eqb (joins b c) K (cut_dim b c) dk (fun s1 s2 => nsum (joins a b) (cut_dim a b) (fun t => F s1 s2 t))). }
        transitivity (nsum K dk (fun s2 => nsum (joins a b) (cut_dim a b) (fun t => nsum (joins b c) (cut_dim b c) (fun s1 => F s1 s2 t)))).
        { apply nsum_ext. intros s2. apply (nsum_swap rO rI radd rmul rsub ropp Rth desc_eqb (joins b c) (joins a b) (cut_dim b c) (cut_dim a b) (fun s1 t => F s1 s2 t)). }
        apply (nsum_swap rO rI radd rmul rsub ropp Rth desc_eqb K (joins a b) dk (cut_dim a b) (fun s2 t => nsum (joins b c) (cut_dim b c) (fun s1 => F s1 s2 t))).
      + rewrite (nsum_dim rO radd desc_eqb (joins a b) (cut_dim a bc) (cut_dim a b)) by exact E3.
        apply nsum_ext_onto; [now apply joins_NoDup|]. intros t [T3 T3'].
        rewrite (nsum_dim rO radd desc_eqb K (cut_dim a bc) dk) by exact E4.
        apply nsum_ext_onto; [exact NK|]. intros s2 [T2 T2'].
        rewrite A3, rule_nsum, nsum_scal_l. apply nsum_ext_onto; [now apply joins_NoDup|]. intros s1 [T1 T1'].
        assert (J1 : forall d v, s1 d = Some v -> In d (joins b c)).
        { intros d v E. destruct (memd d (joins b c)) eqn:Em; [now apply memd_In|]. apply memd_false in Em. rewrite T1' in E by assumption. discriminate. }
        assert (J2 : forall d v, s2 d = Some v -> In d K).
        { intros d v E. destruct (memd d K) eqn:Em; [now apply memd_In|]. apply memd_false in Em. rewrite T2' in E by assumption. discriminate. }
        assert (J3 : forall d v, t d = Some v -> In d (joins a b)).
        { intros d v E. destruct (memd d (joins a b)) eqn:Em; [now apply memd_In|]. apply memd_false in Em. rewrite T3' in E by assumption. discriminate. }
        unfold F.
        transitivity (amp a (ovr al (orelse t s2)) * (amp b (ovr al (orelse (fun d => t (flip d)) s1)) * amp c (ovr al (fun d => orelse s1 s2 (flip d))))); [ring|].
        f_equal. f_equal; apply amp_ext; intros d Hd; unfold ovr, orelse.
        * destruct (s1 d) eqn:Es.
          -- destruct (t (flip d)) eqn:Et; [exfalso|reflexivity]. apply J1 in Es. apply J3 in Et. rewrite joins_in in Es, Et.
             destruct Es as [_ [O _]]. destruct Et as [_ [O' _]]. rewrite FO, O in O'. discriminate.
          -- destruct (t (flip d)) eqn:Et; [reflexivity|]. destruct (s2 (flip d)) eqn:E2'; [exfalso|reflexivity].
             apply J2 in E2'. rewrite KI, flip_flip in E2'. tauto.
        * destruct (s1 (flip d)) eqn:Es; [reflexivity|]. destruct (t (flip d)) eqn:Et.
          -- exfalso. apply J3 in Et. rewrite joins_in, flip_flip in Et. destruct Et as [Ha [O Hb]].
             apply (T1 (flip d)); [|exact Es]. rewrite joins_in, flip_flip. split; [|split; [exact O|exact Hd]].
             rewrite FO in O. apply C3i; auto. now destruct (d_out d).
          -- destruct (s2 (flip d)); reflexivity.
  Qed.
End Assoc.
