(** Claim C05 (components): adjoint and dual of a component. Model of
    mrmustard/lab/circuit_components.py:83-135 and array_ansatz.py:97-100,272-274. *)
From Coq Require Import ZArith List Bool Lia Permutation Sorted Arith Ring_theory Ring.
Require Import Verif.Base Verif.Wires Verif.WiresSpec Verif.WiresLemmas Verif.WiresMatmul Verif.WiresLabels
  Verif.WiresProps Verif.WiresAdj Verif.Tensor Verif.Contract.
Import ListNotations.

Section CompAdj.
  Context {R : Type} (cj : R -> R).
  Notation comp := (@comp R).

  (** array_ansatz.py:272-274 reorder, 97-100 conj *)
  Definition conj_array (A : @array R) : @array R := mkArray (shape A) (fun k => cj (at_ A k)).
  (** circuit_components.py:95-99 *)
  Definition comp_adjoint (f : wire -> nat) (c : comp) : comp :=
    let bras := indices (bra (cw c)) in
    let kets := indices (ket (cw c)) in
    mkComp (adjoint f (cw c)) (conj_array (transpose (kets ++ bras) (carr c))).
  (** circuit_components.py:126-131 *)
  Definition comp_dual (f : wire -> nat) (c : comp) : comp :=
    let ok := indices (output (ket (cw c))) in
    let ik := indices (input (ket (cw c))) in
    let ib := indices (input (bra (cw c))) in
    let ob := indices (output (bra (cw c))) in
    mkComp (dual f (cw c)) (conj_array (transpose (ib ++ ob ++ ik ++ ok) (carr c))).

  Lemma distinct_filter : forall (p : wire -> bool) ws, distinct ws -> distinct (filter p ws).
  Proof using. intros. unfold distinct, descs. now apply NoDup_map_filter. Qed.
  Lemma window_filter : forall (p : wire -> bool) ws, window ws -> window (filter p ws).
  Proof using. intros p ws W x y Hx Hy. apply filter_In in Hx. apply filter_In in Hy. apply W; tauto. Qed.

  Lemma shown_indices : forall (g : descr -> descr) ws sub d, well_indexed ws -> (forall w, In w sub -> In w ws) ->
    map g (shown sub) = map (fun p => g (nth p (shown ws) d)) (indices sub).
  Proof using.
    intros g ws sub d WI H. unfold shown at 1. unfold descs, indices. rewrite !map_map.
    apply map_ext_in. intros w Hw. rewrite sorted_wires_in in Hw. apply H in Hw. f_equal.
    pose proof (nth_index ws w w WI Hw) as N. pose proof (index_bound ws w WI Hw) as B.
    rewrite (nth_indep _ d (desc w)) by (now rewrite shown_length). rewrite shown_nth. now rewrite N.
  Qed.

  Lemma transpose_amp : forall (ws ws' : wires) (A : @array R) order g d al,
    length (shape A) = length ws ->
    (forall q, q < length ws -> In q order) ->
    shown ws' = map (fun p => g (nth p (shown ws) d)) order ->
    at_ (transpose order A) (map al (shown ws')) = at_ A (map (fun e => al (g e)) (shown ws)).
  Proof using.
    intros ws ws' A order g d al L CO E. unfold transpose. cbn [at_]. f_equal. rewrite E, map_map, L.
    apply nth_ext with (d := 0) (d' := al (g d)); [rewrite !map_length, seq_length; now rewrite shown_length|].
    intros q Hq. rewrite map_length, seq_length in Hq.
    set (F := fun q0 => match look Nat.eqb order _ q0 with Some v => v | None => 0 end).
    rewrite (nth_indep _ 0 (F 0)) by (rewrite map_length, seq_length; exact Hq).
    rewrite map_nth. rewrite seq_nth by exact Hq. unfold F. simpl.
    rewrite (look_map_val Nat.eqb Nat.eqb_eq order (fun p => al (g (nth p (shown ws) d))) q) by (now apply CO).
    symmetry. exact (map_nth (fun e => al (g e)) (shown ws) d q).
  Qed.

  Lemma cover : forall ws sub, well_indexed ws -> (forall w, In w ws -> In w sub) -> forall q, q < length ws -> In q (indices sub).
  Proof using.
    intros ws sub WI H q Hq. unfold indices.
    set (w := nth q (sorted_wires ws) (mkWire 0 false Bra 0 Bargmann 0)).
    assert (Hw : In w ws) by (apply sorted_wires_in, nth_In; now rewrite sorted_wires_length).
    assert (index w = q) by (apply (well_indexed_nth ws q w (mkWire 0 false Bra 0 Bargmann 0)); auto).
    apply in_map_iff. exists w. split; [assumption|]. apply sorted_wires_in. now apply H.
  Qed.
  Lemma indices_in : forall sub q, In q (indices sub) <-> exists w, In w sub /\ index w = q.
  Proof using.
    intros. unfold indices. rewrite in_map_iff. setoid_rewrite sorted_wires_in. firstorder.
  Qed.

  Lemma adjoint_shown : forall f ws, distinct ws -> well_indexed ws -> quantum_only ws -> window ws ->
    shown (adjoint f ws) = map (fun p => swap_side (nth p (shown ws) (desc (mkWire 0 false Bra 0 Bargmann 0)))) (indices (ket ws) ++ indices (bra ws)).
  Proof using.
    intros f ws D WI Q W.
    { rewrite map_app, <- !(shown_indices swap_side ws) by (auto; unfold bra, ket; intros w Hw; apply filter_In in Hw; tauto).
      destruct (C05_adjoint_wires f ws D) as [P [D' [_ W']]]. destruct (W' W) as [_ SS].
      apply std_sorted_unique; [exact SS| |].
      + apply StronglySorted_app.
        * apply (proj1 (StronglySorted_map swap_side std_lt _)).
          eapply StronglySorted_impl_in; [|apply (sorted_std (ket ws)); [now apply window_filter|now apply distinct_filter]].
          intros x y Hx Hy. rewrite shown_In in Hx, Hy. unfold ket, descs in Hx, Hy. apply in_map_iff in Hx. apply in_map_iff in Hy.
          destruct Hx as [u [<- Hu]]. destruct Hy as [v [<- Hv]]. apply filter_In in Hu. apply filter_In in Hv.
          destruct Hu as [_ Hu]. destruct Hv as [_ Hv]. unfold is_ketb in *. apply side_eqb_eq in Hu. apply side_eqb_eq in Hv.
          unfold std_lt, swap_side, group_rank, desc, d_mode, d_out, d_side. simpl. rewrite Hu, Hv.
          destruct (is_out u), (is_out v); simpl; lia.
        * apply (proj1 (StronglySorted_map swap_side std_lt _)).
          eapply StronglySorted_impl_in; [|apply (sorted_std (bra ws)); [now apply window_filter|now apply distinct_filter]].
          intros x y Hx Hy. rewrite shown_In in Hx, Hy. unfold bra, descs in Hx, Hy. apply in_map_iff in Hx. apply in_map_iff in Hy.
          destruct Hx as [u [<- Hu]]. destruct Hy as [v [<- Hv]]. apply filter_In in Hu. apply filter_In in Hv.
          destruct Hu as [_ Hu]. destruct Hv as [_ Hv]. unfold is_brab in *. apply side_eqb_eq in Hu. apply side_eqb_eq in Hv.
          unfold std_lt, swap_side, group_rank, desc, d_mode, d_out, d_side. simpl. rewrite Hu, Hv.
          destruct (is_out u), (is_out v); simpl; lia.
        * intros x y Hx Hy. apply in_map_iff in Hx. apply in_map_iff in Hy.
          destruct Hx as [x' [<- Hx]]. destruct Hy as [y' [<- Hy]]. rewrite shown_In in Hx, Hy.
          unfold ket, bra, descs in Hx, Hy. apply in_map_iff in Hx. apply in_map_iff in Hy.
          destruct Hx as [u [<- Hu]]. destruct Hy as [v [<- Hv]]. apply filter_In in Hu. apply filter_In in Hv.
          destruct Hu as [_ Hu]. destruct Hv as [_ Hv]. unfold is_ketb, is_brab in *. apply side_eqb_eq in Hu. apply side_eqb_eq in Hv.
          left. unfold swap_side, group_rank, desc, d_mode, d_out, d_side. simpl. rewrite Hu, Hv.
          destruct (is_out u), (is_out v); simpl; lia.
      + intros d. rewrite shown_In. split.
        * intros H. apply (Permutation_in _ P) in H. apply in_map_iff in H. destruct H as [e [<- H]].
          unfold descs in H. apply in_map_iff in H. destruct H as [w [<- Hw]].
          apply in_or_app. specialize (Q w Hw). destruct (wside w) eqn:S; [right|left|congruence]; apply in_map; apply shown_In; apply in_map; apply filter_In; unfold is_ketb, is_brab; rewrite S; auto.
        * intros H. apply (Permutation_in _ (Permutation_sym P)). apply in_app_or in H.
          destruct H as [H|H]; apply in_map_iff in H; destruct H as [e [<- H]]; apply in_map; rewrite shown_In in H;
          unfold descs in *; apply in_map_iff in H; destruct H as [w [<- Hw]]; apply filter_In in Hw; apply in_map; tauto. }
  Qed.

  (** the adjoint has bra and ket exchanged and conjugates: every wire keeps its photon number *)
  Theorem C05_component_adjoint : forall f c al, wf c -> window (cw c) ->
    amp (comp_adjoint f c) al = cj (amp c (fun d => al (swap_side d))).
  Proof using.
    intros f c al [D [WI [Q L]]] W. unfold comp_adjoint, amp, conj_array. cbn [cw carr at_]. f_equal.
    set (ws := cw c) in *. set (d0 := desc (mkWire 0 false Bra 0 Bargmann 0)).
    apply (transpose_amp ws _ _ _ swap_side d0).
    - exact L.
    - intros q Hq.
      assert (Hq' : In q (indices ws)) by (apply (cover ws ws); auto).
      apply indices_in in Hq'. destruct Hq' as [w [Hw E]]. apply in_or_app. rewrite !indices_in.
      specialize (Q w Hw). unfold ket, bra, is_ketb, is_brab. setoid_rewrite filter_In. destruct (wside w) eqn:S; [right|left|congruence]; exists w; rewrite S; auto.
    - now apply adjoint_shown.
  Qed.

  Lemma dual_shown : forall f ws, distinct ws -> well_indexed ws -> quantum_only ws -> window ws ->
    shown (dual f ws) = map (fun p => flip (nth p (shown ws) (desc (mkWire 0 false Bra 0 Bargmann 0)))) (indices (input (bra ws)) ++ indices (output (bra ws)) ++ indices (input (ket ws)) ++ indices (output (ket ws))).
  Proof using.
    intros f ws D WI Q W. rewrite output_ket_sel, input_ket_sel, input_bra_sel, output_bra_sel.
    { rewrite !map_app, <- !(shown_indices flip ws) by (auto; intros w Hw; apply filter_In in Hw; tauto).
      destruct (C05_dual_wires f ws D) as [P [D' [_ W']]]. destruct (W' W) as [_ SS].
      assert (MEM : forall s o x, In x (map flip (shown (filter (sel s o) ws))) <-> exists w, In w ws /\ wside w = s /\ is_out w = o /\ x = flip (desc w)).
      { intros s o x. rewrite in_map_iff. setoid_rewrite shown_In. unfold descs. setoid_rewrite in_map_iff. setoid_rewrite in_sel.
        split; [intros [e [<- [w [<- H]]]]; exists w; tauto|intros [w H]; exists (desc w); split; [now symmetry|exists w; tauto]]. }
      assert (SG : forall s o, StronglySorted std_lt (map flip (shown (filter (sel s o) ws)))).
      { intros s o. apply (proj1 (StronglySorted_map flip std_lt _)).
        eapply StronglySorted_impl_in; [|apply (sorted_std (filter (sel s o) ws)); [now apply window_filter|now apply distinct_filter]].
        intros x y Hx Hy. rewrite shown_In in Hx, Hy. unfold descs in Hx, Hy. apply in_map_iff in Hx. apply in_map_iff in Hy.
        destruct Hx as [u [<- Hu]]. destruct Hy as [v [<- Hv]]. apply in_sel in Hu. apply in_sel in Hv.
        destruct Hu as [_ [Hu Ou]]. destruct Hv as [_ [Hv Ov]].
        unfold std_lt, flip, group_rank, desc, d_mode, d_out, d_side. simpl. rewrite Hu, Hv, Ou, Ov. destruct s, o; simpl; lia. }
      apply std_sorted_unique; [exact SS| |].
      + repeat apply StronglySorted_app; auto; intros x y Hx Hy; rewrite ?in_app_iff, ?MEM in Hy; rewrite MEM in Hx;
        destruct Hx as [u [_ [Hu [Ou ->]]]];
        repeat (destruct Hy as [Hy|Hy]); destruct Hy as [v [_ [Hv [Ov ->]]]];
        left; unfold flip, group_rank, desc, d_mode, d_out, d_side; simpl; rewrite Hu, Hv, Ou, Ov; simpl; lia.
      + intros d. rewrite shown_In. rewrite !in_app_iff, !MEM. split.
        * intros H. apply (Permutation_in _ P) in H. apply in_map_iff in H. destruct H as [e [<- H]].
          unfold descs in H. apply in_map_iff in H. destruct H as [w [<- Hw]].
          specialize (Q w Hw). destruct (wside w) eqn:S; destruct (is_out w) eqn:O; [right; left|left|right; right; right|right; right; left|congruence|congruence]; exists w; auto.
        * intros H. apply (Permutation_in _ (Permutation_sym P)). unfold descs. rewrite map_map.
          destruct H as [H|[H|[H|H]]]; destruct H as [w [Hw [_ [_ ->]]]]; apply (in_map (fun x => flip (desc x)) ws w Hw). }
  Qed.

  Theorem C05_component_dual : forall f c al, wf c -> window (cw c) ->
    amp (comp_dual f c) al = cj (amp c (fun d => al (flip d))).
  Proof using.
    intros f c al [D [WI [Q L]]] W. unfold comp_dual, amp, conj_array. cbn [cw carr at_]. f_equal.
    set (ws := cw c) in *. set (d0 := desc (mkWire 0 false Bra 0 Bargmann 0)).
    rewrite output_ket_sel, input_ket_sel, input_bra_sel, output_bra_sel.
    apply (transpose_amp ws _ _ _ flip d0).
    - exact L.
    - intros q Hq. assert (Hq' : In q (indices ws)) by (apply (cover ws ws); auto).
      apply indices_in in Hq'. destruct Hq' as [w [Hw E]]. rewrite !in_app_iff, !indices_in. setoid_rewrite in_sel.
      specialize (Q w Hw). destruct (wside w) eqn:S; destruct (is_out w) eqn:O; [right; left|left|right; right; right|right; right; left|congruence|congruence]; exists w; auto.
    - rewrite <- output_ket_sel, <- input_ket_sel, <- input_bra_sel, <- output_bra_sel. now apply dual_shown.
  Qed.

  Lemma wf_adjoint : forall f c, wf c -> wf (comp_adjoint f c).
  Proof using.
    intros f c [D [WI [Q L]]]. destruct (C05_adjoint_wires f (cw c) D) as [P [D' [I' _]]].
    assert (LE : length (adjoint f (cw c)) = length (cw c)).
    { pose proof (Permutation_length P) as X. unfold descs in X. now rewrite !map_length in X. }
    split; [exact D'|]. split; [unfold well_indexed, comp_adjoint; cbn [cw]; now rewrite LE|]. split.
    - intros w Hw. cbn [cw comp_adjoint] in Hw. apply (in_map desc) in Hw. apply (Permutation_in _ P) in Hw.
      apply in_map_iff in Hw. destruct Hw as [d [E Hd]]. unfold descs in Hd. apply in_map_iff in Hd. destruct Hd as [v [<- Hv]].
      specialize (Q v Hv). unfold desc, swap_side, d_side in E. simpl in E. injection E as _ _ E. rewrite <- E.
      destruct (wside v); congruence.
    - cbn [comp_adjoint carr conj_array transpose shape cw]. rewrite map_length, app_length, LE.
      unfold indices. rewrite !map_length, !sorted_wires_length. unfold ket, bra.
      clear - Q. induction (cw c) as [|w t IH]; [reflexivity|]. assert (Hw := Q w (or_introl eq_refl)).
      assert (IH' := IH (fun x Hx => Q x (or_intror Hx))). simpl. unfold is_ketb at 1, is_brab at 1. destruct (wside w); simpl; try lia. congruence.
  Qed.

  (** cutoffs of the adjoint and of the dual *)
  Lemma transpose_wdim : forall (c c' : comp) order g d e, wf c -> shape (carr c') = map (fun p => nth p (shape (carr c)) 0) order ->
    (forall x, g (g x) = x) -> (forall q, In q order <-> q < length (cw c)) ->
    shown (cw c') = map (fun p => g (nth p (shown (cw c)) d)) order -> In e (descs (cw c)) -> wdim c' (g e) = wdim c e.
  Proof using.
    intros c c' order g d e [D [WI [Q L]]] ES GG IO E He. unfold wdim. rewrite E, ES.
    apply shown_In in He. destruct (In_nth _ _ d He) as [p [Hp Ep]]. rewrite shown_length in Hp.
    assert (ND := shown_NoDup _ D).
    assert (K : look desc_eqb (map (fun p => g (nth p (shown (cw c)) d)) order) (map (fun p => nth p (shape (carr c)) 0) order) (g e) = Some (nth p (shape (carr c)) 0)).
    { assert (Ho : In p order) by now apply IO. assert (Hall : forall q, In q order -> q < length (cw c)) by (intros q; apply IO).
      revert Ho Hall. clear E ES IO. induction order as [|q order IH]; intros Ho Hall; [destruct Ho|]. cbn [map look].
      destruct (desc_eqb (g e) (g (nth q (shown (cw c)) d))) eqn:Eq.
      - apply desc_eqb_eq in Eq. assert (X : e = nth q (shown (cw c)) d) by (rewrite <- (GG e), Eq; apply GG).
        assert (p = q); [|now subst]. apply (proj1 (NoDup_nth (shown (cw c)) d) ND); rewrite ?shown_length; auto; [apply Hall; now left|congruence].
      - destruct Ho as [->|Ho]; [rewrite Ep in Eq; now rewrite (proj2 (desc_eqb_eq _ _) eq_refl) in Eq|]. apply IH; [exact Ho|]. intros; apply Hall; now right. }
    rewrite K. rewrite <- Ep. rewrite (look_nth desc_eqb desc_eqb_eq) by (rewrite ?shown_length; auto; lia). reflexivity.
  Qed.
  Lemma adjoint_wdim : forall f c d, wf c -> window (cw c) -> In (swap_side d) (descs (cw c)) -> wdim (comp_adjoint f c) d = wdim c (swap_side d).
  Proof using.
    intros f c d WF W H. rewrite <- (swap_swap d) at 1. pose proof WF as [D [WI [Q L]]].
    eapply (transpose_wdim c (comp_adjoint f c) _ swap_side); [exact WF|reflexivity|exact swap_swap| |now apply adjoint_shown|exact H].
    intros q. rewrite in_app_iff, !indices_in. unfold ket, bra. setoid_rewrite filter_In. split.
    - intros [[w [[Hw _] <-]]|[w [[Hw _] <-]]]; now apply index_bound.
    - intros Hq. assert (Hq' : In q (indices (cw c))) by (apply (cover (cw c) (cw c)); auto). apply indices_in in Hq'. destruct Hq' as [w [Hw E]].
      specialize (Q w Hw). unfold is_ketb, is_brab. destruct (wside w) eqn:S; [right|left|congruence]; exists w; rewrite S; auto.
  Qed.
  Lemma dual_wdim : forall f c d, wf c -> window (cw c) -> In (flip d) (descs (cw c)) -> wdim (comp_dual f c) d = wdim c (flip d).
  Proof using.
    intros f c d WF W H. rewrite <- (flip_flip d) at 1. pose proof WF as [D [WI [Q L]]].
    eapply (transpose_wdim c (comp_dual f c) _ flip); [exact WF|reflexivity|exact flip_flip| |now apply dual_shown|exact H].
    rewrite output_ket_sel, input_ket_sel, input_bra_sel, output_bra_sel.
    intros q. rewrite !in_app_iff, !indices_in. setoid_rewrite in_sel. split.
    - intros [[w [[Hw _] <-]]|[[w [[Hw _] <-]]|[[w [[Hw _] <-]]|[w [[Hw _] <-]]]]]; now apply index_bound.
    - intros Hq. assert (Hq' : In q (indices (cw c))) by (apply (cover (cw c) (cw c)); auto). apply indices_in in Hq'. destruct Hq' as [w [Hw E]].
      specialize (Q w Hw). destruct (wside w) eqn:S; destruct (is_out w) eqn:O; [right; left|left|right; right; right|right; right; left|congruence|congruence]; exists w; auto.
  Qed.
  Lemma wf_dual : forall f c, wf c -> window (cw c) -> wf (comp_dual f c).
  Proof using.
    intros f c WF W. pose proof WF as [D [WI [Q L]]]. destruct (C05_dual_wires f (cw c) D) as [P [D' [I' _]]].
    assert (LE : length (dual f (cw c)) = length (cw c)).
    { pose proof (Permutation_length P) as X. unfold descs in X. now rewrite !map_length in X. }
    split; [exact D'|]. split; [unfold well_indexed, comp_dual; cbn [cw]; now rewrite LE|]. split.
    - intros w Hw. cbn [cw comp_dual] in Hw. apply (in_map desc) in Hw. apply (Permutation_in _ P) in Hw.
      apply in_map_iff in Hw. destruct Hw as [d [E Hd]]. unfold descs in Hd. apply in_map_iff in Hd. destruct Hd as [v [<- Hv]].
      specialize (Q v Hv). unfold desc, flip, d_side in E. simpl in E. injection E as _ _ E. congruence.
    - cbn [comp_dual carr conj_array transpose shape cw]. rewrite map_length. rewrite <- (map_length (fun p => flip (nth p (shown (cw c)) (desc (mkWire 0 false Bra 0 Bargmann 0))))).
      rewrite <- (dual_shown f (cw c)) by assumption. apply shown_length.
  Qed.

  Theorem C05_component_adjoint_involution : forall f g c al, (forall x, cj (cj x) = x) -> wf c -> window (cw c) ->
    amp (comp_adjoint f (comp_adjoint g c)) al = amp c al.
  Proof using.
    intros f g c al CC WF W. rewrite C05_component_adjoint.
    - rewrite C05_component_adjoint by assumption. rewrite CC. unfold amp. f_equal. apply map_ext. intros d. now rewrite swap_swap.
    - now apply wf_adjoint.
    - destruct WF as [D _]. destruct (C05_adjoint_wires g (cw c) D) as [_ [_ [_ W']]]. now apply W'.
  Qed.
End CompAdj.

(** a concrete operator on mode 0 (ket-out, ket-in) with a rectangular array, Gaussian integers *)
Definition gi_conj (z : Z * Z) : Z * Z := (fst z, - snd z)%Z.
Definition ex_op : @comp (Z * Z) :=
  mkComp (make (fun n => n) [] [] [0]%Z [0]%Z [] [])
         (mkArray [2; 3] (fun k => match k with [i; j] => (Z.of_nat i, Z.of_nat j) | _ => (0, 0)%Z end)).
Theorem C05_component_example : wf ex_op /\ window (cw ex_op)
  /\ amp (comp_dual gi_conj (fun w => index w) ex_op) (fun d => if d_out d then 2 else 1) = (1, -2)%Z.
Proof.
  split; [|split; [|reflexivity]].
  - split; [|split; [reflexivity|split; [|reflexivity]]].
    + unfold distinct. cbv. repeat constructor; simpl; intuition congruence.
    + intros w H. simpl in H. destruct H as [<-|[<-|[]]]; discriminate.
  - intros x y Hx Hy. simpl in Hx, Hy. destruct Hx as [<-|[<-|[]]], Hy as [<-|[<-|[]]]; cbn; lia.
Qed.
