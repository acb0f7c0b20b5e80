(** Expectation values of Fock states: claim C69.
    Model of mrmustard/lab/states/ket.py (expectation, fidelity), mrmustard/lab/states/dm.py (expectation, fidelity with a ket),
    mrmustard/lab/states/base.py (_validate_operator) and of >> TraceOut (trace_out.py:83-112) for objects all of whose wires are traced.
    Components in the Fock representation without batch axes; entries in an arbitrary commutative ring with a conjugation. *)
From Coq Require Import ZArith List Bool Lia Permutation Sorted Arith Ring_theory Ring.
Require Import Verif.Base Verif.Wires Verif.WiresSpec Verif.WiresLemmas Verif.WiresMatmul Verif.WiresLabels
  Verif.WiresProps Verif.WiresAdj Verif.Tensor Verif.Contract Verif.ContractAssoc Verif.CompAdj Verif.RShift Verif.CircuitContract.
Require Verif.ArrayOps.
Import ListNotations.

(** base.py:49-58 *)
Inductive optype := KetLike | DMLike | UnitaryLike | Invalid.
Definition same_modes (a b : list Z) : bool := forallb (fun m => mem_mode m b) a && forallb (fun m => mem_mode m a) b.
(** base.py:61-94 *)
Definition validate (w : wires) : optype :=
  if nonempty (output (ket w)) && negb (nonempty (input (ket w))) && negb (nonempty (bra w)) then KetLike
  else if nonempty (output (ket w)) && nonempty (output (bra w)) && negb (nonempty (input (ket w))) && negb (nonempty (input (bra w))) then
    if same_modes (modes (output (ket w))) (modes (output (bra w))) then DMLike else Invalid
  else if nonempty (input (ket w)) && nonempty (output (ket w)) && negb (nonempty (bra w)) then
    if same_modes (modes (input (ket w))) (modes (output (ket w))) then UnitaryLike else Invalid
  else Invalid.
(** ket.py:291 and dm.py:297: the set difference of the modes, in some iteration order *)
Definition left_modes (w o : wires) : list Z := nodup Z.eq_dec (filter (fun m => negb (mem_mode m (modes o))) (modes w)).

Section Expect.
  Context {R : Type} (rO rI : R) (radd rmul rsub : R -> R -> R) (ropp : R -> R).
  Hypothesis Rth : ring_theory rO rI radd rmul rsub ropp eq.
  Add Ring Rrx : Rth.
  Context (cj : R -> R).
  Notation comp := (@comp R).
  Notation contract := (Contract.contract rO radd rmul).
  Notation product := (ContractAssoc.product rO radd rmul).
  Notation rule := (Contract.rule rO radd rmul).
  Notation adj := (CompAdj.comp_adjoint cj).
  Notation dual := (CompAdj.comp_dual cj).
  Notation sum := (Tensor.sum rO radd).
  Notation nsum := (Tensor.nsum rO radd desc_eqb).
  Notation "x * y" := (rmul x y).

  (** trace_out.py:83-112 when the result has no wires: the scalar. Simplification: if a wire would be left the code returns a component,
      the model an error; the branch for objects with wires on one side only (92-105) is not modelled (error) *)
  Definition trace_out (e : list Z) (c : comp) : result R :=
    let k := ket (output (cw c)) in let b := bra (output (cw c)) in
    match e with
    | [] => if nonempty (cw c) then Err TypeError else Ok (at_ (carr c) [])
    | _ :: _ =>
      if negb (nonempty k) || negb (nonempty b) then Err TypeError
      else if negb (forallb (fun w => is_out w && mem_mode (mode w) e) (cw c)) then Err TypeError
      else bind (ArrayOps.trace rO radd (ArrayOps.mkA (carr c) 0)
                  (map (fun m => hd 0 (indices (at_modes k [m]))) e) (map (fun m => hd 0 (indices (at_modes b [m]))) e))
                (fun a => Ok (at_ (ArrayOps.arr a) []))
    end.

  (** ket.py:282-325, both components in the Fock representation. f1, f2 give fresh ids to the wires copied by the two contractions,
      g1, g2 to those of duals and adjoints *)
  Definition ket_expectation (f1 f2 g1 g2 : wire -> nat) (psi op : comp) : result R :=
    match validate (cw op) with
    | Invalid => Err ValueError
    | ty =>
      if negb (forallb (fun m => mem_mode m (modes (cw psi))) (modes (cw op))) then Err ValueError
      else match ty with
      | KetLike => bind (contract f1 psi (dual g1 op)) (fun r => bind (contract f2 r (adj g2 r)) (trace_out (left_modes (cw psi) (cw op))))
      | DMLike => bind (contract f1 psi (dual g1 op)) (fun r => bind (contract f2 (adj g2 psi) r) (trace_out (left_modes (cw psi) (cw op))))
      | _ => bind (contract f1 psi op) (fun r => bind (contract f2 r (dual g2 psi)) (fun x => trace_out (nodup Z.eq_dec (modes (cw x))) x))
      end
    end.
  (** dm.py:285-342; in the ket-like case operator.dual is computed twice (g1, g1') *)
  Definition dm_expectation (f1 f2 g1 g1' g2 : wire -> nat) (rho op : comp) : result R :=
    match validate (cw op) with
    | Invalid => Err ValueError
    | ty =>
      if negb (forallb (fun m => mem_mode m (modes (cw rho))) (modes (cw op))) then Err ValueError
      else match ty with
      | KetLike => bind (contract f1 rho (adj g2 (dual g1 op))) (fun r => bind (contract f2 r (dual g1' op)) (trace_out (left_modes (cw rho) (cw op))))
      | DMLike => bind (contract f1 rho (dual g1 op)) (trace_out (left_modes (cw rho) (cw op)))
      | _ => bind (contract f1 rho op) (trace_out (nodup Z.eq_dec (modes (cw rho))))
      end
    end.
  (** ket.py:327-339; circuit_components.modes is a sorted tuple, so the comparison is of sets *)
  Definition ket_fidelity (f1 f2 g1 g2 : wire -> nat) (psi other : comp) : result R :=
    if negb (same_modes (modes (cw psi)) (modes (cw other))) then Err ValueError else ket_expectation f1 f2 g1 g2 psi other.

  (** ** specification *)
  Definition kw (m : Z) : descr := (m, true, Ket).
  Definition bw (m : Z) : descr := (m, true, Bra).
  Definition ki (m : Z) : descr := (m, false, Ket).
  (** c is a ket / a density matrix / an operator on the modes M *)
  Definition ket_on (M : list Z) (c : comp) : Prop := forall d, In d (descs (cw c)) <-> In (d_mode d) M /\ d_out d = true /\ d_side d = Ket.
  Definition dm_on (M : list Z) (c : comp) : Prop := forall d, In d (descs (cw c)) <-> In (d_mode d) M /\ d_out d = true /\ d_side d <> Cl.
  Definition unitary_on (M : list Z) (c : comp) : Prop := forall d, In d (descs (cw c)) <-> In (d_mode d) M /\ d_side d = Ket.
  (** photon numbers of the modes *)
  Definition numbers := Z -> nat.
  (** amplitude <n|psi>, matrix element <k|rho|b>, matrix element <o|U|i> *)
  Definition ket_amp (c : comp) (n : numbers) : R := amp c (fun d => n (d_mode d)).
  Definition dm_elem (c : comp) (k b : numbers) : R := amp c (fun d => match d_side d with Ket => k (d_mode d) | _ => b (d_mode d) end).
  Definition op_elem (c : comp) (o i : numbers) : R := amp c (fun d => if d_out d then o (d_mode d) else i (d_mode d)).
  (** sum over all photon numbers of the modes L below the cutoffs dim *)
  Definition assign (L : list Z) (idx : list nat) : numbers := fun m => match look Z.eqb L idx m with Some v => v | None => 0 end.
  Definition over_modes (L : list Z) (dim : Z -> nat) (F : numbers -> R) : R := sum (box (map dim L)) (fun idx => F (assign L idx)).
  Definition pick (L : list Z) (n r : numbers) : numbers := fun m => if mem_mode m L then n m else r m.
  (** Tr(rho O) for an operator O on the modes E; L are the other modes *)
  Definition tr_product (E L : list Z) (d1 d2 dl : Z -> nat) (rho O : numbers -> numbers -> R) : R :=
    over_modes L dl (fun r => over_modes E d1 (fun n => over_modes E d2 (fun k => rho (pick E k r) (pick E n r) * O n k))).

  (** ** sums over modes *)
  Lemma look_kw : forall (g : Z -> descr) (Hg : forall m, d_mode (g m) = m) L idx d,
    look desc_eqb (map g L) idx d = if desc_eqb d (g (d_mode d)) then look Z.eqb L idx (d_mode d) else None.
  Proof using.
    clear. intros g Hg L idx d. destruct (desc_eqb d (g (d_mode d))) eqn:E.
    - apply desc_eqb_eq in E. rewrite E at 1. apply (look_map_inj Z.eqb desc_eqb Z.eqb_eq desc_eqb_eq g).
      intros y _ H. rewrite <- (Hg y), <- H. symmetry. apply Hg.
    - apply (look_notin desc_eqb desc_eqb_eq). intros H. apply in_map_iff in H. destruct H as [m [H _]]. subst d. rewrite Hg in E.
      now rewrite (proj2 (desc_eqb_eq _ _) eq_refl) in E.
  Qed.
  Lemma mem_In : forall m L, mem_mode m L = true <-> In m L.
  Proof using. clear. intros m L. unfold mem_mode. rewrite existsb_exists. split; [intros [x [H E]]; apply Z.eqb_eq in E; now subst|intros H; exists m; split; auto; apply Z.eqb_refl]. Qed.
  Lemma look_assign : forall L idx m, length idx = length L -> look Z.eqb L idx m = if mem_mode m L then Some (assign L idx m) else None.
  Proof using.
    clear. intros L idx m. unfold assign. revert idx. induction L as [|x L IH]; intros [|v idx] H; simpl in *; try lia; auto.
    unfold mem_mode. simpl. destruct (Z.eqb m x); [reflexivity|]. simpl. apply IH. lia.
  Qed.
  (** replace the photon numbers of the wires in direction o: ket wires of EK by k, bra wires of EB by n *)
  Definition sub (o : bool) (EK EB : list Z) (k n : numbers) (al : descr -> nat) (d : descr) : nat :=
    if Bool.eqb (d_out d) o then match d_side d with
      | Ket => if mem_mode (d_mode d) EK then k (d_mode d) else al d
      | Bra => if mem_mode (d_mode d) EB then n (d_mode d) else al d
      | Cl => al d end
    else al d.
  Lemma om_ext : forall L dim F G, (forall n, F n = G n) -> over_modes L dim F = over_modes L dim G.
  Proof using. clear. intros. apply sum_ext. intros. apply H. Qed.
  Lemma om_dim : forall L dim dim' F, (forall m, In m L -> dim m = dim' m) -> over_modes L dim F = over_modes L dim' F.
  Proof using. clear. intros L dim dim' F E. unfold over_modes. f_equal. f_equal. apply map_ext_in. exact E. Qed.
  Lemma om_nil : forall dim F, over_modes [] dim F = F (fun _ => 0).
  Proof using Rth. intros. unfold over_modes. cbn [map box]. rewrite (sum_single rO rI radd rmul rsub ropp Rth). reflexivity. Qed.
  Lemma om_scal_l : forall L dim F c, c * over_modes L dim F = over_modes L dim (fun n => c * F n).
  Proof using Rth. intros. unfold over_modes. symmetry. eapply sum_scal_l; eauto. Qed.
  Lemma om_scal_r : forall L dim F c, over_modes L dim F * c = over_modes L dim (fun n => F n * c).
  Proof using Rth. intros. unfold over_modes. symmetry. eapply sum_scal_r; eauto. Qed.
  Lemma om_swap : forall L1 L2 dim1 dim2 F, over_modes L1 dim1 (fun x => over_modes L2 dim2 (fun y => F x y)) = over_modes L2 dim2 (fun y => over_modes L1 dim1 (fun x => F x y)).
  Proof using Rth. intros. unfold over_modes. eapply sum_swap; eauto. Qed.

  Lemma NoDup_map_inj : forall {X Y} (g : X -> Y) L, (forall x y, g x = g y -> x = y) -> NoDup L -> NoDup (map g L).
  Proof using. clear. intros X Y g L I. induction 1 as [|x L H N IH]; simpl; constructor; auto. intros C. apply in_map_iff in C. destruct C as [y [E Hy]]. apply I in E. now subst. Qed.
  Lemma kwbw_NoDup : forall EK EB, NoDup EK -> NoDup EB -> NoDup (map kw EK ++ map bw EB).
  Proof using.
    clear. intros EK EB NK NB. apply NoDup_app_intro; [apply NoDup_map_inj; auto; intros x y H; unfold kw in H; congruence|apply NoDup_map_inj; auto; intros x y H; unfold bw in H; congruence|].
    intros d H C. apply in_map_iff in H. apply in_map_iff in C. destruct H as [m [<- _]]. destruct C as [m' [C _]]. unfold kw, bw in C. congruence.
  Qed.
  (** the contraction rule as sums over the photon numbers of modes *)
  Lemma rule_modes : forall a b EK EB al, wf a -> NoDup EK -> NoDup EB ->
    (forall d, In d (joins a b) <-> In d (map kw EK ++ map bw EB)) ->
    rule a b al = over_modes EK (fun m => cut_dim a b (kw m)) (fun k => over_modes EB (fun m => cut_dim a b (bw m)) (fun n =>
      amp a (sub true EK EB k n al) * amp b (sub false EK EB k n al))).
  Proof using Rth.
    intros a b EK EB al Wa NK NB J.
    assert (P : Permutation (joins a b) (map kw EK ++ map bw EB)) by (apply NoDup_Permutation; [now apply joins_NoDup|now apply kwbw_NoDup|exact J]).
    rewrite rule_nsum. rewrite (nsum_perm rO rI radd rmul rsub ropp Rth desc_eqb desc_eqb_eq (joins a b) (map kw EK ++ map bw EB) _ _ (joins_NoDup a b Wa)); [| |exact P].
    2:{ intros s t Hst. f_equal; apply amp_ext; intros d _; unfold ovr; now rewrite Hst. }
    rewrite (nsum_app rO rI radd rmul rsub ropp Rth desc_eqb).
    2:{ intros s t Hst. f_equal; apply amp_ext; intros d _; unfold ovr; now rewrite Hst. }
    unfold Tensor.nsum, over_modes. rewrite !map_map. apply sum_ext. intros i1 H1. apply sum_ext. intros i2 H2.
    apply box_length_in in H1. apply box_length_in in H2. rewrite map_length in H1, H2.
    assert (S1 : forall d, orelse (look desc_eqb (map kw EK) i1) (look desc_eqb (map bw EB) i2) d =
      if d_out d then match d_side d with Ket => if mem_mode (d_mode d) EK then Some (assign EK i1 (d_mode d)) else None
                                        | Bra => if mem_mode (d_mode d) EB then Some (assign EB i2 (d_mode d)) else None | Cl => None end else None).
    { intros d. unfold orelse. rewrite (look_kw kw (fun _ => eq_refl)), (look_kw bw (fun _ => eq_refl)), !look_assign by assumption.
      destruct d as [[m o] s]. unfold desc_eqb, kw, bw, d_mode, d_out, d_side; simpl. rewrite Z.eqb_refl. destruct o, s; simpl; destruct (mem_mode m EK), (mem_mode m EB); reflexivity. }
    f_equal; apply amp_ext; intros d _; unfold ovr, sub.
    - rewrite S1. destruct (d_out d); cbn [Bool.eqb]; [|reflexivity]. destruct (d_side d); [destruct (mem_mode _ EB)|destruct (mem_mode _ EK)|]; reflexivity.
    - rewrite S1. change (d_out (flip d)) with (negb (d_out d)). change (d_mode (flip d)) with (d_mode d). change (d_side (flip d)) with (d_side d).
      destruct (d_out d); cbn [Bool.eqb negb]; [reflexivity|]. destruct (d_side d); [destruct (mem_mode _ EB)|destruct (mem_mode _ EK)|]; reflexivity.
  Qed.
  (** ** the trace *)
  Definition pos_of (s : side) (ws : wires) (m : Z) : nat := hd 0 (indices (at_modes (filter (fun w => side_eqb (wside w) s) (output ws)) [m])).
  Lemma pos_ok : forall s ws m d0, distinct ws -> well_indexed ws -> In (m, true, s) (descs ws) ->
    pos_of s ws m < length ws /\ nth (pos_of s ws m) (shown ws) d0 = (m, true, s).
  Proof using.
    clear. intros s ws m d0 D WI H. unfold descs in H. apply in_map_iff in H. destruct H as [w [Dw Hw]].
    assert (F : forall v, In v (at_modes (filter (fun w => side_eqb (wside w) s) (output ws)) [m]) <-> In v ws /\ desc v = (m, true, s)).
    { intros v. unfold at_modes, output. rewrite !filter_In, side_eqb_eq. unfold mem_mode. cbn [existsb]. rewrite orb_false_r, Z.eqb_eq.
      unfold desc. split; [intros [[[H O] S] M]; split; [exact H|now rewrite S, M, O]|intros [H E]; injection E as <- -> <-; auto]. }
    assert (U : forall v, In v ws -> desc v = (m, true, s) -> index v = index w).
    { intros v Hv Ev. f_equal. unfold distinct, descs in D. clear - D Hv Ev Dw Hw. rewrite <- Dw in Ev. clear Dw. induction ws as [|x ws IH]; [destruct Hv|].
      simpl in D. inversion D as [|? ? N D']; subst. destruct Hv as [->|Hv], Hw as [->|Hw]; auto.
      - exfalso. apply N. rewrite Ev. now apply in_map.
      - exfalso. apply N. rewrite <- Ev. now apply in_map. }
    assert (E : pos_of s ws m = index w).
    { unfold pos_of, indices. set (l := sorted_wires _). assert (Hl : forall v, In v l <-> In v ws /\ desc v = (m, true, s)) by (intros v; unfold l; rewrite sorted_wires_in; apply F).
      destruct l as [|v l]; [exfalso; apply (proj2 (Hl w)); auto|]. cbn [map hd]. destruct (proj1 (Hl v) (or_introl eq_refl)) as [H1 H2]. now apply U. }
    rewrite E. pose proof (index_bound ws w WI Hw) as B. split; [exact B|].
    rewrite (nth_indep _ d0 (desc w)) by (now rewrite shown_length). rewrite shown_nth, (nth_index ws w w WI Hw). exact Dw.
  Qed.
  Lemma pos_inj : forall s t ws m m', distinct ws -> well_indexed ws -> In (m, true, s) (descs ws) -> In (m', true, t) (descs ws) -> pos_of s ws m = pos_of t ws m' -> m = m' /\ s = t.
  Proof using.
    clear. intros s t ws m m' D WI H H' E. destruct (pos_ok s ws m (m, true, s) D WI H) as [_ P]. destruct (pos_ok t ws m' (m, true, s) D WI H') as [_ P']. rewrite E in P. rewrite P in P'. injection P' as -> ->. auto.
  Qed.
  Lemma look_pos : forall (g : Z -> nat) L t m, length t = length L -> (forall x, In x L -> g m = g x -> m = x) -> look Nat.eqb (map g L) t (g m) = if mem_mode m L then Some (assign L t m) else None.
  Proof using.
    clear. intros g L t m H I. rewrite (look_map_inj Z.eqb Nat.eqb Z.eqb_eq Nat.eqb_eq g) by exact I. now apply look_assign.
  Qed.
  Lemma dm_on_ex : forall M c, dm_on M c -> forall d, In d (descs (cw c)) <-> exists m, In m M /\ (d = kw m \/ d = bw m).
  Proof using.
    clear. intros M c H d. rewrite (H d). destruct d as [[m o] s]. unfold kw, bw, d_mode, d_out, d_side. simpl. split.
    - intros [I [-> N]]. exists m. split; [exact I|]. destruct s; auto. congruence.
    - intros [m' [I [E|E]]]; injection E as -> -> ->; split; auto; split; auto; discriminate.
  Qed.
  Lemma trace_all : forall L c, wf c -> NoDup L -> L <> [] -> dm_on L c -> exists r,
    ArrayOps.trace rO radd (ArrayOps.mkA (carr c) 0) (map (pos_of Ket (cw c)) L) (map (pos_of Bra (cw c)) L) = Ok r /\ shape (ArrayOps.arr r) = []
    /\ at_ (ArrayOps.arr r) [] = over_modes L (fun m => Nat.min (wdim c (kw m)) (wdim c (bw m))) (fun n => amp c (fun d => n (d_mode d))).
  Proof using Rth.
    intros L c W ND NE HD'. pose proof (dm_on_ex L c HD') as HD. clear HD'. pose proof W as [D [WI [Q LE]]].
    assert (IK : forall m, In m L -> In (kw m) (descs (cw c))) by (intros m H; apply HD; eauto).
      assert (IB : forall m, In m L -> In (bw m) (descs (cw c))) by (intros m H; apply HD; eauto).
      set (z := map (pos_of Ket (cw c)) L). set (zc := map (pos_of Bra (cw c)) L).
      assert (PI : forall s t m m', In m L -> In m' L -> (s = Ket \/ s = Bra) -> (t = Ket \/ t = Bra) -> pos_of s (cw c) m = pos_of t (cw c) m' -> m = m' /\ s = t).
      { intros s t m m' Hm Hm' Hs Ht. apply pos_inj; auto; [destruct Hs as [-> | ->]|destruct Ht as [-> | ->]]; first [exact (IK _ Hm)|exact (IB _ Hm)|exact (IK _ Hm')|exact (IB _ Hm')]. }
      assert (NZ : NoDup (z ++ zc)).
      { assert (G : forall s, (s = Ket \/ s = Bra) -> NoDup (map (pos_of s (cw c)) L)).
        { intros s Hs. clear - ND PI Hs. induction ND as [|m L H N IH]; cbn [map]; constructor.
          - intros C. apply in_map_iff in C. destruct C as [x [E Hx]]. destruct (PI s s x m) as [-> _]; auto; [now right|now left].
          - apply IH. intros; apply PI; auto; now right. }
        apply NoDup_app_intro; [apply G; auto|apply G; auto|]. intros p Hp Hc. apply in_map_iff in Hp. apply in_map_iff in Hc.
        destruct Hp as [m [<- Hm]]. destruct Hc as [m' [E Hm']]. destruct (PI Bra Ket m' m) as [_ X]; auto. discriminate. }
      set (a := ArrayOps.mkA (carr c) 0).
      assert (CS : ArrayOps.core_shape a = shape (carr c)) by reflexivity.
      assert (ZB : forall i, In i (z ++ zc) -> i < length (ArrayOps.core_shape a)).
      { intros i Hi. rewrite CS, LE. apply in_app_or in Hi. destruct Hi as [Hi|Hi]; apply in_map_iff in Hi; destruct Hi as [m [<- Hm]]; [apply (pos_ok Ket (cw c) m (kw m))|apply (pos_ok Bra (cw c) m (kw m))]; auto; [now apply IK|now apply IB]. }
      assert (ZL : length z = length zc) by (unfold z, zc; now rewrite !map_length).
      assert (ZN : z <> []) by (unfold z; destruct L; [congruence|discriminate]).
      destruct (ArrayOps.trace_correct rO rI radd rmul rsub ropp Rth a z zc (Nat.le_0_l _) NZ ZB ZL ZN) as [r [E [BD [BS [CR [PR V]]]]]].
      assert (ALL : forall q, q < length (cw c) -> In q (z ++ zc)).
      { intros q Hq. set (d := nth q (shown (cw c)) (kw 0)). assert (Hd : In d (descs (cw c))) by (apply shown_In, nth_In; now rewrite shown_length).
        apply HD in Hd. destruct Hd as [m [Hm Hd]]. assert (X : forall p, p < length (cw c) -> nth p (shown (cw c)) (kw 0) = d -> p = q).
        { intros p Hp Ep. apply (proj1 (NoDup_nth (shown (cw c)) (kw 0)) (shown_NoDup _ D)); rewrite ?shown_length; auto. }
        apply in_or_app. destruct Hd as [Hd|Hd]; [left|right]; apply in_map_iff; exists m; (split; [|exact Hm]); apply X.
        - apply (pos_ok Ket (cw c) m (kw 0)); auto. now apply IK.
        - rewrite Hd. apply (pos_ok Ket (cw c) m (kw 0)); auto. now apply IK.
        - apply (pos_ok Bra (cw c) m (kw 0)); auto. now apply IB.
        - rewrite Hd. apply (pos_ok Bra (cw c) m (kw 0)); auto. now apply IB. }
      assert (RE : ArrayOps.other_axes (length (ArrayOps.core_shape a)) (z ++ zc) = []).
      { unfold ArrayOps.other_axes. rewrite CS, LE. destruct (filter _ _) as [|q t] eqn:X; [reflexivity|exfalso].
        assert (Hq : In q (filter (fun i => negb (nmem i (z ++ zc))) (seq 0 (length (cw c))))) by (rewrite X; now left).
        apply filter_In in Hq. destruct Hq as [Hq N]. apply in_seq in Hq. apply negb_true_iff in N.
        assert (Hz : In q (z ++ zc)) by (apply ALL; lia). apply nmem_In in Hz. congruence. }
      rewrite RE in V. rewrite RE in CR. specialize (V [] [] (or_introl eq_refl) (or_introl eq_refl)). cbn [app] in V.
      exists r. split; [exact E|]. split; [unfold ArrayOps.core_shape in CR; rewrite BD in CR; exact CR|]. rewrite V.
      assert (AD : forall s m, In (m, true, s) (descs (cw c)) -> ArrayOps.axis_dim a (pos_of s (cw c) m) = wdim c (m, true, s)).
      { intros s m H. destruct (pos_ok s (cw c) m (kw 0) D WI H) as [Pb Pn]. unfold ArrayOps.axis_dim, wdim. rewrite CS. rewrite <- Pn.
        rewrite (look_nth desc_eqb desc_eqb_eq) by (rewrite ?shown_length; auto; now apply shown_NoDup). reflexivity. }
      assert (DIM : map (fun p => Nat.min (ArrayOps.axis_dim a (fst p)) (ArrayOps.axis_dim a (snd p))) (combine z zc) = map (fun m => Nat.min (wdim c (kw m)) (wdim c (bw m))) L).
      { unfold z, zc. clear - AD IK IB. induction L as [|m L IH]; [reflexivity|]. cbn [map combine fst snd]. f_equal; [f_equal; apply AD; [apply IK|apply IB]; now left|]. apply IH; intros; [apply IK|apply IB]; now right. }
      unfold over_modes. rewrite DIM. apply sum_ext. intros t Ht. apply box_length_in in Ht. rewrite map_length in Ht.
      unfold amp. f_equal. unfold ArrayOps.place. rewrite CS, LE.
      apply nth_ext with (d := 0) (d' := (fun d => assign L t (d_mode d)) (kw 0)); [now rewrite !map_length, seq_length, shown_length|].
      intros q Hq. rewrite map_length, seq_length in Hq. rewrite (map_nth (fun d => assign L t (d_mode d)) (shown (cw c)) (kw 0) q).
      set (F := fun q => match look Nat.eqb [] [] q with Some v => v | None => _ end).
      rewrite (nth_indep _ 0 (F 0)) by (rewrite map_length, seq_length; exact Hq). rewrite map_nth, seq_nth by exact Hq. cbn [Nat.add]. unfold F. cbn [look].
      assert (Hz := ALL q Hq). apply in_app_or in Hz.
      destruct (in_dec Nat.eq_dec q z) as [Iz|Nz].
      + apply in_map_iff in Iz. destruct Iz as [m [Em Hm]]. rewrite <- Em. unfold z.
        rewrite look_pos; [|exact Ht|intros x Hx Ex; exact (proj1 (PI Ket Ket m x Hm Hx (or_introl eq_refl) (or_introl eq_refl) Ex))]. rewrite (proj2 (mem_In m L) Hm).
        rewrite (proj2 (pos_ok Ket (cw c) m (kw 0) D WI (IK m Hm))). reflexivity.
      + destruct Hz as [Hz|Hz]; [contradiction|]. rewrite (look_notin Nat.eqb Nat.eqb_eq) by exact Nz.
        apply in_map_iff in Hz. destruct Hz as [m [Em Hm]]. rewrite <- Em. unfold zc.
        rewrite look_pos; [|exact Ht|intros x Hx Ex; exact (proj1 (PI Bra Bra m x Hm Hx (or_intror eq_refl) (or_intror eq_refl) Ex))]. rewrite (proj2 (mem_In m L) Hm).
        rewrite (proj2 (pos_ok Bra (cw c) m (kw 0) D WI (IB m Hm))). reflexivity.
  Qed.
  Theorem trace_out_scalar : forall L c, wf c -> NoDup L -> dm_on L c ->
    trace_out L c = Ok (over_modes L (fun m => Nat.min (wdim c (kw m)) (wdim c (bw m))) (fun n => amp c (fun d => n (d_mode d)))).
  Proof using Rth.
    intros L c W ND HD'. pose proof (dm_on_ex L c HD') as HD. pose proof W as [D [WI [Q LE]]]. destruct L as [|m0 L0] eqn:EL.
    - rewrite om_nil. unfold trace_out. assert (E : cw c = []).
      { destruct (cw c) as [|w t] eqn:E; [reflexivity|]. destruct (proj1 (HD (desc w))) as [m [[] _]]. rewrite ?E. now left. }
      rewrite E. cbn [nonempty]. unfold amp. rewrite E. reflexivity.
    - rewrite <- EL in *. assert (IK : forall m, In m L -> In (kw m) (descs (cw c))) by (intros m H; apply HD; eauto).
      assert (IB : forall m, In m L -> In (bw m) (descs (cw c))) by (intros m H; apply HD; eauto).
      assert (NE : L <> []) by (rewrite EL; discriminate).
      set (z := map (pos_of Ket (cw c)) L). set (zc := map (pos_of Bra (cw c)) L).
      unfold trace_out. assert (NK : nonempty (ket (output (cw c))) = true /\ nonempty (bra (output (cw c))) = true).
      { assert (G : forall s, In (m0, true, s) (descs (cw c)) -> nonempty (filter (fun w => side_eqb (wside w) s) (output (cw c))) = true).
        { intros s H. unfold descs in H. apply in_map_iff in H. destruct H as [w [Dw Hw]]. unfold desc in Dw. injection Dw as _ Ow Sw.
          destruct (filter _ _) as [|x t] eqn:X; [|reflexivity]. assert (H : In w (filter (fun w => side_eqb (wside w) s) (output (cw c)))).
          { apply filter_In. rewrite side_eqb_eq. split; [apply filter_In; auto|exact Sw]. } rewrite X in H. destruct H. }
        split; [apply (G Ket), IK|apply (G Bra), IB]; rewrite EL; now left. }
      destruct NK as [NK NB]. rewrite NK, NB. cbn [negb orb].
      assert (FA : forallb (fun w => is_out w && mem_mode (mode w) L) (cw c) = true).
      { apply forallb_forall. intros w Hw. apply (in_map desc) in Hw. apply HD in Hw. destruct Hw as [m [Hm [E'|E']]]; unfold desc, kw, bw in E'; injection E' as -> -> _; apply mem_In in Hm; now rewrite Hm. }
      rewrite FA. cbn [negb]. change (map (fun m => hd 0 (indices (at_modes (ket (output (cw c))) [m]))) L) with z.
      change (map (fun m => hd 0 (indices (at_modes (bra (output (cw c))) [m]))) L) with zc. destruct (trace_all L c W ND NE HD') as [r [E [_ V]]]. fold z zc in E. rewrite E. cbn [bind]. rewrite V, EL. reflexivity.
  Qed.
  (** ** wires *)
  Definition fresh_for (f : wire -> nat) (a b : comp) : Prop := distinct_ids (cw a) (with_ids f (cw b)).
  Lemma dual_descs : forall g (c : comp) d, wf c -> In d (descs (cw (dual g c))) <-> In (flip d) (descs (cw c)).
  Proof using.
    clear. intros g c d [D _]. destruct (C05_dual_wires g (cw c) D) as [P _]. cbn [cw comp_dual]. split; intros H.
    - apply (Permutation_in _ P) in H. apply in_map_iff in H. destruct H as [e [<- H]]. now rewrite flip_flip.
    - apply (Permutation_in _ (Permutation_sym P)). rewrite <- (flip_flip d). now apply in_map.
  Qed.
  Lemma window_modes : forall a b, (forall d, In d (descs b) -> exists d', In d' (descs a) /\ d_mode d' = d_mode d) -> window a -> window b.
  Proof using.
    clear. intros a b H W x y Hx Hy. destruct (H (desc x) (in_map desc _ _ Hx)) as [d [Hd Ed]]. destruct (H (desc y) (in_map desc _ _ Hy)) as [e [He Ee]].
    unfold descs in Hd, He. apply in_map_iff in Hd. apply in_map_iff in He. destruct Hd as [u [<- Hu]]. destruct He as [v [<- Hv]].
    unfold desc, d_mode in Ed, Ee. simpl in Ed, Ee. rewrite <- Ed, <- Ee. now apply W.
  Qed.
  Lemma descs_app_in : forall a b d, In d (descs (a ++ b)) <-> In d (descs a) \/ In d (descs b).
  Proof using. clear. intros. unfold descs. now rewrite map_app, in_app_iff. Qed.
  Lemma same_repr_disj : forall a b, (forall d, In d (descs a) -> In d (descs b) -> False) -> same_repr a b.
  Proof using. clear. intros a b H x y Hx Hy E. exfalso. apply (H (desc x)); [now apply in_map|rewrite E; now apply in_map]. Qed.
  Lemma contract_step : forall f a b EK EB, wf a -> wf b -> same_repr (cw a) (cw b) -> fresh_for f a b -> window (cw a ++ cw b) ->
    (forall d, ~ collision (cw a) (cw b) d) -> NoDup EK -> NoDup EB ->
    (forall d, In d (descs (cw a)) /\ d_out d = true /\ In (flip d) (descs (cw b)) <-> d_out d = true /\ ((d_side d = Ket /\ In (d_mode d) EK) \/ (d_side d = Bra /\ In (d_mode d) EB))) ->
    exists c, contract f a b = Ok c /\ wf c /\ (forall d, In d (descs (cw c)) <-> survives (cw a) (cw b) d)
      /\ (forall d, In d (descs (cw c)) -> wdim c d = if d_out d then (if has d (cw b) then wdim b d else wdim a d) else (if has d (cw a) then wdim a d else wdim b d))
      /\ forall al, amp c al = over_modes EK (fun m => cut_dim a b (kw m)) (fun k => over_modes EB (fun m => cut_dim a b (bw m)) (fun n =>
           amp a (sub true EK EB k n al) * amp b (sub false EK EB k n al))).
  Proof using Rth.
    intros f a b EK EB Wa Wb SR FR WW NC NK NB J.
    destruct (C07_contract rO rI radd rmul rsub ropp Rth f a b Wa Wb SR FR WW) as [[c [E [P _]]]|[_ [d C]]]; [|now destruct (NC d)].
    exists c. split; [exact E|]. pose proof P as [Wc [_ [S [_ A]]]]. split; [exact Wc|]. split; [exact S|]. split; [intros d; now apply (product_dim rO radd rmul)|].
    intros al. rewrite A. apply rule_modes; auto. intros d. rewrite joins_in, J, in_app_iff, !in_map_iff. destruct d as [[m o] s]. unfold kw, bw, d_mode, d_out, d_side; simpl. split.
    - intros [-> [[-> H]|[-> H]]]; [left|right]; exists m; auto.
    - intros [[x [E' H]]|[x [E' H]]]; injection E' as -> <- <-; auto.
  Qed.
  Lemma amp_same : forall (c : comp) al be, (forall d, In d (descs (cw c)) -> al d = be d) -> amp c al = amp c be.
  Proof using. clear. intros. now apply amp_ext. Qed.
  Lemma has_iff : forall d ws b, (In d (descs ws) <-> b = true) -> has d ws = b.
  Proof using. clear. intros d ws b H. destruct b; [apply has_true; tauto|]. apply has_false. intros C. apply H in C. discriminate. Qed.

  Lemma ne_true : forall s o ws m, In (m, o, s) (descs ws) -> nonempty (filter (sel s o) ws) = true.
  Proof using.
    clear. intros s o ws m H. unfold descs in H. apply in_map_iff in H. destruct H as [w [E H]]. unfold desc in E. injection E as _ Eo Es.
    destruct (filter (sel s o) ws) as [|x t] eqn:X; [|reflexivity]. assert (I : In w (filter (sel s o) ws)) by (apply in_sel; auto). rewrite X in I. destruct I.
  Qed.
  Lemma ne_false : forall (P : wire -> bool) ws, (forall w, In w ws -> P w = true -> False) -> nonempty (filter P ws) = false.
  Proof using. clear. intros P ws H. destruct (filter P ws) as [|x t] eqn:X; [reflexivity|exfalso]. assert (I : In x (filter P ws)) by (rewrite X; now left). apply filter_In in I. destruct I. eauto. Qed.
  Lemma modes_sel : forall s o ws m, In m (modes (filter (sel s o) ws)) <-> In (m, o, s) (descs ws).
  Proof using.
    clear. intros s o ws m. unfold modes, descs. rewrite !in_map_iff. setoid_rewrite in_sel. split.
    - intros [w [E [H [S O]]]]. exists w. unfold desc. split; [congruence|exact H].
    - intros [w [E H]]. unfold desc in E. injection E as E1 E2 E3. exists w. auto.
  Qed.
  Lemma same_modes_iff : forall a b, same_modes a b = true <-> forall m, In m a <-> In m b.
  Proof using.
    clear. intros a b. unfold same_modes. rewrite andb_true_iff, !forallb_forall. setoid_rewrite mem_In. split; [intros [H1 H2] m; split; auto|intros H; split; intros m Hm; now apply H].
  Qed.
  Lemma validate_ket : forall E c, ket_on E c -> E <> [] -> validate (cw c) = KetLike.
  Proof using.
    clear. intros E c H NE. destruct E as [|m E]; [congruence|]. unfold validate. rewrite output_ket_sel, input_ket_sel.
    rewrite (ne_true Ket true (cw c) m) by (apply H; cbn; auto).
    rewrite (ne_false (sel Ket false)). 2:{ intros w Hw S. apply (in_map desc) in Hw. apply H in Hw. unfold sel in S. unfold desc, d_out in Hw. cbn in Hw. destruct Hw as [_ [O _]]. rewrite O in S. cbn in S. now rewrite andb_false_r in S. }
    unfold bra. rewrite (ne_false is_brab); [reflexivity|]. intros w Hw S. apply (in_map desc) in Hw. apply H in Hw. unfold is_brab in S. apply side_eqb_eq in S. unfold desc, d_side in Hw. cbn in Hw. rewrite S in Hw. destruct Hw as [_ [_ O]]. discriminate.
  Qed.
  Lemma validate_dm : forall E c, dm_on E c -> E <> [] -> validate (cw c) = DMLike.
  Proof using.
    clear. intros E c H NE. destruct E as [|m E]; [congruence|]. unfold validate. rewrite output_ket_sel, input_ket_sel, output_bra_sel, input_bra_sel.
    assert (NI : forall s, nonempty (filter (sel s false) (cw c)) = false).
    { intros s. apply ne_false. intros w Hw S. apply (in_map desc) in Hw. apply H in Hw. unfold sel in S. unfold desc, d_out in Hw. cbn in Hw. destruct Hw as [_ [O _]]. rewrite O in S. cbn in S. now rewrite andb_false_r in S. }
    rewrite (ne_true Ket true (cw c) m) by (apply H; cbn; split; [now left|split; [reflexivity|discriminate]]).
    rewrite (ne_true Bra true (cw c) m) by (apply H; cbn; split; [now left|split; [reflexivity|discriminate]]).
    rewrite !NI.
    assert (B : nonempty (bra (cw c)) = true).
    { assert (X : In (m, true, Bra) (descs (cw c))) by (apply H; cbn; split; [now left|split; [reflexivity|discriminate]]).
      unfold descs in X. apply in_map_iff in X. destruct X as [w [Ew Hw]]. unfold desc in Ew. injection Ew as _ _ Es. unfold bra.
      destruct (filter is_brab (cw c)) as [|x t] eqn:X; [|reflexivity]. assert (I : In w (filter is_brab (cw c))) by (apply filter_In; split; [exact Hw|unfold is_brab; now apply side_eqb_eq]). rewrite X in I. destruct I. }
    rewrite B. cbn [negb andb].
    replace (same_modes _ _) with true; [reflexivity|]. symmetry. apply same_modes_iff. intros x. rewrite !modes_sel, !(H _). cbn. intuition congruence.
  Qed.
  Lemma validate_unitary : forall E c, unitary_on E c -> E <> [] -> validate (cw c) = UnitaryLike.
  Proof using.
    clear. intros E c H NE. destruct E as [|m E]; [congruence|]. unfold validate. rewrite output_ket_sel, input_ket_sel, output_bra_sel, input_bra_sel.
    rewrite (ne_true Ket true (cw c) m) by (apply H; cbn; auto). rewrite (ne_true Ket false (cw c) m) by (apply H; cbn; auto).
    assert (B : nonempty (bra (cw c)) = false).
    { unfold bra. apply ne_false. intros w Hw S. apply (in_map desc) in Hw. apply H in Hw. unfold is_brab in S. apply side_eqb_eq in S. unfold desc, d_side in Hw. cbn in Hw. rewrite S in Hw. destruct Hw as [_ O]. discriminate. }
    rewrite B. rewrite (ne_false (sel Bra true)).
    2:{ intros w Hw S. apply (in_map desc) in Hw. apply H in Hw. unfold sel in S. unfold desc, d_side in Hw. cbn in Hw. destruct Hw as [_ O]. rewrite O in S. discriminate. }
    cbn [negb andb]. replace (same_modes _ _) with true; [reflexivity|]. symmetry. apply same_modes_iff. intros x. rewrite !modes_sel, !(H _). cbn. intuition congruence.
  Qed.
  Lemma in_modes : forall ws m, In m (modes ws) <-> exists d, In d (descs ws) /\ d_mode d = m.
  Proof using.
    clear. intros ws m. unfold modes, descs. rewrite in_map_iff. split; [intros [w [E H]]; exists (desc w); split; [now apply in_map|exact E]|].
    intros [d [H E]]. apply in_map_iff in H. destruct H as [w [<- H]]. exists w. split; [exact E|exact H].
  Qed.
  Lemma modes_ket : forall M c, ket_on M c -> forall m, In m (modes (cw c)) <-> In m M.
  Proof using. clear. intros M c H m. rewrite in_modes. split; [intros [d [Hd <-]]; now apply H in Hd|intros I; exists (kw m); split; [apply H; cbn; auto|reflexivity]]. Qed.
  Lemma modes_dm : forall M c, dm_on M c -> forall m, In m (modes (cw c)) <-> In m M.
  Proof using. clear. intros M c H m. rewrite in_modes. split; [intros [d [Hd <-]]; now apply H in Hd|intros I; exists (kw m); split; [apply H; cbn; split; [exact I|split; [reflexivity|discriminate]]|reflexivity]]. Qed.
  Lemma modes_unitary : forall M c, unitary_on M c -> forall m, In m (modes (cw c)) <-> In m M.
  Proof using. clear. intros M c H m. rewrite in_modes. split; [intros [d [Hd <-]]; now apply H in Hd|intros I; exists (kw m); split; [apply H; cbn; auto|reflexivity]]. Qed.
  Lemma left_in : forall M E a b, (forall m, In m (modes a) <-> In m M) -> (forall m, In m (modes b) <-> In m E) ->
    NoDup (left_modes a b) /\ forall m, In m (left_modes a b) <-> In m M /\ ~ In m E.
  Proof using.
    clear. intros M E a b Ha Hb. split; [apply NoDup_nodup|]. intros m. unfold left_modes. rewrite nodup_In, filter_In, Ha, negb_true_iff.
    rewrite <- (Hb m), <- (mem_In m (modes b)). destruct (mem_mode m (modes b)); intuition congruence.
  Qed.
  Lemma subset_true : forall M E a b, (forall m, In m (modes a) <-> In m M) -> (forall m, In m (modes b) <-> In m E) -> incl E M ->
    forallb (fun m => mem_mode m (modes a)) (modes b) = true.
  Proof using. clear. intros M E a b Ha Hb I. apply forallb_forall. intros m Hm. apply mem_In, Ha, I, Hb, Hm. Qed.
  (** ** the six cases *)
  Hypothesis cj0 : cj rO = rO.
  Hypothesis cjadd : forall x y, cj (radd x y) = radd (cj x) (cj y).
  Hypothesis cjmul : forall x y, cj (x * y) = cj x * cj y.
  Hypothesis cjcj : forall x, cj (cj x) = x.
  Lemma om_cj : forall L dim F, cj (over_modes L dim F) = over_modes L dim (fun n => cj (F n)).
  Proof using cj0 cjadd. intros L dim F. unfold over_modes. induction (box (map dim L)) as [|x l IH]; simpl; [exact cj0|]. now rewrite cjadd, IH. Qed.
  Lemma om_perm : forall L L' dim F, NoDup L -> Permutation L L' -> (forall n n', (forall m, n m = n' m) -> F n = F n') -> over_modes L dim F = over_modes L' dim F.
  Proof using Rth.
    intros L L' dim F ND P X. unfold over_modes.
    apply (nsum_perm rO rI radd rmul rsub ropp Rth Z.eqb Z.eqb_eq L L' dim (fun s => F (fun m => match s m with Some v => v | None => 0 end)) ND); [|exact P].
    intros s t H. apply X. intros m. now rewrite H.
  Qed.
  Lemma om_app : forall L E dim F, (forall m, In m L -> ~ In m E) -> (forall n n', (forall m, n m = n' m) -> F n = F n') ->
    over_modes (L ++ E) dim F = over_modes L dim (fun r => over_modes E dim (fun n => F (pick E n r))).
  Proof using Rth.
    intros L E dim F DJ X. unfold over_modes. rewrite map_app, (sum_box_app rO rI radd rmul rsub ropp Rth). apply sum_ext. intros i1 H1. apply sum_ext. intros i2 H2.
    apply X. intros m. apply box_length_in in H1. apply box_length_in in H2. rewrite map_length in H1, H2. unfold assign at 1. rewrite look_app by (now symmetry).
    rewrite !look_assign by assumption. unfold pick. destruct (mem_mode m L) eqn:ML.
    - apply mem_In in ML. destruct (mem_mode m E) eqn:ME; [apply mem_In in ME; now destruct (DJ m)|reflexivity].
    - destruct (mem_mode m E); [reflexivity|]. unfold assign. rewrite look_assign by assumption. now rewrite ML.
  Qed.
  Ltac wfacts := assert (true = true) by reflexivity; assert (false = true -> False) by discriminate; assert (true = false -> False) by discriminate; assert (false = false) by reflexivity;
    assert (Ket = Ket) by reflexivity; assert (Bra = Bra) by reflexivity; assert (Cl = Cl) by reflexivity; assert (Ket = Bra -> False) by discriminate; assert (Bra = Ket -> False) by discriminate;
    assert (Cl = Ket -> False) by discriminate; assert (Cl = Bra -> False) by discriminate; assert (Ket = Cl -> False) by discriminate; assert (Bra = Cl -> False) by discriminate.
  Ltac wcases d := let m := fresh "m" in let o := fresh "o" in let s := fresh "s" in
    destruct d as [[m o] s]; unfold flip, swap_side, kw, bw, ki, d_mode, d_out, d_side in *; cbn [fst snd negb Bool.eqb] in *; wfacts.
  Definition kdim (c : comp) (m : Z) : nat := wdim c (kw m).
  Definition bdim (c : comp) (m : Z) : nat := wdim c (bw m).
  Definition idim (c : comp) (m : Z) : nat := wdim c (ki m).

  Section Case.
    Variables (M E : list Z) (st op : comp).
    Hypothesis Ws : wf st. Hypothesis Wo : wf op. Hypothesis Win : window (cw st).
    Hypothesis NE : NoDup E. Hypothesis NN : E <> []. Hypothesis EM : incl E M.
    Let L := left_modes (cw st) (cw op).

    Section KetState.
      Hypothesis SK : ket_on M st.
      Lemma win_op_k : (forall m, In m (modes (cw op)) <-> In m E) -> window (cw op).
      Proof using EM SK Win.
        intros H. apply (window_modes (cw st)); [|exact Win]. intros d Hd. exists (kw (d_mode d)). split; [|reflexivity]. apply SK. cbn. split; auto. apply EM, H, in_modes. eauto.
      Qed.
      (** the density matrix of the ket, the projector on a ket *)
      Theorem ket_ket : forall f1 f2 g1 g2, ket_on E op -> fresh_for f1 st (dual g1 op) -> (forall r, contract f1 st (dual g1 op) = Ok r -> fresh_for f2 r (adj g2 r)) ->
        ket_expectation f1 f2 g1 g2 st op = Ok (tr_product E L (fun m => Nat.min (kdim st m) (kdim op m)) (fun m => Nat.min (kdim st m) (kdim op m)) (kdim st)
          (fun k n => ket_amp st k * cj (ket_amp st n)) (fun n k => ket_amp op n * cj (ket_amp op k))).
      Proof using Rth cj0 cjadd cjmul cjcj Ws Wo Win NE NN EM SK.
        intros f1 f2 g1 g2 OK F1 F2. pose proof (modes_ket M st SK) as MS. pose proof (modes_ket E op OK) as MO.
        destruct (left_in M E (cw st) (cw op) MS MO) as [NL IL]. fold L in NL, IL. assert (Wop := win_op_k MO).
        unfold ket_expectation. rewrite (validate_ket E op OK NN), (subset_true M E (cw st) (cw op) MS MO EM). cbn [negb]. fold L.
        pose proof (wf_dual cj g1 op Wo Wop) as Wd. assert (ID : forall d, In d (descs (cw (dual g1 op))) <-> In (d_mode d) E /\ d_out d = false /\ d_side d = Ket).
        { intros d. rewrite dual_descs by assumption. rewrite (OK (flip d)). wcases d. destruct o; tauto. }
        assert (X : forall m, In m E \/ ~ In m E) by (intros m; destruct (in_dec Z.eq_dec m E); auto).
        destruct (contract_step f1 st (dual g1 op) E [] Ws Wd) as [r [Er [Wr [Sr [Dr Ar]]]]]; auto.
        { apply same_repr_disj. intros d. rewrite (SK d), (ID d). wcases d. destruct o; tauto. }
        { apply (window_modes (cw st)); [|exact Win]. intros d. rewrite descs_app_in, (SK d), (ID d). intros H. exists (kw (d_mode d)). rewrite (SK _). split; [|reflexivity].
          specialize (EM (d_mode d)). cbn. tauto. }
        { intros d. pose proof (SK d). pose proof (ID d). unfold collision. wcases d. destruct o; tauto. }
        { constructor. }
        { intros d. pose proof (SK d). pose proof (ID (flip d)). specialize (EM (d_mode d)). wcases d. cbn [In]. destruct o; tauto. }
        assert (IR : forall d, In d (descs (cw r)) <-> In (d_mode d) L /\ d_out d = true /\ d_side d = Ket).
        { intros d. rewrite Sr, IL. pose proof (SK d). pose proof (ID d). pose proof (ID (flip d)). pose proof (SK (flip d)). specialize (X (d_mode d)). unfold survives. specialize (EM (d_mode d)). wcases d. destruct o; [|tauto]. tauto. }
        rewrite Er. cbn [bind]. assert (Wir : window (cw r)).
        { apply (window_modes (cw st)); [|exact Win]. intros d Hd. apply IR in Hd. exists (kw (d_mode d)). rewrite (SK _). split; [|reflexivity]. destruct Hd as [Hd _]. apply IL in Hd. cbn. tauto. }
        pose proof (wf_adjoint cj g2 r Wr) as Wa.
        assert (IA : forall d, In d (descs (cw (adj g2 r))) <-> In (d_mode d) L /\ d_out d = true /\ d_side d = Bra).
        { intros d. rewrite (adj_descs cj), (IR (swap_side d)). wcases d. destruct s; tauto. }
        destruct (contract_step f2 r (adj g2 r) [] [] Wr Wa) as [c [Ec [Wc [Sc [Dc Ac]]]]]; auto; try apply NoDup_nil.
        { apply same_repr_disj. intros d. rewrite (IR d), (IA d). wcases d. destruct s; tauto. }
        { apply (window_modes (cw r)); [|exact Wir]. intros d. rewrite descs_app_in, (IA d). intros [H|H]; [now exists d|]. exists (kw (d_mode d)). rewrite (IR _). split; [|reflexivity]. cbn. tauto. }
        { intros d. pose proof (IR d). pose proof (IA d). unfold collision. wcases d. destruct o, s; tauto. }
        { intros d. pose proof (IR d). pose proof (IA (flip d)). wcases d. cbn [In]. destruct o, s; tauto. }
        assert (IC : dm_on L c).
        { intros d. rewrite Sc. unfold survives. pose proof (IR d). pose proof (IA d). pose proof (IA (flip d)). pose proof (IR (flip d)). wcases d. destruct o, s; tauto. }
        rewrite Ec. cbn [bind]. rewrite (trace_out_scalar L c Wc NL IC). f_equal. unfold tr_product.
        rewrite (om_dim L _ (kdim st)).
        2:{ intros m Hm. assert (Kr : In (kw m) (descs (cw r))) by (apply IR; cbn; auto).
            assert (Ka : In (bw m) (descs (cw (adj g2 r)))) by (apply IA; cbn; auto).
            rewrite !Dc by (apply IC; cbn; split; [exact Hm|split; [reflexivity|discriminate]]). cbn [kw bw d_out fst snd].
            rewrite (proj2 (has_true _ _) Ka). rewrite (has_iff (kw m) _ false). 2:{ rewrite (IA (kw m)). cbn. intuition congruence. }
            fold (kw m) (bw m). rewrite (adjoint_wdim cj g2 r (bw m) Wr Wir Kr). change (swap_side (bw m)) with (kw m). rewrite Nat.min_id.
            rewrite Dr by exact Kr. cbn [kw d_out fst snd]. rewrite (has_iff (m, true, Ket) _ false); [reflexivity|]. rewrite (ID (m, true, Ket)). cbn. intuition congruence. }
        apply om_ext. intros t. rewrite Ac, !om_nil.
        set (Am := over_modes E (fun m => Nat.min (kdim st m) (kdim op m)) (fun k => ket_amp st (pick E k t) * cj (ket_amp op k))).
        assert (AR : forall al, (forall d, In d (descs (cw r)) -> al d = t (d_mode d)) -> amp r al = Am).
        { intros al Hal. rewrite Ar. unfold Am. rewrite (om_dim E _ (fun m => Nat.min (kdim st m) (kdim op m))).
          2:{ intros m Hm. unfold cut_dim. rewrite (dual_wdim cj g1 op _ Wo Wop); [reflexivity|]. rewrite flip_flip. apply OK. cbn. auto. }
          apply om_ext. intros k. rewrite om_nil. f_equal.
          - apply amp_same. intros d Hd. pose proof Hd as Hd'. apply SK in Hd. destruct Hd as [Hm [Ho Hs]]. unfold sub, pick. rewrite Ho, Hs. cbn [Bool.eqb].
            destruct (mem_mode (d_mode d) E) eqn:Me; [reflexivity|]. apply Hal, IR. split; [|auto]. apply IL. split; [exact Hm|]. intros C. apply mem_In in C. congruence.
          - rewrite (C05_component_dual cj) by assumption. f_equal. apply amp_same. intros d Hd. apply OK in Hd. destruct Hd as [Hm [Ho Hs]]. unfold sub.
            change (d_out (flip d)) with (negb (d_out d)). change (d_side (flip d)) with (d_side d). change (d_mode (flip d)) with (d_mode d). rewrite Ho, Hs. cbn [negb Bool.eqb].
            apply mem_In in Hm. now rewrite Hm. }
        rewrite (AR (sub true [] [] _ _ _)).
        2:{ intros d Hd. apply IR in Hd. destruct Hd as [_ [Ho Hs]]. unfold sub. rewrite Ho, Hs. reflexivity. }
        rewrite (C05_component_adjoint cj) by assumption. rewrite (AR (fun d => _)).
        2:{ intros d Hd. apply IR in Hd. destruct Hd as [_ [Ho Hs]]. unfold sub. change (d_out (swap_side d)) with (d_out d). rewrite Ho. reflexivity. }
        unfold Am at 2. rewrite om_cj, om_scal_l. apply om_ext. intros n. unfold Am. rewrite om_scal_r. apply om_ext. intros k. rewrite cjmul, cjcj. ring.
      Qed.
      (** a density-matrix-like operator: the conjugate transpose of its matrix is used *)
      Theorem ket_dm : forall f1 f2 g1 g2, dm_on E op -> fresh_for f1 st (dual g1 op) -> (forall r, contract f1 st (dual g1 op) = Ok r -> fresh_for f2 (adj g2 st) r) ->
        ket_expectation f1 f2 g1 g2 st op = Ok (tr_product E L (fun m => Nat.min (kdim st m) (bdim op m)) (fun m => Nat.min (kdim st m) (kdim op m)) (kdim st)
          (fun k n => ket_amp st k * cj (ket_amp st n)) (fun n k => cj (dm_elem op k n))).
      Proof using Rth Ws Wo Win NE NN EM SK.
        intros f1 f2 g1 g2 OK F1 F2. pose proof (modes_ket M st SK) as MS. pose proof (modes_dm E op OK) as MO.
        destruct (left_in M E (cw st) (cw op) MS MO) as [NL IL]. fold L in NL, IL. assert (Wop := win_op_k MO).
        unfold ket_expectation. rewrite (validate_dm E op OK NN), (subset_true M E (cw st) (cw op) MS MO EM). cbn [negb]. fold L.
        pose proof (wf_dual cj g1 op Wo Wop) as Wd. assert (ID : forall d, In d (descs (cw (dual g1 op))) <-> In (d_mode d) E /\ d_out d = false /\ d_side d <> Cl).
        { intros d. rewrite dual_descs by assumption. pose proof (OK (flip d)). wcases d. destruct o; tauto. }
        assert (X : forall m, In m E \/ ~ In m E) by (intros m; destruct (in_dec Z.eq_dec m E); auto).
        destruct (contract_step f1 st (dual g1 op) E [] Ws Wd) as [r [Er [Wr [Sr [Dr Ar]]]]]; auto; try apply NoDup_nil.
        { apply same_repr_disj. intros d. rewrite (SK d), (ID d). wcases d. destruct o; tauto. }
        { apply (window_modes (cw st)); [|exact Win]. intros d. rewrite descs_app_in, (SK d), (ID d). intros H. exists (kw (d_mode d)). rewrite (SK _). split; [|reflexivity].
          specialize (EM (d_mode d)). cbn. tauto. }
        { intros d. pose proof (SK d). pose proof (ID d). unfold collision. wcases d. destruct o; tauto. }
        { intros d. pose proof (SK d). pose proof (ID (flip d)). specialize (EM (d_mode d)). wcases d. cbn [In]. destruct o, s; tauto. }
        assert (IR : forall d, In d (descs (cw r)) <-> (In (d_mode d) L /\ d_out d = true /\ d_side d = Ket) \/ (In (d_mode d) E /\ d_out d = false /\ d_side d = Bra)).
        { intros d. rewrite Sr, IL. pose proof (SK d). pose proof (ID d). pose proof (ID (flip d)). pose proof (SK (flip d)). specialize (X (d_mode d)). unfold survives. specialize (EM (d_mode d)). wcases d. destruct o, s; tauto. }
        rewrite Er. cbn [bind]. assert (Wir : window (cw r)).
        { apply (window_modes (cw st)); [|exact Win]. intros d Hd. apply IR in Hd. exists (kw (d_mode d)). rewrite (SK _). split; [|reflexivity]. specialize (IL (d_mode d)). specialize (EM (d_mode d)). cbn. tauto. }
        pose proof (wf_adjoint cj g2 st Ws) as Wa.
        assert (IA : forall d, In d (descs (cw (adj g2 st))) <-> In (d_mode d) M /\ d_out d = true /\ d_side d = Bra).
        { intros d. rewrite (adj_descs cj), (SK (swap_side d)). wcases d. destruct s; tauto. }
        destruct (contract_step f2 (adj g2 st) r [] E Wa Wr) as [c [Ec [Wc [Sc [Dc Ac]]]]]; auto; try apply NoDup_nil.
        { apply same_repr_disj. intros d. rewrite (IR d), (IA d). wcases d. destruct o, s; tauto. }
        { apply (window_modes (cw st)); [|exact Win]. intros d. rewrite descs_app_in, (IA d), (IR d). intros H. exists (kw (d_mode d)). rewrite (SK _). split; [|reflexivity].
          specialize (IL (d_mode d)). specialize (EM (d_mode d)). cbn. tauto. }
        { intros d. pose proof (IR d). pose proof (IA d). unfold collision. wcases d. destruct o, s; tauto. }
        { intros d. pose proof (IR (flip d)). pose proof (IA d). specialize (EM (d_mode d)). wcases d. cbn [In]. destruct o, s; tauto. }
        assert (IC : dm_on L c).
        { intros d. rewrite Sc. unfold survives. pose proof (IR d). pose proof (IA d). pose proof (IA (flip d)). pose proof (IR (flip d)). specialize (IL (d_mode d)). specialize (X (d_mode d)). specialize (EM (d_mode d)). wcases d. destruct o, s; tauto. }
        rewrite Ec. cbn [bind]. rewrite (trace_out_scalar L c Wc NL IC). f_equal. unfold tr_product.
        rewrite (om_dim L _ (kdim st)).
        2:{ intros m Hm. assert (Kr : In (kw m) (descs (cw r))) by (apply IR; cbn; auto).
            assert (Ks : In (kw m) (descs (cw st))) by (apply SK; cbn; apply IL in Hm; tauto).
            rewrite !Dc by (apply IC; cbn; split; [exact Hm|split; [reflexivity|discriminate]]). cbn [kw bw d_out fst snd]. fold (kw m) (bw m).
            rewrite (proj2 (has_true _ _) Kr). rewrite (has_iff (bw m) _ false). 2:{ rewrite (IR (bw m)). cbn. intuition congruence. }
            rewrite (adjoint_wdim cj g2 st (bw m) Ws Win Ks). change (swap_side (bw m)) with (kw m).
            rewrite Dr by exact Kr. cbn [kw d_out fst snd]. rewrite (has_iff (m, true, Ket) _ false); [apply Nat.min_id|]. rewrite (ID (m, true, Ket)). cbn. intuition congruence. }
        apply om_ext. intros t. rewrite Ac, om_nil.
        rewrite (om_dim E _ (fun m => Nat.min (kdim st m) (bdim op m))).
        2:{ intros m Hm. assert (Kr : In (flip (bw m)) (descs (cw r))) by (apply IR; cbn; auto).
            unfold cut_dim. rewrite (adjoint_wdim cj g2 st (bw m) Ws Win) by (apply SK; cbn; auto). f_equal.
            rewrite Dr by exact Kr. cbn [flip bw d_out d_mode d_side fst snd negb]. rewrite (has_iff (m, false, Bra) _ false). 2:{ rewrite (SK (m, false, Bra)). cbn. intuition congruence. }
            rewrite (dual_wdim cj g1 op _ Wo Wop); [reflexivity|]. apply OK. cbn. split; [exact Hm|split; [reflexivity|discriminate]]. }
        apply om_ext. intros n. rewrite (C05_component_adjoint cj) by assumption. rewrite Ar, om_scal_l.
        rewrite (om_dim E _ (fun m => Nat.min (kdim st m) (kdim op m))).
        2:{ intros m Hm. unfold cut_dim. rewrite (dual_wdim cj g1 op _ Wo Wop); [reflexivity|]. rewrite flip_flip. apply OK. cbn. split; [exact Hm|split; [reflexivity|discriminate]]. }
        apply om_ext. intros k. rewrite om_nil. rewrite (C05_component_dual cj) by assumption.
        replace (amp st (fun d => sub true [] E _ n _ (swap_side d))) with (ket_amp st (pick E n t)).
        2:{ apply amp_same. intros d Hd. apply SK in Hd. destruct Hd as [Hm [Ho Hs]]. unfold sub, pick. change (d_out (swap_side d)) with (d_out d). change (d_mode (swap_side d)) with (d_mode d).
            replace (d_side (swap_side d)) with Bra by (destruct d as [[? ?] ?]; cbn in Hs |- *; now rewrite Hs). rewrite Ho. reflexivity. }
        replace (amp st (sub true E [] k _ _)) with (ket_amp st (pick E k t)).
        2:{ apply amp_same. intros d Hd. apply SK in Hd. destruct Hd as [Hm [Ho Hs]]. unfold sub, pick. rewrite Ho, Hs. reflexivity. }
        replace (amp op (fun d => sub false E [] k _ _ (flip d))) with (dm_elem op k n); [ring|].
        apply amp_same. intros d Hd. apply OK in Hd. destruct Hd as [Hm [Ho Hs]]. unfold sub.
        change (d_out (flip d)) with (negb (d_out d)). change (d_side (flip d)) with (d_side d). change (d_mode (flip d)) with (d_mode d). rewrite Ho. cbn [negb Bool.eqb].
        apply mem_In in Hm. rewrite Hm. destruct (d_side d); [reflexivity|reflexivity|congruence].
      Qed.

      (** an operator with inputs and outputs: <psi|U|psi> *)
      Theorem ket_unitary : forall f1 f2 g1 g2, unitary_on E op -> same_repr (cw st) (cw op) -> fresh_for f1 st op -> (forall r, contract f1 st op = Ok r -> fresh_for f2 r (dual g2 st)) ->
        ket_expectation f1 f2 g1 g2 st op = Ok (tr_product E L (fun m => Nat.min (kdim op m) (kdim st m)) (fun m => Nat.min (kdim st m) (idim op m)) (kdim st)
          (fun k n => ket_amp st k * cj (ket_amp st n)) (op_elem op)).
      Proof using Rth Ws Wo Win NE NN EM SK.
        intros f1 f2 g1 g2 OK SR F1 F2. pose proof (modes_ket M st SK) as MS. pose proof (modes_unitary E op OK) as MO.
        destruct (left_in M E (cw st) (cw op) MS MO) as [NL IL]. fold L in NL, IL. assert (Wop := win_op_k MO).
        unfold ket_expectation. rewrite (validate_unitary E op OK NN), (subset_true M E (cw st) (cw op) MS MO EM). cbn [negb].
        assert (X : forall m, In m E \/ ~ In m E) by (intros m; destruct (in_dec Z.eq_dec m E); auto).
        assert (Wsop : window (cw st ++ cw op)).
        { apply (window_modes (cw st)); [|exact Win]. intros d. rewrite descs_app_in, (SK d), (OK d). intros H. exists (kw (d_mode d)). rewrite (SK _). split; [|reflexivity].
          specialize (EM (d_mode d)). cbn. tauto. }
        destruct (contract_step f1 st op E [] Ws Wo SR F1 Wsop) as [r [Er [Wr [Sr [Dr Ar]]]]]; auto; try apply NoDup_nil.
        { intros d. pose proof (SK d). pose proof (OK d). pose proof (OK (flip d)). unfold collision. wcases d. destruct o; tauto. }
        { intros d. pose proof (SK d). pose proof (OK (flip d)). specialize (EM (d_mode d)). wcases d. cbn [In]. destruct o, s; tauto. }
        assert (IR : ket_on M r).
        { intros d. rewrite Sr. pose proof (SK d). pose proof (OK d). pose proof (OK (flip d)). pose proof (SK (flip d)). specialize (X (d_mode d)). unfold survives. specialize (EM (d_mode d)). wcases d. destruct o, s; tauto. }
        rewrite Er. cbn [bind]. assert (Wir : window (cw r)).
        { apply (window_modes (cw st)); [|exact Win]. intros d Hd. apply IR in Hd. exists (kw (d_mode d)). rewrite (SK _). split; [|reflexivity]. cbn. tauto. }
        pose proof (wf_dual cj g2 st Ws Win) as Wd.
        assert (ID : forall d, In d (descs (cw (dual g2 st))) <-> In (d_mode d) M /\ d_out d = false /\ d_side d = Ket).
        { intros d. rewrite dual_descs by assumption. pose proof (SK (flip d)). wcases d. destruct o; tauto. }
        assert (NLE : NoDup (L ++ E)) by (apply NoDup_app_intro; auto; intros m Hm; apply IL in Hm; tauto).
        destruct (contract_step f2 r (dual g2 st) (L ++ E) [] Wr Wd) as [c [Ec [Wc [Sc [Dc Ac]]]]]; auto; try apply NoDup_nil.
        { apply same_repr_disj. intros d. rewrite (IR d), (ID d). wcases d. destruct o, s; tauto. }
        { apply (window_modes (cw st)); [|exact Win]. intros d. rewrite descs_app_in, (ID d), (IR d). intros H. exists (kw (d_mode d)). rewrite (SK _). split; [|reflexivity]. cbn. tauto. }
        { intros d. pose proof (IR d). pose proof (ID d). unfold collision. wcases d. destruct o, s; tauto. }
        { intros d. pose proof (IR d). pose proof (ID (flip d)). pose proof (IL (d_mode d)). specialize (X (d_mode d)). specialize (EM (d_mode d)). rewrite in_app_iff. wcases d. cbn [In]. destruct o, s; tauto. }
        assert (IC : forall d, ~ In d (descs (cw c))).
        { intros d. rewrite Sc. unfold survives. pose proof (IR d). pose proof (ID d). pose proof (ID (flip d)). pose proof (IR (flip d)). wcases d. destruct o, s; tauto. }
        rewrite Ec. cbn [bind]. assert (CE : cw c = []) by (destruct (cw c) as [|w ws]; [reflexivity|exfalso; apply (IC (desc w)); now left]).
        rewrite CE. cbn [modes map nodup]. rewrite (trace_out_scalar [] c Wc (NoDup_nil _)).
        2:{ intros d. cbn [In]. specialize (IC d). tauto. }
        f_equal. rewrite om_nil, Ac. unfold tr_product.
        rewrite (om_dim (L ++ E) _ (fun m => if mem_mode m E then Nat.min (kdim op m) (kdim st m) else kdim st m)).
        2:{ intros m Hm. assert (HM : In m M) by (apply in_app_or in Hm; destruct Hm as [Hm|Hm]; [now apply IL in Hm|now apply EM]).
            unfold cut_dim. rewrite (dual_wdim cj g2 st _ Ws Win) by (rewrite flip_flip; apply SK; cbn; auto). rewrite flip_flip.
            rewrite Dr by (apply IR; cbn; auto). cbn [kw d_out fst snd]. fold (kw m). rewrite (has_iff (kw m) (cw op) (mem_mode m E)).
            2:{ rewrite (OK (kw m)), mem_In. cbn. tauto. }
            destruct (mem_mode m E); [reflexivity|]. apply Nat.min_id. }
        set (G := fun n : numbers => over_modes E (fun m => Nat.min (kdim st m) (idim op m)) (fun k => (ket_amp st (pick E k n) * cj (ket_amp st n)) * op_elem op n k)).
        transitivity (over_modes (L ++ E) (fun m => if mem_mode m E then Nat.min (kdim op m) (kdim st m) else kdim st m) G).
        - apply om_ext. intros n. rewrite om_nil. unfold G.
          rewrite Ar, om_scal_r. rewrite (om_dim E _ (fun m => Nat.min (kdim st m) (idim op m))) by reflexivity.
          apply om_ext. intros k. rewrite om_nil. rewrite (C05_component_dual cj) by assumption.
          assert (LEM : forall m, In m M -> mem_mode m (L ++ E) = true) by (intros m Hm; apply mem_In, in_or_app; rewrite IL; specialize (X m); tauto).
          replace (amp st (sub true E [] k _ _)) with (ket_amp st (pick E k n)).
          2:{ apply amp_same. intros d Hd. apply SK in Hd. destruct Hd as [Hm [Ho Hs]]. unfold sub, pick. rewrite Ho, Hs, LEM by exact Hm. reflexivity. }
          replace (amp op (sub false E [] k _ _)) with (op_elem op n k).
          2:{ apply amp_same. intros d Hd. apply OK in Hd. destruct Hd as [Hm Hs]. unfold sub. rewrite Hs. rewrite (proj2 (mem_In _ E) Hm), LEM by (now apply EM). destruct (d_out d); reflexivity. }
          replace (amp st (fun d => sub false (L ++ E) [] n _ _ (flip d))) with (ket_amp st n); [ring|].
          apply amp_same. intros d Hd. apply SK in Hd. destruct Hd as [Hm [Ho Hs]]. unfold sub. change (d_out (flip d)) with (negb (d_out d)). change (d_side (flip d)) with (d_side d). change (d_mode (flip d)) with (d_mode d).
          rewrite Ho, Hs, LEM by exact Hm. reflexivity.
        - rewrite om_app.
          + rewrite (om_dim L _ (kdim st)).
            2:{ intros m Hm. destruct (mem_mode m E) eqn:Me; [|reflexivity]. apply mem_In in Me. apply IL in Hm. tauto. }
            apply om_ext. intros r0. rewrite (om_dim E _ (fun m => Nat.min (kdim op m) (kdim st m))).
            2:{ intros m Hm. now rewrite (proj2 (mem_In m E) Hm). }
            apply om_ext. intros n. unfold G. apply om_ext. intros k.
            replace (ket_amp st (pick E k (pick E n r0))) with (ket_amp st (pick E k r0)).
            2:{ apply amp_same. intros d _. unfold pick. destruct (mem_mode (d_mode d) E); reflexivity. }
            replace (op_elem op (pick E n r0) k) with (op_elem op n k); [reflexivity|].
            apply amp_same. intros d Hd. apply OK in Hd. destruct Hd as [Hm _]. destruct (d_out d); [|reflexivity]. unfold pick. now rewrite (proj2 (mem_In _ E) Hm).
          + intros m Hm. apply IL in Hm. tauto.
          + intros n n' Hn. unfold G. apply om_ext. intros k. f_equal; [f_equal; [|f_equal]|]; apply amp_same; intros d _; unfold pick; rewrite ?Hn; reflexivity.
      Qed.
    End KetState.

    Section DMState.
      Hypothesis SD : dm_on M st.
      Lemma win_op_d : (forall m, In m (modes (cw op)) <-> In m E) -> window (cw op).
      Proof using EM SD Win.
        intros H. apply (window_modes (cw st)); [|exact Win]. intros d Hd. exists (kw (d_mode d)). split; [|reflexivity]. apply SD. cbn. split; [apply EM, H, in_modes; eauto|]. split; [reflexivity|discriminate].
      Qed.
      Lemma st_k : forall m, In m M -> In (kw m) (descs (cw st)).
      Proof using SD. intros m H. apply SD. cbn. split; [exact H|split; [reflexivity|discriminate]]. Qed.
      Lemma st_b : forall m, In m M -> In (bw m) (descs (cw st)).
      Proof using SD. intros m H. apply SD. cbn. split; [exact H|split; [reflexivity|discriminate]]. Qed.

      Theorem dm_dm : forall f1 f2 g1 g1' g2, dm_on E op -> fresh_for f1 st (dual g1 op) ->
        dm_expectation f1 f2 g1 g1' g2 st op = Ok (tr_product E L (fun m => Nat.min (bdim st m) (bdim op m)) (fun m => Nat.min (kdim st m) (kdim op m)) (fun m => Nat.min (kdim st m) (bdim st m))
          (dm_elem st) (fun n k => cj (dm_elem op k n))).
      Proof using Rth Ws Wo Win NE NN EM SD.
        intros f1 f2 g1 g1' g2 OK F1. pose proof (modes_dm M st SD) as MS. pose proof (modes_dm E op OK) as MO.
        destruct (left_in M E (cw st) (cw op) MS MO) as [NL IL]. fold L in NL, IL. assert (Wop := win_op_d MO).
        unfold dm_expectation. rewrite (validate_dm E op OK NN), (subset_true M E (cw st) (cw op) MS MO EM). cbn [negb]. fold L.
        pose proof (wf_dual cj g1 op Wo Wop) as Wd. assert (ID : forall d, In d (descs (cw (dual g1 op))) <-> In (d_mode d) E /\ d_out d = false /\ d_side d <> Cl).
        { intros d. rewrite dual_descs by assumption. pose proof (OK (flip d)). wcases d. destruct o; tauto. }
        assert (X : forall m, In m E \/ ~ In m E) by (intros m; destruct (in_dec Z.eq_dec m E); auto).
        destruct (contract_step f1 st (dual g1 op) E E Ws Wd) as [c [Er [Wc [Sr [Dr Ar]]]]]; auto.
        { apply same_repr_disj. intros d. rewrite (SD d), (ID d). wcases d. destruct o; tauto. }
        { apply (window_modes (cw st)); [|exact Win]. intros d. rewrite descs_app_in, (SD d), (ID d). intros H. exists (kw (d_mode d)). split; [|reflexivity].
          apply st_k. specialize (EM (d_mode d)). tauto. }
        { intros d. pose proof (SD d). pose proof (ID d). unfold collision. wcases d. destruct o; tauto. }
        { intros d. pose proof (SD d). pose proof (ID (flip d)). specialize (EM (d_mode d)). wcases d. destruct o, s; tauto. }
        assert (IC : dm_on L c).
        { intros d. rewrite Sr, IL. pose proof (SD d). pose proof (ID d). pose proof (ID (flip d)). pose proof (SD (flip d)). specialize (X (d_mode d)). unfold survives. specialize (EM (d_mode d)). wcases d. destruct o, s; tauto. }
        rewrite Er. cbn [bind]. rewrite (trace_out_scalar L c Wc NL IC). f_equal. unfold tr_product.
        rewrite (om_dim L _ (fun m => Nat.min (kdim st m) (bdim st m))).
        2:{ intros m Hm. rewrite !Dr by (apply IC; cbn; split; [exact Hm|split; [reflexivity|discriminate]]). cbn [kw bw d_out fst snd]. fold (kw m) (bw m).
            rewrite (has_iff (kw m) (cw (dual g1 op)) false), (has_iff (bw m) (cw (dual g1 op)) false); [reflexivity| |]; rewrite (ID _); cbn; intuition congruence. }
        apply om_ext. intros t. rewrite Ar.
        rewrite (om_dim E _ (fun m => Nat.min (kdim st m) (kdim op m))).
        2:{ intros m Hm. unfold cut_dim. rewrite (dual_wdim cj g1 op _ Wo Wop); [reflexivity|]. rewrite flip_flip. apply OK. cbn. split; [exact Hm|split; [reflexivity|discriminate]]. }
        rewrite om_swap. rewrite (om_dim E _ (fun m => Nat.min (bdim st m) (bdim op m))).
        2:{ intros m Hm. unfold cut_dim. rewrite (dual_wdim cj g1 op _ Wo Wop); [reflexivity|]. rewrite flip_flip. apply OK. cbn. split; [exact Hm|split; [reflexivity|discriminate]]. }
        apply om_ext. intros n. apply om_ext. intros k. rewrite (C05_component_dual cj) by assumption. f_equal; [|f_equal]; apply amp_same; intros d Hd.
        - apply SD in Hd. destruct Hd as [Hm [Ho Hs]]. unfold sub, pick. rewrite Ho. destruct (d_side d); [reflexivity|reflexivity|congruence].
        - apply OK in Hd. destruct Hd as [Hm [Ho Hs]]. unfold sub. change (d_out (flip d)) with (negb (d_out d)). change (d_side (flip d)) with (d_side d). change (d_mode (flip d)) with (d_mode d). rewrite Ho. cbn [negb Bool.eqb].
          rewrite (proj2 (mem_In _ E) Hm). destruct (d_side d); [reflexivity|reflexivity|congruence].
      Qed.

      Theorem dm_ket : forall f1 f2 g1 g1' g2, ket_on E op -> fresh_for f1 st (adj g2 (dual g1 op)) -> (forall r, contract f1 st (adj g2 (dual g1 op)) = Ok r -> fresh_for f2 r (dual g1' op)) ->
        dm_expectation f1 f2 g1 g1' g2 st op = Ok (tr_product E L (fun m => Nat.min (bdim st m) (kdim op m)) (fun m => Nat.min (kdim st m) (kdim op m)) (fun m => Nat.min (kdim st m) (bdim st m))
          (dm_elem st) (fun n k => ket_amp op n * cj (ket_amp op k))).
      Proof using Rth cjcj Ws Wo Win NE NN EM SD.
        intros f1 f2 g1 g1' g2 OK F1 F2. pose proof (modes_dm M st SD) as MS. pose proof (modes_ket E op OK) as MO.
        destruct (left_in M E (cw st) (cw op) MS MO) as [NL IL]. fold L in NL, IL. assert (Wop := win_op_d MO).
        unfold dm_expectation. rewrite (validate_ket E op OK NN), (subset_true M E (cw st) (cw op) MS MO EM). cbn [negb]. fold L.
        pose proof (fun g => wf_dual cj g op Wo Wop) as Wd. assert (ID : forall g d, In d (descs (cw (dual g op))) <-> In (d_mode d) E /\ d_out d = false /\ d_side d = Ket).
        { intros g d. rewrite dual_descs by assumption. pose proof (OK (flip d)). wcases d. destruct o; tauto. }
        pose proof (wf_adjoint cj g2 _ (Wd g1)) as Wa. assert (IA : forall d, In d (descs (cw (adj g2 (dual g1 op)))) <-> In (d_mode d) E /\ d_out d = false /\ d_side d = Bra).
        { intros d. rewrite (adj_descs cj), (ID g1 (swap_side d)). wcases d. destruct s; tauto. }
        assert (Wdw : forall g, window (cw (dual g op))).
        { intros g. apply (window_modes (cw st)); [|exact Win]. intros d Hd. apply ID in Hd. exists (kw (d_mode d)). split; [|reflexivity]. apply st_k, EM. tauto. }
        assert (X : forall m, In m E \/ ~ In m E) by (intros m; destruct (in_dec Z.eq_dec m E); auto).
        destruct (contract_step f1 st (adj g2 (dual g1 op)) [] E Ws Wa) as [r [Er [Wr [Sr [Dr Ar]]]]]; auto; try apply NoDup_nil.
        { apply same_repr_disj. intros d. rewrite (SD d), (IA d). wcases d. destruct o; tauto. }
        { apply (window_modes (cw st)); [|exact Win]. intros d. rewrite descs_app_in, (SD d), (IA d). intros H. exists (kw (d_mode d)). split; [|reflexivity].
          apply st_k. specialize (EM (d_mode d)). tauto. }
        { intros d. pose proof (SD d). pose proof (IA d). unfold collision. wcases d. destruct o; tauto. }
        { intros d. pose proof (SD d). pose proof (IA (flip d)). specialize (EM (d_mode d)). wcases d. cbn [In]. destruct o, s; tauto. }
        assert (IR : forall d, In d (descs (cw r)) <-> d_out d = true /\ ((In (d_mode d) M /\ d_side d = Ket) \/ (In (d_mode d) L /\ d_side d = Bra))).
        { intros d. rewrite Sr, IL. pose proof (SD d). pose proof (IA d). pose proof (IA (flip d)). pose proof (SD (flip d)). specialize (X (d_mode d)). unfold survives. specialize (EM (d_mode d)). wcases d. destruct o, s; tauto. }
        rewrite Er. cbn [bind].
        destruct (contract_step f2 r (dual g1' op) E [] Wr (Wd g1')) as [c [Ec [Wc [Sc [Dc Ac]]]]]; auto; try apply NoDup_nil.
        { apply same_repr_disj. intros d. rewrite (IR d), (ID g1' d). wcases d. destruct o, s; tauto. }
        { apply (window_modes (cw st)); [|exact Win]. intros d. rewrite descs_app_in, (ID g1' d), (IR d). intros H. exists (kw (d_mode d)). split; [|reflexivity].
          apply st_k. specialize (IL (d_mode d)). specialize (EM (d_mode d)). tauto. }
        { intros d. pose proof (IR d). pose proof (ID g1' d). unfold collision. wcases d. destruct o, s; tauto. }
        { intros d. pose proof (IR d). pose proof (ID g1' (flip d)). specialize (EM (d_mode d)). wcases d. cbn [In]. destruct o, s; tauto. }
        assert (IC : dm_on L c).
        { intros d. rewrite Sc. unfold survives. pose proof (IR d). pose proof (ID g1' d). pose proof (ID g1' (flip d)). pose proof (IR (flip d)). specialize (IL (d_mode d)). specialize (X (d_mode d)). specialize (EM (d_mode d)). wcases d. destruct o, s; tauto. }
        rewrite Ec. cbn [bind]. rewrite (trace_out_scalar L c Wc NL IC). f_equal. unfold tr_product.
        rewrite (om_dim L _ (fun m => Nat.min (kdim st m) (bdim st m))).
        2:{ intros m Hm. assert (HM : In m M) by (now apply IL in Hm). rewrite !Dc by (apply IC; cbn; split; [exact Hm|split; [reflexivity|discriminate]]). cbn [kw bw d_out fst snd]. fold (kw m) (bw m).
            rewrite (has_iff (kw m) (cw (dual g1' op)) false), (has_iff (bw m) (cw (dual g1' op)) false); [|rewrite (ID g1' _); cbn; intuition congruence|rewrite (ID g1' _); cbn; intuition congruence].
            rewrite !Dr by (apply IR; cbn; auto). cbn [kw bw d_out fst snd]. fold (kw m) (bw m).
            rewrite (has_iff (kw m) (cw (adj g2 (dual g1 op))) false), (has_iff (bw m) (cw (adj g2 (dual g1 op))) false); [reflexivity| |]; rewrite (IA _); cbn; intuition congruence. }
        apply om_ext. intros t. rewrite Ac.
        rewrite (om_dim E _ (fun m => Nat.min (kdim st m) (kdim op m))).
        2:{ intros m Hm. unfold cut_dim. rewrite (dual_wdim cj g1' op _ Wo Wop) by (rewrite flip_flip; apply OK; cbn; auto). rewrite flip_flip.
            rewrite Dr by (apply IR; cbn; auto). cbn [kw bw d_out fst snd]. fold (kw m). rewrite (has_iff (kw m) (cw (adj g2 (dual g1 op))) false); [reflexivity|]. rewrite (IA _). cbn. intuition congruence. }
        rewrite om_swap.
        transitivity (over_modes E (fun m => Nat.min (kdim st m) (kdim op m)) (fun k => over_modes E (fun m => Nat.min (bdim st m) (kdim op m)) (fun n => dm_elem st (pick E k t) (pick E n t) * (ket_amp op n * cj (ket_amp op k))))); [|apply om_swap].
        rewrite om_nil. apply om_ext. intros k. rewrite Ar, om_nil, om_scal_r.
        rewrite (om_dim E _ (fun m => Nat.min (bdim st m) (kdim op m))).
        2:{ intros m Hm. unfold cut_dim. rewrite (adjoint_wdim cj g2 (dual g1 op)); auto.
            - rewrite (dual_wdim cj g1 op _ Wo Wop); [reflexivity|]. apply OK. cbn. auto.
            - apply ID. cbn. auto. }
        apply om_ext. intros n. rewrite (C05_component_adjoint cj) by auto. rewrite !(C05_component_dual cj) by assumption. rewrite cjcj.
        replace (amp st (sub true [] E _ n _)) with (dm_elem st (pick E k t) (pick E n t)).
        2:{ apply amp_same. intros d Hd. apply SD in Hd. destruct Hd as [Hm [Ho Hs]]. unfold sub, pick. rewrite Ho. destruct (d_side d); [reflexivity|reflexivity|congruence]. }
        replace (amp op (fun d => sub false [] E _ n _ (swap_side (flip d)))) with (ket_amp op n).
        2:{ apply amp_same. intros d Hd. apply OK in Hd. destruct Hd as [Hm [Ho Hs]]. unfold sub. change (d_out (swap_side (flip d))) with (negb (d_out d)). change (d_mode (swap_side (flip d))) with (d_mode d).
            replace (d_side (swap_side (flip d))) with Bra by (destruct d as [[? ?] ?]; cbn in Hs |- *; now rewrite Hs). rewrite Ho. cbn [negb Bool.eqb]. now rewrite (proj2 (mem_In _ E) Hm). }
        replace (amp op (fun d => sub false E [] k _ _ (flip d))) with (ket_amp op k); [ring|].
        apply amp_same. intros d Hd. apply OK in Hd. destruct Hd as [Hm [Ho Hs]]. unfold sub. change (d_out (flip d)) with (negb (d_out d)). change (d_mode (flip d)) with (d_mode d). change (d_side (flip d)) with (d_side d).
        rewrite Ho, Hs. cbn [negb Bool.eqb]. now rewrite (proj2 (mem_In _ E) Hm).
      Qed.

      Theorem dm_unitary : forall f1 f2 g1 g1' g2, unitary_on E op -> same_repr (cw st) (cw op) -> fresh_for f1 st op ->
        dm_expectation f1 f2 g1 g1' g2 st op = Ok (tr_product E L (fun m => Nat.min (kdim op m) (bdim st m)) (fun m => Nat.min (kdim st m) (idim op m)) (fun m => Nat.min (kdim st m) (bdim st m))
          (dm_elem st) (op_elem op)).
      Proof using Rth Ws Wo Win NE NN EM SD.
        intros f1 f2 g1 g1' g2 OK SR F1. pose proof (modes_dm M st SD) as MS. pose proof (modes_unitary E op OK) as MO.
        destruct (left_in M E (cw st) (cw op) MS MO) as [NL IL]. fold L in NL, IL. assert (Wop := win_op_d MO).
        unfold dm_expectation. rewrite (validate_unitary E op OK NN), (subset_true M E (cw st) (cw op) MS MO EM). cbn [negb].
        assert (X : forall m, In m E \/ ~ In m E) by (intros m; destruct (in_dec Z.eq_dec m E); auto).
        assert (Wsop : window (cw st ++ cw op)).
        { apply (window_modes (cw st)); [|exact Win]. intros d. rewrite descs_app_in, (SD d), (OK d). intros H. exists (kw (d_mode d)). split; [|reflexivity].
          apply st_k. specialize (EM (d_mode d)). tauto. }
        destruct (contract_step f1 st op E [] Ws Wo SR F1 Wsop) as [c [Er [Wc [Sr [Dr Ar]]]]]; auto; try apply NoDup_nil.
        { intros d. pose proof (SD d). pose proof (OK d). pose proof (OK (flip d)). unfold collision. wcases d. destruct o; tauto. }
        { intros d. pose proof (SD d). pose proof (OK (flip d)). specialize (EM (d_mode d)). wcases d. cbn [In]. destruct o, s; tauto. }
        set (MM := nodup Z.eq_dec (modes (cw st))). assert (IMM : forall m, In m MM <-> In m M) by (intros m; unfold MM; rewrite nodup_In; apply MS).
        assert (IC : dm_on MM c).
        { intros d. rewrite Sr, IMM. pose proof (SD d). pose proof (OK d). pose proof (OK (flip d)). pose proof (SD (flip d)). specialize (X (d_mode d)). unfold survives. specialize (EM (d_mode d)). wcases d. destruct o, s; tauto. }
        assert (NM : NoDup MM) by apply NoDup_nodup.
        rewrite Er. cbn [bind]. rewrite (trace_out_scalar MM c Wc NM IC). f_equal. unfold tr_product.
        rewrite (om_dim MM _ (fun m => if mem_mode m E then Nat.min (kdim op m) (bdim st m) else Nat.min (kdim st m) (bdim st m))).
        2:{ intros m Hm. rewrite !Dr by (apply IC; cbn; split; [exact Hm|split; [reflexivity|discriminate]]). cbn [kw bw d_out fst snd]. fold (kw m) (bw m).
            rewrite (has_iff (bw m) (cw op) false). 2:{ rewrite (OK (bw m)). cbn. intuition congruence. }
            rewrite (has_iff (kw m) (cw op) (mem_mode m E)). 2:{ rewrite (OK (kw m)), mem_In. cbn. tauto. }
            destruct (mem_mode m E); reflexivity. }
        set (G := fun n : numbers => over_modes E (fun m => Nat.min (kdim st m) (idim op m)) (fun k => dm_elem st (pick E k n) n * op_elem op n k)).
        assert (GX : forall n n' : numbers, (forall m, n m = n' m) -> G n = G n').
        { intros n n' Hn. unfold G. apply om_ext. intros k. f_equal; apply amp_same; intros d _; unfold pick; rewrite ?Hn; reflexivity. }
        assert (NLE : NoDup (L ++ E)) by (apply NoDup_app_intro; auto; intros m Hm; apply IL in Hm; tauto).
        transitivity (over_modes MM (fun m => if mem_mode m E then Nat.min (kdim op m) (bdim st m) else Nat.min (kdim st m) (bdim st m)) G).
        - apply om_ext. intros n. unfold G. rewrite Ar. rewrite (om_dim E _ (fun m => Nat.min (kdim st m) (idim op m))) by reflexivity.
          apply om_ext. intros k. rewrite om_nil. f_equal; apply amp_same; intros d Hd.
          + apply SD in Hd. destruct Hd as [Hm [Ho Hs]]. unfold sub, pick. rewrite Ho. destruct (d_side d); [reflexivity|reflexivity|congruence].
          + apply OK in Hd. destruct Hd as [Hm Hs]. unfold sub. rewrite Hs. rewrite (proj2 (mem_In _ E) Hm). destruct (d_out d); reflexivity.
        - rewrite (om_perm MM (L ++ E)); [|exact NM| |exact GX].
          2:{ apply NoDup_Permutation; auto. intros m. rewrite IMM, in_app_iff, IL. specialize (X m). specialize (EM m). tauto. }
          rewrite om_app; [|intros m Hm; apply IL in Hm; tauto|exact GX].
          rewrite (om_dim L _ (fun m => Nat.min (kdim st m) (bdim st m))).
          2:{ intros m Hm. destruct (mem_mode m E) eqn:Me; [|reflexivity]. apply mem_In in Me. apply IL in Hm. tauto. }
          apply om_ext. intros r0. rewrite (om_dim E _ (fun m => Nat.min (kdim op m) (bdim st m))).
          2:{ intros m Hm. now rewrite (proj2 (mem_In m E) Hm). }
          apply om_ext. intros n. unfold G. apply om_ext. intros k. f_equal; apply amp_same; intros d Hd.
          + unfold pick. destruct (mem_mode (d_mode d) E); reflexivity.
          + apply OK in Hd. destruct Hd as [Hm _]. destruct (d_out d); [|reflexivity]. unfold pick. now rewrite (proj2 (mem_In _ E) Hm).
      Qed.
    End DMState.
  End Case.
End Expect.
