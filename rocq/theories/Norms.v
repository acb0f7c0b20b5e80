(** Norms, probabilities, purities, normalisation and Ket.dm: claim C70.
    Model of mrmustard/lab/states/base.py (L2_norm, normalize), ket.py (probability, purity, dm) and dm.py (probability, purity)
    for Fock components without batch axes, with complex entries (exact). *)
From Coq Require Import Reals ZArith List Bool Lia Lra Permutation Sorted Arith Ring_theory Ring.
From Coquelicot Require Import Complex.
Require Import Verif.Base Verif.Wires Verif.WiresSpec Verif.WiresLemmas Verif.WiresMatmul Verif.WiresLabels
  Verif.WiresProps Verif.WiresAdj Verif.Tensor Verif.Contract Verif.ContractAssoc Verif.CompAdj Verif.RShift Verif.CircuitContract Verif.Expect Verif.ExpectProps Verif.ContractEx.
Require Verif.ArrayOps Verif.Binomial.
Import ListNotations.
Local Open Scope nat_scope.

Notation C0' := (RtoC 0).
Notation compC := (@comp C).
Notation contractC := (Contract.contract C0' Cplus Cmult).
Notation adjC := (CompAdj.comp_adjoint Cconj).
Notation dualC := (CompAdj.comp_dual Cconj).
Notation overC := (Expect.over_modes C0' Cplus).
Notation overR := (Expect.over_modes 0%R Rplus).

(** array_ansatz.py:118-123: the entry at zero of all core axes *)
Definition scalar (c : compC) : C := at_ (carr c) (map (fun _ => 0) (shape (carr c))).
(** base.py:141-158 (Fock branch) *)
Definition L2_norm (f g : wire -> nat) (c : compC) : result R := bind (contractC f c (dualC g c)) (fun r => Ok (Re (scalar r))).
(** ket.py:91-108 *)
Definition ket_probability := L2_norm.
(** dm.py:102-110 *)
Definition dm_probability (c : compC) : result R :=
  bind (ArrayOps.trace C0' Cplus (ArrayOps.mkA (carr c) 0) (indices (ket (output (cw c)))) (indices (bra (output (cw c)))))
       (fun a => Ok (Re (at_ (ArrayOps.arr a) (map (fun _ => 0) (shape (ArrayOps.arr a)))))).
(** dm.py:113-124 *)
Definition dm_purity (f g : wire -> nat) (c : compC) : result R :=
  bind (L2_norm f g c) (fun n => bind (dm_probability c) (fun p => Ok (n / (p * p))%R)).
(** array_ansatz.py:396-397: division by a scalar *)
Definition div_comp (c : compC) (x : R) : compC := mkComp (cw c) (mkArray (shape (carr c)) (fun k => Cdiv (at_ (carr c) k) (RtoC x))).
(** base.py:485-500 for unbatched states *)
Definition normalize (f g : wire -> nat) (c : compC) : result compC :=
  if negb (nonempty (ket (cw c))) || negb (nonempty (bra (cw c))) then bind (ket_probability f g c) (fun p => Ok (div_comp c (sqrt p)))
  else bind (dm_probability c) (fun p => Ok (div_comp c p)).
(** ket.py:229-242 *)
Definition ket_dm (f g : wire -> nat) (c : compC) : result compC := contractC f c (adjC g c).

(** ** specification: squared norm, trace, Hilbert-Schmidt norm *)
Definition sqnorm (M : list Z) (c : compC) : R := overR M (kdim c) (fun n => (Cmod (ket_amp c n) ^ 2)%R).
Definition trace_re (M : list Z) (c : compC) : R := overR M (fun m => Nat.min (kdim c m) (bdim c m)) (fun n => Re (dm_elem c n n)).
Definition hs (M : list Z) (c : compC) : R := overR M (kdim c) (fun k => overR M (bdim c) (fun n => (Cmod (dm_elem c k n) ^ 2)%R)).

(** ** sums *)
Lemma Re_over : forall L dim F, Re (overC L dim F) = overR L dim (fun n => Re (F n)).
Proof. intros. unfold Expect.over_modes. induction (box (map dim L)) as [|x l IH]; [reflexivity|]. exact (f_equal (Rplus (Re (F (assign L x)))) IH). Qed.
Lemma Re_sq : forall z, Re (Cmult z (Cconj z)) = (Cmod z ^ 2)%R.
Proof. intros [a b]. unfold Cmod. rewrite <- Rsqr_pow2, Rsqr_sqrt; [simpl; ring|]. simpl. nra. Qed.
Definition Cth := C_ring_theory.
Lemma cj_add : forall x y, Cconj (Cplus x y) = Cplus (Cconj x) (Cconj y).
Proof. intros [? ?] [? ?]. unfold Cconj, Cplus. simpl. f_equal; ring. Qed.
Lemma cj_mul : forall x y, Cconj (Cmult x y) = Cmult (Cconj x) (Cconj y).
Proof. intros [? ?] [? ?]. unfold Cconj, Cmult. simpl. f_equal; ring. Qed.
Lemma cj_cj : forall x, Cconj (Cconj x) = x.
Proof. intros [? ?]. unfold Cconj. simpl. f_equal; ring. Qed.
Lemma cj_0 : Cconj C0' = C0'.
Proof. unfold Cconj, RtoC. simpl. f_equal; ring. Qed.

Lemma same_modes_win : forall (a b : wires), (forall d, In d (descs b) -> exists d', In d' (descs a) /\ d_mode d' = d_mode d) -> window a -> window (a ++ b).
Proof.
  intros a b H. apply window_modes. intros d. rewrite descs_app_in. intros [I|I]; [now exists d|now apply H].
Qed.
Ltac wfacts := assert (true = true) by reflexivity; assert (false = true -> False) by discriminate; assert (true = false -> False) by discriminate; assert (false = false) by reflexivity;
  assert (Ket = Ket) by reflexivity; assert (Bra = Bra) by reflexivity; assert (Cl = Cl) by reflexivity; assert (Ket = Bra -> False) by discriminate; assert (Bra = Ket -> False) by discriminate;
  assert (Cl = Ket -> False) by discriminate; assert (Cl = Bra -> False) by discriminate; assert (Ket = Cl -> False) by discriminate; assert (Bra = Cl -> False) by discriminate.
Ltac wcases d := let m := fresh "m" in let o := fresh "o" in let s := fresh "s" in
  destruct d as [[m o] s]; unfold flip, swap_side, kw, bw, ki, d_mode, d_out, d_side in *; cbn [fst snd negb Bool.eqb] in *; wfacts.

Section Norm.
  Variables (M : list Z) (c : compC) (f g : wire -> nat).
  Hypothesis W : wf c. Hypothesis Win : window (cw c). Hypothesis NM : NoDup M.
  Hypothesis FR : fresh_for f c (dualC g c).
  Lemma flip_mode : forall d, In d (descs (cw (dualC g c))) -> exists d', In d' (descs (cw c)) /\ d_mode d' = d_mode d.
  Proof using W. intros d H. rewrite dual_descs in H by exact W. exists (flip d). split; [exact H|reflexivity]. Qed.
  Lemma no_wires : forall (r : compC), (forall d, ~ In d (descs (cw r))) -> wf r -> scalar r = amp r (fun _ => 0).
  Proof using.
    clear. intros r H [_ [_ [_ L]]]. assert (E : cw r = []) by (destruct (cw r) as [|w ws]; [reflexivity|exfalso; apply (H (desc w)); now left]).
    rewrite E in L. unfold scalar, amp. destruct (shape (carr r)); [|discriminate]. rewrite E. reflexivity.
  Qed.
  Theorem norm_ket : ket_on M c -> L2_norm f g c = Ok (sqnorm M c).
  Proof using W Win NM FR.
    intros SK. pose proof (wf_dual Cconj g c W Win) as Wd.
    assert (ID : forall d, In d (descs (cw (dualC g c))) <-> In (d_mode d) M /\ d_out d = false /\ d_side d = Ket).
    { intros d. rewrite dual_descs by assumption. pose proof (SK (flip d)). wcases d. destruct o; tauto. }
    destruct (contract_step C0' (RtoC 1) Cplus Cmult Cminus Copp Cth f c (dualC g c) M [] W Wd) as [r [Er [Wr [Sr [_ Ar]]]]]; auto using NoDup_nil.
    { apply same_repr_disj. intros d. rewrite (SK d), (ID d). wcases d. destruct o; tauto. }
    { apply same_modes_win; [apply flip_mode|exact Win]. }
    { intros d. pose proof (SK d). pose proof (ID d). unfold collision. wcases d. destruct o; tauto. }
    { intros d. pose proof (SK d). pose proof (ID (flip d)). wcases d. cbn [In]. destruct o; tauto. }
    assert (N : forall d, ~ In d (descs (cw r))).
    { intros d. rewrite Sr. pose proof (SK d). pose proof (ID d). pose proof (ID (flip d)). pose proof (SK (flip d)). unfold survives. wcases d. destruct o; tauto. }
    unfold L2_norm. rewrite Er. cbn [bind]. f_equal. rewrite (no_wires r N Wr), Ar, Re_over. unfold sqnorm.
    rewrite (om_dim 0%R Rplus M _ (kdim c)).
    2:{ intros m Hm. unfold cut_dim. rewrite (dual_wdim Cconj g c _ W Win); [rewrite flip_flip; apply Nat.min_id|]. rewrite flip_flip. apply SK. cbn. auto. }
    apply om_ext. intros k. rewrite (om_nil C0' (RtoC 1) Cplus Cmult Cminus Copp Cth), (C05_component_dual Cconj), <- Re_sq by assumption. f_equal. f_equal; [|f_equal]; apply amp_same; intros d Hd;
      apply SK in Hd; destruct Hd as [Hm [Ho Hs]]; unfold sub; change (d_out (flip d)) with (negb (d_out d)); change (d_side (flip d)) with (d_side d); change (d_mode (flip d)) with (d_mode d);
      rewrite Ho, Hs; cbn [negb Bool.eqb]; now rewrite (proj2 (mem_In _ M) Hm).
  Qed.
  Theorem norm_dm : dm_on M c -> L2_norm f g c = Ok (hs M c).
  Proof using W Win NM FR.
    intros SD. pose proof (wf_dual Cconj g c W Win) as Wd.
    assert (ID : forall d, In d (descs (cw (dualC g c))) <-> In (d_mode d) M /\ d_out d = false /\ d_side d <> Cl).
    { intros d. rewrite dual_descs by assumption. pose proof (SD (flip d)). wcases d. destruct o; tauto. }
    destruct (contract_step C0' (RtoC 1) Cplus Cmult Cminus Copp Cth f c (dualC g c) M M W Wd) as [r [Er [Wr [Sr [_ Ar]]]]]; auto.
    { apply same_repr_disj. intros d. rewrite (SD d), (ID d). wcases d. destruct o; tauto. }
    { apply same_modes_win; [apply flip_mode|exact Win]. }
    { intros d. pose proof (SD d). pose proof (ID d). unfold collision. wcases d. destruct o; tauto. }
    { intros d. pose proof (SD d). pose proof (ID (flip d)). wcases d. destruct o, s; tauto. }
    assert (N : forall d, ~ In d (descs (cw r))).
    { intros d. rewrite Sr. pose proof (SD d). pose proof (ID d). pose proof (ID (flip d)). pose proof (SD (flip d)). unfold survives. wcases d. destruct o; tauto. }
    unfold L2_norm. rewrite Er. cbn [bind]. f_equal. rewrite (no_wires r N Wr), Ar, Re_over. unfold hs.
    assert (DM : forall s m, In m M -> (s = Ket \/ s = Bra) -> cut_dim c (dualC g c) (m, true, s) = wdim c (m, true, s)).
    { intros s m Hm Hs. unfold cut_dim. rewrite (dual_wdim Cconj g c _ W Win); [rewrite flip_flip; apply Nat.min_id|]. rewrite flip_flip. apply SD. cbn. destruct Hs as [-> | ->]; repeat split; auto; discriminate. }
    rewrite (om_dim 0%R Rplus M _ (kdim c)) by (intros m Hm; apply (DM Ket); auto).
    apply om_ext. intros k. rewrite Re_over. rewrite (om_dim 0%R Rplus M _ (bdim c)) by (intros m Hm; apply (DM Bra); auto).
    apply om_ext. intros n. rewrite (C05_component_dual Cconj), <- Re_sq by assumption. f_equal. f_equal; [|f_equal]; apply amp_same; intros d Hd;
      apply SD in Hd; destruct Hd as [Hm [Ho Hs]]; unfold sub; change (d_out (flip d)) with (negb (d_out d)); change (d_side (flip d)) with (d_side d); change (d_mode (flip d)) with (d_mode d);
      rewrite Ho; cbn [negb Bool.eqb]; rewrite (proj2 (mem_In _ M) Hm); destruct (d_side d); congruence.
  Qed.
End Norm.

(** ** the trace of a density matrix *)
Lemma group_modes_sorted : forall s ws, distinct ws -> StronglySorted Z.lt (map mode (sorted_wires (filter (sel s true) ws))).
Proof.
  intros s ws D. assert (E : sorted_wires (filter (sel s true) ws) = WiresLabels.pick s true (modes ws) ws).
  { unfold WiresLabels.pick. f_equal. unfold at_modes. symmetry. apply filter_all. intros w Hw. apply filter_In in Hw.
    apply mem_mode_In. unfold modes. apply in_map. tauto. }
  rewrite E. now apply pick_modes_sorted.
Qed.
Lemma group_pos : forall s ws, distinct ws -> well_indexed ws ->
  indices (filter (sel s true) ws) = map (pos_of s ws) (map mode (sorted_wires (filter (sel s true) ws))).
Proof.
  intros s ws D WI. unfold indices. rewrite map_map. apply map_ext_in. intros w Hw. rewrite sorted_wires_in in Hw. apply in_sel in Hw. destruct Hw as [Hw [Sw Ow]].
  assert (Dw : desc w = (mode w, true, s)) by (unfold desc; now rewrite Sw, Ow).
  assert (I : In (mode w, true, s) (descs ws)) by (rewrite <- Dw; now apply in_map).
  destruct (pos_ok s ws (mode w) (desc w) D WI I) as [P1 P2]. pose proof (index_bound ws w WI Hw) as B.
  apply (proj1 (NoDup_nth (shown ws) (desc w)) (shown_NoDup _ D)); rewrite ?shown_length; auto.
  rewrite P2, shown_nth, (nth_index ws w w WI Hw). exact Dw.
Qed.
Theorem prob_dm : forall M c, wf c -> NoDup M -> M <> [] -> dm_on M c -> dm_probability c = Ok (trace_re M c).
Proof.
  intros M c W NM NN SD. pose proof W as [D [WI _]].
  set (L := map mode (sorted_wires (filter (sel Ket true) (cw c)))).
  assert (IL : forall s m, (s = Ket \/ s = Bra) -> (In m (map mode (sorted_wires (filter (sel s true) (cw c)))) <-> In m M)).
  { intros s m Hs. assert (E : In m (map mode (sorted_wires (filter (sel s true) (cw c)))) <-> In m (modes (filter (sel s true) (cw c)))).
    { unfold modes. rewrite !in_map_iff. setoid_rewrite sorted_wires_in. reflexivity. }
    rewrite E, modes_sel, (SD _). unfold d_mode, d_out, d_side. cbn. destruct Hs as [-> | ->]; intuition congruence. }
  assert (LB : map mode (sorted_wires (filter (sel Bra true) (cw c))) = L).
  { apply sorted_Z_unique; try now apply group_modes_sorted. intros m. unfold L. now rewrite !IL by auto. }
  assert (NL : NoDup L).
  { pose proof (group_modes_sorted Ket (cw c) D) as S. fold L in S. clear - S. induction S as [|x l S IH F]; constructor; auto. intros I. rewrite Forall_forall in F. specialize (F _ I). lia. }
  assert (SL : dm_on L c) by (intros d; rewrite (SD d); unfold L; now rewrite (IL Ket) by auto).
  assert (LN : L <> []). { destruct M as [|m M']; [congruence|]. intros E. assert (I : In m L) by (unfold L; apply IL; cbn; auto). rewrite E in I. destruct I. }
  destruct (trace_all C0' (RtoC 1) Cplus Cmult Cminus Copp Cth L c W NL LN SL) as [r [E [SH V]]].
  unfold dm_probability. rewrite ket_output_sel, bra_output_sel, !group_pos, LB by assumption. fold L. rewrite E. cbn [bind]. rewrite SH. cbn [map]. rewrite V, Re_over. f_equal. unfold trace_re.
  transitivity (overR L (fun m => Nat.min (kdim c m) (bdim c m)) (fun n => Re (dm_elem c n n))).
  - apply om_ext. intros n. f_equal. apply amp_same. intros d _. now destruct (d_side d).
  - apply (om_perm 0%R 1%R Rplus Rmult Rminus Ropp RTheory); [exact NL| |].
    + apply NoDup_Permutation; auto. intros m. unfold L. now rewrite (IL Ket) by auto.
    + intros n n' H. f_equal. now apply dm_elem_ext.
Qed.

(** ** Ket.dm *)
Theorem ket_dm_ok : forall M c f g, wf c -> window (cw c) -> NoDup M -> ket_on M c -> fresh_for f c (adjC g c) ->
  exists rho, ket_dm f g c = Ok rho /\ wf rho /\ window (cw rho) /\ dm_on M rho /\ (forall m, In m M -> kdim rho m = kdim c m /\ bdim rho m = kdim c m)
    /\ forall k n, dm_elem rho k n = Cmult (ket_amp c k) (Cconj (ket_amp c n)).
Proof.
  intros M c f g W Win NM SK FR. pose proof (wf_adjoint Cconj g c W) as Wa.
  assert (IA : forall d, In d (descs (cw (adjC g c))) <-> In (d_mode d) M /\ d_out d = true /\ d_side d = Bra).
  { intros d. rewrite (adj_descs Cconj), (SK (swap_side d)). wcases d. destruct s; tauto. }
  destruct (contract_step C0' (RtoC 1) Cplus Cmult Cminus Copp Cth f c (adjC g c) [] [] W Wa) as [r [Er [Wr [Sr [Dr Ar]]]]]; auto using NoDup_nil.
  { apply same_repr_disj. intros d. rewrite (SK d), (IA d). wcases d. destruct s; tauto. }
  { apply same_modes_win; [|exact Win]. intros d H. apply IA in H. exists (kw (d_mode d)). split; [apply SK; cbn; tauto|reflexivity]. }
  { intros d. pose proof (SK d). pose proof (IA d). unfold collision. wcases d. destruct o, s; tauto. }
  { intros d. pose proof (SK d). pose proof (IA (flip d)). wcases d. cbn [In]. destruct o, s; tauto. }
  assert (IC : dm_on M r).
  { intros d. rewrite Sr. unfold survives. pose proof (SK d). pose proof (IA d). pose proof (IA (flip d)). pose proof (SK (flip d)). wcases d. destruct o, s; tauto. }
  exists r. split; [exact Er|]. split; [exact Wr|]. split.
  { apply (window_modes (cw c)); [|exact Win]. intros d H. apply IC in H. exists (kw (d_mode d)). split; [apply SK; cbn; tauto|reflexivity]. }
  split; [exact IC|]. split.
  - intros m Hm. assert (Kc : In (kw m) (descs (cw c))) by (apply SK; cbn; auto).
    assert (Kr : In (kw m) (descs (cw r))) by (apply IC; cbn; repeat split; auto; discriminate). assert (Br : In (bw m) (descs (cw r))) by (apply IC; cbn; repeat split; auto; discriminate).
    unfold kdim, bdim. rewrite !Dr by assumption. cbn [kw bw d_out fst snd]. fold (kw m) (bw m).
    assert (Ka : In (bw m) (descs (cw (adjC g c)))) by (apply IA; cbn; auto).
    rewrite (proj2 (has_true _ _) Ka). rewrite (has_iff (kw m) _ false). 2:{ rewrite (IA (kw m)). cbn. intuition congruence. }
    split; [reflexivity|]. rewrite (adjoint_wdim Cconj g c (bw m) W Win Kc). reflexivity.
  - intros k n. unfold dm_elem at 1. rewrite Ar, !(om_nil C0' (RtoC 1) Cplus Cmult Cminus Copp Cth). rewrite (C05_component_adjoint Cconj) by assumption.
    f_equal; [|f_equal]; apply amp_same; intros d Hd; apply SK in Hd; destruct Hd as [_ [Ho Hs]]; unfold sub.
    + rewrite Ho, Hs. reflexivity.
    + change (d_out (swap_side d)) with (d_out d). change (d_mode (swap_side d)) with (d_mode d). replace (d_side (swap_side d)) with Bra by (destruct d as [[? ?] ?]; cbn in Hs |- *; now rewrite Hs).
      rewrite Ho. reflexivity.
Qed.

(** ** the laws *)
(** <psi|psi> *)
Theorem C70_ket_probability : forall M c f g, wf c -> window (cw c) -> NoDup M -> ket_on M c -> fresh_for f c (dualC g c) ->
  ket_probability f g c = Ok (sqnorm M c).
Proof. intros. now apply norm_ket. Qed.
(** Tr rho, and the purity: sum of |rho(k,n)|^2 over (Tr rho)^2 *)
Theorem C70_dm_probability : forall M c, wf c -> NoDup M -> M <> [] -> dm_on M c -> dm_probability c = Ok (trace_re M c).
Proof. exact prob_dm. Qed.
Theorem C70_dm_purity : forall M c f g, wf c -> window (cw c) -> NoDup M -> M <> [] -> dm_on M c -> fresh_for f c (dualC g c) ->
  dm_purity f g c = Ok (hs M c / (trace_re M c * trace_re M c))%R.
Proof. intros M c f g W Win NM NN SD FR. unfold dm_purity. rewrite (norm_dm M) by assumption. cbn [bind]. rewrite (prob_dm M) by assumption. reflexivity. Qed.

Local Open Scope R_scope.
Lemma overR_mul : forall L d F a, a * overR L d F = overR L d (fun n => a * F n).
Proof. intros. apply (om_scal_l 0 1 Rplus Rmult Rminus Ropp RTheory). Qed.
Lemma overR_mul_r : forall L d F a, overR L d F * a = overR L d (fun n => F n * a).
Proof. intros. apply (om_scal_r 0 1 Rplus Rmult Rminus Ropp RTheory). Qed.
(** a Hermitian matrix: the purity is Tr(rho^2) / (Tr rho)^2 *)
Theorem C70_hermitian : forall M c, (forall k n, Cconj (dm_elem c k n) = dm_elem c n k) ->
  hs M c = overR M (kdim c) (fun k => overR M (bdim c) (fun n => Re (Cmult (dm_elem c k n) (dm_elem c n k)))).
Proof. intros M c H. apply om_ext. intros k. apply om_ext. intros n. now rewrite <- Re_sq, H. Qed.

(** ** Ket.dm: the same probability, purity one *)
Lemma Cmod_prod : forall x y, Cmod (Cmult x (Cconj y)) ^ 2 = Cmod x ^ 2 * Cmod y ^ 2.
Proof. intros x y. rewrite Cmod_mult, Rpow_mult_distr. replace (Cmod (Cconj y)) with (Cmod y); [reflexivity|]. unfold Cmod, Cconj. f_equal. cbn [fst snd]. ring. Qed.
Theorem C70_dm_of_ket : forall M c f g, wf c -> window (cw c) -> NoDup M -> M <> [] -> ket_on M c -> fresh_for f c (adjC g c) ->
  exists rho, ket_dm f g c = Ok rho /\ dm_on M rho /\ (forall k n, dm_elem rho k n = Cmult (ket_amp c k) (Cconj (ket_amp c n)))
    /\ dm_probability rho = Ok (sqnorm M c)
    /\ forall f' g', fresh_for f' rho (dualC g' rho) -> L2_norm f' g' rho = Ok (sqnorm M c * sqnorm M c) /\ (sqnorm M c <> 0 -> dm_purity f' g' rho = Ok 1).
Proof.
  intros M c f g W Win NM NN SK FR. destruct (ket_dm_ok M c f g W Win NM SK FR) as [rho [E [Wr [Wir [SD [Dm El]]]]]].
  exists rho. split; [exact E|]. split; [exact SD|]. split; [exact El|].
  assert (T : trace_re M rho = sqnorm M c).
  { unfold trace_re, sqnorm. rewrite (om_dim 0 Rplus M _ (kdim c)) by (intros m Hm; destruct (Dm m Hm) as [-> ->]; apply Nat.min_id). apply om_ext. intros n. now rewrite El, Re_sq. }
  assert (Hh : hs M rho = sqnorm M c * sqnorm M c).
  { unfold hs, sqnorm. rewrite overR_mul_r. rewrite (om_dim 0 Rplus M _ (kdim c)) by (intros m Hm; now destruct (Dm m Hm)). apply om_ext. intros k.
    rewrite overR_mul. rewrite (om_dim 0 Rplus M _ (kdim c)) by (intros m Hm; now destruct (Dm m Hm)). apply om_ext. intros n. now rewrite El, Cmod_prod. }
  split; [now rewrite (prob_dm M), T by assumption|]. intros f' g' FR'. split; [now rewrite (norm_dm M), Hh by assumption|].
  intros NZ. rewrite (C70_dm_purity M), T, Hh by assumption. f_equal. now field.
Qed.

(** ** normalize *)
Lemma amp_div : forall c x al, amp (div_comp c x) al = Cdiv (amp c al) (RtoC x).
Proof. reflexivity. Qed.
Lemma Cmod_div2 : forall z x, x <> 0 -> Cmod (Cdiv z (RtoC x)) ^ 2 = Cmod z ^ 2 / (x * x).
Proof.
  intros z x H. rewrite Cmod_div by (intros E; apply H; now injection E). rewrite Cmod_R. unfold Rdiv. rewrite Rpow_mult_distr, <- Rinv_pow by (now apply Rabs_no_R0). f_equal. f_equal.
  rewrite <- Rsqr_pow2, <- Rsqr_abs. reflexivity.
Qed.
Lemma overR_nonneg : forall L d F, (forall n, 0 <= F n) -> 0 <= overR L d F.
Proof. intros L d F H. unfold Expect.over_modes. induction (box (map d L)) as [|x l IH]; [apply Rle_refl|]. change (0 <= F (assign L x) + Tensor.sum 0 Rplus l (fun idx => F (assign L idx))). specialize (H (assign L x)). lra. Qed.
Lemma sqnorm_nonneg : forall M c, 0 <= sqnorm M c.
Proof. intros. apply overR_nonneg. intros. apply pow2_ge_0. Qed.
Theorem C70_normalize_ket : forall M c f g, wf c -> window (cw c) -> NoDup M -> ket_on M c -> fresh_for f c (dualC g c) -> sqnorm M c <> 0 ->
  exists c', normalize f g c = Ok c' /\ cw c' = cw c /\ (forall n, ket_amp c' n = Cdiv (ket_amp c n) (RtoC (sqrt (sqnorm M c)))) /\ ket_probability f g c' = Ok 1.
Proof.
  intros M c f g W Win NM SK FR NZ. exists (div_comp c (sqrt (sqnorm M c))).
  assert (P : 0 < sqnorm M c) by (pose proof (sqnorm_nonneg M c); lra).
  split; [|split; [reflexivity|split; [reflexivity|]]].
  - unfold normalize. assert (B : nonempty (bra (cw c)) = false).
    { unfold bra. apply ne_false. intros w Hw S. apply (in_map desc) in Hw. apply SK in Hw. unfold is_brab in S. apply side_eqb_eq in S. unfold desc, d_side in Hw. cbn in Hw. rewrite S in Hw. destruct Hw as [_ [_ O]]. discriminate. }
    rewrite B. rewrite orb_true_r. unfold ket_probability. rewrite (norm_ket M) by assumption. reflexivity.
  - unfold ket_probability. rewrite (norm_ket M); [|exact W|exact Win|exact NM|exact FR|exact SK]. f_equal.
    unfold sqnorm at 1. change (kdim (div_comp c (sqrt (sqnorm M c)))) with (kdim c).
    transitivity (overR M (kdim c) (fun n => Cmod (ket_amp c n) ^ 2) * / sqnorm M c); [|fold (sqnorm M c); now field].
    rewrite overR_mul_r. apply om_ext. intros n. unfold ket_amp. rewrite amp_div, Cmod_div2 by (apply Rgt_not_eq, sqrt_lt_R0; exact P). rewrite sqrt_sqrt by lra. reflexivity.
Qed.
Theorem C70_normalize_dm : forall M c f g, wf c -> window (cw c) -> NoDup M -> M <> [] -> dm_on M c -> fresh_for f c (dualC g c) -> trace_re M c <> 0 ->
  exists c', normalize f g c = Ok c' /\ cw c' = cw c /\ (forall k n, dm_elem c' k n = Cdiv (dm_elem c k n) (RtoC (trace_re M c))) /\ dm_probability c' = Ok 1
    /\ dm_purity f g c' = dm_purity f g c.
Proof.
  intros M c f g W Win NM NN SD FR NZ. set (p := trace_re M c) in *. exists (div_comp c p).
  assert (T1 : trace_re M (div_comp c p) = 1).
  { unfold trace_re. change (kdim (div_comp c p)) with (kdim c). change (bdim (div_comp c p)) with (bdim c).
    transitivity (trace_re M c * / p); [|change (p * / p = 1); now apply Rinv_r]. unfold trace_re. rewrite overR_mul_r. apply om_ext. intros n. unfold dm_elem. rewrite amp_div.
    destruct (amp c _) as [x y]. clearbody p. clear - NZ. unfold Cdiv, Cinv, Cmult, RtoC, Re. cbn [fst snd]. field. exact NZ. }
  split; [|split; [reflexivity|split; [reflexivity|split]]].
  - unfold normalize. assert (NB : forall s, s <> Cl -> nonempty (filter (fun w => side_eqb (wside w) s) (cw c)) = true).
    { intros s Hs. destruct M as [|m M']; [congruence|]. assert (I : In (m, true, s) (descs (cw c))) by (apply SD; cbn; auto).
      unfold descs in I. apply in_map_iff in I. destruct I as [w [Ew Hw]]. unfold desc in Ew. injection Ew as _ _ Es.
      destruct (filter _ (cw c)) as [|x t] eqn:X; [|reflexivity]. assert (I : In w (filter (fun w => side_eqb (wside w) s) (cw c))) by (apply filter_In; split; [exact Hw|now apply side_eqb_eq]). rewrite X in I. destruct I. }
    change (ket (cw c)) with (filter (fun w => side_eqb (wside w) Ket) (cw c)). change (bra (cw c)) with (filter (fun w => side_eqb (wside w) Bra) (cw c)).
    rewrite !NB by discriminate. cbn [negb orb]. rewrite (prob_dm M) by assumption. reflexivity.
  - rewrite (prob_dm M); [now rewrite T1|exact W|exact NM|exact NN|exact SD].
  - rewrite (C70_dm_purity M c) by assumption. rewrite (C70_dm_purity M (div_comp c p)); [|exact W|exact Win|exact NM|exact NN|exact SD|exact FR]. rewrite T1. fold p. f_equal.
    transitivity (hs M c * / (p * p)); [|reflexivity]. unfold Rdiv. rewrite !Rmult_1_r, Rinv_1, Rmult_1_r.
    unfold hs. change (kdim (div_comp c p)) with (kdim c). change (bdim (div_comp c p)) with (bdim c). rewrite overR_mul_r. apply om_ext. intros k. rewrite overR_mul_r. apply om_ext. intros n.
    unfold dm_elem. now rewrite amp_div, Cmod_div2.
Qed.

(** ** inequalities *)
Section CS.
  Context {X : Type}.
  Notation sumR := (Tensor.sum 0 Rplus).
  Notation sumC := (Tensor.sum C0' Cplus).
  Lemma sumR_cons : forall (x : X) l f, sumR (x :: l) f = f x + sumR l f. Proof. reflexivity. Qed.
  Lemma sumC_cons : forall (x : X) l f, sumC (x :: l) f = Cplus (f x) (sumC l f). Proof. reflexivity. Qed.
  Lemma sumR_nonneg : forall (l : list X) f, (forall x, 0 <= f x) -> 0 <= sumR l f.
  Proof. intros l f H. induction l as [|x l IH]; [apply Rle_refl|]. rewrite sumR_cons. specialize (H x). lra. Qed.
  Lemma sumR_le : forall (l : list X) f g, (forall x, f x <= g x) -> sumR l f <= sumR l g.
  Proof. intros l f g H. induction l as [|x l IH]; [apply Rle_refl|]. rewrite !sumR_cons. specialize (H x). lra. Qed.
  Lemma cs_step : forall a b S A B, 0 <= A -> 0 <= B -> S * S <= A * B -> (a * b + S) * (a * b + S) <= (a * a + A) * (b * b + B).
  Proof.
    intros a b S A B HA HB H. assert (K : 2 * (a * b * S) <= a * a * B + b * b * A).
    { apply Rsqr_incr_0_var; [|nra]. unfold Rsqr.
      assert (Q : (a * b) * (a * b) * (S * S) <= (a * b) * (a * b) * (A * B)) by (apply Rmult_le_compat_l; [nra|exact H]).
      pose proof (Rle_0_sqr (a * a * B - b * b * A)) as P. unfold Rsqr in P. nra. }
    nra.
  Qed.
  Lemma cs_real : forall (l : list X) f g, sumR l (fun x => f x * g x) * sumR l (fun x => f x * g x) <= sumR l (fun x => f x * f x) * sumR l (fun x => g x * g x).
  Proof.
    intros l f g. induction l as [|x l IH]; [cbn; lra|]. rewrite !sumR_cons. apply cs_step; [apply sumR_nonneg; intros; apply Rle_0_sqr|apply sumR_nonneg; intros; apply Rle_0_sqr|exact IH].
  Qed.
  Lemma Cmod_sum : forall (l : list X) f, Cmod (sumC l f) <= sumR l (fun x => Cmod (f x)).
  Proof. intros l f. induction l as [|x l IH]; [cbn; rewrite Cmod_0; lra|]. rewrite sumC_cons, sumR_cons. pose proof (Cmod_triangle (f x) (sumC l f)). lra. Qed.
  Lemma Cmod_cj : forall z, Cmod (Cconj z) = Cmod z.
  Proof. intros z. unfold Cmod, Cconj. f_equal. cbn [fst snd]. ring. Qed.
  Lemma sumR_ext : forall (l : list X) f g, (forall x, f x = g x) -> sumR l f = sumR l g.
  Proof. intros. apply Tensor.sum_ext. auto. Qed.
  Lemma cauchy_schwarz : forall (l : list X) f g, Cmod (sumC l (fun x => Cmult (f x) (Cconj (g x)))) ^ 2 <= sumR l (fun x => Cmod (f x) ^ 2) * sumR l (fun x => Cmod (g x) ^ 2).
  Proof.
    intros l f g. pose proof (Cmod_sum l (fun x => Cmult (f x) (Cconj (g x)))) as H. pose proof (Cmod_ge_0 (sumC l (fun x => Cmult (f x) (Cconj (g x))))) as P.
    cbv beta in H. rewrite (sumR_ext l (fun x => Cmod (Cmult (f x) (Cconj (g x)))) (fun x => Cmod (f x) * Cmod (g x))) in H by (intros; now rewrite Cmod_mult, Cmod_cj).
    pose proof (cs_real l (fun x => Cmod (f x)) (fun x => Cmod (g x))) as Q.
    rewrite (sumR_ext l (fun x => Cmod (f x) ^ 2) (fun x => Cmod (f x) * Cmod (f x))) by (intros; ring).
    rewrite (sumR_ext l (fun x => Cmod (g x) ^ 2) (fun x => Cmod (g x) * Cmod (g x))) by (intros; ring). nra.
  Qed.
  Lemma sumR_incl : forall (l l' : list X) f, NoDup l -> incl l l' -> (forall x, 0 <= f x) -> sumR l f <= sumR l' f.
  Proof.
    induction l as [|x l IH]; intros l' f N I P; [apply sumR_nonneg, P|]. inversion N as [|? ? Nx N']; subst.
    destruct (in_split x l' (I x (or_introl eq_refl))) as [l1 [l2 E]]. subst l'.
    assert (H : sumR l f <= sumR (l1 ++ l2) f).
    { apply IH; auto. intros y Hy. specialize (I y (or_intror Hy)). apply in_app_or in I. apply in_or_app. destruct I as [I|[I|I]]; auto. subst. contradiction. }
    rewrite sumR_cons. rewrite (Tensor.sum_app 0 1 Rplus Rmult Rminus Ropp RTheory) in H |- *. rewrite sumR_cons. lra.
  Qed.
End CS.
Lemma box_NoDup : forall ds, NoDup (box ds).
Proof. exact Binomial.box_NoDup. Qed.
Lemma overR_dim_le : forall L d d' F, (forall m, In m L -> (d m <= d' m)%nat) -> (forall n, 0 <= F n) -> overR L d F <= overR L d' F.
Proof.
  intros L d d' F H P. apply sumR_incl; [apply box_NoDup| |intros; apply P]. intros k Hk. apply in_box in Hk. apply in_box.
  revert k Hk. clear P. induction L as [|m L IH]; intros k Hk; inversion Hk; subst; constructor; [|apply IH; auto; intros; apply H; now right].
  specialize (H m (or_introl eq_refl)). lia.
Qed.

(** the fidelity of two kets is real and lies between 0 and the product of their probabilities: at most 1 for normalised states *)
Theorem C70_fidelity_bounds : forall M psi phi f1 f2 g1 g2, wf psi -> wf phi -> window (cw psi) -> NoDup M -> M <> [] -> ket_on M psi -> ket_on M phi ->
  fresh_for f1 psi (dualC g1 phi) -> (forall r, contractC f1 psi (dualC g1 phi) = Ok r -> fresh_for f2 r (adjC g2 r)) ->
  exists F : R, Expect.ket_fidelity C0' Cplus Cmult Cconj f1 f2 g1 g2 psi phi = Ok (RtoC F) /\ 0 <= F <= sqnorm M psi * sqnorm M phi.
Proof.
  intros M psi phi f1 f2 g1 g2 W1 W2 Wi NM NN S1 S2 F1 F2.
  exists (Cmod (overlap C0' Cplus Cmult Cconj M psi phi) ^ 2). split.
  - rewrite (C69_fidelity C0' (RtoC 1) Cplus Cmult Cminus Copp Cth Cconj cj_0 cj_add cj_mul cj_cj M psi phi) by assumption. f_equal. rewrite <- Re_sq.
    set (z := overlap _ _ _ _ _ _ _). destruct z as [x y]. unfold Cmult, Cconj, RtoC, Re. cbn [fst snd]. f_equal. ring.
  - split; [apply pow2_ge_0|]. eapply Rle_trans.
    + unfold overlap. rewrite (om_ext C0' Cplus _ _ _ (fun n => Cmult (ket_amp psi n) (Cconj (ket_amp phi n)))) by (intros; ring).
      apply (cauchy_schwarz (box (map (fun m => Nat.min (kdim psi m) (kdim phi m)) M)) (fun i => ket_amp psi (assign M i)) (fun i => ket_amp phi (assign M i))).
    + apply Rmult_le_compat; try (apply sumR_nonneg; intros; apply pow2_ge_0).
      * apply (overR_dim_le M _ (kdim psi) (fun n => Cmod (ket_amp psi n) ^ 2)); [intros; apply Nat.le_min_l|intros; apply pow2_ge_0].
      * apply (overR_dim_le M _ (kdim phi) (fun n => Cmod (ket_amp phi n) ^ 2)); [intros; apply Nat.le_min_r|intros; apply pow2_ge_0].
Qed.

(** a mixture of kets psi_i with weights p_i >= 0 *)
Definition is_mixture (c : compC) (ens : list (R * (numbers -> C))) : Prop :=
  (forall e, In e ens -> 0 <= fst e) /\
  forall k n, dm_elem c k n = Tensor.sum C0' Cplus ens (fun e => Cmult (RtoC (fst e)) (Cmult (snd e k) (Cconj (snd e n)))).
(** a mixture of positive trace has purity between 0 and 1 *)
Theorem C70_purity_bounds : forall M c f g ens, wf c -> window (cw c) -> NoDup M -> M <> [] -> dm_on M c -> fresh_for f c (dualC g c) ->
  (forall m, In m M -> kdim c m = bdim c m) -> is_mixture c ens -> trace_re M c <> 0 ->
  exists p, dm_purity f g c = Ok p /\ 0 <= p <= 1.
Proof.
  intros M c f g ens W Win NM NN SD FR SQ [Pe El] NZ. exists (hs M c / (trace_re M c * trace_re M c)). split; [now apply C70_dm_purity|].
  assert (H0 : 0 <= hs M c) by (apply overR_nonneg; intros; apply overR_nonneg; intros; apply pow2_ge_0).
  assert (Hd : 0 < trace_re M c * trace_re M c) by nra.
  split; [apply Rmult_le_pos; [exact H0|apply Rlt_le, Rinv_0_lt_compat, Hd]|].
  apply (Rmult_le_reg_r (trace_re M c * trace_re M c)); [exact Hd|]. unfold Rdiv. rewrite Rmult_assoc, Rinv_l, Rmult_1_r, Rmult_1_l by lra.
  set (D := fun n => Re (dm_elem c n n)).
  assert (T : trace_re M c = overR M (kdim c) D) by (apply om_dim; intros m Hm; rewrite (SQ m Hm); apply Nat.min_id).
  assert (K : forall k n, Cmod (dm_elem c k n) ^ 2 <= D k * D n).
  { intros k n.
    set (h := fun (x : numbers) (e : R * (numbers -> C)) => if Rle_dec 0 (fst e) then Cmult (RtoC (sqrt (fst e))) (snd e x) else C0').
    assert (E : forall x y, dm_elem c x y = Tensor.sum C0' Cplus ens (fun e => Cmult (h x e) (Cconj (h y e)))).
    { intros x y. rewrite El. apply Tensor.sum_ext. intros e He. unfold h. destruct (Rle_dec 0 (fst e)) as [P|P]; [|now destruct (P (Pe e He))].
      rewrite cj_mul. rewrite <- (sqrt_sqrt (fst e)) at 1 by exact P. rewrite RtoC_mult. replace (Cconj (RtoC (sqrt (fst e)))) with (RtoC (sqrt (fst e))) by (unfold Cconj, RtoC; cbn [fst snd]; f_equal; ring). ring. }
    assert (DD : forall x, D x = Tensor.sum 0 Rplus ens (fun e => Cmod (h x e) ^ 2)).
    { intros x. unfold D. rewrite E. clear. induction ens as [|e l IH]; [reflexivity|]. rewrite sumC_cons, sumR_cons, <- IH, <- Re_sq. reflexivity. }
    rewrite !DD, E. apply cauchy_schwarz. }
  unfold hs. rewrite T. rewrite overR_mul_r.
  unfold Expect.over_modes at 1 3. apply sumR_le. intros i. rewrite overR_mul.
  rewrite (om_dim 0 Rplus M (bdim c) (kdim c)) by (intros m Hm; now rewrite (SQ m Hm)).
  unfold Expect.over_modes. apply sumR_le. intros j. apply K.
Qed.

(** ** a ket and a mixture meeting the hypotheses: 3|0> + 4i|1> on mode 5, and 2|0><0| + |1><1| *)
Definition ex_k : compC :=
  mkComp (make (fun n => (1 + n)%nat) [] [] [5%Z] [] [] []) (mkArray [2%nat] (fun k => match k with [0%nat] => RtoC 3 | [1%nat] => (0, 4) | _ => C0' end)).
Definition ex_mix : compC :=
  mkComp (make (fun n => (11 + n)%nat) [5%Z] [] [5%Z] [] [] []) (mkArray [2%nat; 2%nat] (fun k => match k with [0%nat; 0%nat] => RtoC 2 | [1%nat; 1%nat] => RtoC 1 | _ => C0' end)).
Theorem C70_example :
  (wf ex_k /\ window (cw ex_k) /\ ket_on [5%Z] ex_k /\ fresh_for (fresh 20) ex_k (dualC (fresh 20) ex_k) /\ fresh_for (fresh 20) ex_k (adjC (fresh 20) ex_k) /\ sqnorm [5%Z] ex_k = 25)
  /\ (wf ex_mix /\ window (cw ex_mix) /\ dm_on [5%Z] ex_mix /\ fresh_for (fresh 20) ex_mix (dualC (fresh 20) ex_mix) /\ kdim ex_mix 5 = bdim ex_mix 5
      /\ trace_re [5%Z] ex_mix = 3 /\ hs [5%Z] ex_mix = 5
      /\ is_mixture ex_mix [(2, fun n => match n 5%Z with 0%nat => RtoC 1 | _ => C0' end); (1, fun n => match n 5%Z with 1%nat => RtoC 1 | _ => C0' end)]).
Proof.
  assert (cm : forall x y, Cmod (x, y) ^ 2 = x * x + y * y).
  { intros x y. rewrite <- Re_sq. unfold Re, Cmult, Cconj. cbn [fst snd]. ring. }
  split.
  - split; [wf_by_cases|]. split; [pairs_by_cases; cbn; lia|]. split; [on_cases|]. split; [ids|]. split; [ids|].
    unfold sqnorm, Expect.over_modes. change (box (map (kdim ex_k) [5%Z])) with [[0%nat]; [1%nat]]. cbn [Tensor.sum fold_right].
    change (ket_amp ex_k (assign [5%Z] [0%nat])) with (3, 0). change (ket_amp ex_k (assign [5%Z] [1%nat])) with (0, 4). rewrite !cm. ring.
  - split; [wf_by_cases|]. split; [pairs_by_cases; cbn; lia|]. split; [on_cases; destruct s; tauto|]. split; [ids|]. split; [reflexivity|].
    split; [|split].
    + unfold trace_re, Expect.over_modes. change (box (map _ [5%Z])) with [[0%nat]; [1%nat]]. cbn [Tensor.sum fold_right].
      change (dm_elem ex_mix (assign [5%Z] [0%nat]) (assign [5%Z] [0%nat])) with (2, 0). change (dm_elem ex_mix (assign [5%Z] [1%nat]) (assign [5%Z] [1%nat])) with (1, 0).
      unfold Re. cbn [fst]. ring.
    + unfold hs, Expect.over_modes. change (box (map (kdim ex_mix) [5%Z])) with [[0%nat]; [1%nat]]. change (box (map (bdim ex_mix) [5%Z])) with [[0%nat]; [1%nat]]. cbn [Tensor.sum fold_right].
      change (dm_elem ex_mix (assign [5%Z] [0%nat]) (assign [5%Z] [0%nat])) with (2, 0). change (dm_elem ex_mix (assign [5%Z] [1%nat]) (assign [5%Z] [1%nat])) with (1, 0).
      change (dm_elem ex_mix (assign [5%Z] [0%nat]) (assign [5%Z] [1%nat])) with (0, 0). change (dm_elem ex_mix (assign [5%Z] [1%nat]) (assign [5%Z] [0%nat])) with (0, 0). rewrite !cm. ring.
    + split; [intros e [<-|[<-|[]]]; cbn; lra|]. intros k n. unfold dm_elem, amp. change (shown (cw ex_mix)) with [(5%Z, true, Bra); (5%Z, true, Ket)]. cbn [map d_side d_mode fst snd Tensor.sum fold_right ex_mix carr at_].
      destruct (k 5%Z) as [|[|?]], (n 5%Z) as [|[|?]]; unfold RtoC, Cplus, Cmult, Cconj; cbn [fst snd]; f_equal; ring.
Qed.
