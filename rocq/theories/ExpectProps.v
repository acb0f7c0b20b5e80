(** Claim C69: expectation values and fidelities, in terms of traces (specification in Expect.v: ket_on, dm_on, unitary_on, ket_amp,
    dm_elem, op_elem, over_modes, tr_product). *)
From Coq Require Import ZArith List Bool Lia Permutation Sorted Arith Ring_theory Ring.
Require Import Verif.Base Verif.Wires Verif.WiresSpec Verif.WiresLemmas Verif.WiresMatmul Verif.WiresLabels
  Verif.WiresProps Verif.WiresAdj Verif.Tensor Verif.Contract Verif.ContractAssoc Verif.CompAdj Verif.RShift Verif.ContractEx Verif.Expect.
Import ListNotations.

Section Props.
  Context {R : Type} (rO rI : R) (radd rmul rsub : R -> R -> R) (ropp : R -> R).
  Hypothesis Rth : ring_theory rO rI radd rmul rsub ropp eq.
  Add Ring Rry : Rth.
  Context (cj : R -> R).
  Hypothesis cj0 : cj rO = rO.
  Hypothesis cjadd : forall x y, cj (radd x y) = radd (cj x) (cj y).
  Hypothesis cjmul : forall x y, cj (rmul x y) = rmul (cj x) (cj y).
  Hypothesis cjcj : forall x, cj (cj x) = x.
  Notation comp := (@comp R).
  Notation contract := (Contract.contract rO radd rmul).
  Notation adj := (CompAdj.comp_adjoint cj).
  Notation dual := (CompAdj.comp_dual cj).
  Notation over_modes := (Expect.over_modes rO radd).
  Notation tr_product := (Expect.tr_product rO radd rmul).
  Notation ket_expectation := (Expect.ket_expectation rO radd rmul cj).
  Notation dm_expectation := (Expect.dm_expectation rO radd rmul cj).
  Notation ket_fidelity := (Expect.ket_fidelity rO radd rmul cj).
  Notation "x * y" := (rmul x y).

  Lemma tr_perm : forall E L L' d1 d2 dl rho O, NoDup L -> (forall m, In m L <-> In m L') -> NoDup L' ->
    (forall k k' n n' : numbers, (forall m, k m = k' m) -> (forall m, n m = n' m) -> rho k n = rho k' n') ->
    tr_product E L d1 d2 dl rho O = tr_product E L' d1 d2 dl rho O.
  Proof using Rth.
    intros E L L' d1 d2 dl rho O NL I NL' X. unfold Expect.tr_product. apply (om_perm rO rI radd rmul rsub ropp Rth); [exact NL|now apply NoDup_Permutation|].
    intros n n' H. apply om_ext. intros a. apply om_ext. intros b. f_equal. apply X; intros m; unfold pick; now rewrite H.
  Qed.
  Lemma ket_amp_ext : forall (c : comp) (n n' : numbers), (forall m, n m = n' m) -> ket_amp c n = ket_amp c n'.
  Proof using. clear. intros. apply amp_same. intros. apply H. Qed.
  Lemma dm_elem_ext : forall (c : comp) (k k' n n' : numbers), (forall m, k m = k' m) -> (forall m, n m = n' m) -> dm_elem c k n = dm_elem c k' n'.
  Proof using. clear. intros. apply amp_same. intros d _. destruct (d_side d); auto. Qed.

  (** the state lives on the modes M, the operator on the modes E (some of them); L lists the remaining modes of the state *)
  Definition setting (M E L : list Z) (st op : comp) : Prop :=
    wf st /\ wf op /\ window (cw st) /\ NoDup E /\ E <> [] /\ incl E M /\ NoDup L /\ forall m, In m L <-> In m M /\ ~ In m E.

  Lemma setting_left : forall M E L (st op : comp), setting M E L st op -> (forall m, In m (modes (cw st)) <-> In m M) -> (forall m, In m (modes (cw op)) <-> In m E) ->
    forall d1 d2 dl rho O, (forall k k' n n' : numbers, (forall m, k m = k' m) -> (forall m, n m = n' m) -> rho k n = rho k' n') ->
    tr_product E (left_modes (cw st) (cw op)) d1 d2 dl rho O = tr_product E L d1 d2 dl rho O.
  Proof using Rth.
    intros M E L st op [_ [_ [_ [_ [_ [_ [NL IL]]]]]]] MS MO d1 d2 dl rho O X. destruct (left_in M E (cw st) (cw op) MS MO) as [NL0 IL0].
    apply tr_perm; auto. intros m. now rewrite IL0, IL.
  Qed.
  Lemma ket_rho_ext : forall (c : comp) (k k' n n' : numbers), (forall m, k m = k' m) -> (forall m, n m = n' m) -> ket_amp c k * cj (ket_amp c n) = ket_amp c k' * cj (ket_amp c n').
  Proof using. clear. intros c k k' n n' H1 H2. now rewrite (ket_amp_ext c k k' H1), (ket_amp_ext c n n' H2). Qed.
  Ltac go T MS MO := intros ? ? ? ? ?; intros; match goal with S : setting ?M ?E ?L ?st ?op |- _ =>
    pose proof S as [? [? [? [? [? [? _]]]]]];
    rewrite (T M E) by assumption; f_equal; apply (setting_left M E L st op S); [apply MS; assumption|apply MO; assumption|intros; first [apply dm_elem_ext; assumption|apply ket_rho_ext; assumption]] end.

  (** a ket: rho(k,n) = <k|psi><psi|n>; cutoffs as in the code *)
  Theorem C69_ket_ket : forall M E L st op f1 f2 g1 g2, setting M E L st op -> ket_on M st -> ket_on E op ->
    fresh_for f1 st (dual g1 op) -> (forall r, contract f1 st (dual g1 op) = Ok r -> fresh_for f2 r (adj g2 r)) ->
    ket_expectation f1 f2 g1 g2 st op = Ok (tr_product E L
      (fun m => Nat.min (kdim st m) (kdim op m)) (fun m => Nat.min (kdim st m) (kdim op m)) (kdim st)
      (fun k n => ket_amp st k * cj (ket_amp st n)) (fun n k => ket_amp op n * cj (ket_amp op k))).
  Proof using Rth cj0 cjadd cjmul cjcj. go (ket_ket rO rI radd rmul rsub ropp Rth cj cj0 cjadd cjmul cjcj) (@modes_ket R) (@modes_ket R). Qed.
  Theorem C69_ket_unitary : forall M E L st op f1 f2 g1 g2, setting M E L st op -> ket_on M st -> unitary_on E op -> same_repr (cw st) (cw op) ->
    fresh_for f1 st op -> (forall r, contract f1 st op = Ok r -> fresh_for f2 r (dual g2 st)) ->
    ket_expectation f1 f2 g1 g2 st op = Ok (tr_product E L
      (fun m => Nat.min (kdim op m) (kdim st m)) (fun m => Nat.min (kdim st m) (idim op m)) (kdim st)
      (fun k n => ket_amp st k * cj (ket_amp st n)) (op_elem op)).
  Proof using Rth. go (ket_unitary rO rI radd rmul rsub ropp Rth cj) (@modes_ket R) (@modes_unitary R). Qed.
  Lemma ket_dm_adj : forall M E L st op f1 f2 g1 g2, setting M E L st op -> ket_on M st -> dm_on E op ->
    fresh_for f1 st (dual g1 op) -> (forall r, contract f1 st (dual g1 op) = Ok r -> fresh_for f2 (adj g2 st) r) ->
    ket_expectation f1 f2 g1 g2 st op = Ok (tr_product E L
      (fun m => Nat.min (kdim st m) (bdim op m)) (fun m => Nat.min (kdim st m) (kdim op m)) (kdim st)
      (fun k n => ket_amp st k * cj (ket_amp st n)) (fun n k => cj (dm_elem op k n))).
  Proof using Rth. go (ket_dm rO rI radd rmul rsub ropp Rth cj) (@modes_ket R) (@modes_dm R). Qed.
  (** a density matrix *)
  Theorem C69_dm_ket : forall M E L st op f1 f2 g1 g1' g2, setting M E L st op -> dm_on M st -> ket_on E op ->
    fresh_for f1 st (adj g2 (dual g1 op)) -> (forall r, contract f1 st (adj g2 (dual g1 op)) = Ok r -> fresh_for f2 r (dual g1' op)) ->
    dm_expectation f1 f2 g1 g1' g2 st op = Ok (tr_product E L
      (fun m => Nat.min (bdim st m) (kdim op m)) (fun m => Nat.min (kdim st m) (kdim op m)) (fun m => Nat.min (kdim st m) (bdim st m))
      (dm_elem st) (fun n k => ket_amp op n * cj (ket_amp op k))).
  Proof using Rth cjcj. go (dm_ket rO rI radd rmul rsub ropp Rth cj cjcj) (@modes_dm R) (@modes_ket R). Qed.
  Theorem C69_dm_unitary : forall M E L st op f1 f2 g1 g1' g2, setting M E L st op -> dm_on M st -> unitary_on E op -> same_repr (cw st) (cw op) ->
    fresh_for f1 st op ->
    dm_expectation f1 f2 g1 g1' g2 st op = Ok (tr_product E L
      (fun m => Nat.min (kdim op m) (bdim st m)) (fun m => Nat.min (kdim st m) (idim op m)) (fun m => Nat.min (kdim st m) (bdim st m))
      (dm_elem st) (op_elem op)).
  Proof using Rth. go (dm_unitary rO rI radd rmul rsub ropp Rth cj) (@modes_dm R) (@modes_unitary R). Qed.
  Lemma dm_dm_adj : forall M E L st op f1 f2 g1 g1' g2, setting M E L st op -> dm_on M st -> dm_on E op ->
    fresh_for f1 st (dual g1 op) ->
    dm_expectation f1 f2 g1 g1' g2 st op = Ok (tr_product E L
      (fun m => Nat.min (bdim st m) (bdim op m)) (fun m => Nat.min (kdim st m) (kdim op m)) (fun m => Nat.min (kdim st m) (bdim st m))
      (dm_elem st) (fun n k => cj (dm_elem op k n))).
  Proof using Rth. go (dm_dm rO rI radd rmul rsub ropp Rth cj) (@modes_dm R) (@modes_dm R). Qed.

  Lemma tr_op_ext : forall E L d1 d2 dl rho O O', (forall n k, O n k = O' n k) -> tr_product E L d1 d2 dl rho O = tr_product E L d1 d2 dl rho O'.
  Proof using. clear. intros. unfold Expect.tr_product. apply om_ext. intros. apply om_ext. intros. apply om_ext. intros. now rewrite H. Qed.
  (** operators given as density matrices: the result is Tr(rho O^dagger), which is Tr(rho O) when O is Hermitian *)
  Definition hermitian (c : comp) : Prop := forall k n, cj (dm_elem c k n) = dm_elem c n k.
  Theorem C69_ket_dm : forall M E L st op f1 f2 g1 g2, setting M E L st op -> ket_on M st -> dm_on E op ->
    fresh_for f1 st (dual g1 op) -> (forall r, contract f1 st (dual g1 op) = Ok r -> fresh_for f2 (adj g2 st) r) ->
    let tr := tr_product E L (fun m => Nat.min (kdim st m) (bdim op m)) (fun m => Nat.min (kdim st m) (kdim op m)) (kdim st)
                (fun k n => ket_amp st k * cj (ket_amp st n)) in
    ket_expectation f1 f2 g1 g2 st op = Ok (tr (fun n k => cj (dm_elem op k n)))
    /\ (hermitian op -> ket_expectation f1 f2 g1 g2 st op = Ok (tr (dm_elem op))).
  Proof using Rth.
    intros M E L st op f1 f2 g1 g2 S SK SO F1 F2 tr. assert (G := ket_dm_adj M E L st op f1 f2 g1 g2 S SK SO F1 F2).
    split; [exact G|]. intros H. rewrite G. f_equal. unfold tr. apply tr_op_ext. intros n k. apply H.
  Qed.
  Theorem C69_dm_dm : forall M E L st op f1 f2 g1 g1' g2, setting M E L st op -> dm_on M st -> dm_on E op ->
    fresh_for f1 st (dual g1 op) ->
    let tr := tr_product E L (fun m => Nat.min (bdim st m) (bdim op m)) (fun m => Nat.min (kdim st m) (kdim op m)) (fun m => Nat.min (kdim st m) (bdim st m))
                (dm_elem st) in
    dm_expectation f1 f2 g1 g1' g2 st op = Ok (tr (fun n k => cj (dm_elem op k n)))
    /\ (hermitian op -> dm_expectation f1 f2 g1 g1' g2 st op = Ok (tr (dm_elem op))).
  Proof using Rth.
    intros M E L st op f1 f2 g1 g1' g2 S SK SO F1 tr. assert (G := dm_dm_adj M E L st op f1 f2 g1 g1' g2 S SK SO F1).
    split; [exact G|]. intros H. rewrite G. f_equal. unfold tr. apply tr_op_ext. intros n k. apply H.
  Qed.

  (** ** errors *)
  Lemma ne_ex : forall s o ws, nonempty (filter (sel s o) ws) = true -> exists m, In (m, o, s) (descs ws).
  Proof using.
    clear. intros s o ws H. destruct (filter (sel s o) ws) as [|w t] eqn:X; [discriminate|]. assert (I : In w (filter (sel s o) ws)) by (rewrite X; now left).
    apply in_sel in I. destruct I as [I [S O]]. exists (mode w). unfold descs. apply in_map_iff. exists w. split; [|exact I]. unfold desc. now rewrite S, O.
  Qed.
  Lemma ne_none : forall s o ws, nonempty (filter (sel s o) ws) = false -> forall m, ~ In (m, o, s) (descs ws).
  Proof using. clear. intros s o ws H m I. rewrite (ne_true s o ws m I) in H. discriminate. Qed.
  Lemma bra_none : forall ws, nonempty (bra ws) = false -> forall m o, ~ In (m, o, Bra) (descs ws).
  Proof using.
    clear. intros ws H m o I. unfold descs in I. apply in_map_iff in I. destruct I as [w [E I]]. unfold desc in E. injection E as _ _ E.
    unfold bra in H. destruct (filter is_brab ws) as [|x t] eqn:X; [|discriminate]. assert (J : In w (filter is_brab ws)) by (apply filter_In; split; [exact I|unfold is_brab; now apply side_eqb_eq]). rewrite X in J. destruct J.
  Qed.
  (** operators that are neither ket-like, density-matrix-like nor unitary-like are refused *)
  Theorem C69_invalid : forall st op f1 f2 g1 g1' g2, (forall d, In d (descs (cw op)) -> d_side d <> Cl) ->
    ~ (exists E, E <> [] /\ (ket_on E op \/ dm_on E op \/ unitary_on E op)) ->
    ket_expectation f1 f2 g1 g2 st op = Err ValueError /\ dm_expectation f1 f2 g1 g1' g2 st op = Err ValueError.
  Proof using.
    clear. intros st op f1 f2 g1 g1' g2 NCl H.
    assert (V : validate (cw op) = Invalid); [|unfold Expect.ket_expectation, Expect.dm_expectation; now rewrite V].
    unfold validate. rewrite output_ket_sel, input_ket_sel, output_bra_sel, input_bra_sel.
    destruct (nonempty (filter (sel Ket true) (cw op))) eqn:KO; destruct (nonempty (filter (sel Ket false) (cw op))) eqn:KI;
      destruct (nonempty (bra (cw op))) eqn:B; destruct (nonempty (filter (sel Bra true) (cw op))) eqn:BO; destruct (nonempty (filter (sel Bra false) (cw op))) eqn:BI; cbn [negb andb]; try reflexivity.
    all: try (destruct (same_modes _ _) eqn:SM; [|reflexivity]).
    all: exfalso; apply H; exists (modes (filter (sel Ket true) (cw op))); split;
      [intros X; destruct (ne_ex _ _ _ KO) as [m Hm]; apply modes_sel in Hm; rewrite X in Hm; destruct Hm|].
    all: try (apply same_modes_iff with (1 := SM) || pose proof (proj1 (same_modes_iff _ _) SM) as SM').
    all: pose proof (NCl) as NCl'.
    all: try pose proof (ne_none _ _ _ KI) as KI'; try pose proof (bra_none _ B) as B'; try pose proof (ne_none _ _ _ BI) as BI'; try pose proof (ne_none _ _ _ BO) as BO'.
    all: first [left; intros [[m o] s]; rewrite modes_sel; cbn [d_mode d_out d_side fst snd]; split;
        [intros I; specialize (NCl _ I); cbn in NCl; destruct o, s; try congruence; try tauto; exfalso; first [now apply (KI' m)|now apply (B' m true)|now apply (B' m false)]
        |intros [I [-> ->]]; exact I]
      | right; left; intros [[m o] s]; rewrite modes_sel; cbn [d_mode d_out d_side fst snd]; split;
        [intros I; specialize (NCl _ I); cbn in NCl; destruct o, s; try congruence; try (exfalso; first [now apply (KI' m)|now apply (BI' m)]); (split; [|split; [reflexivity|discriminate]]); first [exact I|apply modes_sel, SM', modes_sel, I]
        |intros [I [-> N]]; destruct s; [|exact I|congruence]; apply modes_sel, SM', modes_sel, I]
      | right; right; intros [[m o] s]; rewrite modes_sel; cbn [d_mode d_out d_side fst snd]; split;
        [intros I; specialize (NCl _ I); cbn in NCl; destruct s; try congruence; try (exfalso; now apply (B' m o)); (split; [|reflexivity]); destruct o; first [exact I|apply modes_sel, SM', modes_sel, I]
        |intros [I ->]; destruct o; first [exact I|apply modes_sel, SM', modes_sel, I]] ].
  Qed.
  (** so are operators on modes that the state does not have *)
  Theorem C69_modes : forall st op f1 f2 g1 g1' g2 m, In m (modes (cw op)) -> ~ In m (modes (cw st)) ->
    ket_expectation f1 f2 g1 g2 st op = Err ValueError /\ dm_expectation f1 f2 g1 g1' g2 st op = Err ValueError.
  Proof using.
    clear. intros st op f1 f2 g1 g1' g2 m H N.
    assert (F : forallb (fun m => mem_mode m (modes (cw st))) (modes (cw op)) = false).
    { destruct (forallb _ _) eqn:F; [|reflexivity]. exfalso. apply N. apply mem_In. rewrite forallb_forall in F. now apply F. }
    unfold Expect.ket_expectation, Expect.dm_expectation. rewrite F. destruct (validate (cw op)); auto.
  Qed.

  (** ** fidelity of kets *)
  (** sum over all photon numbers of the modes, below both cutoffs, of <phi|n><n|psi> *)
  Definition overlap (M : list Z) (psi phi : comp) : R :=
    over_modes M (fun m => Nat.min (kdim psi m) (kdim phi m)) (fun n => cj (ket_amp phi n) * ket_amp psi n).
  Lemma om_body : forall L dim F G, (forall idx, In idx (box (map dim L)) -> F (assign L idx) = G (assign L idx)) -> over_modes L dim F = over_modes L dim G.
  Proof using. clear. intros. unfold Expect.over_modes. now apply sum_ext. Qed.
  Theorem C69_fidelity : forall M psi phi f1 f2 g1 g2, wf psi -> wf phi -> window (cw psi) -> NoDup M -> M <> [] -> ket_on M psi -> ket_on M phi ->
    fresh_for f1 psi (dual g1 phi) -> (forall r, contract f1 psi (dual g1 phi) = Ok r -> fresh_for f2 r (adj g2 r)) ->
    ket_fidelity f1 f2 g1 g2 psi phi = Ok (overlap M psi phi * cj (overlap M psi phi)).
  Proof using Rth cj0 cjadd cjmul cjcj.
    intros M psi phi f1 f2 g1 g2 W1 W2 Wi NM NN S1 S2 F1 F2. unfold Expect.ket_fidelity.
    assert (SM : same_modes (modes (cw psi)) (modes (cw phi)) = true) by (apply same_modes_iff; intros m; now rewrite (modes_ket M psi S1), (modes_ket M phi S2)).
    rewrite SM. cbn [negb]. assert (ST : setting M M [] psi phi).
    { unfold setting. split; [exact W1|]. split; [exact W2|]. split; [exact Wi|]. split; [exact NM|]. split; [exact NN|]. split; [apply incl_refl|]. split; [constructor|]. cbn. tauto. }
    rewrite (C69_ket_ket M M [] psi phi) by assumption.
    f_equal. unfold Expect.tr_product. rewrite (om_nil rO rI radd rmul rsub ropp Rth). unfold overlap.
    rewrite (om_cj rO radd cj cj0 cjadd). rewrite (om_scal_l rO rI radd rmul rsub ropp Rth). apply om_ext. intros n. rewrite (om_scal_r rO rI radd rmul rsub ropp Rth).
    apply om_ext. intros k. rewrite cjmul, cjcj.
    assert (P : forall x, ket_amp psi (pick M x (fun _ => 0)) = ket_amp psi x).
    { intros x. apply amp_same. intros d Hd. apply S1 in Hd. unfold pick. now rewrite (proj2 (mem_In (d_mode d) M) (proj1 Hd)). }
    rewrite !P. ring.
  Qed.
  (** the fidelity does not depend on the order of the two states *)
  Theorem C69_fidelity_symmetric : forall M psi phi f1 f2 g1 g2 f1' f2' g1' g2', wf psi -> wf phi -> window (cw psi) -> window (cw phi) -> NoDup M -> M <> [] -> ket_on M psi -> ket_on M phi ->
    fresh_for f1 psi (dual g1 phi) -> (forall r, contract f1 psi (dual g1 phi) = Ok r -> fresh_for f2 r (adj g2 r)) ->
    fresh_for f1' phi (dual g1' psi) -> (forall r, contract f1' phi (dual g1' psi) = Ok r -> fresh_for f2' r (adj g2' r)) ->
    ket_fidelity f1 f2 g1 g2 psi phi = ket_fidelity f1' f2' g1' g2' phi psi.
  Proof using Rth cj0 cjadd cjmul cjcj.
    intros. rewrite (C69_fidelity M psi phi), (C69_fidelity M phi psi) by assumption. f_equal.
    assert (C : forall a b, cj (overlap M a b) = overlap M b a).
    { intros a b. unfold overlap. rewrite (om_cj rO radd cj cj0 cjadd). rewrite (om_dim rO radd M _ (fun m => Nat.min (kdim b m) (kdim a m))) by (intros; apply Nat.min_comm).
      apply om_ext. intros n. rewrite cjmul, cjcj. ring. }
    rewrite !C. ring.
  Qed.
  (** states on different modes have no fidelity *)
  Theorem C69_fidelity_modes : forall psi phi f1 f2 g1 g2 m, (In m (modes (cw psi)) <-> ~ In m (modes (cw phi))) ->
    ket_fidelity f1 f2 g1 g2 psi phi = Err ValueError.
  Proof using.
    clear. intros psi phi f1 f2 g1 g2 m H. unfold Expect.ket_fidelity. destruct (same_modes _ _) eqn:SM; [|reflexivity].
    exfalso. pose proof (proj1 (same_modes_iff _ _) SM m). tauto.
  Qed.
End Props.

(** ** concrete objects: Gaussian integers *)
Local Open Scope Z_scope.
Definition GI : Type := (Z * Z)%type.
Definition gO : GI := (0, 0).
Definition gI : GI := (1, 0).
Definition gadd (a b : GI) : GI := (fst a + fst b, snd a + snd b).
Definition gmul (a b : GI) : GI := (fst a * fst b - snd a * snd b, fst a * snd b + snd a * fst b).
Definition gopp (a : GI) : GI := (- fst a, - snd a).
Definition gsub (a b : GI) : GI := gadd a (gopp b).
Definition gcj (a : GI) : GI := (fst a, - snd a).
Lemma GIth : ring_theory gO gI gadd gmul gsub gopp eq.
Proof. constructor; repeat intros [? ?]; cbv [gO gI gadd gmul gsub gopp fst snd]; try reflexivity; f_equal; ring. Qed.
(** |psi> = sum of (1 + n0 + i n1) |n0 n1> with cutoffs 2 and 3; |phi> = |0> + i|1> on mode 1; rho on mode 0, U on mode 1 *)
Definition ex_psi : @comp GI :=
  mkComp (make (fun n => (1 + n)%nat) [] [] [0; 1] [] [] []) (mkArray [2%nat; 3%nat] (fun k => match k with [i; j] => (1 + Z.of_nat i, Z.of_nat j) | _ => gO end)).
Definition ex_phi : @comp GI :=
  mkComp (make (fun n => (5 + n)%nat) [] [] [1] [] [] []) (mkArray [2%nat] (fun k => match k with [0%nat] => (1, 0) | [1%nat] => (0, 1) | _ => gO end)).
Definition ex_u : @comp GI :=
  mkComp (make (fun n => (7 + n)%nat) [] [] [1] [1] [] []) (mkArray [2%nat; 2%nat] (fun k => match k with [0%nat; 1%nat] => (1, 0) | [1%nat; 0%nat] => (0, 3) | _ => gO end)).
(** wires of a density matrix in the order the code shows them: bra output, ket output *)
Definition ex_rho : @comp GI :=
  mkComp (make (fun n => (11 + n)%nat) [1] [] [1] [] [] []) (mkArray [2%nat; 2%nat] (fun k => match k with [b; k] => (Z.of_nat (b + k), Z.of_nat k - Z.of_nat b) | _ => gO end)).
Ltac ids := unfold fresh_for, distinct_ids; cbv; repeat constructor; simpl; intuition congruence.
Ltac on_cases := intros [[m o] s]; cbv [cw ex_psi ex_phi ex_u ex_rho make]; cbn; split;
  [intros H; repeat (destruct H as [H|H]; [injection H as <- <- <-; cbn; intuition discriminate|]); destruct H
  |unfold d_mode, d_out, d_side; cbn; intros; repeat match goal with H : _ /\ _ |- _ => destruct H | H : _ \/ _ |- _ => destruct H end; subst; try contradiction; try tauto].

Theorem C69_example :
  setting [0; 1] [1] [0] ex_psi ex_phi /\ ket_on [0; 1] ex_psi /\ ket_on [1] ex_phi
  /\ fresh_for (fresh 20) ex_psi (CompAdj.comp_dual gcj (fresh 20) ex_phi)
  /\ (forall r, Contract.contract gO gadd gmul (fresh 20) ex_psi (CompAdj.comp_dual gcj (fresh 20) ex_phi) = Ok r ->
        fresh_for (fresh 60) r (CompAdj.comp_adjoint gcj (fresh 60) r))
  /\ Expect.ket_expectation gO gadd gmul gcj (fresh 20) (fresh 60) (fresh 20) (fresh 60) ex_psi ex_phi
     = Ok (5 + 13, 0) (* the sum over n0 of |psi[n0,0] - i psi[n0,1]|^2 = |2 - i|^2 + |3 - 2i|^2 *)
  /\ unitary_on [1] ex_u /\ same_repr (cw ex_psi) (cw ex_u) /\ fresh_for (fresh 20) ex_psi ex_u /\ wf ex_u
  /\ dm_on [1] ex_rho /\ wf ex_rho /\ hermitian gcj ex_rho.
Proof.
  split. { unfold setting. split; [wf_by_cases|]. split; [wf_by_cases|]. split; [pairs_by_cases; cbn; lia|]. split; [repeat constructor; simpl; tauto|]. split; [discriminate|].
    split; [intros m [<-|[]]; cbn; tauto|]. split; [repeat constructor; simpl; tauto|]. intros m. cbn. lia. }
  split; [on_cases|]. split; [on_cases|]. split; [ids|].
  split; [intros r H; cbv in H; injection H as <-; ids|]. split; [reflexivity|].
  split; [on_cases; destruct o; tauto|]. split; [pairs_by_cases; cbn; intros; congruence|]. split; [ids|]. split; [wf_by_cases|].
  split; [on_cases; destruct s; tauto|]. split; [wf_by_cases|].
  intros k n. unfold dm_elem, amp. change (shown (cw ex_rho)) with [(1, true, Bra); (1, true, Ket)]. cbn. unfold gcj. cbn [fst snd]. f_equal; lia.
Qed.

(** The documentation promises Tr(rho O) for every density-matrix-like operator. For the non-Hermitian O = |0><1| and the state |0> + i|1>
    the code returns -i where <psi|O|psi> = i. *)
Definition ex_ket2 : @comp GI :=
  mkComp (make (fun n => (1 + n)%nat) [] [] [1] [] [] []) (mkArray [2%nat] (fun k => match k with [0%nat] => (1, 0) | [1%nat] => (0, 1) | _ => gO end)).
Definition ex_ladder : @comp GI :=
  mkComp (make (fun n => (11 + n)%nat) [1] [] [1] [] [] []) (mkArray [2%nat; 2%nat] (fun k => match k with [1%nat; 0%nat] => (1, 0) | _ => gO end)).
Theorem C69_refuted_nonhermitian :
  setting [1] [1] [] ex_ket2 ex_ladder /\ ket_on [1] ex_ket2 /\ dm_on [1] ex_ladder
  /\ dm_elem ex_ladder (fun _ => 0%nat) (fun _ => 1%nat) = (1, 0) /\ dm_elem ex_ladder (fun _ => 1%nat) (fun _ => 0%nat) = (0, 0)
  /\ Expect.tr_product gO gadd gmul [1] [] (fun _ => 2%nat) (fun _ => 2%nat) (fun _ => 2%nat)
       (fun k n => gmul (ket_amp ex_ket2 k) (gcj (ket_amp ex_ket2 n))) (dm_elem ex_ladder) = (0, 1)
  /\ Expect.ket_expectation gO gadd gmul gcj (fresh 20) (fresh 60) (fresh 20) (fresh 60) ex_ket2 ex_ladder = Ok (0, -1).
Proof.
  split. { unfold setting. split; [wf_by_cases|]. split; [wf_by_cases|]. split; [pairs_by_cases; cbn; lia|]. split; [repeat constructor; simpl; tauto|]. split; [discriminate|].
    split; [intros m [<-|[]]; cbn; tauto|]. split; [constructor|]. intros m. cbn. lia. }
  split; [on_cases|]. split; [on_cases; destruct s; tauto|]. repeat split; reflexivity.
Qed.
