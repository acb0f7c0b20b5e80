(** Contraction of components in the Fock representation: claim C07.
    Model of mrmustard/lab/circuit_components.py (CircuitComponent.contract, core axes) and
    mrmustard/physics/ansatz/array_ansatz.py (ArrayAnsatz.contract). Batch axes are not modelled here. *)
From Coq Require Import ZArith List Bool Lia Permutation Sorted Arith Ring_theory Ring.
Require Import Verif.Base Verif.Wires Verif.WiresSpec Verif.WiresLemmas Verif.WiresMatmul Verif.WiresLabels
  Verif.WiresProps Verif.WiresAdj Verif.Tensor.
Import ListNotations.

Section Contract.
  Context {R : Type} (rO rI : R) (radd rmul rsub : R -> R -> R) (ropp : R -> R).
  Hypothesis Rth : ring_theory rO rI radd rmul rsub ropp eq.
  Notation array := (@array R).
  Notation sum := (Tensor.sum rO radd).
  Notation einsum := (Tensor.einsum rO radd rmul).

  (** array_ansatz.py:204-222: axes carrying a shared label are cut to the smaller size *)
  Definition cut_shape (mine : list nat) (sh : list nat) (other osh : list nat) : list nat :=
    map (fun ls => if nmem (fst ls) other then Nat.min (snd ls) (dim_of other osh (fst ls)) else snd ls)
        (combine mine sh).
  (** array_ansatz.py:159-226; the einsum is opt_einsum.contract (backend_manager.py:526), which accepts any
      number of labels *)
  Definition array_contract (A B : array) (l1 l2 lo : list nat) : result array :=
    if negb (length l1 =? length (shape A)) then Err ValueError
    else if negb (length l2 =? length (shape B)) then Err ValueError
    else if negb (forallb (fun l => nmem l (l1 ++ l2)) lo) then Err ValueError
    else Ok (einsum l1 l2 lo (mkArray (cut_shape l1 (shape A) l2 (shape B)) (at_ A))
                             (mkArray (cut_shape l2 (shape B) l1 (shape A)) (at_ B))).

  Record comp := mkComp { cw : wires; carr : array }.

  (** circuit_components.py:463-488 (both operands in the Fock representation). [f] gives the fresh ids of
      the copy of other's wires made inside contracted_labels. *)
  Definition contract (f : wire -> nat) (a b : comp) : result comp :=
    bind (matmul (cw a) (cw b)) (fun rp =>
    bind (contracted_labels f (cw a) (cw b)) (fun ls =>
    let '(l1, l2, lo) := ls in
    bind (array_contract (carr a) (carr b) l1 l2 lo) (fun arr =>
    Ok (mkComp (fst rp) arr)))).

  (** ** specification *)
  (** amplitude when every wire d carries the photon number [al d] *)
  Definition amp (c : comp) (al : descr -> nat) : R := at_ (carr c) (map al (shown (cw c))).
  (** Fock cutoff of wire d *)
  Definition wdim (c : comp) (d : descr) : nat :=
    match look desc_eqb (shown (cw c)) (shape (carr c)) d with Some v => v | None => 0 end.
  (** the wires of a joined to an input of b *)
  Definition joins (a b : comp) : list descr :=
    filter (fun d => d_out d && has (flip d) (cw b)) (shown (cw a)).
  (** the photon numbers [al] with those of the wires in L replaced by idx *)
  Definition repl (al : descr -> nat) (L : list descr) (idx : list nat) (d : descr) : nat :=
    match look desc_eqb L idx d with Some v => v | None => al d end.
  Definition cut_dim (a b : comp) (d : descr) : nat := Nat.min (wdim a d) (wdim b (flip d)).

  Definition quantum_only (ws : wires) : Prop := forall w, In w ws -> wside w <> Cl.
  Definition wf (c : comp) : Prop :=
    distinct (cw c) /\ well_indexed (cw c) /\ quantum_only (cw c) /\ length (shape (carr c)) = length (cw c).

  Definition rule (a b : comp) (al : descr -> nat) : R :=
    sum (box (map (cut_dim a b) (joins a b))) (fun idx =>
      rmul (amp a (repl al (joins a b) idx)) (amp b (repl al (map flip (joins a b)) idx))).

  (** ** lemmas *)
  Lemma matmul_ok_quantum : forall a b r, quantum_only a -> quantum_only b -> matmul_wires a b = Ok r ->
    exists perm, matmul a b = Ok (r, perm).
  Proof using.
    intros a b r Qa Qb E. unfold matmul. rewrite E. cbn [bind].
    destruct (matmul_wires_cases a b) as [[u [E' [_ [IU _]]]]|[E' _]]; [|congruence].
    assert (r = reindex u) by congruence. subst r. clear E'.
    destruct (mapM_spec (fun w => py_index w (combined a b (reindex u)) 0) (fun _ _ => True) (sorted_wires (reindex u)))
      as [perm [Ep _]]; [|exists perm; rewrite Ep; reflexivity].
    intros w Hw. rewrite sorted_wires_in in Hw. apply in_reindex in Hw. destruct Hw as [v [Hv [Dv [Iv Rv]]]].
    assert (Hab : In v a \/ In v b).
    { apply IU in Hv. unfold survW in Hv. destruct (is_out v); tauto. }
    assert (QV : wside v <> Cl) by (destruct Hab; [now apply Qa|now apply Qb]).
    assert (SW : wside w = wside v) by (unfold desc in Dv; congruence).
    assert (Hc : In v (combined a b (reindex u))).
    { assert (Ex : existsb (Nat.eqb (wid v)) (ids (reindex u)) = true).
      { apply existsb_ids. destruct (in_reindex_back u v Hv) as [v' H']. exists v'. intuition congruence. }
      unfold combined. apply in_or_app. rewrite !filter_In, !sorted_wires_in. tauto. }
    assert (QC : forall x, In x (combined a b (reindex u)) -> wside x <> Cl).
    { intros x Hx. unfold combined in Hx. apply in_app_or in Hx. rewrite !filter_In, !sorted_wires_in in Hx.
      destruct Hx as [[Hx _]|[Hx _]]; [now apply Qa|now apply Qb]. }
    generalize 0 as i. revert Hc QC. generalize (combined a b (reindex u)) as l.
    induction l as [|x t IH]; intros Hc QC i; [destruct Hc|]. cbn [py_index].
    assert (Qx : is_clb x = false). { specialize (QC x (or_introl eq_refl)). unfold is_clb. destruct (wside x); auto; congruence. }
    assert (Qw : is_clb w = false). { unfold is_clb. rewrite SW. destruct (wside v); auto; congruence. }
    assert (PE : exists e, wire_py_eq x w = Ok e /\ (x = v -> e = true)).
    { unfold wire_py_eq. rewrite Qx, Qw. destruct (Z.eqb (mode x) (mode w) && Bool.eqb (is_out x) (is_out w)) eqn:Eq.
      - eexists. split; [reflexivity|]. intros ->. rewrite SW, side_eqb_refl, Rv. simpl. now apply repr_eqb_eq.
      - eexists. split; [reflexivity|]. intros ->. unfold desc in Dv. injection Dv as D1 D2 D3.
        rewrite <- D1, <- D2, Z.eqb_refl, Bool.eqb_reflx in Eq. discriminate. }
    destruct PE as [[] [-> PE]]; cbn [bind]; [eauto|].
    destruct Hc as [->|Hc]; [now specialize (PE eq_refl)|]. apply IH; auto. intros y Hy. apply QC. now right.
  Qed.

  Lemma look_aligned : forall (z : list (nat * descr)) idx p,
    NoDup (map fst z) -> NoDup (map snd z) -> In p z -> forall zs, (forall q, In q zs -> In q z) ->
    look Nat.eqb (map fst zs) idx (fst p) = look desc_eqb (map snd zs) idx (snd p).
  Proof using.
    intros z idx p N1 N2 Hp zs. revert idx. induction zs as [|q zs IH]; intros [|v idx] Hz; simpl; auto.
    assert (Hq : In q z) by (apply Hz; now left).
    assert (I1 : fst p = fst q -> p = q).
    { clear - N1 Hp Hq. induction z as [|r z IH]; [destruct Hp|]. simpl in N1. inversion N1; subst. intros E.
      destruct Hp as [->|Hp], Hq as [->|Hq]; auto.
      - exfalso. apply H1. rewrite E. now apply in_map.
      - exfalso. apply H1. rewrite <- E. now apply in_map. }
    assert (I2 : snd p = snd q -> p = q).
    { clear - N2 Hp Hq. induction z as [|r z IH]; [destruct Hp|]. simpl in N2. inversion N2; subst. intros E.
      destruct Hp as [->|Hp], Hq as [->|Hq]; auto.
      - exfalso. apply H1. rewrite E. now apply in_map.
      - exfalso. apply H1. rewrite <- E. now apply in_map. }
    destruct (Nat.eqb (fst p) (fst q)) eqn:E1.
    - apply Nat.eqb_eq in E1. apply I1 in E1. subst q. now rewrite (proj2 (desc_eqb_eq (snd p) (snd p)) eq_refl).
    - destruct (desc_eqb (snd p) (snd q)) eqn:E2.
      + apply desc_eqb_eq in E2. apply I2 in E2. subst q. now rewrite Nat.eqb_refl in E1.
      + apply IH. intros r Hr. apply Hz. now right.
  Qed.

  Lemma filter_aligned : forall (P : nat -> bool) (Q : descr -> bool) l1 l2,
    length l1 = length l2 -> (forall i d, i < length l1 -> P (nth i l1 0) = Q (nth i l2 d)) ->
    let zs := filter (fun p => P (fst p)) (combine l1 l2) in
    filter P l1 = map fst zs /\ filter Q l2 = map snd zs.
  Proof using.
    intros P Q. induction l1 as [|x l1 IH]; intros [|y l2] L H; simpl in *; try lia; auto.
    destruct (IH l2) as [E1 E2]; [lia|intros i d Hi; apply (H (S i) d); lia|].
    pose proof (H 0 y (Nat.lt_0_succ _)) as H0. simpl in H0. rewrite <- H0.
    destruct (P x); simpl; now rewrite E1, E2.
  Qed.

  Lemma shown_length : forall ws, length (shown ws) = length ws.
  Proof using. intros. unfold shown, descs. now rewrite map_length, sorted_wires_length. Qed.
  Lemma shown_nth : forall ws i d, nth i (shown ws) (desc d) = desc (nth i (sorted_wires ws) d).
  Proof using. intros. unfold shown, descs. apply map_nth. Qed.
  Lemma shown_NoDup : forall ws, distinct ws -> NoDup (shown ws).
  Proof using. intros ws D. eapply Permutation_NoDup; [symmetry; apply shown_perm|exact D]. Qed.
  Lemma shown_In : forall ws d, In d (shown ws) <-> In d (descs ws).
  Proof using. intros. split; apply Permutation_in; [|symmetry]; apply shown_perm. Qed.
  Lemma nmem_In : forall x l, nmem x l = true <-> In x l.
  Proof using. intros. apply memn_In. Qed.
  Lemma nmem_false : forall x l, nmem x l = false <-> ~ In x l.
  Proof using. intros. rewrite <- nmem_In. destruct (nmem x l); intuition congruence. Qed.
  Lemma has_true : forall d ws, has d ws = true <-> In d (descs ws).
  Proof using. intros; apply memd_In. Qed.
  Lemma has_false : forall d ws, has d ws = false <-> ~ In d (descs ws).
  Proof using. intros; apply memd_false. Qed.

  Lemma dim_of_look : forall l s x v, look Nat.eqb l s x = Some v -> dim_of l s x = v.
  Proof using. intros. unfold dim_of. now rewrite H. Qed.

  Lemma look_cut : forall mine sh other osh x, length mine = length sh -> NoDup mine ->
    look Nat.eqb mine (cut_shape mine sh other osh) x =
    match look Nat.eqb mine sh x with
    | Some v => Some (if nmem x other then Nat.min v (dim_of other osh x) else v)
    | None => None end.
  Proof using.
    unfold cut_shape. induction mine as [|k mine IH]; intros [|v sh] other osh x L ND; simpl in *; try lia; auto.
    destruct (Nat.eqb x k) eqn:E; [apply Nat.eqb_eq in E; now subst|]. inversion ND; subst. apply IH; auto.
  Qed.

  Section Step.
    Variables (a b : comp) (f : wire -> nat) (r : wires).
    Hypothesis Wa : wf a. Hypothesis Wb : wf b.
    Hypothesis SR : same_repr (cw a) (cw b).
    Hypothesis DI : distinct_ids (cw a) (with_ids f (cw b)).
    Hypothesis WW : window (cw a ++ cw b).
    Hypothesis ER : matmul_wires (cw a) (cw b) = Ok r.

    Lemma same_repr_ids : same_repr (cw a) (with_ids f (cw b)).
    Proof using SR.
      intros x y Hx Hy D. rewrite with_ids_map in Hy. apply in_map_iff in Hy. destruct Hy as [y' [<- Hy]].
      change (wrepr x = wrepr y'). now apply SR.
    Qed.
    Lemma survives_ids : forall d, survives (cw a) (with_ids f (cw b)) d <-> survives (cw a) (cw b) d.
    Proof using. intros. unfold survives. rewrite with_ids_descs. reflexivity. Qed.
    Lemma collision_ids : forall d, collision (cw a) (with_ids f (cw b)) d <-> collision (cw a) (cw b) d.
    Proof using. intros. unfold collision. rewrite with_ids_descs. reflexivity. Qed.

    Lemma step_wires : exists r', matmul_wires (cw a) (with_ids f (cw b)) = Ok r' /\ shown r' = shown r
       /\ distinct r /\ well_indexed r /\ (forall d, In d (descs r) <-> survives (cw a) (cw b) d)
       /\ (forall d, ~ collision (cw a) (cw b) d) /\ quantum_only r /\ quantum_only r' /\ length r' = length r.
    Proof using Wa Wb SR ER WW.
      destruct Wa as [Da [Ia [Qa _]]]. destruct Wb as [Db [Ib [Qb _]]].
      destruct (mm_ok _ _ _ Da Db SR ER) as [NC [S [D [I _]]]].
      assert (Db' : distinct (with_ids f (cw b))) by (unfold distinct; now rewrite with_ids_descs).
      destruct (mm_ok_back (cw a) (with_ids f (cw b)) Da Db' same_repr_ids) as [r' E'].
      { intros d C. apply collision_ids in C. now apply (NC d). }
      exists r'. destruct (mm_ok _ _ _ Da Db' same_repr_ids E') as [_ [S' [D' _]]].
      assert (Q : forall x ws, (forall d, In d (descs ws) <-> survives (cw a) (cw b) d) -> In x ws -> wside x <> Cl).
      { intros x ws H Hx. apply (in_map desc) in Hx. apply H in Hx. apply survives_sub in Hx.
        unfold descs in Hx. apply in_map_iff in Hx. destruct Hx as [v [E Hv]].
        assert (wside x = wside v) as -> by (unfold desc in E; congruence).
        apply in_app_or in Hv. destruct Hv; auto. }
      assert (EQ : forall d, In d (descs r') <-> In d (descs r)).
      { intros d. rewrite S', S. apply survives_ids. }
      assert (SE : shown r' = shown r).
      { apply shown_unique; auto. eapply window_perm_descs; [|exact WW]. intros d Hd. apply EQ, S in Hd. now apply survives_sub. }
      split; [exact E'|]. split; [exact SE|]. repeat (split; [assumption|]).
      split; [intros x Hx; now apply (Q x r)|]. split; [intros x Hx; apply (Q x r'); auto; intros d; rewrite EQ; apply S|].
      rewrite <- (shown_length r'), <- (shown_length r). now rewrite SE.
    Qed.

    Lemma quantum_no_clash : forall ws, quantum_only ws -> no_cl_clash ws.
    Proof using.
      intros ws Q x y Hx Hy _ _. apply Q in Hx. apply Q in Hy. unfold is_clb. destruct (wside x), (wside y); try reflexivity; congruence.
    Qed.

    Theorem contract_rule : exists c, contract f a b = Ok c /\ cw c = r /\ wf c
      /\ (forall d, In d (descs (cw c)) ->
            (In d (descs (cw a)) /\ (d_out d = true -> ~ In (flip d) (descs (cw b))) /\ wdim c d = wdim a d)
            \/ (In d (descs (cw b)) /\ (d_out d = false -> ~ In (flip d) (descs (cw a))) /\ wdim c d = wdim b d))
      /\ forall al, amp c al = rule a b al.
    Proof using Wa Wb SR DI ER WW.
      destruct step_wires as [r' [E' [SE [Dr [Ir [Sr [NC [Qr [Qr' Lr]]]]]]]]].
      destruct Wa as [Da [Ia [Qa La]]]. destruct Wb as [Db [Ib [Qb Lb]]].
      destruct (matmul_ok_quantum _ _ _ Qa Qb ER) as [perm EM].
      destruct (C03_contraction_labels f (cw a) (cw b) r' Da Db SR DI Ia Ib E' (quantum_no_clash _ Qr'))
        as [la [lb [lo [EL [L1 [L2 [L3 [N1 [N2 [N3 [JN OUT]]]]]]]]]]].
      set (w0 := mkWire 0 false Bra 0 Bargmann 0). set (d0 := desc w0).
      assert (Sa : length (shown (cw a)) = length (cw a)) by apply shown_length.
      assert (Sb : length (shown (cw b)) = length (cw b)) by apply shown_length.
      assert (Src : length (shown r) = length r) by apply shown_length.
      assert (NDa := shown_NoDup _ Da). assert (NDb := shown_NoDup _ Db). assert (NDr := shown_NoDup _ Dr).
      (* joined *)
      assert (JN' : forall i j, i < length (cw a) -> j < length (cw b) ->
        (nth i la 0 = nth j lb 0 <-> d_out (nth i (shown (cw a)) d0) = true /\ nth j (shown (cw b)) d0 = flip (nth i (shown (cw a)) d0))).
      { intros i j Hi Hj. rewrite (JN i j w0 Hi Hj). unfold d0. rewrite !shown_nth. unfold joined.
        split; [tauto|]. intros H. split; [exact H|]. apply Qa. apply sorted_wires_in, nth_In. now rewrite sorted_wires_length. }
      assert (OUT' : forall k, k < length r ->
         (exists i, i < length (cw a) /\ nth k lo 0 = nth i la 0 /\ ~ In (nth i la 0) lb /\ nth i (shown (cw a)) d0 = nth k (shown r) d0)
         \/ (exists j, j < length (cw b) /\ nth k lo 0 = nth j lb 0 /\ ~ In (nth j lb 0) la /\ nth j (shown (cw b)) d0 = nth k (shown r) d0)).
      { intros k Hk. rewrite <- Lr in Hk. pose proof (OUT k w0 Hk) as O. rewrite <- SE. unfold d0. setoid_rewrite shown_nth. exact O. }
      clear JN OUT. rewrite Lr in L3.
      (* joined wires of a: three equivalent conditions *)
      set (Q := fun d => d_out d && has (flip d) (cw b)).
      assert (QA : forall i, i < length (cw a) -> (Q (nth i (shown (cw a)) d0) = true <-> In (nth i la 0) lb)).
      { intros i Hi. unfold Q. rewrite andb_true_iff, has_true. split.
        - intros [O H]. apply shown_In in H. destruct (In_nth _ _ d0 H) as [j [Hj Ej]]. rewrite Sb in Hj.
          replace (nth i la 0) with (nth j lb 0); [apply nth_In; lia|]. symmetry. apply JN'; auto.
        - intros H. destruct (In_nth _ _ 0 H) as [j [Hj Ej]]. rewrite L2 in Hj. symmetry in Ej.
          apply JN' in Ej; auto. destruct Ej as [O E]. split; [exact O|]. rewrite <- E. apply shown_In. apply nth_In. lia. }
      assert (LOs : forall l, In l lo -> ~ (In l la /\ In l lb)).
      { intros l Hl [Ha Hb]. destruct (In_nth _ _ 0 Hl) as [k [Hk Ek]]. rewrite L3 in Hk. 
        destruct (OUT' k Hk) as [[i [_ [E [X _]]]]|[j [_ [E [X _]]]]]; apply X; rewrite <- E, Ek; assumption. }
      assert (FA : forall i, i < length (cw a) -> ~ In (nth i la 0) lb ->
        exists k, k < length r /\ nth k lo 0 = nth i la 0 /\ nth k (shown r) d0 = nth i (shown (cw a)) d0).
      { intros i Hi NI. set (d := nth i (shown (cw a)) d0).
        assert (Hd : In d (descs (cw a))) by (apply shown_In, nth_In; lia).
        assert (Hq : Q d = false). { destruct (Q d) eqn:E; [|reflexivity]. apply QA in E; auto. contradiction. }
        assert (Fl : d_out d = true -> ~ In (flip d) (descs (cw b))).
        { intros O. unfold Q in Hq. rewrite O in Hq. simpl in Hq. now apply has_false in Hq. }
        assert (Hr : In d (descs r)). { apply Sr. unfold survives. destruct (d_out d) eqn:O; [right; split; auto|now left]. }
        apply shown_In in Hr. destruct (In_nth _ _ d0 Hr) as [k [Hk Ek]]. rewrite Src in Hk. exists k. split; [exact Hk|].
        split; [|exact Ek]. destruct (OUT' k Hk) as [[i' [Hi' [E [_ X]]]]|[j [Hj [E [NJ X]]]]].
        - rewrite E. f_equal. apply (NoDup_nth_inj (shown (cw a)) d0); auto; try lia. rewrite X. exact Ek.
        - exfalso. apply (NC d). unfold collision. assert (Hb : In d (descs (cw b))).
          { apply shown_In. rewrite <- Ek, <- X. apply nth_In. lia. }
          destruct (d_out d) eqn:O; [auto|]. split; [exact Hd|]. split; [exact Hb|].
          intros Hf. apply shown_In in Hf. destruct (In_nth _ _ d0 Hf) as [i' [Hi' Ei']]. rewrite Sa in Hi'.
          apply NJ. replace (nth j lb 0) with (nth i' la 0); [apply nth_In; lia|]. apply JN'; auto.
          rewrite Ei'. split; [unfold flip, d_out in *; simpl; now rewrite O|]. rewrite flip_flip, X. exact Ek. }
      assert (FB : forall j, j < length (cw b) -> ~ In (nth j lb 0) la ->
        exists k, k < length r /\ nth k lo 0 = nth j lb 0 /\ nth k (shown r) d0 = nth j (shown (cw b)) d0).
      { intros j Hj NI. set (d := nth j (shown (cw b)) d0).
        assert (Hd : In d (descs (cw b))) by (apply shown_In, nth_In; lia).
        assert (Fl : d_out d = false -> ~ In (flip d) (descs (cw a))).
        { intros O Hf. apply shown_In in Hf. destruct (In_nth _ _ d0 Hf) as [i' [Hi' Ei']]. rewrite Sa in Hi'.
          apply NI. replace (nth j lb 0) with (nth i' la 0); [apply nth_In; lia|]. apply JN'; auto.
          rewrite Ei'. split; [unfold flip, d_out in *; simpl; now rewrite O|]. now rewrite flip_flip. }
        assert (Hr : In d (descs r)). { apply Sr. unfold survives. destruct (d_out d) eqn:O; [now left|right; split; auto]. }
        apply shown_In in Hr. destruct (In_nth _ _ d0 Hr) as [k [Hk Ek]]. rewrite Src in Hk. exists k. split; [exact Hk|].
        split; [|exact Ek]. destruct (OUT' k Hk) as [[i [Hi [E [NJ X]]]]|[j' [Hj' [E [_ X]]]]].
        - exfalso. apply (NC d). unfold collision. assert (Ha : In d (descs (cw a))).
          { apply shown_In. rewrite <- Ek, <- X. apply nth_In. lia. }
          destruct (d_out d) eqn:O; [|auto]. split; [exact Hd|]. split; [exact Ha|].
          intros Hf. apply NJ. apply QA; auto. unfold Q. rewrite X, Ek, O. simpl. now apply has_true.
        - rewrite E. f_equal. apply (NoDup_nth_inj (shown (cw b)) d0); auto; try lia. rewrite X. exact Ek. }
      (* array contraction succeeds *)
      unfold contract. rewrite EM. cbn [bind fst]. rewrite EL. cbn [bind]. unfold array_contract.
      rewrite (proj2 (Nat.eqb_eq _ _)) by congruence. cbn [negb].
      rewrite (proj2 (Nat.eqb_eq _ _)) by congruence. cbn [negb].
      assert (FO : forallb (fun l => nmem l (la ++ lb)) lo = true).
      { apply forallb_forall. intros l Hl. apply nmem_In. destruct (In_nth _ _ 0 Hl) as [k [Hk Ek]]. rewrite L3 in Hk.
        destruct (OUT' k Hk) as [[i [Hi [E _]]]|[j [Hj [E _]]]]; rewrite <- Ek, E; apply in_or_app; [left|right]; apply nth_In; lia. }
      rewrite FO. cbn [negb bind]. eexists. split; [reflexivity|]. split; [reflexivity|].
      set (cutA := cut_shape la (shape (carr a)) lb (shape (carr b))).
      set (cutB := cut_shape lb (shape (carr b)) la (shape (carr a))).
      (* dimensions of labels *)
      assert (LA : forall i, i < length (cw a) -> look Nat.eqb la (shape (carr a)) (nth i la 0) = Some (wdim a (nth i (shown (cw a)) d0))).
      { intros i Hi. rewrite (look_nth Nat.eqb Nat.eqb_eq) by (auto; lia). unfold wdim.
        rewrite (look_nth desc_eqb desc_eqb_eq) by (auto; lia). reflexivity. }
      assert (LB : forall j, j < length (cw b) -> look Nat.eqb lb (shape (carr b)) (nth j lb 0) = Some (wdim b (nth j (shown (cw b)) d0))).
      { intros j Hj. rewrite (look_nth Nat.eqb Nat.eqb_eq) by (auto; lia). unfold wdim.
        rewrite (look_nth desc_eqb desc_eqb_eq) by (auto; lia). reflexivity. }
      assert (DA : forall i, i < length (cw a) -> label_dim la cutA lb cutB (nth i la 0) =
         if Q (nth i (shown (cw a)) d0) then cut_dim a b (nth i (shown (cw a)) d0) else wdim a (nth i (shown (cw a)) d0)).
      { intros i Hi. unfold label_dim, cutA. rewrite look_cut by (auto; lia). rewrite LA by assumption.
        destruct (Q (nth i (shown (cw a)) d0)) eqn:Eq.
        - pose proof (proj1 (QA i Hi) Eq) as Hin. rewrite (proj2 (nmem_In _ _) Hin).
          destruct (In_nth _ _ 0 Hin) as [j [Hj Ej]]. rewrite L2 in Hj. unfold cut_dim. f_equal.
          symmetry in Ej. rewrite Ej. rewrite (dim_of_look _ _ _ _ (LB j Hj)).
          apply JN' in Ej; auto. destruct Ej as [_ ->]. reflexivity.
        - assert (NI : ~ In (nth i la 0) lb) by (intros C; apply QA in C; auto; congruence).
          now rewrite (proj2 (nmem_false _ _) NI). }
      assert (DB : forall j, j < length (cw b) -> ~ In (nth j lb 0) la -> label_dim la cutA lb cutB (nth j lb 0) = wdim b (nth j (shown (cw b)) d0)).
      { intros j Hj NI. unfold label_dim. rewrite (look_notin Nat.eqb Nat.eqb_eq) by assumption.
        unfold dim_of, cutB. rewrite look_cut by (auto; lia). rewrite LB by assumption.
        now rewrite (proj2 (nmem_false _ _) NI). }
      assert (SH : forall k, k < length r -> nth k (map (label_dim la cutA lb cutB) lo) 0 = label_dim la cutA lb cutB (nth k lo 0)).
      { intros k Hk. rewrite (nth_indep _ 0 (label_dim la cutA lb cutB 0)) by (rewrite map_length; lia). apply map_nth. }
      (* summed labels = joins *)
      assert (AL : forall i d, i < length la -> negb (nmem (nth i la 0) lo) = Q (nth i (shown (cw a)) d)).
      { intros i d Hi. rewrite (nth_indep _ d d0) by lia. rewrite L1 in Hi.
        destruct (Q (nth i (shown (cw a)) d0)) eqn:Eq.
        - rewrite (proj2 (nmem_false _ _)); [reflexivity|]. intros C. apply (LOs _ C). split; [apply nth_In; lia|now apply QA].
        - rewrite (proj2 (nmem_In _ _)); [reflexivity|]. destruct (FA i Hi) as [k [Hk [E _]]].
          + intros C. apply QA in C; auto. congruence.
          + rewrite <- E. apply nth_In. lia. }
      assert (S2 : filter (fun l => negb (nmem l lo) && negb (nmem l la)) lb = []).
      { rewrite (filter_ext_in _ (fun _ => false)); [clear; induction lb; auto|]. intros l Hl.
        destruct (nmem l la) eqn:Ea; [now rewrite andb_false_r|].
        destruct (In_nth _ _ 0 Hl) as [j [Hj Ej]]. rewrite L2 in Hj.
        destruct (FB j Hj) as [k [Hk [E _]]]; [rewrite Ej; now apply nmem_false|].
        rewrite (proj2 (nmem_In l lo)); [reflexivity|]. rewrite <- Ej, <- E. apply nth_In. lia. }
      assert (LL : length la = length (shown (cw a))) by congruence.
      destruct (filter_aligned (fun l => negb (nmem l lo)) Q la (shown (cw a)) LL AL) as [F1 F2].
      set (z := combine la (shown (cw a))) in *.
      set (zs := filter (fun p => negb (nmem (fst p) lo)) z) in *.
      assert (SU : summed la lb lo = map fst zs). { unfold summed. rewrite S2, app_nil_r. exact F1. }
      assert (JO : joins a b = map snd zs) by exact F2.
      assert (ZF : map fst z = la) by (apply combine_map_fst; congruence).
      assert (ZS : map snd z = shown (cw a)) by (apply combine_map_snd; congruence).
      assert (Zi : forall i, i < length (cw a) -> In (nth i la 0, nth i (shown (cw a)) d0) z).
      { intros i Hi. apply in_combine_nth; congruence. }
      assert (LK : forall idx i, i < length (cw a) -> look Nat.eqb (map fst zs) idx (nth i la 0) = look desc_eqb (map snd zs) idx (nth i (shown (cw a)) d0)).
      { intros idx i Hi. apply (look_aligned z idx (nth i la 0, nth i (shown (cw a)) d0)); auto.
        - now rewrite ZF. - now rewrite ZS. - intros q Hq. apply filter_In in Hq. tauto. }
      split; [|split].
      - split; [exact Dr|]. split; [exact Ir|]. split; [exact Qr|]. cbn [carr shape Tensor.einsum cw]. rewrite map_length. congruence.
      - intros d Hd. cbn [cw] in Hd. unfold wdim at 1 3. cbn [carr cw shape Tensor.einsum].
        apply shown_In in Hd. destruct (In_nth _ _ d0 Hd) as [k [Hk Ek]]. rewrite Src in Hk.
        rewrite <- Ek. rewrite (look_nth desc_eqb desc_eqb_eq) by (auto; rewrite ?map_length; congruence).
        rewrite SH by assumption.
        destruct (OUT' k Hk) as [[i [Hi [E [X Y]]]]|[j [Hj [E [X Y]]]]].
        + left. rewrite <- Y. split; [apply shown_In, nth_In; lia|]. split.
          * intros O Hf. apply X. apply QA; auto. unfold Q. rewrite O. simpl. now apply has_true.
          * rewrite E, DA by assumption. destruct (Q (nth i (shown (cw a)) d0)) eqn:Eq; [|reflexivity].
            exfalso. apply X. now apply QA.
        + right. rewrite <- Y. split; [apply shown_In, nth_In; lia|]. split.
          * intros O Hf. apply shown_In in Hf. destruct (In_nth _ _ d0 Hf) as [i' [Hi' Ei']]. rewrite Sa in Hi'.
            apply X. replace (nth j lb 0) with (nth i' la 0); [apply nth_In; lia|]. apply JN'; auto.
            rewrite Ei'. split; [unfold flip, d_out in *; simpl; now rewrite O|]. now rewrite flip_flip.
          * rewrite E. now apply DB.
      - intros al. unfold amp, rule. unfold Tensor.einsum. cbn [carr cw at_ shape]. fold cutA cutB. rewrite SU, JO.
        assert (DD : map (label_dim la cutA lb cutB) (map fst zs) = map (cut_dim a b) (map snd zs)).
        { rewrite !map_map. apply map_ext_in. intros [l d] Hp. apply filter_In in Hp. destruct Hp as [Hp Hn]. cbn [fst snd] in *.
          destruct (In_nth _ _ (0, d0) Hp) as [i [Hi Ei]]. unfold z in Hi, Ei. rewrite combine_length in Hi.
          rewrite combine_nth in Ei by congruence. injection Ei as <- <-. rewrite DA by lia.
          rewrite <- (AL i d0) by lia. now rewrite Hn. }
        rewrite DD. apply sum_ext. intros idx Hidx. apply box_length_in in Hidx. rewrite map_length in Hidx.
        assert (NJ : NoDup (map snd zs)). { rewrite <- JO. now apply NoDup_filter. }
        assert (SO : forall d, In d (map snd zs) -> exists v, look desc_eqb (map snd zs) idx d = Some v).
        { intros d Hd. destruct (In_nth _ _ d0 Hd) as [p [Hp <-]]. rewrite (look_nth desc_eqb desc_eqb_eq) by (auto; congruence). eauto. }
        assert (EA : map (env lo (map al (shown r)) (map fst zs) idx) la = map (repl al (map snd zs) idx) (shown (cw a))).
        { apply nth_ext with (d := env lo (map al (shown r)) (map fst zs) idx 0) (d' := repl al (map snd zs) idx d0); [rewrite !map_length; congruence|].
          intros i Hi. rewrite map_length in Hi. rewrite L1 in Hi. rewrite !map_nth. unfold env, repl.
          destruct (Q (nth i (shown (cw a)) d0)) eqn:Eq.
          - rewrite (look_notin Nat.eqb Nat.eqb_eq).
            + rewrite LK by assumption. destruct (SO (nth i (shown (cw a)) d0)) as [v ->]; [|reflexivity].
              rewrite <- JO. apply filter_In. split; [apply nth_In; lia|exact Eq].
            + intros C. apply (LOs _ C). split; [apply nth_In; lia|]. now apply QA.
          - destruct (FA i Hi) as [k [Hk [E Ed]]]; [intros C; apply QA in C; auto; congruence|].
            rewrite <- E. rewrite (look_nth Nat.eqb Nat.eqb_eq) by (auto; rewrite ?map_length; lia).
            rewrite (look_notin desc_eqb desc_eqb_eq).
            + rewrite <- Ed. rewrite (nth_indep _ 0 (al d0)) by (rewrite map_length; lia). apply map_nth.
            + rewrite <- JO. unfold joins. intros C. apply filter_In in C. destruct C as [_ C]. unfold Q in Eq. congruence. }
        assert (EB : map (env lo (map al (shown r)) (map fst zs) idx) lb = map (repl al (map flip (map snd zs)) idx) (shown (cw b))).
        { apply nth_ext with (d := env lo (map al (shown r)) (map fst zs) idx 0) (d' := repl al (map flip (map snd zs)) idx d0); [rewrite !map_length; congruence|].
          intros j Hj. rewrite map_length in Hj. rewrite L2 in Hj. rewrite !map_nth. unfold env, repl.
          destruct (nmem (nth j lb 0) la) eqn:Em.
          - apply nmem_In in Em. destruct (In_nth _ _ 0 Em) as [i [Hi Ei]]. rewrite L1 in Hi.
            assert (Hlb : In (nth j lb 0) lb) by (apply nth_In; lia).
            rewrite (look_notin Nat.eqb Nat.eqb_eq) by (intros C; apply (LOs _ C); auto).
            rewrite <- Ei. rewrite LK by assumption. pose proof Ei as Ej. apply JN' in Ej; auto. destruct Ej as [O ->].
            rewrite (look_map_inj desc_eqb desc_eqb desc_eqb_eq desc_eqb_eq flip) by (intros y _; apply flip_inj).
            destruct (SO (nth i (shown (cw a)) d0)) as [v ->]; [|reflexivity].
            rewrite <- JO. apply filter_In. split; [apply nth_In; lia|]. apply QA; auto. rewrite Ei. exact Hlb.
          - apply nmem_false in Em. destruct (FB j Hj Em) as [k [Hk [E Ed]]].
            rewrite <- E. rewrite (look_nth Nat.eqb Nat.eqb_eq) by (auto; rewrite ?map_length; lia).
            rewrite (look_notin desc_eqb desc_eqb_eq).
            + rewrite <- Ed. rewrite (nth_indep _ 0 (al d0)) by (rewrite map_length; lia). apply map_nth.
            + rewrite <- JO. intros C. apply in_map_iff in C. destruct C as [d [Ef Hd]]. apply filter_In in Hd. destruct Hd as [Hd Hq].
              destruct (In_nth _ _ d0 Hd) as [i [Hi Ei]]. rewrite Sa in Hi. apply Em.
              replace (nth j lb 0) with (nth i la 0); [apply nth_In; lia|]. apply JN'; auto. rewrite Ei. split; [|auto].
              apply andb_true_iff in Hq. tauto. }
        rewrite EA, EB. reflexivity.
    Qed.
  End Step.
End Contract.
