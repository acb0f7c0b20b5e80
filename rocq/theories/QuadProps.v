(** Quadrature representation of Fock components and quadrature distributions: claim C71.
    Model of mrmustard/lab/circuit_components.py:576-637 (Fock branch) and mrmustard/lab/states/base.py:539-558, unbatched. *)
From Coq Require Import Reals ZArith List Bool Lia Lra Permutation Sorted Arith Ring_theory Ring.
From Coquelicot Require Import Complex.
Require Import Verif.Base Verif.Wires Verif.WiresSpec Verif.WiresLemmas Verif.WiresMatmul Verif.WiresLabels
  Verif.WiresProps Verif.WiresAdj Verif.Tensor Verif.Contract Verif.ContractAssoc Verif.CompAdj Verif.RShift Verif.CircuitContract Verif.Expect Verif.ExpectProps Verif.ContractEx Verif.Norms.
Require Import Verif.QuadLabels Verif.QuadWave.
Import ListNotations.
Local Open Scope nat_scope.

Notation prodC := (QuadLabels.prod (RtoC 1) Cmult).
Notation sumC := (Tensor.sum C0' Cplus).
Notation fockC := (QuadLabels.fock_quadrature C0' (RtoC 1) Cplus Cmult).

Section Model.
  Variables (hbar phi atol : R).
  (** circuit_components.py:601-611: the basis array of one wire *)
  Definition basis_array (p : nat * bool * list R) : @array C :=
    let '(cutoff, cj, qs) := p in
    mkArray [cutoff; length qs] (fun k => match k with [n; j] => quad_basis hbar phi atol cj (nth j qs 0%R) cutoff n | _ => C0' end).
  (** circuit_components.py:590-637 CircuitComponent.quadrature, Fock branch *)
  Definition quadrature (c : compC) (quads : list (list R)) : result (list C) :=
    let conjugates := map (fun i => negb (nmem i (indices (ket (cw c))))) (seq 0 (length (cw c))) in
    if negb (length quads =? length (shape (carr c))) then Err ValueError
    else fockC c (map basis_array (combine (combine (shape (carr c)) conjugates) quads)).
  (** base.py:539-558 State.quadrature_distribution *)
  Definition quadrature_distribution (c : compC) (quads : list (list R)) : result (list R) :=
    let n_modes := length (nodup Z.eq_dec (modes (cw c))) in
    if negb (length quads =? 1) && negb (length quads =? n_modes) then Err ValueError else
    let quads := if length quads =? 1 then concat (repeat quads n_modes) else quads in
    if negb (nonempty (ket (cw c))) || negb (nonempty (bra (cw c)))
    then bind (quadrature c quads) (fun r => Ok (map (fun z => (Cmod z ^ 2)%R) r))
    else bind (quadrature c (quads ++ quads)) (fun r => Ok (map Cmod r)).

  (** ** specification *)
  (** the wave function <q|n> of a ket wire, its conjugate for a bra wire *)
  Definition wire_wave (s : side) (n : nat) (q : R) : C :=
    Cmult (phase (match s with Ket => - (INR n * phi) | _ => INR n * phi end)%R) (RtoC (wave hbar n q)).
  (** photon numbers of the wires *)
  Definition get (s : descr -> option nat) (d : descr) : nat := match s d with Some v => v | None => 0 end.
  (** the sum over the photon numbers of all wires of the amplitude times the wave functions; wire d is evaluated at the points Q d,
      pt m is the number of the point taken for the wires of mode m *)
  Definition quad_at (c : compC) (Q : descr -> list R) (pt : Z -> nat) : C :=
    Tensor.nsum C0' Cplus desc_eqb (shown (cw c)) (wdim c) (fun s =>
      Cmult (amp c (get s)) (prodC (map (fun d => wire_wave (d_side d) (get s d) (nth (pt (d_mode d)) (Q d) 0%R)) (shown (cw c))))).
  Definition mode_list (c : compC) : list Z := zsort (nodup Z.eq_dec (modes (cw c))).
End Model.

(** ** lemmas *)
Lemma combine3 : forall {X A B D : Type} (f : X -> A) (g : X -> B) (h : X -> D) l,
  combine (combine (map f l) (map g l)) (map h l) = map (fun x => (f x, g x, h x)) l.
Proof. intros X A B D f g h l. induction l as [|x l IH]; simpl; [reflexivity|]. now rewrite IH. Qed.
Lemma look_self : forall L idx, NoDup L -> length idx = length L -> map (get (look desc_eqb L idx)) L = idx.
Proof.
  intros L idx ND E. apply (nth_ext _ _ 0 0); [now rewrite map_length|]. intros i Hi. rewrite map_length in Hi.
  rewrite (nth_indep _ 0 (get (look desc_eqb L idx) (0%Z, true, Ket))) by (now rewrite map_length). rewrite map_nth. unfold get.
  rewrite (look_nth desc_eqb desc_eqb_eq) by (auto; lia). reflexivity.
Qed.
Lemma shape_wdim : forall c : compC, wf c -> shape (carr c) = map (wdim c) (shown (cw c)).
Proof.
  intros c [D [WI [Q LE]]]. symmetry. apply (look_self (shown (cw c)) (shape (carr c)) (shown_NoDup _ D)). now rewrite shown_length.
Qed.
Lemma conj_flags : forall ws, distinct ws -> well_indexed ws -> map (fun i => negb (nmem i (indices (ket ws)))) (seq 0 (length ws)) = map (fun d => negb (side_eqb (d_side d) Ket)) (shown ws).
Proof.
  intros ws D WI. unfold shown, descs. rewrite map_map. unfold well_indexed in WI. rewrite <- WI. unfold indices at 2. rewrite map_map. apply map_ext_in. intros w Hw. rewrite sorted_wires_in in Hw.
  f_equal. change (d_side (desc w)) with (wside w). unfold ket, indices.
  destruct (side_eqb (wside w) Ket) eqn:S.
  - apply nmem_In. apply in_map. rewrite sorted_wires_in, filter_In. auto.
  - destruct (nmem (index w) (map index (sorted_wires (filter is_ketb ws)))) eqn:E; [|reflexivity]. apply nmem_In in E. apply in_map_iff in E. destruct E as [v [Ev Hv]].
    rewrite sorted_wires_in, filter_In in Hv. destruct Hv as [Hv Kv]. assert (v = w); [|subst; unfold is_ketb in Kv; congruence].
    pose proof (nth_index ws v v WI Hv) as N1. pose proof (nth_index ws w v WI Hw) as N2. congruence.
Qed.

Section Laws.
  Variables (hbar phi atol : R).
  Hypothesis Hh : (0 < hbar)%R.
  Hypothesis HP : exact_phase atol phi.
  Notation quadrature := (quadrature hbar phi atol).
  Notation quadrature_distribution := (quadrature_distribution hbar phi atol).
  Notation quad_at := (quad_at hbar phi).
  Notation wire_wave := (wire_wave hbar phi).

  Theorem quadrature_ok : forall c Q pts, wf c -> no_clash c -> (forall d, In d (descs (cw c)) -> length (Q d) = pts (d_mode d)) ->
    quadrature c (map Q (shown (cw c))) = Ok (map (fun k => quad_at c Q (assign (mode_list c) k)) (box (map pts (mode_list c)))).
  Proof using Hh HP.
    intros c Q pts W NC HQ. pose proof W as [D [WI [QO LE]]]. unfold QuadProps.quadrature.
    rewrite map_length, shown_length, <- LE, Nat.eqb_refl. cbn [negb]. rewrite LE. rewrite conj_flags by assumption. rewrite (shape_wdim c W), combine3. rewrite map_map.
    set (B := fun d => basis_array hbar phi atol (wdim c d, negb (side_eqb (d_side d) Ket), Q d)).
    rewrite (quad_correct C0' (RtoC 1) Cplus Cmult c (map B (shown (cw c))) pts W NC).
    2:{ unfold bases_for. rewrite (shape_wdim c W). unfold shown at 2, descs. rewrite !map_map.
        transitivity (map (fun p => [fst p; pts (mode (snd p))]) (map (fun w => (wdim c (desc w), w)) (sorted_wires (cw c)))).
        - unfold shown, descs. rewrite !map_map. apply map_ext_in. intros w Hw. rewrite sorted_wires_in in Hw. unfold B, basis_array. cbn [shape fst snd]. f_equal. f_equal.
          rewrite HQ; [reflexivity|]. now apply in_map.
        - f_equal. induction (sorted_wires (cw c)) as [|w l IH]; simpl; [reflexivity|]. now rewrite IH. }
    fold (mode_list c). f_equal. apply map_ext_in. intros k Hk. unfold quad_value, QuadProps.quad_at, Tensor.nsum. rewrite (shape_wdim c W). apply sum_ext. intros idx Hidx.
    pose proof (proj1 (in_box _ _) Hidx) as FB. apply box_length_in in Hidx. rewrite map_length in Hidx.
    pose proof (look_self (shown (cw c)) idx (shown_NoDup _ D) Hidx) as LS.
    set (g := get (look desc_eqb (shown (cw c)) idx)) in *. unfold amp. fold g. rewrite LS. f_equal.
    rewrite <- LS at 1. unfold shown. unfold descs. rewrite !map_map.
    set (ws := sorted_wires (cw c)). change (map (fun x => g (desc x)) ws) with (map (fun x => g (desc x)) ws).
    replace (combine (combine (map (fun x => g (desc x)) ws) ws) (map (fun x => B (desc x)) ws)) with (map (fun w => (g (desc w), w, B (desc w))) ws).
    2:{ clear. induction ws as [|w l IH]; simpl; [reflexivity|]. now rewrite IH. }
    rewrite map_map. f_equal. apply map_ext_in. intros w Hw. cbn [fst snd]. unfold B, basis_array. cbn [at_].
    change (mode w) with (d_mode (desc w)).
    assert (HL : g (desc w) < wdim c (desc w)).
    { rewrite <- LS in FB. assert (Hd : In (desc w) (shown (cw c))) by (unfold shown, descs; now apply in_map). revert FB Hd. clear. generalize (shown (cw c)). intros L FB Hd.
      induction L as [|x L IH]; [destruct Hd|]. simpl in FB. inversion FB; subst. destruct Hd as [->|Hd]; auto. }
    rewrite C71_basis by assumption. unfold QuadProps.wire_wave. f_equal. f_equal. destruct (d_side (desc w)); cbn [side_eqb negb]; reflexivity.
  Qed.

  (** ** states: sums over the photon numbers of the modes M, in ascending order *)
  Definition waves (s : side) (M : list Z) (qs : Z -> list R) (pt : Z -> nat) (n : numbers) : C :=
    prodC (map (fun m => wire_wave s (n m) (nth (pt m) (qs m) 0%R)) M).
  (** <q|psi> and <q|rho|q'> *)
  Definition ket_value (M : list Z) (c : compC) (qs : Z -> list R) (pt : Z -> nat) : C :=
    overC M (kdim c) (fun n => Cmult (ket_amp c n) (waves Ket M qs pt n)).
  Definition dm_value (M : list Z) (c : compC) (qb qk : Z -> list R) (pt : Z -> nat) : C :=
    overC M (bdim c) (fun n => overC M (kdim c) (fun k => Cmult (dm_elem c k n) (Cmult (waves Bra M qb pt n) (waves Ket M qk pt k)))).
  (** all the points, in C order: the last mode runs fastest *)
  Definition grid (M : list Z) (qs : Z -> list R) : list (Z -> nat) := map (assign M) (box (map (fun m => length (qs m)) M)).

  Lemma asc_NoDup : forall M, asc M -> NoDup M.
  Proof using. clear. intros M S. induction S as [|m l S IH F]; constructor; auto. intros H. rewrite Forall_forall in F. apply F in H. lia. Qed.
  Lemma asc_eq : forall l l', asc l -> asc l' -> (forall m, In m l <-> In m l') -> l = l'.
  Proof using.
    clear. intros l l' S S' E. assert (X : map kw l = map kw l').
    { apply std_sorted_unique; [apply SS_group, S|apply SS_group, S'|]. intros d. rewrite !in_map_iff. setoid_rewrite E. tauto. }
    apply (f_equal (map d_mode)) in X. rewrite !map_map in X. cbn in X. now rewrite !map_id in X.
  Qed.
  Lemma mode_list_eq : forall M (c : compC), asc M -> (forall m, In m (modes (cw c)) <-> In m M) -> mode_list c = M.
  Proof using.
    clear. intros M c S E. unfold mode_list. apply asc_eq; [apply zsort_sorted, NoDup_nodup|exact S|]. intros m. now rewrite zsort_in, nodup_In.
  Qed.
  Lemma shown_ket : forall M (c : compC), wf c -> window (cw c) -> asc M -> ket_on M c -> shown (cw c) = map kw M.
  Proof using.
    clear. intros M c [D _] Win S K. apply std_sorted_unique; [now apply sorted_std|apply SS_group, S|]. intros d. unfold shown, descs. rewrite (in_map_iff kw).
    assert (E : In d (map desc (sorted_wires (cw c))) <-> In d (descs (cw c))) by (unfold descs; rewrite !in_map_iff; setoid_rewrite sorted_wires_in; tauto).
    rewrite E, (K d). destruct d as [[dm o] sd]. cbn [d_mode d_out d_side fst snd]. split; [intros [Hm [-> ->]]; now exists dm|intros [x [E1 Hm]]; injection E1 as <- <- <-; auto].
  Qed.
  Lemma shown_dm : forall M (c : compC), wf c -> window (cw c) -> asc M -> dm_on M c -> shown (cw c) = map bw M ++ map kw M.
  Proof using.
    clear. intros M c [D _] Win S K. apply std_sorted_unique; [now apply sorted_std| |].
    - pose proof (std_list_sorted M [] M [] [] []) as X. unfold std_list in X.
      assert (EM : zsort M = M) by (apply asc_eq; [apply zsort_sorted, asc_NoDup, S|exact S|intros m; apply zsort_in]).
      rewrite EM in X. unfold zsort in X. cbn [isort map app] in X. rewrite ?app_nil_r in X. apply X; try constructor; now apply asc_NoDup.
    - intros d. unfold shown, descs. rewrite in_app_iff, (in_map_iff bw), (in_map_iff kw).
      assert (E : In d (map desc (sorted_wires (cw c))) <-> In d (descs (cw c))) by (unfold descs; rewrite !in_map_iff; setoid_rewrite sorted_wires_in; tauto).
      rewrite E, (K d). destruct d as [[dm o] sd]. cbn [d_mode d_out d_side fst snd]. split.
      + intros [Hm [-> Hs]]. destruct sd; [left|right|congruence]; now exists dm.
      + intros [[x [E1 Hm]]|[x [E1 Hm]]]; injection E1 as <- <- <-; repeat split; auto; discriminate.
  Qed.

  Lemma get_group : forall (g : Z -> descr) (Hg : forall m, d_mode (g m) = m) M idx m, length idx = length M -> In m M -> look desc_eqb (map g M) idx (g m) = Some (assign M idx m).
  Proof using.
    clear. intros g Hg M idx m E H. rewrite (look_kw g Hg). rewrite Hg, (proj2 (desc_eqb_eq _ _) eq_refl), look_assign by exact E. now rewrite (proj2 (mem_In m M) H).
  Qed.
  Lemma modes_ket : forall M (c : compC), ket_on M c -> forall m, In m (modes (cw c)) <-> In m M.
  Proof using.
    clear. intros M c K m. transitivity (In m (map d_mode (descs (cw c)))); [unfold descs; rewrite map_map; reflexivity|]. rewrite in_map_iff. split.
    - intros [d [<- H]]. apply K in H. tauto.
    - intros H. exists (kw m). split; [reflexivity|]. apply K. cbn. auto.
  Qed.
  Lemma modes_dm : forall M (c : compC), dm_on M c -> forall m, In m (modes (cw c)) <-> In m M.
  Proof using.
    clear. intros M c K m. transitivity (In m (map d_mode (descs (cw c)))); [unfold descs; rewrite map_map; reflexivity|]. rewrite in_map_iff. split.
    - intros [d [<- H]]. apply K in H. tauto.
    - intros H. exists (kw m). split; [reflexivity|]. apply K. cbn. repeat split; auto. discriminate.
  Qed.
  Lemma prodC_app : forall l l', prodC (l ++ l') = Cmult (prodC l) (prodC l').
  Proof using. clear. intros l l'. induction l as [|x l IH]; cbn [app QuadLabels.prod fold_right]; [now rewrite Cmult_1_l|]. unfold QuadLabels.prod in IH. rewrite IH. apply Cmult_assoc. Qed.

  Theorem ket_quadrature : forall M c qs, wf c -> window (cw c) -> asc M -> ket_on M c -> no_clash c ->
    quadrature c (map qs M) = Ok (map (ket_value M c qs) (grid M qs)).
  Proof using Hh HP.
    intros M c qs W Win S K NC. pose proof (shown_ket M c W Win S K) as SH. pose proof (mode_list_eq M c S (modes_ket M c K)) as ML.
    replace (map qs M) with (map (fun d => qs (d_mode d)) (shown (cw c))) by (rewrite SH, map_map; reflexivity).
    rewrite (quadrature_ok c (fun d => qs (d_mode d)) (fun m => length (qs m)) W NC) by reflexivity. rewrite ML. f_equal. unfold grid. rewrite map_map. apply map_ext_in. intros k _.
    unfold QuadProps.quad_at, Tensor.nsum, ket_value, Expect.over_modes. rewrite SH, map_map. apply sum_ext. intros idx Hi. apply box_length_in in Hi. rewrite map_length in Hi. f_equal.
    - apply amp_same. intros d Hd. apply K in Hd. destruct d as [[m o] s]. cbn in Hd. destruct Hd as [Hm [-> ->]]. unfold get. change (m, true, Ket) with (kw m). now rewrite (get_group kw).
    - unfold waves. f_equal. rewrite map_map. apply map_ext_in. intros m Hm. cbn [kw d_side d_mode fst snd]. unfold get. fold (kw m). now rewrite (get_group kw).
  Qed.
  Theorem dm_quadrature : forall M c qb qk, wf c -> window (cw c) -> asc M -> dm_on M c -> no_clash c -> (forall m, In m M -> length (qb m) = length (qk m)) ->
    quadrature c (map qb M ++ map qk M) = Ok (map (dm_value M c qb qk) (grid M qk)).
  Proof using Hh HP.
    intros M c qb qk W Win S K NC EL. pose proof (shown_dm M c W Win S K) as SH. pose proof (mode_list_eq M c S (modes_dm M c K)) as ML.
    set (Q := fun d => match d_side d with Ket => qk (d_mode d) | _ => qb (d_mode d) end).
    replace (map qb M ++ map qk M) with (map Q (shown (cw c))) by (rewrite SH, map_app, !map_map; reflexivity).
    rewrite (quadrature_ok c Q (fun m => length (qk m)) W NC).
    2:{ intros d Hd. apply K in Hd. unfold Q. destruct (d_side d); try reflexivity; apply EL; tauto. }
    rewrite ML. f_equal. unfold grid. rewrite map_map. apply map_ext_in. intros k _.
    unfold QuadProps.quad_at. rewrite SH. rewrite (nsum_app C0' (RtoC 1) Cplus Cmult Cminus Copp Cth desc_eqb).
    2:{ intros s t Hst. f_equal; [apply amp_same; intros d _; unfold get; now rewrite Hst|]. f_equal. apply map_ext. intros d. unfold get. now rewrite Hst. }
    unfold Tensor.nsum, dm_value, Expect.over_modes. rewrite !map_map. apply sum_ext. intros i1 H1. apply sum_ext. intros i2 H2. apply box_length_in in H1. apply box_length_in in H2. rewrite map_length in H1, H2.
    assert (GB : forall m, In m M -> get (orelse (look desc_eqb (map bw M) i1) (look desc_eqb (map kw M) i2)) (bw m) = assign M i1 m).
    { intros m Hm. unfold get, orelse. now rewrite (get_group bw). }
    assert (GK : forall m, In m M -> get (orelse (look desc_eqb (map bw M) i1) (look desc_eqb (map kw M) i2)) (kw m) = assign M i2 m).
    { intros m Hm. unfold get, orelse. rewrite (look_notin desc_eqb desc_eqb_eq). 2:{ intros H. apply in_map_iff in H. destruct H as [x [E _]]. discriminate. } now rewrite (get_group kw). }
    f_equal.
    - apply amp_same. intros d Hd. apply K in Hd. destruct d as [[m o] s]. cbn in Hd. destruct Hd as [Hm [-> Hs]]. destruct s; [apply (GB m Hm)|apply (GK m Hm)|congruence].
    - rewrite map_app, prodC_app. unfold waves. f_equal; f_equal; rewrite map_map; apply map_ext_in; intros m Hm; unfold Q; cbn [kw bw d_side d_mode fst snd]; fold (kw m) (bw m); [rewrite GB by exact Hm|rewrite GK by exact Hm]; reflexivity.
  Qed.

  (** ** the distributions *)
  Lemma n_modes_eq : forall M (c : compC), NoDup M -> (forall m, In m (modes (cw c)) <-> In m M) -> length (nodup Z.eq_dec (modes (cw c))) = length M.
  Proof using. clear. intros M c ND E. apply Permutation_length, NoDup_Permutation; [apply NoDup_nodup|exact ND|]. intros m. now rewrite nodup_In. Qed.
  Lemma concat_repeat : forall (q : list R) n (M : list Z), length M = n -> concat (repeat [q] n) = map (fun _ => q) M.
  Proof using. clear. intros q n M <-. induction M as [|m M IH]; simpl; [reflexivity|]. now rewrite IH. Qed.
  (** the points given by the caller: one vector per mode (ascending), or one vector for all modes *)
  Definition given (M : list Z) (quads : list (list R)) (qs : Z -> list R) : Prop := quads = map qs M \/ exists q, quads = [q] /\ qs = fun _ => q.
  Lemma given_ok : forall M quads qs, given M quads qs -> M <> [] -> (negb (length quads =? 1) && negb (length quads =? length M) = false)
    /\ (if length quads =? 1 then concat (repeat quads (length M)) else quads) = map qs M.
  Proof using.
    clear. intros M quads qs [->|[q [-> ->]]] NE.
    - rewrite map_length, Nat.eqb_refl, andb_false_r. split; [reflexivity|]. destruct M as [|m [|m' M]]; [congruence|reflexivity|reflexivity].
    - cbn [length Nat.eqb negb andb]. split; [reflexivity|]. now apply concat_repeat.
  Qed.
  Lemma sides : forall (c : compC) p, nonempty (filter p (cw c)) = true <-> exists w, In w (cw c) /\ p w = true.
  Proof using.
    clear. intros c p. unfold nonempty. destruct (filter p (cw c)) as [|w l] eqn:E.
    - split; [discriminate|]. intros [w [H P]]. assert (X : In w (filter p (cw c))) by (apply filter_In; auto). rewrite E in X. destruct X.
    - split; [|reflexivity]. intros _. exists w. apply filter_In. rewrite E. now left.
  Qed.
  Theorem ket_distribution : forall M c quads qs, wf c -> window (cw c) -> asc M -> M <> [] -> ket_on M c -> no_clash c -> given M quads qs ->
    quadrature_distribution c quads = Ok (map (fun pt => (Cmod (ket_value M c qs pt) ^ 2)%R) (grid M qs)).
  Proof using Hh HP.
    intros M c quads qs W Win S NE K NC G. unfold QuadProps.quadrature_distribution. rewrite (n_modes_eq M c (asc_NoDup M S) (modes_ket M c K)).
    destruct (given_ok M quads qs G NE) as [-> ->].
    assert (NB : nonempty (bra (cw c)) = false).
    { destruct (nonempty (bra (cw c))) eqn:E; [|reflexivity]. apply sides in E. destruct E as [w [Hw B]]. apply (in_map desc) in Hw. apply K in Hw. destruct Hw as [_ [_ Hs]].
      unfold is_brab in B. change (d_side (desc w)) with (wside w) in Hs. rewrite Hs in B. discriminate. }
    rewrite NB, orb_true_r. rewrite (ket_quadrature M c qs W Win S K NC). cbn [bind]. now rewrite map_map.
  Qed.
  Theorem dm_distribution : forall M c quads qs, wf c -> window (cw c) -> asc M -> M <> [] -> dm_on M c -> no_clash c -> given M quads qs ->
    quadrature_distribution c quads = Ok (map (fun pt => Cmod (dm_value M c qs qs pt)) (grid M qs)).
  Proof using Hh HP.
    intros M c quads qs W Win S NE K NC G. unfold QuadProps.quadrature_distribution. rewrite (n_modes_eq M c (asc_NoDup M S) (modes_dm M c K)).
    destruct (given_ok M quads qs G NE) as [-> ->].
    assert (X : forall s, s <> Cl -> exists w, In w (cw c) /\ wside w = s).
    { intros s Hs. destruct M as [|m M']; [congruence|]. assert (Hd : In (m, true, s) (descs (cw c))) by (apply K; cbn; auto).
      apply in_map_iff in Hd. destruct Hd as [w [E Hw]]. exists w. split; [exact Hw|]. unfold desc in E. congruence. }
    assert (NB : nonempty (bra (cw c)) = true) by (apply sides; destruct (X Bra) as [w [Hw Sw]]; [discriminate|]; exists w; split; [exact Hw|unfold is_brab; now rewrite Sw]).
    assert (NK : nonempty (ket (cw c)) = true) by (apply sides; destruct (X Ket) as [w [Hw Sw]]; [discriminate|]; exists w; split; [exact Hw|unfold is_ketb; now rewrite Sw]).
    rewrite NB, NK. cbn [negb orb]. rewrite (dm_quadrature M c qs qs W Win S K NC) by reflexivity. cbn [bind]. now rewrite map_map.
  Qed.
  Lemma waves_conj : forall M qs pt n, waves Bra M qs pt n = Cconj (waves Ket M qs pt n).
  Proof using.
    clear. intros M qs pt n. unfold waves. induction M as [|m M IH]; cbn [map QuadLabels.prod fold_right]; [unfold Cconj, RtoC; simpl; f_equal; ring|].
    unfold QuadLabels.prod in IH. rewrite IH, cj_mul. f_equal. unfold QuadProps.wire_wave. rewrite cj_mul. f_equal; [|unfold Cconj, RtoC; simpl; f_equal; ring].
    unfold phase, Cconj; simpl. rewrite cos_neg, sin_neg. f_equal. ring.
  Qed.
  (** a density operator: positive semidefinite *)
  Definition positive (M : list Z) (c : compC) : Prop := forall v : numbers -> C,
    (forall n n', (forall m, In m M -> n m = n' m) -> v n = v n') ->
    let x := overC M (bdim c) (fun n => overC M (kdim c) (fun k => Cmult (dm_elem c k n) (Cmult (Cconj (v n)) (v k)))) in Im x = 0%R /\ (0 <= Re x)%R.
  Theorem dm_distribution_positive : forall M c qs pt, positive M c ->
    dm_value M c qs qs pt = RtoC (Re (dm_value M c qs qs pt)) /\ Cmod (dm_value M c qs qs pt) = Re (dm_value M c qs qs pt).
  Proof using.
    clear. intros M c qs pt P. destruct (P (waves Ket M qs pt)) as [I0 R0].
    { intros n n' E. unfold waves. f_equal. apply map_ext_in. intros m Hm. now rewrite (E m Hm). }
    assert (X : dm_value M c qs qs pt = overC M (bdim c) (fun n => overC M (kdim c) (fun k => Cmult (dm_elem c k n) (Cmult (Cconj (waves Ket M qs pt n)) (waves Ket M qs pt k))))).
    { unfold dm_value. apply om_ext. intros n. apply om_ext. intros k. now rewrite waves_conj. }
    rewrite <- X in I0, R0. assert (E : dm_value M c qs qs pt = RtoC (Re (dm_value M c qs qs pt))) by (destruct (dm_value M c qs qs pt) as [x y]; cbn in *; unfold RtoC; now rewrite I0).
    split; [exact E|]. rewrite E at 1. rewrite Cmod_R. apply Rabs_pos_eq. exact R0.
  Qed.
  (** the density matrix of a ket has the distribution of the ket *)
  Theorem dm_value_of_ket : forall M (c rho : compC) qs pt, (forall m, In m M -> kdim rho m = kdim c m /\ bdim rho m = kdim c m) ->
    (forall k n, dm_elem rho k n = Cmult (ket_amp c k) (Cconj (ket_amp c n))) -> dm_value M rho qs qs pt = RtoC (Cmod (ket_value M c qs pt) ^ 2).
  Proof using.
    clear. intros M c rho qs pt Dm El. unfold dm_value.
    rewrite (om_dim C0' Cplus M _ (kdim c)) by (intros m Hm; now destruct (Dm m Hm)).
    transitivity (Cmult (Cconj (ket_value M c qs pt)) (ket_value M c qs pt)).
    - unfold ket_value at 1. replace (Cconj (overC M (kdim c) (fun n => Cmult (ket_amp c n) (waves Ket M qs pt n)))) with (overC M (kdim c) (fun n => Cconj (Cmult (ket_amp c n) (waves Ket M qs pt n)))).
      2:{ unfold Expect.over_modes. induction (box (map (kdim c) M)) as [|x l IH]; cbn [Tensor.sum fold_right]; [symmetry; apply cj_0|]. rewrite cj_add. f_equal. exact IH. }
      rewrite (om_scal_r C0' (RtoC 1) Cplus Cmult Cminus Copp Cth). apply om_ext. intros n. unfold ket_value. rewrite (om_scal_l C0' (RtoC 1) Cplus Cmult Cminus Copp Cth).
      rewrite (om_dim C0' Cplus M _ (kdim c)) by (intros m Hm; now destruct (Dm m Hm)). apply om_ext. intros k. rewrite El, waves_conj, cj_mul. ring.
    - rewrite <- Re_sq. rewrite Cmult_comm. destruct (ket_value M c qs pt) as [x y]. unfold Cmult, Cconj, RtoC, Re; simpl. f_equal; ring.
  Qed.
End Laws.

(** ** C71 *)
(** any Fock component whose mode letters and Fock letters differ: entry k of the output is the sum over the photon numbers of all wires *)
Theorem C71_quadrature : forall hbar phi atol c Q pts, (0 < hbar)%R -> exact_phase atol phi -> wf c -> no_clash c ->
  (forall d, In d (descs (cw c)) -> length (Q d) = pts (d_mode d)) ->
  quadrature hbar phi atol c (map Q (shown (cw c))) = Ok (map (fun k => quad_at hbar phi c Q (assign (mode_list c) k)) (box (map pts (mode_list c)))).
Proof. intros. now apply quadrature_ok. Qed.
Theorem C71_ket : forall hbar phi atol M c qs, (0 < hbar)%R -> exact_phase atol phi -> wf c -> window (cw c) -> asc M -> ket_on M c -> no_clash c ->
  quadrature hbar phi atol c (map qs M) = Ok (map (ket_value hbar phi M c qs) (grid M qs)).
Proof. intros. now apply ket_quadrature. Qed.
Theorem C71_dm : forall hbar phi atol M c qb qk, (0 < hbar)%R -> exact_phase atol phi -> wf c -> window (cw c) -> asc M -> dm_on M c -> no_clash c ->
  (forall m, In m M -> length (qb m) = length (qk m)) ->
  quadrature hbar phi atol c (map qb M ++ map qk M) = Ok (map (dm_value hbar phi M c qb qk) (grid M qk)).
Proof. intros. now apply dm_quadrature. Qed.
(** the distributions are |<q|psi>|^2 and <q|rho|q>; for a density operator the absolute value changes nothing *)
Theorem C71_distribution_ket : forall hbar phi atol M c quads qs, (0 < hbar)%R -> exact_phase atol phi -> wf c -> window (cw c) -> asc M -> M <> [] -> ket_on M c -> no_clash c ->
  given M quads qs -> quadrature_distribution hbar phi atol c quads = Ok (map (fun pt => (Cmod (ket_value hbar phi M c qs pt) ^ 2)%R) (grid M qs)).
Proof. intros. now apply ket_distribution. Qed.
Theorem C71_distribution_dm : forall hbar phi atol M c quads qs, (0 < hbar)%R -> exact_phase atol phi -> wf c -> window (cw c) -> asc M -> M <> [] -> dm_on M c -> no_clash c ->
  given M quads qs -> positive M c ->
  quadrature_distribution hbar phi atol c quads = Ok (map (fun pt => Re (dm_value hbar phi M c qs qs pt)) (grid M qs))
  /\ forall pt, (0 <= Re (dm_value hbar phi M c qs qs pt))%R /\ Im (dm_value hbar phi M c qs qs pt) = 0%R.
Proof.
  intros hbar phi atol M c quads qs Hh HP W Win S NE K NC G P. split.
  - rewrite (dm_distribution hbar phi atol Hh HP M c quads qs W Win S NE K NC G). f_equal. apply map_ext. intros pt. now apply dm_distribution_positive.
  - intros pt. destruct (dm_distribution_positive hbar phi M c qs pt P) as [E1 E2]. split; [rewrite <- E2; apply Cmod_ge_0|]. rewrite E1. reflexivity.
Qed.
(** a ket and its density matrix have the same distribution *)
Theorem C71_dm_of_ket : forall hbar phi atol M c f g quads qs, (0 < hbar)%R -> exact_phase atol phi -> wf c -> window (cw c) -> asc M -> M <> [] -> ket_on M c ->
  fresh_for f c (adjC g c) -> given M quads qs ->
  exists rho, ket_dm f g c = Ok rho /\ (no_clash rho -> no_clash c -> quadrature_distribution hbar phi atol rho quads = quadrature_distribution hbar phi atol c quads).
Proof.
  intros hbar phi atol M c f g quads qs Hh HP W Win S NE K FR G. destruct (ket_dm_ok M c f g W Win (asc_NoDup M S) K FR) as [rho [E [Wr [Wir [SD [Dm El]]]]]].
  exists rho. split; [exact E|]. intros N1 N2. rewrite (dm_distribution hbar phi atol Hh HP M rho quads qs Wr Wir S NE SD N1 G), (ket_distribution hbar phi atol Hh HP M c quads qs W Win S NE K N2 G).
  f_equal. apply map_ext. intros pt. rewrite (dm_value_of_ket hbar phi M c rho qs pt Dm El). rewrite Cmod_R. apply Rabs_pos_eq. apply pow2_ge_0.
Qed.

(** hypotheses are met: the ket (3, 4i) on mode 5 and its density matrix with three points *)
Theorem C71_example :
  (wf ex_k /\ window (cw ex_k) /\ asc [5%Z] /\ ket_on [5%Z] ex_k /\ no_clash ex_k /\ fresh_for (fresh 20) ex_k (adjC (fresh 20) ex_k))
  /\ (wf ex_mix /\ window (cw ex_mix) /\ dm_on [5%Z] ex_mix /\ no_clash ex_mix /\ positive [5%Z] ex_mix)
  /\ given [5%Z] [[0; 1; 2]%R] (fun _ => [0; 1; 2]%R) /\ exact_phase 0 0 /\ exact_phase 0 1.
Proof.
  destruct C70_example as [[W1 [Wi1 [K1 [F1 [F2 _]]]]] [W2 [Wi2 [K2 _]]]].
  split; [|split; [|split; [|split]]].
  - repeat match goal with |- _ /\ _ => split end; auto.
    + repeat constructor.
    + split; [cbn; lia|]. intros m H. cbn in H. cbn. lia.
  - split; [exact W2|]. split; [exact Wi2|]. split; [exact K2|]. split.
    + split; [cbn; lia|]. intros m H. cbn in H. cbn. lia.
    + intros v _. cbv zeta. unfold Expect.over_modes. change (box (map (kdim ex_mix) [5%Z])) with [[0%nat]; [1%nat]]. change (box (map (bdim ex_mix) [5%Z])) with [[0%nat]; [1%nat]]. cbn [Tensor.sum fold_right].
      change (dm_elem ex_mix (assign [5%Z] [0%nat]) (assign [5%Z] [0%nat])) with (2, 0)%R. change (dm_elem ex_mix (assign [5%Z] [1%nat]) (assign [5%Z] [1%nat])) with (1, 0)%R.
      change (dm_elem ex_mix (assign [5%Z] [0%nat]) (assign [5%Z] [1%nat])) with (0, 0)%R. change (dm_elem ex_mix (assign [5%Z] [1%nat]) (assign [5%Z] [0%nat])) with (0, 0)%R.
      destruct (v (assign [5%Z] [0])) as [a b], (v (assign [5%Z] [1])) as [a' b']. unfold Cplus, Cmult, Cconj, RtoC, Re, Im. cbn [fst snd]. split; [ring|nra].
  - right. exists [0; 1; 2]%R. auto.
  - now left.
  - right. rewrite Rabs_R1. lra.
Qed.

(** refuted without the condition on the letters: on mode 1 the Fock axis and the mode get the same letter 'b', and einsum multiplies
    point by point instead of summing: the value of a single photon at q0 <> 0 comes out as 0; with three points there is a ValueError *)
Definition single (m : Z) : compC := mkComp [mkWire m true Ket 0 Fock 1] (mkArray [2] (fun k => match k with [1] => RtoC 1 | _ => C0' end)).
Theorem C71_refuted_letters : forall hbar q0 q1 q2 atol, (0 < hbar)%R -> q0 <> 0%R -> (0 <= atol)%R ->
  wf (single 1) /\ window (cw (single 1)) /\ ket_on [1%Z] (single 1)
  /\ (exists z, quadrature hbar 0 atol (single 1) [[q0; q1]] = Ok [C0'; z])
  /\ ket_value hbar 0 [1%Z] (single 1) (fun _ => [q0; q1]) (fun _ => 0) <> C0'
  /\ quadrature hbar 0 atol (single 1) [[q0; q1; q2]] = Err ValueError
  /\ quadrature hbar 0 atol (single 26) [[q0; q1]] = Err ValueError.
Proof.
  intros hbar q0 q1 q2 atol Hh Hq Ha. split; [wf_by_cases|]. split; [pairs_by_cases; cbn; lia|]. split; [on_cases|]. split; [|split; [|split]].
  - eexists. unfold quadrature, fock_quadrature. cbn -[quad_basis Cmult Cplus RtoC]. change (Pos.to_nat 1) with 1. unfold einsum_n. cbn -[quad_basis Cmult Cplus RtoC].
    match goal with |- Ok (?x :: ?y :: nil) = _ => replace x with C0' by ring; reflexivity end.
  - unfold ket_value, Expect.over_modes. change (box (map (kdim (single 1)) [1%Z])) with [[0%nat]; [1%nat]]. cbn [Tensor.sum fold_right].
    change (ket_amp (single 1) (assign [1%Z] [0])) with C0'. change (ket_amp (single 1) (assign [1%Z] [1])) with (RtoC 1). unfold waves, wire_wave. cbn [map QuadLabels.prod fold_right].
    change (assign [1%Z] [1] 1%Z) with 1. change (assign [1%Z] [0] 1%Z) with 0. cbn [nth]. rewrite !Rmult_0_r, Ropp_0. unfold phase. rewrite cos_0, sin_0.
    intros E. apply (f_equal fst) in E. cbn in E. assert (Z : wave hbar 1 q0 = 0%R) by lra. revert Z. rewrite wave_herm, herm_1.
    assert (A1 : (0 < exp (- (q0 / sqrt hbar) ^ 2 / 2))%R) by apply exp_pos. assert (A2 : (0 < / Rpower (PI * hbar) (1 / 4))%R) by (apply Rinv_0_lt_compat, exp_pos).
    assert (A3 : (0 < / sqrt (2 ^ 1))%R) by (apply Rinv_0_lt_compat, sqrt_lt_R0; lra). assert (A4 : (0 < sqrt hbar)%R) by (apply sqrt_lt_R0; exact Hh).
    assert (A5 : (q0 / sqrt hbar <> 0)%R) by (unfold Rdiv; apply Rmult_integral_contrapositive_currified; [exact Hq|apply Rinv_neq_0_compat; lra]).
    change (INR (fact 1)) with 1%R. rewrite sqrt_1. intros Z. apply Rmult_integral in Z. destruct Z as [Z|Z]; [apply Rmult_integral in Z; destruct Z; lra|]. apply Rmult_integral in Z. destruct Z; [lra|]. apply A5. lra.
  - reflexivity.
  - reflexivity.
Qed.
