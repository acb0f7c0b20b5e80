(** The einsum behind CircuitComponent.quadrature for Fock components: claim C71 (index bookkeeping).
    Model of mrmustard/lab/circuit_components.py:590-626, unbatched. *)
From Coq Require Import ZArith List Bool Lia Permutation Sorted Arith Ring_theory Ring.
Require Import Verif.Base Verif.Wires Verif.WiresSpec Verif.WiresLemmas Verif.WiresMatmul Verif.WiresLabels
  Verif.WiresProps Verif.WiresAdj Verif.Tensor Verif.Contract Verif.ContractAssoc Verif.ContractEx Verif.Expect.
Import ListNotations.

Section Quad.
  Context {R : Type} (rO rI : R) (radd rmul rsub : R -> R -> R) (ropp : R -> R).
  Hypothesis Rth : ring_theory rO rI radd rmul rsub ropp eq.
  Notation comp := (@comp R).
  Notation array := (@array R).
  Notation sum := (Tensor.sum rO radd).
  Notation "x * y" := (rmul x y).
  Definition prod (l : list R) : R := fold_right rmul rI l.

  (** numpy.einsum of any number of operands; label i is the letter chr(97 + i). ValueError for labels that are no letters, for axes of
      different sizes with the same label (simplification: also when one of the sizes is 1) and for output labels that no operand has *)
  Definition operand : Type := (list nat * array)%type.
  Definition labels_of (ops : list operand) : list nat := concat (map fst ops).
  Definition size_of (ops : list operand) (l : nat) : nat :=
    match look Nat.eqb (labels_of ops) (concat (map (fun o => shape (snd o)) ops)) l with Some v => v | None => 0 end.
  Definition fits (ops : list operand) (o : operand) : bool :=
    (length (fst o) =? length (shape (snd o))) && forallb (fun p => size_of ops (fst p) =? snd p) (combine (fst o) (shape (snd o))).
  Definition einsum_n (ops : list operand) (lo : list nat) : result array :=
    if forallb (fun l => l <? 26) (labels_of ops) && forallb (fits ops) ops && forallb (fun l => nmem l (labels_of ops)) lo then
      let S := nodup Nat.eq_dec (filter (fun l => negb (nmem l lo)) (labels_of ops)) in
      Ok (mkArray (map (size_of ops) lo)
            (fun k => sum (box (map (size_of ops) S)) (fun idx => prod (map (fun o => at_ (snd o) (map (Tensor.env lo k S idx) (fst o))) ops))))
    else Err ValueError.
  (** circuit_components.py:598-626: one basis array (cutoff x points) per wire; the values in the order of the final reshape *)
  Definition mode_label (w : wire) : nat := Z.to_nat (mode w).
  Definition fock_quadrature (c : comp) (bases : list array) : result (list R) :=
    let dims := length (shape (carr c)) in
    if negb (length bases =? dims) then Err ValueError else
    let ws := sorted_wires (cw c) in
    let ms := zsort (nodup Z.eq_dec (modes (cw c))) in
    let fock := map (fun i => length ms + i) (seq 0 dims) in
    bind (einsum_n ((fock, carr c) :: map (fun p => ([fst (fst p); mode_label (snd (fst p))], snd p)) (combine (combine fock ws) bases)) (map Z.to_nat ms))
         (fun r => Ok (map (at_ r) (box (shape r)))).

  (** ** specification: the sum over all photon numbers of the amplitude times the wave functions of all wires *)
  Definition quad_value (c : comp) (bases : list array) (pt : Z -> nat) : R :=
    sum (box (shape (carr c))) (fun ns =>
      at_ (carr c) ns * prod (map (fun p => at_ (snd p) [fst (fst p); pt (mode (snd (fst p)))]) (combine (combine ns (sorted_wires (cw c))) bases))).
  (** basis i has the cutoff of wire i and pts m points, m the mode of the wire *)
  Definition bases_for (c : comp) (pts : Z -> nat) (bases : list array) : Prop :=
    map shape bases = map (fun p => [fst p; pts (mode (snd p))]) (combine (shape (carr c)) (sorted_wires (cw c))).
  (** the letters of the modes and of the Fock axes differ *)
  Definition no_clash (c : comp) : Prop :=
    let n := length (nodup Z.eq_dec (modes (cw c))) in let dims := length (cw c) in
    n + dims <= 26 /\ forall m, In m (modes (cw c)) -> (0 <= m < 26)%Z /\ (m < Z.of_nat n \/ Z.of_nat (n + dims) <= m)%Z.

  Lemma nodup_dup : forall l : list nat, NoDup l -> nodup Nat.eq_dec (l ++ l) = l.
  Proof using.
    clear. intros l N. assert (G : forall a b : list nat, incl a b -> NoDup b -> nodup Nat.eq_dec (a ++ b) = b).
    { intros a b. induction a as [|x a IH]; intros I Nb; [now apply nodup_fixed_point|]. simpl. destruct (in_dec Nat.eq_dec x (a ++ b)) as [H|H].
      - apply IH; auto. intros y Hy. apply I. now right.
      - exfalso. apply H, in_or_app. right. apply I. now left. }
    apply G; auto. apply incl_refl.
  Qed.
  Lemma look_app_l : forall k1 v1 k2 v2 x, length k1 = length v1 -> In x k1 -> look Nat.eqb (k1 ++ k2) (v1 ++ v2) x = look Nat.eqb k1 v1 x.
  Proof using.
    clear. intros k1 v1 k2 v2 x L I. rewrite look_app by exact L. destruct (look Nat.eqb k1 v1 x) eqn:E; [reflexivity|exfalso].
    revert v1 L E I. induction k1 as [|k k1 IH]; intros [|v v1] L E I; simpl in *; try lia; try contradiction.
    destruct (Nat.eqb x k) eqn:X; [discriminate|]. destruct I as [->|I]; [rewrite Nat.eqb_refl in X; discriminate|]. apply (IH v1); auto.
  Qed.

  Theorem quad_correct : forall c bases pts, wf c -> no_clash c -> bases_for c pts bases ->
    fock_quadrature c bases = Ok (map (fun k => quad_value c bases (fun m => assign (zsort (nodup Z.eq_dec (modes (cw c)))) k m))
                                      (box (map pts (zsort (nodup Z.eq_dec (modes (cw c))))))).
  Proof using.
    intros c bases pts W [NC1 NC2] BF. pose proof W as [D [WI [Q LE]]].
    set (ms := zsort (nodup Z.eq_dec (modes (cw c)))) in *.
    assert (LM : length ms = length (nodup Z.eq_dec (modes (cw c)))) by apply zsort_length.
    assert (NM : NoDup ms) by (unfold ms; apply (Permutation_NoDup (Permutation_sym (zsort_perm _))), NoDup_nodup).
    assert (IM : forall m, In m ms <-> In m (modes (cw c))) by (intros m; unfold ms; now rewrite zsort_in, nodup_In).
    unfold bases_for in BF. set (ws := sorted_wires (cw c)) in *. assert (LW : length ws = length (cw c)) by apply sorted_wires_length.
    assert (WM : forall w, In w ws -> In (mode w) ms) by (intros w Hw; apply IM; unfold ws in Hw; rewrite sorted_wires_in in Hw; unfold modes; now apply in_map).
    set (dims := length (shape (carr c))) in *. fold dims in LE.
    assert (LB : length bases = dims).
    { rewrite <- (map_length shape bases), BF, map_length, combine_length. fold ws. fold dims. rewrite LW, LE. apply Nat.min_id. }
    unfold fock_quadrature. fold dims ms ws. rewrite LB, Nat.eqb_refl. cbn [negb].
    set (fock := map (fun i => length ms + i) (seq 0 dims)). set (lo := map Z.to_nat ms).
    assert (LF : length fock = dims) by (unfold fock; now rewrite map_length, seq_length).
    assert (NF : NoDup fock) by (unfold fock; apply NoDup_map_inj; [intros; lia|apply seq_NoDup]).
    assert (IF : forall l, In l fock <-> length ms <= l < length ms + dims).
    { intros l. unfold fock. rewrite in_map_iff. setoid_rewrite in_seq. split; [intros [i [<- H]]; lia|intros H; exists (l - length ms); lia]. }
    assert (NL : NoDup lo).
    { unfold lo. clear - NM IM NC2. assert (P : forall m, In m ms -> (0 <= m)%Z) by (intros m Hm; apply IM in Hm; apply NC2 in Hm; lia). clear IM. induction NM as [|m l H N IH]; simpl; constructor.
      - intros C. apply in_map_iff in C. destruct C as [x [E Hx]]. apply Z2Nat.inj in E; [subst; contradiction| |]; apply P; [now right|now left].
      - apply IH. intros; apply P; now right. }
    assert (DJ : forall l, In l fock -> ~ In l lo).
    { intros l Hl Hc. apply IF in Hl. unfold lo in Hc. apply in_map_iff in Hc. destruct Hc as [m [<- Hm]]. apply IM in Hm. destruct (NC2 m Hm) as [B1 B2]. lia. }
    set (tl := map _ (combine (combine fock ws) bases)). set (ops := (fock, carr c) :: tl).
    (* the shapes *)
    assert (TL : map fst tl = map (fun p => [fst p; mode_label (snd p)]) (combine fock ws)).
    { unfold tl. rewrite map_map. cbn [fst]. rewrite <- (map_map fst (fun p => [fst p; mode_label (snd p)])). f_equal.
      assert (X : length (combine fock ws) = length bases) by (rewrite combine_length, LF, LW, LB, LE; apply Nat.min_id).
      revert X. clear. generalize (combine fock ws). induction bases as [|b bs IH]; intros [|p l] X; simpl in *; try lia; auto. f_equal. apply IH. lia. }
    assert (TS : map (fun o => shape (snd o)) tl = map (fun p => [fst p; pts (mode (snd p))]) (combine (shape (carr c)) ws)).
    { unfold tl. rewrite map_map. cbn [snd]. rewrite <- (map_map snd shape). rewrite <- BF. f_equal.
      assert (X : length (combine fock ws) = length bases) by (rewrite combine_length, LF, LW, LB, LE; apply Nat.min_id).
      revert X. clear. generalize (combine fock ws). induction bases as [|b bs IH]; intros [|p l] X; simpl in *; try lia; auto. f_equal. apply IH. lia. }
    assert (LO : labels_of ops = fock ++ concat (map (fun p => [fst p; mode_label (snd p)]) (combine fock ws))) by (unfold labels_of, ops; cbn [map concat fst]; now rewrite TL).
    assert (SO : concat (map (fun o => shape (snd o)) ops) = shape (carr c) ++ concat (map (fun p => [fst p; pts (mode (snd p))]) (combine (shape (carr c)) ws))) by (unfold ops; cbn [map concat snd]; now rewrite TS).
    (* sizes of the labels *)
    assert (SF : forall i, i < dims -> size_of ops (nth i fock 0) = nth i (shape (carr c)) 0).
    { intros i Hi. unfold size_of. rewrite LO, SO. rewrite look_app_l; [|now rewrite LF|apply nth_In; now rewrite LF].
      rewrite (look_nth Nat.eqb Nat.eqb_eq) by (auto; now rewrite LF). reflexivity. }
    assert (SM : forall m, In m ms -> size_of ops (Z.to_nat m) = pts m).
    { intros m Hm. unfold size_of. rewrite LO, SO. rewrite look_app by (now rewrite LF).
      rewrite (look_notin Nat.eqb Nat.eqb_eq). 2:{ intros C. apply (DJ _ C). unfold lo. now apply in_map. }
      assert (EX : exists w, In w ws /\ mode w = m). { apply IM in Hm. unfold modes in Hm. apply in_map_iff in Hm. destruct Hm as [w [E H]]. exists w. split; [unfold ws; now rewrite sorted_wires_in|exact E]. }
      assert (G : forall (fk sh : list nat) l, length fk = length l -> length sh = length l -> (forall x, In x fk -> In x fock) -> (forall w, In w l -> In w ws) -> (exists w, In w l /\ mode w = m) ->
        look Nat.eqb (concat (map (fun p => [fst p; mode_label (snd p)]) (combine fk l))) (concat (map (fun p => [fst p; pts (mode (snd p))]) (combine sh l))) (Z.to_nat m) = Some (pts m)).
      { induction fk as [|x fk IH]; intros [|s sh] [|w l] L1 L2 Hf Hw [v [Hv Ev]]; simpl in *; try lia; try contradiction.
        destruct (Nat.eqb (Z.to_nat m) x) eqn:X.
        { apply Nat.eqb_eq in X. exfalso. apply (DJ x); [apply Hf; now left|]. rewrite <- X. unfold lo. now apply in_map. }
        destruct (Nat.eqb (Z.to_nat m) (mode_label w)) eqn:Y.
        { apply Nat.eqb_eq in Y. unfold mode_label in Y. apply Z2Nat.inj in Y; [now rewrite Y| |].
          - apply IM in Hm. apply NC2 in Hm. lia.
          - assert (J : In (mode w) ms) by (apply WM, Hw; now left). apply IM in J. apply NC2 in J. lia. }
        apply IH; try lia; auto. exists v. split; [|exact Ev]. destruct Hv as [->|Hv]; [|exact Hv]. exfalso. unfold mode_label in Y. rewrite Ev, Nat.eqb_refl in Y. discriminate. }
      rewrite G; auto; rewrite ?LF, ?LW; auto. }
    (* no error *)
    assert (C1 : forallb (fun l => l <? 26) (labels_of ops) = true).
    { apply forallb_forall. intros l Hl. rewrite LO in Hl. apply in_app_or in Hl. assert (FB : forall l, In l fock -> l < 26) by (intros x Hx; apply IF in Hx; lia).
      apply Nat.ltb_lt. destruct Hl as [Hl|Hl]; [now apply FB|]. apply in_concat in Hl. destruct Hl as [p [Hp Hl]]. apply in_map_iff in Hp. destruct Hp as [[f w] [<- Hp]].
      pose proof (in_combine_l _ _ _ _ Hp) as H1. pose proof (in_combine_r _ _ _ _ Hp) as H2. destruct Hl as [<-|[<-|[]]]; [now apply FB|]. cbn [snd]. unfold mode_label.
      apply WM, IM, NC2 in H2. lia. }
    assert (C2 : forallb (fits ops) ops = true).
    { unfold ops at 2. cbn [forallb]. apply andb_true_iff. split.
      - unfold fits. cbn [fst snd]. fold dims. rewrite LF, Nat.eqb_refl. cbn [andb]. apply forallb_forall. intros [x s] Hp. cbn [fst snd]. apply Nat.eqb_eq.
        apply (In_nth _ _ (0, 0)) in Hp. destruct Hp as [i [Hi E]]. rewrite combine_length, LF in Hi. fold dims in Hi. rewrite combine_nth in E by (now rewrite LF). injection E as <- <-. apply SF. lia.
      - apply forallb_forall. intros o Ho. unfold tl in Ho. apply (In_nth _ _ o) in Ho. destruct Ho as [i [Hi E]].
        assert (Hi' : i < dims). { rewrite map_length, !combine_length, LF in Hi. lia. }
        assert (F1 : fst o = [nth i fock 0; mode_label (nth i ws (mkWire 0 true Ket 0 Unspecified 0))]).
        { rewrite <- E. fold tl. transitivity (nth i (map fst tl) (fst o)); [symmetry; apply (map_nth fst)|]. rewrite TL.
          rewrite (nth_indep _ _ ((fun p => [fst p; mode_label (snd p)]) (0, mkWire 0 true Ket 0 Unspecified 0))) by (rewrite map_length, combine_length, LF, LW, <- LE, Nat.min_id; exact Hi').
          rewrite (map_nth (fun p => [fst p; mode_label (snd p)])). rewrite combine_nth by (now rewrite LF, LW). reflexivity. }
        assert (F2 : shape (snd o) = [nth i (shape (carr c)) 0; pts (mode (nth i ws (mkWire 0 true Ket 0 Unspecified 0)))]).
        { rewrite <- E. fold tl. transitivity (nth i (map (fun o => shape (snd o)) tl) (shape (snd o))); [symmetry; apply (map_nth (fun o => shape (snd o)))|]. rewrite TS.
          rewrite (nth_indep _ _ ((fun p => [fst p; pts (mode (snd p))]) (0, mkWire 0 true Ket 0 Unspecified 0))) by (rewrite map_length, combine_length; fold dims; rewrite LW, <- LE, Nat.min_id; exact Hi').
          rewrite (map_nth (fun p => [fst p; pts (mode (snd p))])). rewrite combine_nth by (fold dims; now rewrite LW). reflexivity. }
        unfold fits. rewrite F1, F2. cbn [length Nat.eqb combine forallb fst snd andb]. rewrite SF by exact Hi'. rewrite Nat.eqb_refl. unfold mode_label. rewrite SM, Nat.eqb_refl; [reflexivity|].
        apply WM, nth_In. rewrite LW, <- LE. exact Hi'. }
    assert (C3 : forallb (fun l => nmem l (labels_of ops)) lo = true).
    { apply forallb_forall. intros l Hl. apply nmem_In. rewrite LO. apply in_or_app. right. unfold lo in Hl. apply in_map_iff in Hl. destruct Hl as [m [<- Hm]].
      apply IM in Hm. unfold modes in Hm. apply in_map_iff in Hm. destruct Hm as [w [Ew Hw]]. assert (Hw' : In w ws) by (unfold ws; now rewrite sorted_wires_in).
      apply (In_nth _ _ w) in Hw'. destruct Hw' as [i [Hi E]]. apply in_concat. exists [nth i fock 0; mode_label w]. split; [|right; left; unfold mode_label; now rewrite Ew].
      apply in_map_iff. exists (nth i fock 0, w). split; [reflexivity|]. rewrite <- E at 1. rewrite <- combine_nth by (now rewrite LF, LW). apply nth_In. rewrite combine_length, LF. fold dims. rewrite LW, LE, Nat.min_id. now rewrite <- LW. }
    (* the summed labels *)
    assert (SL : nodup Nat.eq_dec (filter (fun l => negb (nmem l lo)) (labels_of ops)) = fock).
    { rewrite LO, filter_app. assert (FF : filter (fun l => negb (nmem l lo)) fock = fock).
      { apply filter_all. intros l Hl. apply negb_true_iff. destruct (nmem l lo) eqn:E; [|reflexivity]. apply nmem_In in E. now destruct (DJ l Hl). }
      rewrite FF. replace (filter _ (concat _)) with fock; [now apply nodup_dup|]. symmetry.
      assert (G : forall (fk : list nat) l, length fk = length l -> (forall x, In x fk -> In x fock) -> (forall w, In w l -> In w ws) ->
        filter (fun l => negb (nmem l lo)) (concat (map (fun p => [fst p; mode_label (snd p)]) (combine fk l))) = fk).
      { induction fk as [|x fk IH]; intros [|w l] L1 Hf Hw; simpl in *; try lia; auto.
        assert (N1 : nmem x lo = false) by (destruct (nmem x lo) eqn:E; [|reflexivity]; apply nmem_In in E; exfalso; apply (DJ x); auto).
        assert (N2 : nmem (mode_label w) lo = true) by (apply nmem_In; unfold lo, mode_label; apply in_map, WM, Hw; now left).
        rewrite N1, N2. cbn [negb]. f_equal. apply IH; auto. }
      apply G; auto. now rewrite LF, LW. }
    unfold einsum_n. rewrite C1, C2, C3. cbn [andb]. rewrite SL. cbn [bind shape at_]. f_equal.
    assert (SHO : map (size_of ops) lo = map pts ms) by (unfold lo; rewrite map_map; apply map_ext_in; intros m Hm; now apply SM).
    assert (SHF : map (size_of ops) fock = shape (carr c)).
    { apply (nth_ext _ _ 0 0); [now rewrite map_length, LF|]. intros i Hi. rewrite map_length, LF in Hi. rewrite (nth_indep _ 0 (size_of ops 0)) by (rewrite map_length, LF; exact Hi). rewrite map_nth. now apply SF. }
    rewrite SHO, SHF. apply map_ext_in. intros k Hk. apply box_length_in in Hk. rewrite map_length in Hk. unfold quad_value. apply sum_ext. intros ns Hns. apply box_length_in in Hns. fold dims in Hns.
    unfold ops. cbn [map fst snd].
    assert (EF : forall i, i < dims -> Tensor.env lo k fock ns (nth i fock 0) = nth i ns 0).
    { intros i Hi. unfold Tensor.env. rewrite (look_notin Nat.eqb Nat.eqb_eq lo) by (apply DJ, nth_In; now rewrite LF). rewrite (look_nth Nat.eqb Nat.eqb_eq) by (auto; now rewrite LF). reflexivity. }
    assert (EFM : map (Tensor.env lo k fock ns) fock = ns).
    { apply (nth_ext _ _ 0 0); [rewrite map_length, LF; now symmetry|]. intros i Hi. rewrite map_length, LF in Hi. rewrite (nth_indep _ 0 (Tensor.env lo k fock ns 0)) by (rewrite map_length, LF; exact Hi). rewrite map_nth. now apply EF. }
    assert (EM : forall m, In m ms -> Tensor.env lo k fock ns (Z.to_nat m) = assign ms k m).
    { intros m Hm. unfold Tensor.env, lo, assign. rewrite (look_map_inj Z.eqb Nat.eqb Z.eqb_eq Nat.eqb_eq Z.to_nat).
      - destruct (look Z.eqb ms k m) eqn:E; [reflexivity|]. exfalso. clear - E Hm Hk. revert k E Hk. induction ms as [|x l IH]; intros [|v k] E Hk; simpl in *; try lia; try contradiction.
        destruct (Z.eqb m x) eqn:X; [discriminate|]. destruct Hm as [->|Hm]; [rewrite Z.eqb_refl in X; discriminate|]. apply (IH Hm k); auto.
      - intros y Hy E. apply Z2Nat.inj in E; [exact E| |]; [apply IM, NC2 in Hm; lia|apply IM, NC2 in Hy; lia]. }
    cbn [prod fold_right]. fold (prod (map (fun o => at_ (snd o) (map (Tensor.env lo k fock ns) (fst o))) tl)). rewrite EFM. f_equal. f_equal. unfold tl. rewrite map_map. cbn [fst snd].
    assert (G : forall (fk nn : list nat) (l : list wire) (bs : list array), length fk = length l -> length nn = length l ->
       (forall i, i < length fk -> Tensor.env lo k fock ns (nth i fk 0) = nth i nn 0) -> (forall w, In w l -> In w ws) ->
       map (fun x => at_ (snd x) (map (Tensor.env lo k fock ns) [fst (fst x); mode_label (snd (fst x))])) (combine (combine fk l) bs)
       = map (fun p => at_ (snd p) [fst (fst p); assign ms k (mode (snd (fst p)))]) (combine (combine nn l) bs)).
    { induction fk as [|x fk IH]; intros [|v nn] [|w l] bs L1 L2 Hv Hw; simpl in *; try lia; auto. destruct bs as [|b bs]; [reflexivity|]. cbn [map fst snd]. f_equal.
      - cbn [map]. rewrite (Hv 0 (Nat.lt_0_succ _)). cbn [nth]. unfold mode_label. rewrite EM by (apply WM, Hw; now left). reflexivity.
      - apply IH; auto. intros i Hi. apply (Hv (S i)). lia. }
    apply G; rewrite ?LF; auto; fold ws; rewrite LW; lia.
  Qed.
End Quad.
