(** Concrete circuits for claim C09. *)
From Coq Require Import ZArith List Bool Lia Permutation Sorted Arith ZArithRing.
Require Import Verif.Base Verif.Wires Verif.WiresSpec Verif.WiresLemmas Verif.WiresMatmul Verif.WiresLabels
  Verif.WiresProps Verif.WiresAdj Verif.Tensor Verif.Contract Verif.ContractAssoc Verif.CompAdj Verif.RShift Verif.ContractEx Verif.CircuitContract.
Import ListNotations.
Local Open Scope Z_scope.

(** a supply of fresh ids *)
Definition supply {R} (a b : @comp R) (w : wire) : nat := S (list_sum (map wid (cw a)) + index w)%nat.
Lemma supply_fresh : forall {R} (a b : @comp R), NoDup (map wid (cw a)) -> wf b -> distinct_ids (cw a) (with_ids (supply a b) (cw b)).
Proof.
  intros R a b Na [_ [WI _]]. unfold distinct_ids. rewrite map_app. apply NoDup_app_intro; [exact Na| |].
  - unfold with_ids. rewrite map_map. cbn [wid]. unfold supply.
    assert (NI : NoDup (map index (cw b))).
    { unfold well_indexed, indices in WI. eapply Permutation_NoDup; [apply Permutation_map, Permutation_sym, Permutation_sym, sorted_wires_perm|].
      rewrite WI. apply seq_NoDup. }
    clear - NI. induction (cw b) as [|w t IH]; [constructor|]. simpl in *. inversion NI; subst. constructor; [|auto].
    intros C. apply H1. apply in_map_iff in C. destruct C as [x [E Hx]]. apply in_map_iff. exists x. split; [lia|exact Hx].
  - intros x Hx Hy. unfold with_ids in Hy. rewrite map_map in Hy. cbn [wid] in Hy. apply in_map_iff in Hy. destruct Hy as [w [E _]].
    unfold supply in E. assert (x <= list_sum (map wid (cw a)))%nat; [|lia].
    clear - Hx. induction (map wid (cw a)) as [|y t IH]; [destruct Hx|]. simpl. destruct Hx as [->|Hx]; [lia|]. specialize (IH Hx). lia.
Qed.

Notation vrs := (CircuitContract.vrshift 0 Z.add Z.mul supply (fun z => z) supply supply).
Definition gate2 : @comp Z :=
  mkComp (make (fun n => (12 + n)%nat) [] [] [0] [0] [] [])
         (mkArray [2%nat; 2%nat] (fun k => match k with [i; j] => 3 * Z.of_nat i + 5 * Z.of_nat j + 2 | _ => 0 end)).
(** the entry of the result at [al], when the result is a component *)
Definition entry (r : result (@val Z)) (al : descr -> nat) : option Z :=
  match r with Ok (VC c) => Some (amp c al) | _ => None end.
Definition circ3 := [ex_ket; ex_gate; gate2].

Lemma ext_strict : forall {R} (l : list (@comp R)) (D : list descr),
  (forall c d, In c l -> In d (descs (cw c)) -> d_out d = true -> In d D) ->
  (forall c d, In c l -> In d (descs (cw c)) -> d_out d = false -> In (flip d) D) ->
  (forall n d a b, In d D -> last_touch d (firstn n l) = Some a -> first_touch d (skipn n l) = Some b -> (n <= length l)%nat ->
      has d (cw a) = has (flip d) (cw b)) -> strict l.
Proof.
  intros R l D H1 H2 H3 l1 l2 d a b E O L Fi.
  assert (Hd : In d D).
  { unfold last_touch in L. apply find_some in L. destruct L as [I T]. apply in_rev in I. unfold touches in T. apply orb_prop in T.
    assert (Il : In a l) by (rewrite E; apply in_or_app; auto).
    destruct T as [T|T]; apply has_true in T; [now apply (H1 a)|]. rewrite <- (flip_flip d). apply (H2 a); auto. rewrite d_out_flip, O. reflexivity. }
  specialize (H3 (length l1) d a b Hd). subst l. rewrite firstn_app, Nat.sub_diag, firstn_all, firstn_O, app_nil_r in H3.
  rewrite skipn_app, Nat.sub_diag, skipn_all, skipn_O in H3. rewrite app_length in H3. simpl in H3.
  rewrite <- !has_true. rewrite H3; auto; [reflexivity|lia].
Qed.

Theorem C09_example :
  circuit_ok circ3 /\ strict circ3 /\ uniform circ3 /\ stays_open circ3
  /\ adjacent_path (seq 0 3) [(1, 2); (0, 1)]%nat
  /\ entry (circuit_contract vrs (map VC circ3) [(1, 2); (0, 1)]%nat) (fun _ => 1%nat) = Some (5 * (1 * 1 + 2 * 2) + 10 * (11 * 1 + 12 * 2)).
Proof.
  split; [|split; [|split; [|split; [|split]]]].
  - split; [intros c H; simpl in H; destruct H as [<-|[<-|[<-|[]]]]; wf_by_cases|]. split; [cbv; repeat constructor; simpl; intuition congruence|].
    split; [pairs_by_cases; cbn; intros; congruence|pairs_by_cases; cbn; lia].
  - apply (ext_strict circ3 [(0, true, Ket)]).
    + intros c d H Hd O. simpl in H. destruct H as [<-|[<-|[<-|[]]]]; simpl in Hd; repeat (destruct Hd as [<-|Hd]; [|]); try contradiction; try discriminate; now left.
    + intros c d H Hd O. simpl in H. destruct H as [<-|[<-|[<-|[]]]]; simpl in Hd; repeat (destruct Hd as [<-|Hd]; [|]); try contradiction; try discriminate; now left.
    + intros n d a b [<-|[]] L Fi Hn. destruct n as [|[|[|[|n]]]]; [| | | |cbn in Hn; lia]; vm_compute in L, Fi; try discriminate;
      injection L as <-; injection Fi as <-; reflexivity.
  - left. exists Ket. split; [discriminate|]. intros c H d Hd. simpl in H.
    destruct H as [<-|[<-|[<-|[]]]]; simpl in Hd; repeat (destruct Hd as [<-|Hd]; [reflexivity|]); destruct Hd.
  - intros x m y E N _. exists (0, true, Ket).
    assert (LN : forall c, In c circ3 -> touches (0, true, Ket) c = true /\ In (0, true, Ket) (descs (cw c))).
    { intros c H. simpl in H. destruct H as [<-|[<-|[<-|[]]]]; (split; [reflexivity|]); simpl; auto. }
    unfold open. cbn [d_out fst snd]. unfold last_touch. destruct (rev m) as [|c t] eqn:Er.
    + apply (f_equal (@rev _)) in Er. rewrite rev_involutive in Er. simpl in Er. congruence.
    + assert (In c circ3). { rewrite E. rewrite !in_app_iff. right; left. apply in_rev. rewrite Er. now left. }
      destruct (LN c H) as [T I]. cbn [find]. rewrite T. exact I.
  - apply (ap_cons [0]%nat 1%nat 2%nat []). apply (ap_cons [] 0%nat 1%nat []). apply ap_nil.
  - vm_compute. reflexivity.
Qed.

(** without the adjacency condition the code accepts paths that skip a component, and the gates act in the wrong order:
    path [(0,2), (0,1)] on ket >> gate >> gate2 *)
Theorem C09_refuted_skipping_path :
  entry (circuit_contract vrs (map VC circ3) [(0, 2); (0, 1)]%nat) (fun _ => 1%nat) = Some 476
  /\ entry (circuit_contract vrs (map VC circ3) (default_path 3)) (fun _ => 1%nat) = Some 375.
Proof. split; vm_compute; reflexivity. Qed.

(** without stays_open: |1> >> <1| >> (a state of mode 1). The default path gives a number although the circuit has an open
    wire, because scalar >> component returns the vacuum entry (circuit_components.py:945-955); the path that
    contracts the last two first gives the component. *)
Definition ex_bra : @comp Z :=
  mkComp (make (fun n => (20 + n)%nat) [] [] [] [0] [] []) (mkArray [2%nat] (fun k => match k with [i] => Z.of_nat i | _ => 0 end)).
Definition ket1 : @comp Z :=
  mkComp (make (fun n => (24 + n)%nat) [] [] [1] [] [] []) (mkArray [2%nat] (fun k => match k with [i] => 7 + Z.of_nat i | _ => 0 end)).
Theorem C09_refuted_scalar :
  circuit_contract vrs (map VC [ex_ket; ex_bra; ket1]) (default_path 3) = Ok (VS 14)
  /\ entry (circuit_contract vrs (map VC [ex_ket; ex_bra; ket1]) [(1, 2); (0, 1)]%nat) (fun _ => 1%nat) = Some 16.
Proof. split; vm_compute; reflexivity. Qed.
