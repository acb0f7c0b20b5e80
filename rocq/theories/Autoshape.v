(** mrmustard/math/lattice/autoshape.py *)
From Coq Require Import List Arith Bool Lia Reals Lra.
From Coquelicot Require Import Coquelicot.
From Verif Require Import Base RootField Tensor Series ComplexRF.
Import ListNotations.
Open Scope nat_scope.

(** the two-row buffers: row 0 or 1, column *)
Definition buf := nat -> nat -> C.
Definition row (b : buf) (r : nat) (v : nat -> C) : buf := fun r' => if Nat.eqb r' r then v else b r'.
Section Model.
  Variable A : nat -> nat -> C.
  Variable b : nat -> C.
  Variable max_prob : R.
  Open Scope C_scope.
  (** autoshape.py:137-153, the body of the while loop: the new buffers *)
  Definition new2 (k : nat) (buf2 buf3 : buf) : buf :=
    row buf2 ((k + 1) mod 2) (fun i => (b i * buf3 (k mod 2)%nat 1%nat + (A i 0%nat * buf2 (k mod 2)%nat 0%nat + A i 1%nat * buf2 (k mod 2)%nat 1%nat) * csq k) / csq (k + 1)).
  Definition new3 (k : nat) (buf2' buf3 : buf) : buf :=
    let o := (k mod 2)%nat in let n := ((k + 1) mod 2)%nat in
    row buf3 n (fun i => match i with
      | 0 => (b 0%nat * buf2' n 0%nat + A 0%nat 0%nat * buf3 o 1%nat * csq (k + 1) + A 0%nat 1%nat * buf3 o 0%nat * csq k) / csq (k + 2)
      | 1 => (b 1%nat * buf2' n 0%nat + A 1%nat 0%nat * buf3 o 1%nat * csq (k + 1) + A 1%nat 1%nat * buf3 o 0%nat * csq k) / csq (k + 1)
      | 2 => (b 1%nat * buf2' n 1%nat + A 1%nat 0%nat * buf3 o 2%nat * csq k + A 1%nat 1%nat * buf3 o 1%nat * csq (k + 1)) / csq (k + 2)
      | _ => buf3 n i
      end).
  (** autoshape.py:136-155 the loop; the fuel is max_shape - k *)
  Fixpoint loop (fuel k : nat) (norm : R) (buf2 buf3 : buf) : nat :=
    match fuel with
    | 0 => k
    | S f => if Rlt_dec norm max_prob then
               let buf2' := new2 k buf2 buf3 in
               let buf3' := new3 k buf2' buf3 in
               loop f (k + 1) (norm + Cmod (buf3' ((k + 1) mod 2)%nat 1%nat))%R buf2' buf3'
             else k
    end.
  Definition start3 (c : C) : buf := fun r i => if (Nat.eqb r 0 && Nat.eqb i 1)%bool then c else RtoC 0.
  Definition shape_of (c : C) (max_shape : nat) : nat := loop max_shape 0 (Cmod c) (fun _ _ => RtoC 0) (start3 c).
End Model.
(** np.clip *)
Definition clip (x lo hi : nat) : nat := Nat.min (Nat.max x lo) hi.
(** autoshape.py:99-155 autoshape_numba.  Simplification: the single-mode triples (A_, b_, c_), computed with numpy.linalg from the reduced
    density matrix of every mode, are given. *)
Definition autoshape (triples : list ((nat -> nat -> C) * (nat -> C) * C)) (max_prob : R) (max_shape min_shape : nat) : list nat :=
  map (fun '(A, b, c) => clip (shape_of A b max_prob c max_shape) min_shape max_shape) triples.

Section Loop.
  Variable A : nat -> nat -> C.
  Variable b : nat -> C.
  Variable c : C.
  (** the sequence of buffers *)
  Fixpoint bufs (k : nat) : buf * buf :=
    match k with
    | 0 => ((fun _ _ => RtoC 0), start3 c)
    | S j => let '(b2, b3) := bufs j in let b2' := new2 A b j b2 b3 in (b2', new3 A b j b2' b3)
    end.
  (** the diagonal entry computed at step j *)
  Definition diag (j : nat) : C := snd (bufs j) (j mod 2)%nat 1%nat.
  Fixpoint acc (j : nat) : R := match j with 0 => Cmod (diag 0) | S i => (acc i + Cmod (diag (S i)))%R end.
  Lemma loop_spec : forall max_prob fuel k, (forall j, j < k -> (acc j < max_prob)%R) ->
    let r := loop A b max_prob fuel k (acc k) (fst (bufs k)) (snd (bufs k)) in
    k <= r <= k + fuel /\ (forall j, j < r -> (acc j < max_prob)%R) /\ (r < k + fuel -> (max_prob <= acc r)%R).
  Proof.
    intros mp fuel. induction fuel as [|f IH]; intros k H; cbn [loop].
    - cbv zeta. split; [lia|]. split; [exact H|lia].
    - destruct (Rlt_dec (acc k) mp) as [L|L].
      + replace (k + 1) with (S k) by lia.
        assert (H' : forall j, j < S k -> (acc j < mp)%R) by (intros j Hj; destruct (Nat.eq_dec j k) as [->|]; [exact L|apply H; lia]).
        specialize (IH (S k) H'). cbv zeta in *. cbn [acc] in IH. unfold diag in IH at 1 2 3 4 5. cbn [bufs] in IH.
        destruct (bufs k) as [b2 b3] eqn:E. cbn [fst snd] in *. replace (S k mod 2) with (S k mod 2) in IH by reflexivity.
        match type of IH with context [loop _ _ _ _ _ _ ?x ?y] => idtac end.
        destruct IH as [I1 [I2 I3]]. split; [lia|]. split; [exact I2|]. intros Hr. apply I3. lia.
      + cbv zeta. split; [lia|]. split; [exact H|]. intros _. lra.
  Qed.
End Loop.

(** C23, bounds: every returned cutoff lies in [min_shape, max_shape], one per mode *)
Theorem C23_bounds : forall triples max_prob max_shape min_shape, min_shape <= max_shape ->
  let shape := autoshape triples max_prob max_shape min_shape in
  length shape = length triples /\ List.Forall (fun s => min_shape <= s <= max_shape) shape.
Proof.
  intros triples mp mx mn H. unfold autoshape. cbv zeta. split; [apply map_length|]. apply List.Forall_forall. intros s Hs. apply in_map_iff in Hs.
  destruct Hs as [[[A b] c] [<- _]]. unfold clip. lia.
Qed.
(** max_shape wins when the limits contradict each other: no cutoff ever exceeds max_shape *)
Theorem C23_upper : forall triples max_prob max_shape min_shape,
  List.Forall (fun s => s <= max_shape /\ (max_shape <= min_shape -> s = max_shape)) (autoshape triples max_prob max_shape min_shape).
Proof.
  intros triples mp mx mn. apply List.Forall_forall. intros s Hs. apply in_map_iff in Hs. destruct Hs as [[[A b] c] [<- _]]. unfold clip. lia.
Qed.
(** C23, termination and minimality: at most max_shape iterations; the loop stops at the first k at which the accumulated
    sum of the computed diagonal entries 0..k reaches max_prob, or at max_shape if there is none before *)
Theorem C23_first : forall A b c max_prob max_shape, let k := shape_of A b max_prob c max_shape in
  k <= max_shape /\ (forall j, j < k -> (acc A b c j < max_prob)%R) /\ (k < max_shape -> (max_prob <= acc A b c k)%R).
Proof.
  intros A b c mp mx k. unfold shape_of in k. pose proof (loop_spec A b c mp mx 0 ltac:(intros; lia)) as H. cbn [bufs fst snd acc] in H.
  change (diag A b c 0) with c in H. fold k in H. cbv zeta in H. destruct H as [H1 [H2 H3]]. split; [lia|]. split; [exact H2|]. intros X. apply H3. lia.
Qed.

Section Diagonal.
  Variable A : nat -> nat -> C.
  Variable b : nat -> C.
  Variable c : C.
  Hypothesis Asym : A 0 1 = A 1 0.
  (** the density matrix: entry (n, m) of the single-mode Bargmann function *)
  Definition dm (n m : nat) : C := amp (K := CF) 2 A b c [n; m].
  Lemma Asym2 : forall i j, i < 2 -> j < 2 -> A i j = A j i.
  Proof using Asym. clear - Asym. intros i j Hi Hj. destruct i as [|[|i]]; destruct j as [|[|j]]; try lia; auto. Qed.
  Open Scope C_scope.
  Lemma csq_neq : forall k, csq (k + 1) <> RtoC 0.
  Proof using. clear. intros k. apply (sq_neq (K := CF)). lia. Qed.
  Lemma dm_rec0 : forall n m, dm (S n) m = (b 0%nat * dm n m + (A 0%nat 0%nat * (csq n * dm (pred n) m) + A 0%nat 1%nat * (csq m * dm n (pred m)))) / csq (n + 1).
  Proof using Asym.
    intros n m. unfold dm at 1. rewrite (amp_step (K := CF) 2 A b Asym2 c 0) by (try (unfold at'; simpl); lia). unfold dec, at', dm. cbn [upd nth pred sumn]. cbn. rewrite Nat.add_1_r. f_equal. ring.
  Qed.
  Lemma dm_rec1 : forall n m, dm n (S m) = (b 1%nat * dm n m + (A 1%nat 0%nat * (csq n * dm (pred n) m) + A 1%nat 1%nat * (csq m * dm n (pred m)))) / csq (m + 1).
  Proof using Asym.
    intros n m. unfold dm at 1. rewrite (amp_step (K := CF) 2 A b Asym2 c 1) by (try (unfold at'; simpl); lia). unfold dec, at', dm. cbn [upd nth pred sumn]. cbn. rewrite Nat.add_1_r. f_equal. ring.
  Qed.
  (** the entries next to the diagonal coincide *)
  Hypothesis Near : forall k, dm (S k) k = dm k (S k).
  Lemma mod2_neq : forall k, (k mod 2 <> (k + 1) mod 2)%nat.
  Proof using.
    clear. intros k. rewrite <- Nat.add_mod_idemp_l by lia. pose proof (Nat.mod_upper_bound k 2 ltac:(lia)). destruct (k mod 2) as [|[|x]]; simpl; lia.
  Qed.
  Lemma row_same : forall u r v, row u r v r = v. Proof using. clear. intros. unfold row. now rewrite Nat.eqb_refl. Qed.
  Lemma row_other : forall u r v r', r' <> r -> row u r v r' = u r'. Proof using. clear. intros u r v r' H. unfold row. now rewrite (proj2 (Nat.eqb_neq _ _) H). Qed.
  Definition okbufs (k : nat) (b2 b3 : buf) : Prop :=
    b3 (k mod 2)%nat 1%nat = dm k k /\ (csq k * b3 (k mod 2)%nat 0%nat = csq k * dm (S k) (pred k)) /\ (csq k * b3 (k mod 2)%nat 2%nat = csq k * dm (pred k) (S k))
    /\ csq k * b2 (k mod 2)%nat 0%nat = csq k * dm k (pred k) /\ csq k * b2 (k mod 2)%nat 1%nat = csq k * dm (pred k) k.
  Lemma bufs_ok : forall k, okbufs k (fst (bufs A b c k)) (snd (bufs A b c k)).
  Proof using Asym Near.
    induction k as [|k IH].
    - cbn [bufs fst snd]. unfold okbufs. rewrite !csq_0. repeat split; try ring. symmetry. exact (amp_zero (K := CF) 2 A b c).
    - cbn [bufs]. destruct (bufs A b c k) as [b2 b3]. cbn [fst snd] in IH |- *. destruct IH as [D [U [L [X Y]]]].
      assert (NR : dm k (pred k) = dm (pred k) k \/ csq k = RtoC 0) by (destruct k as [|k']; [right; apply csq_0|left; apply (Near k')]).
      assert (XY : csq k * dm k (pred k) = csq k * dm (pred k) k) by (destruct NR as [->| ->]; ring).
      pose proof (csq_neq k) as N1. pose proof (csq_neq (k + 1)) as N2. replace (k + 1 + 1)%nat with (k + 2)%nat in N2 by lia.
      assert (B2 : forall i, i < 2 -> new2 A b k b2 b3 ((k + 1) mod 2) i = match i with 0 => dm (S k) k | _ => dm k (S k) end).
      { intros i Hi. unfold new2. rewrite row_same. rewrite D.
        assert (E : (A i 0%nat * b2 (k mod 2)%nat 0%nat + A i 1%nat * b2 (k mod 2)%nat 1%nat) * csq k = A i 0%nat * (csq k * dm (pred k) k) + A i 1%nat * (csq k * dm k (pred k))).
        { transitivity (A i 0%nat * (csq k * b2 (k mod 2)%nat 0%nat) + A i 1%nat * (csq k * b2 (k mod 2)%nat 1%nat)); [ring|]. rewrite X, Y, XY. reflexivity. }
        rewrite E. destruct i as [|[|i]]; [symmetry; apply dm_rec0|symmetry; apply dm_rec1|lia]. }
      set (b2' := new2 A b k b2 b3) in *. pose proof (B2 0%nat ltac:(lia)) as P0. pose proof (B2 1%nat ltac:(lia)) as P1. cbn [pred] in *.
      unfold okbufs, new3. cbv zeta. replace (S k mod 2)%nat with ((k + 1) mod 2)%nat by (f_equal; lia). rewrite row_same. cbn [pred]. rewrite P0, P1.
      assert (U' : forall a, a * b3 (k mod 2)%nat 0%nat * csq k = a * (csq k * dm (S k) (pred k))) by (intros a; rewrite <- U; ring).
      assert (L' : forall a, a * b3 (k mod 2)%nat 2%nat * csq k = a * (csq k * dm (pred k) (S k))) by (intros a; rewrite <- L; ring).
      rewrite !D, !U', !L'. split; [|split; [|split; [|split; reflexivity]]].
      + rewrite (dm_rec1 (S k) k). cbn [pred]. replace (csq (S k)) with (csq (k + 1)) by (f_equal; lia). f_equal. ring.
      + f_equal. rewrite (dm_rec0 (S k) k). cbn [pred]. replace (S k + 1)%nat with (k + 2)%nat by lia. replace (csq (S k)) with (csq (k + 1)) by (f_equal; lia). f_equal. ring.
      + f_equal. rewrite (dm_rec1 k (S k)). cbn [pred]. replace (S k + 1)%nat with (k + 2)%nat by lia. replace (csq (S k)) with (csq (k + 1)) by (f_equal; lia). f_equal. ring.
  Qed.
  Lemma diag_ok : forall k, diag A b c k = dm k k.
  Proof using Asym Near. intros k. apply bufs_ok. Qed.
End Diagonal.

(** C23, meaning of the accumulated sum: when the near-diagonal entries (k+1,k) and (k,k+1) coincide, the computed sum is the
    total probability of photon numbers 0..k *)
Fixpoint total (p : nat -> R) (k : nat) : R := match k with 0 => p 0 | S j => (total p j + p (S j))%R end.
Theorem C23_probability : forall A b c, A 0 1 = A 1 0 -> (forall k, dm A b c (S k) k = dm A b c k (S k)) ->
  forall k, acc A b c k = total (fun j => Cmod (dm A b c j j)) k.
Proof. intros A b c HS N. induction k as [|k IH]; cbn [acc total]; rewrite (diag_ok A b c HS N); [reflexivity|]. now rewrite IH. Qed.
(** this holds for states without displacement ... *)
Lemma dm_odd : forall A b c, A 0 1 = A 1 0 -> b 0 = RtoC 0 -> b 1 = RtoC 0 -> forall w n m, n + m <= w -> Nat.odd (n + m) = true -> dm A b c n m = RtoC 0.
Proof.
  intros A b c HS B0 B1. induction w as [w IH] using lt_wf_ind. intros n m Hw O. 
  destruct n as [|n].
  - destruct m as [|m]; [discriminate|]. rewrite (dm_rec1 A b c HS), B1, csq_0. destruct m as [|m]; [rewrite csq_0; unfold Cdiv; ring|]. cbn [pred].
    rewrite (IH m ltac:(lia) 0 m ltac:(lia) O). unfold Cdiv. ring.
  - rewrite (dm_rec0 A b c HS), B0.
    assert (E1 : Cmult (csq n) (dm A b c (pred n) m) = RtoC 0).
    { destruct n as [|n]; [rewrite csq_0; ring|]. cbn [pred]. rewrite (IH (n + m) ltac:(lia) n m ltac:(lia) O). ring. }
    assert (E2 : Cmult (csq m) (dm A b c n (pred m)) = RtoC 0).
    { destruct m as [|m]; [rewrite csq_0; ring|]. cbn [pred]. rewrite (IH (n + m) ltac:(lia) n m ltac:(lia)); [ring|]. rewrite <- O. replace (S n + S m) with (S (S (n + m))) by lia. reflexivity. }
    rewrite E1, E2. unfold Cdiv. ring.
Qed.
Theorem C23_centred : forall A b c max_prob max_shape, A 0 1 = A 1 0 -> b 0 = RtoC 0 -> b 1 = RtoC 0 ->
  let k := shape_of A b max_prob c max_shape in let p := total (fun j => Cmod (dm A b c j j)) in
  k <= max_shape /\ (forall j, j < k -> (p j < max_prob)%R) /\ (k < max_shape -> (max_prob <= p k)%R).
Proof.
  intros A b c mp mx HS B0 B1 k p. assert (E : forall j, p j = acc A b c j).
  { intros j. symmetry. apply C23_probability; [exact HS|]. intros i. rewrite (dm_odd A b c HS B0 B1 (S i + i) (S i) i), (dm_odd A b c HS B0 B1 (S i + i) i (S i)); [reflexivity|lia| |lia|];
      [replace (i + S i) with (1 + 2 * i) by lia|replace (S i + i) with (1 + 2 * i) by lia]; now rewrite Nat.odd_add_mul_2. }
  destruct (C23_first A b c mp mx) as [H1 [H2 H3]]. fold k in H1, H2, H3. split; [exact H1|]. split; [intros j Hj; rewrite E; now apply H2|]. intros H. rewrite E. now apply H3.
Qed.
(** ... and for real states (A and b equal to their conjugates: A_00 = A_11, b_0 = b_1) *)
Lemma dm_sym : forall A b c, A 0 1 = A 1 0 -> A 0 0 = A 1 1 -> b 0 = b 1 -> forall w n m, n + m <= w -> dm A b c n m = dm A b c m n.
Proof.
  intros A b c HS SA Sb. induction w as [w IH] using lt_wf_ind. intros n m Hw. destruct n as [|n].
  - destruct m as [|m]; [reflexivity|]. rewrite (dm_rec1 A b c HS), (dm_rec0 A b c HS), csq_0, SA, Sb. rewrite (IH m ltac:(lia) 0 m ltac:(lia)).
    destruct m as [|m]; [rewrite csq_0; f_equal; ring|]. cbn [pred]. rewrite (IH m ltac:(lia) 0 m ltac:(lia)). f_equal. ring.
  - rewrite (dm_rec0 A b c HS), (dm_rec1 A b c HS), SA, Sb, HS. rewrite (IH (n + m) ltac:(lia) n m ltac:(lia)).
    assert (E1 : Cmult (csq n) (dm A b c (pred n) m) = Cmult (csq n) (dm A b c m (pred n))).
    { destruct n as [|n]; [rewrite csq_0; ring|]. cbn [pred]. now rewrite (IH (n + m) ltac:(lia) n m ltac:(lia)). }
    assert (E2 : Cmult (csq m) (dm A b c n (pred m)) = Cmult (csq m) (dm A b c (pred m) n)).
    { destruct m as [|m]; [rewrite csq_0; ring|]. cbn [pred]. now rewrite (IH (n + m) ltac:(lia) n m ltac:(lia)). }
    rewrite E1, E2. f_equal. ring.
Qed.
Theorem C23_real : forall A b c max_prob max_shape, A 0 1 = A 1 0 -> A 0 0 = A 1 1 -> b 0 = b 1 ->
  let k := shape_of A b max_prob c max_shape in let p := total (fun j => Cmod (dm A b c j j)) in
  k <= max_shape /\ (forall j, j < k -> (p j < max_prob)%R) /\ (k < max_shape -> (max_prob <= p k)%R).
Proof.
  intros A b c mp mx HS SA Sb k p. assert (E : forall j, p j = acc A b c j).
  { intros j. symmetry. apply C23_probability; [exact HS|]. intros i. apply (dm_sym A b c HS SA Sb (S i + i)). lia. }
  destruct (C23_first A b c mp mx) as [H1 [H2 H3]]. fold k in H1, H2, H3. split; [exact H1|]. split; [intros j Hj; rewrite E; now apply H2|]. intros H. rewrite E. now apply H3.
Qed.
(** false of the code for complex states: buf2 is multiplied by A with its two entries exchanged (autoshape.py:138).  A squeezed vacuum
    (A = diag(1/2, 1/2)) displaced along p (b = (-i, i)): the computed weight of two photons is 5/8 c, the true one 1/8 c;
    with max_prob = 5/2 c the loop stops at 2 although photon numbers 0, 1, 2 carry only 17/8 c. *)
Definition ref_A (i j : nat) : C := if Nat.eqb i j then RtoC (1 / 2) else RtoC 0.
Definition ref_b (i : nat) : C := match i with 0 => Copp Ci | _ => Ci end.
Lemma csq_1 : csq 1 = RtoC 1.
Proof. unfold csq. simpl. now rewrite sqrt_1. Qed.
Lemma csq_2sq : Cmult (csq 2) (csq 2) = RtoC 2.
Proof. rewrite csq_ok, cnat_INR. f_equal. Qed.
Lemma csq_2_neq : csq 2 <> RtoC 0.
Proof. apply (sq_neq (K := CF)). lia. Qed.
Lemma Ci_sq : Cmult Ci Ci = Copp (RtoC 1).
Proof. unfold Ci, Cmult, Copp, RtoC; cbn. f_equal; ring. Qed.

Section Refuted.
  Variable c : R.
  Hypothesis Hc : (0 < c)%R.
  Open Scope C_scope.
  Let cc : C := RtoC c.
  Lemma C1_nz : RtoC 1 <> RtoC 0. Proof using. clear. intros H. apply RtoC_inj in H. lra. Qed.
  Lemma ref_sym : ref_A 0 1 = ref_A 1 0. Proof using. reflexivity. Qed.
  Lemma ref_dm00 : dm ref_A ref_b cc 0 0 = cc.
  Proof using. exact (amp_zero (K := CF) 2 ref_A ref_b cc). Qed.
  Lemma ref_dm10 : dm ref_A ref_b cc 1 0 = - Ci * cc.
  Proof using. rewrite (dm_rec0 ref_A ref_b cc ref_sym). cbn [pred]. rewrite ref_dm00, csq_0. change (0 + 1)%nat with 1%nat. rewrite csq_1. unfold ref_b. field. apply C1_nz. Qed.
  Lemma ref_dm01 : dm ref_A ref_b cc 0 1 = Ci * cc.
  Proof using. rewrite (dm_rec1 ref_A ref_b cc ref_sym). cbn [pred]. rewrite ref_dm00, csq_0. change (0 + 1)%nat with 1%nat. rewrite csq_1. unfold ref_b. field. apply C1_nz. Qed.
  Lemma ref_dm11 : dm ref_A ref_b cc 1 1 = cc.
  Proof using.
    rewrite (dm_rec1 ref_A ref_b cc ref_sym). cbn [pred]. rewrite ref_dm10, csq_0. change (0 + 1)%nat with 1%nat. rewrite csq_1. unfold ref_b, ref_A. cbn [Nat.eqb].
    transitivity (- (Ci * Ci) * cc); [field; apply C1_nz|]. rewrite Ci_sq. ring.
  Qed.
  Lemma C2_nz : RtoC 2 <> RtoC 0. Proof using. clear. intros H. apply RtoC_inj in H. lra. Qed.
  Lemma RtoC_2 : RtoC 2 = RtoC 1 + RtoC 1. Proof using. clear. rewrite <- RtoC_plus. f_equal; lra. Qed.
  Lemma C11_nz : RtoC 1 + RtoC 1 <> RtoC 0. Proof using. clear. rewrite <- RtoC_2. apply C2_nz. Qed.
  Ltac cnz := repeat split; auto; try apply C1_nz; try (let H := fresh in intros H; apply (f_equal fst) in H; simpl in H; lra).
  Lemma ref_dm20 : dm ref_A ref_b cc 2 0 = - cc / ((RtoC 1 + RtoC 1) * csq 2).
  Proof using.
    rewrite (dm_rec0 ref_A ref_b cc ref_sym). cbn [pred]. rewrite ref_dm10, ref_dm00, csq_0. change (1 + 1)%nat with 2%nat. rewrite csq_1. unfold ref_b, ref_A. cbn [Nat.eqb].
    pose proof csq_2_neq as N. pose proof C11_nz as N2. pose proof C1_nz as N1. rewrite RtoC_div by lra. rewrite ?RtoC_2.
    transitivity ((Ci * Ci * cc + (RtoC 1 / (RtoC 1 + RtoC 1)) * cc) / csq 2); [field; cnz|]. rewrite Ci_sq. rewrite ?RtoC_2. field; cnz.
  Qed.
  Lemma ref_dm21 : dm ref_A ref_b cc 2 1 = - Ci * cc / ((RtoC 1 + RtoC 1) * csq 2).
  Proof using.
    rewrite (dm_rec0 ref_A ref_b cc ref_sym). cbn [pred]. rewrite ref_dm11, ref_dm01, ref_dm10. change (1 + 1)%nat with 2%nat. rewrite csq_1. unfold ref_b, ref_A. cbn [Nat.eqb].
    pose proof csq_2_neq as N. pose proof C11_nz as N2. pose proof C1_nz as N1. rewrite RtoC_div by lra. rewrite ?RtoC_2. field; cnz.
  Qed.
  Lemma RtoC_8 : RtoC 8 = RtoC 2 * RtoC 2 * RtoC 2. Proof using. clear. rewrite <- !RtoC_mult. f_equal. lra. Qed.
  Lemma ref_dm22 : dm ref_A ref_b cc 2 2 = RtoC (c / 8).
  Proof using.
    rewrite (dm_rec1 ref_A ref_b cc ref_sym). cbn [pred]. rewrite ref_dm21, ref_dm20, ref_dm11. change (1 + 1)%nat with 2%nat. rewrite csq_1. unfold ref_b, ref_A. cbn [Nat.eqb].
    pose proof csq_2_neq as N. pose proof C11_nz as N2. pose proof C1_nz as N1. pose proof csq_2sq as Q. rewrite !RtoC_div by lra. rewrite RtoC_8, ?RtoC_2.
    transitivity ((- (Ci * Ci) * cc / (RtoC 1 + RtoC 1) - cc / ((RtoC 1 + RtoC 1) * (RtoC 1 + RtoC 1))) / (csq 2 * csq 2)); [field; cnz|]. rewrite Ci_sq, Q, ?RtoC_2. unfold cc. field; cnz.
  Qed.
  Lemma ref_diag1 : diag ref_A ref_b cc 1 = cc.
  Proof using.
    unfold diag. cbn [bufs snd]. unfold new3, new2. cbn -[csq Cmult Cdiv Cplus Ci RtoC Copp]. rewrite csq_0, csq_1. unfold start3. cbn -[csq Cmult Cdiv Cplus Ci RtoC Copp].
    transitivity (- (Ci * Ci) * cc); [field; apply C1_nz|]. rewrite Ci_sq. ring.
  Qed.
  Lemma ref_diag2 : diag ref_A ref_b cc 2 = RtoC (5 * c / 8).
  Proof using.
    unfold diag. cbn [bufs snd]. unfold new3, new2. cbn -[csq Cmult Cdiv Cplus Ci RtoC Copp]. rewrite csq_0, csq_1. unfold start3. cbn -[csq Cmult Cdiv Cplus Ci RtoC Copp].
    unfold ref_A; cbn [Nat.eqb].
    pose proof csq_2_neq as N. pose proof C11_nz as N2. pose proof C1_nz as N1. pose proof csq_2sq as Q. rewrite !RtoC_div by lra. rewrite RtoC_8, ?RtoC_2. fold cc.
    transitivity ((- (Ci * Ci) * (- (Ci * Ci)) * cc + RtoC 1 / (RtoC 1 + RtoC 1) * (- (Ci * Ci)) * cc + RtoC 1 / (RtoC 1 + RtoC 1) * (Ci * Ci * cc + RtoC 1 / (RtoC 1 + RtoC 1) * cc)) / (csq 2 * csq 2)); [field; cnz|].
    rewrite Ci_sq, Q, ?RtoC_2. rewrite (RtoC_mult 5 c). unfold cc. assert (E5 : RtoC 5 = RtoC 1 + (RtoC 1 + RtoC 1) * (RtoC 1 + RtoC 1)) by (rewrite <- !RtoC_plus, <- !RtoC_mult, <- !RtoC_plus; f_equal; lra). rewrite E5. field; cnz.
  Qed.
  Lemma Cmod_pos : forall x, (0 <= x)%R -> Cmod (RtoC x) = x.
  Proof using. clear. intros x H. rewrite Cmod_R. now apply Rabs_pos_eq. Qed.
End Refuted.
Theorem C23_refuted : forall c max_prob max_shape, (0 < c)%R -> (17 / 8 * c < max_prob <= 21 / 8 * c)%R -> 2 < max_shape ->
  shape_of ref_A ref_b max_prob (RtoC c) max_shape = 2 /\ (total (fun j => Cmod (dm ref_A ref_b (RtoC c) j j)) 2 < max_prob)%R.
Proof.
  intros c mp mx Hc Hm Hx. split.
  - assert (A0 : acc ref_A ref_b (RtoC c) 0 = c) by (cbn [acc]; change (diag ref_A ref_b (RtoC c) 0) with (RtoC c); apply Cmod_pos; lra).
    assert (A1 : acc ref_A ref_b (RtoC c) 1 = (2 * c)%R) by (cbn [acc]; cbn [acc] in A0; rewrite A0, ref_diag1, Cmod_pos by lra; lra).
    assert (A2 : acc ref_A ref_b (RtoC c) 2 = (21 / 8 * c)%R) by (cbn [acc]; cbn [acc] in A1; rewrite A1, ref_diag2, Cmod_pos by lra; lra).
    destruct (C23_first ref_A ref_b (RtoC c) mp mx) as [H1 [H2 H3]]. set (k := shape_of _ _ _ _ _) in *. clearbody k.
    destruct (lt_eq_lt_dec k 2) as [[L|E]|G]; [exfalso|exact E|exfalso].
    + specialize (H3 ltac:(lia)). destruct k as [|[|k]]; [rewrite A0 in H3; lra|rewrite A1 in H3; lra|lia].
    + specialize (H2 2 ltac:(lia)). rewrite A2 in H2. lra.
  - cbn [total]. rewrite ref_dm00, ref_dm11, ref_dm22, !Cmod_pos by lra. lra.
Qed.
(** a centred state (thermal-like, A = offdiag 1/2): hypotheses of C23_centred hold, the probabilities are c, c/2, ... and the loop stops at 1 for max_prob = 3/2 c *)
Definition th_A (i j : nat) : C := if Nat.eqb i j then RtoC 0 else RtoC (1 / 2).
Theorem C23_example : th_A 0 1 = th_A 1 0 /\ shape_of th_A (fun _ => RtoC 0) (3 / 2) (RtoC 1) 50 = 1
  /\ autoshape [(th_A, (fun _ => RtoC 0), RtoC 1); (th_A, (fun _ => RtoC 0), RtoC 1)] (3 / 2) 50 2 = [2; 2].
Proof.
  assert (E : shape_of th_A (fun _ => RtoC 0) (3 / 2) (RtoC 1) 50 = 1).
  { assert (D1 : diag th_A (fun _ => RtoC 0) (RtoC 1) 1 = RtoC (1 / 2)).
    { unfold diag. cbn [bufs snd]. unfold new3, new2. cbn -[csq Cmult Cdiv Cplus Ci RtoC Copp]. rewrite csq_0, csq_1. unfold start3, th_A. cbn -[csq Cmult Cdiv Cplus Ci RtoC Copp]. field. apply C1_nz. }
    assert (A0 : acc th_A (fun _ => RtoC 0) (RtoC 1) 0 = 1%R) by (cbn [acc]; change (diag th_A (fun _ => RtoC 0) (RtoC 1) 0) with (RtoC 1); apply Cmod_pos; lra).
    assert (A1 : acc th_A (fun _ => RtoC 0) (RtoC 1) 1 = (3 / 2)%R) by (cbn [acc]; cbn [acc] in A0; rewrite A0, D1, Cmod_pos by lra; lra).
    destruct (C23_first th_A (fun _ => RtoC 0) (RtoC 1) (3 / 2) 50) as [H1 [H2 H3]]. set (k := shape_of _ _ _ _ _) in *. clearbody k.
    destruct (lt_eq_lt_dec k 1) as [[L|E]|G]; [exfalso|exact E|exfalso].
    + specialize (H3 ltac:(lia)). destruct k as [|k]; [rewrite A0 in H3; lra|lia].
    + specialize (H2 1 ltac:(lia)). rewrite A1 in H2. lra. }
  split; [reflexivity|]. split; [exact E|]. unfold autoshape. cbn [map]. rewrite E. reflexivity.
Qed.
