(** C26: conditional density matrices by the fast diagonal strategy *)
From Coq Require Import List Arith Bool Lia Field Ring Permutation.
From Verif Require Import Base RootField Tensor Series Vanilla VanillaProps FastDiagonal ComplexRF.
Import ListNotations.
Open Scope nat_scope.

Section Perm.
  Context {K : rootfield}.
  Add Field Kfield : (kft K).
  Open Scope rf_scope.
  Lemma sumn_lsum : forall n (f : nat -> K), sumn n f = fold_right (fun j t => f j + t) k0 (seq 0 n).
  Proof.
    intros n f. rewrite <- sumn_fold. generalize (seq 0 n) as l. assert (FA : forall l a, fold_left (fun t j => t + f j) l a = a + fold_right (fun j t => f j + t) k0 l).
    { induction l as [|x l IH]; intros a; simpl; [ring|]. rewrite IH. ring. }
    intros l. rewrite FA. ring.
  Qed.
  Lemma sumn_reindex : forall n (f : nat -> K) (pi : nat -> nat), (forall i, (i < n)%nat -> (pi i < n)%nat) -> (forall i j, (i < n)%nat -> (j < n)%nat -> pi i = pi j -> i = j) ->
    sumn n (fun i => f (pi i)) = sumn n f.
  Proof.
    intros n f pi H I. rewrite !sumn_lsum.
    assert (P : Permutation (map pi (seq 0 n)) (seq 0 n)).
    { apply NoDup_Permutation_bis.
      - apply NoDup_nth with (d := 0%nat). rewrite map_length, seq_length. intros i j Hi Hj E.
        rewrite !(nth_indep _ 0%nat (pi 0%nat)) in E by (rewrite map_length, seq_length; lia). rewrite !map_nth, !seq_nth in E by lia. apply I; auto.
      - rewrite map_length. lia.
      - intros x Hx. apply in_map_iff in Hx. destruct Hx as [y [<- Hy]]. apply in_seq in Hy. apply in_seq. pose proof (H y ltac:(lia)). lia. }
    assert (Q : forall l l', Permutation l l' -> fold_right (fun j t => f j + t) k0 l = fold_right (fun j t => f j + t) k0 l').
    { intros l l' HP. induction HP as [|x l1 l2 HP IH|x y l1|l1 l2 l3 HP1 IH1 HP2 IH2]; simpl; [reflexivity|now rewrite IH|ring|congruence]. }
    rewrite <- (Q _ _ P). clear P Q. generalize (seq 0 n) as l. induction l as [|x l IH]; simpl; [reflexivity|]. now rewrite IH.
  Qed.
  (** relabelling the variables of the generating function relabels the multi-index *)
  Lemma amp_relabel : forall D (A : nat -> nat -> K) b c (pi : nat -> nat), (forall i j, (i < D)%nat -> (j < D)%nat -> A i j = A j i) ->
    (forall i, (i < D)%nat -> (pi i < D)%nat) -> (forall i j, (i < D)%nat -> (j < D)%nat -> pi i = pi j -> i = j) ->
    forall w k k', length k = D -> length k' = D -> (forall i, (i < D)%nat -> at' (pi i) k' = at' i k) -> (list_sum k <= w)%nat ->
    amp D (fun i j => A (pi i) (pi j)) (fun i => b (pi i)) c k = amp D A b c k'.
  Proof.
    intros D A b c pi S H I. assert (S' : forall i j, (i < D)%nat -> (j < D)%nat -> A (pi i) (pi j) = A (pi j) (pi i)) by (intros; apply S; auto).
    assert (surj : forall x, (x < D)%nat -> exists i, (i < D)%nat /\ pi i = x).
    { intros x Hx. assert (In x (map pi (seq 0 D))).
      { assert (NoDup (map pi (seq 0 D))).
        { apply NoDup_nth with (d := 0%nat). rewrite map_length, seq_length. intros i j Hi Hj E.
          rewrite !(nth_indep _ 0%nat (pi 0%nat)) in E by (rewrite map_length, seq_length; lia). rewrite !map_nth, !seq_nth in E by lia. apply I; auto. }
        apply (NoDup_length_incl H0 (l' := seq 0 D)); [rewrite map_length; lia| |apply in_seq; lia].
        intros y Hy. apply in_map_iff in Hy. destruct Hy as [z [<- Hz]]. apply in_seq in Hz. apply in_seq. pose proof (H z ltac:(lia)). lia. }
      apply in_map_iff in H0. destruct H0 as [i [E Hi]]. apply in_seq in Hi. exists i. split; [lia|exact E]. }
    assert (DK : forall i k k', (i < D)%nat -> length k = D -> length k' = D -> (forall i, (i < D)%nat -> at' (pi i) k' = at' i k) -> forall x, (x < D)%nat -> at' (pi x) (dec (pi i) k') = at' x (dec i k)).
    { intros i k k' Hi L L' R x Hx. rewrite !at_dec by (rewrite ?L, ?L'; auto). rewrite R by assumption.
      destruct (Nat.eqb_spec x i) as [->|Ne]; [now rewrite Nat.eqb_refl|]. rewrite (proj2 (Nat.eqb_neq (pi x) (pi i))); [reflexivity|]. intros E. apply Ne, I; auto. }
    induction w as [w IH] using lt_wf_ind. intros k k' L L' R Hw.
    destruct (Nat.eq_dec (list_sum k) 0) as [Z|Z].
    - assert (k = zeros D) as -> by (rewrite <- L; now apply sum_zero_iff). assert (k' = zeros D) as ->.
      { apply at_ext; [rewrite L'; symmetry; apply repeat_length|]. intros j Hj. destruct (surj j ltac:(lia)) as [i [Hi <-]]. now rewrite R, !at_zeros. }
      now rewrite !amp_zero.
    - assert (X : exists i, (i < D)%nat /\ at' i k <> 0%nat).
      { rewrite <- L. clear - Z. unfold at'. induction k as [|x k IHk]; [simpl in Z; lia|]. destruct x as [|x]; [|exists 0%nat; simpl; lia].
        change (list_sum (0%nat :: k)) with (list_sum k) in Z. destruct (IHk Z) as [i [H1 H2]]. exists (S i). simpl. split; [lia|exact H2]. }
      destruct X as [i [Hi Ni]].
      rewrite (amp_step D _ _ S' c i k Hi L Ni). rewrite (amp_step D A b S c (pi i) k') by (auto; rewrite R; auto). rewrite R by exact Hi.
      pose proof (sum_dec i k ltac:(lia) Ni) as SD.
      assert (R1 := DK i k k' Hi L L' R).
      rewrite (IH (list_sum (dec i k)) ltac:(lia) (dec i k) (dec (pi i) k')); [|now rewrite dec_length|now rewrite dec_length|exact R1|lia].
      f_equal. f_equal. rewrite <- (sumn_reindex D (fun j => A (pi i) j * (sq (at' j (dec (pi i) k')) * amp D A b c (dec j (dec (pi i) k')))) pi H I).
      apply sumn_ext. intros j Hj. rewrite R1 by exact Hj. destruct (Nat.eq_dec (at' j (dec i k)) 0) as [E|E]; [rewrite E, sq_0; ring|].
      pose proof (sum_dec j (dec i k) ltac:(rewrite dec_length; lia) E) as SD2.
      rewrite (IH (list_sum (dec j (dec i k))) ltac:(lia) (dec j (dec i k)) (dec (pi j) (dec (pi i) k'))); [reflexivity|now rewrite !dec_length|now rewrite !dec_length| |lia].
      apply DK; [exact Hj|now rewrite dec_length|now rewrite dec_length|exact R1].
  Qed.
End Perm.

Section C26.
  Context {K : rootfield}.
  Add Field Kfield : (kft K).
  Open Scope rf_scope.
  Lemma perm_lt : forall L i, (i < 2 * L)%nat -> (perm L i < 2 * L)%nat.
  Proof. intros L i H. unfold perm. destruct (Nat.even i) eqn:E; [apply even_half in E|apply odd_half in E]; lia. Qed.
  Lemma perm_inj : forall L i j, (i < 2 * L)%nat -> (j < 2 * L)%nat -> perm L i = perm L j -> i = j.
  Proof.
    intros L i j Hi Hj. unfold perm. destruct (Nat.even i) eqn:E; [apply even_half in E|apply odd_half in E]; (destruct (Nat.even j) eqn:E'; [apply even_half in E'|apply odd_half in E']); lia.
  Qed.
  Lemma perm_diag : forall p r s i, (i < 2 + 2 * length p)%nat -> at' (perm (length p + 1) i) ((r :: p) ++ (s :: p)) = at' i (r :: s :: dup p).
  Proof.
    intros p r s i Hi. unfold perm. destruct (Nat.even i) eqn:E; [apply even_half in E|apply odd_half in E]; remember (i / 2)%nat as h; clear Heqh; subst i; unfold at'.
    - rewrite app_nth1 by (simpl; lia). destruct h as [|h]; [reflexivity|]. replace (2 * S h)%nat with (S (S (2 * h))) by lia. cbn [nth]. symmetry. apply (at_dup p h).
    - rewrite app_nth2 by (simpl; lia). replace (h + (length p + 1) - length (r :: p))%nat with h by (simpl; lia). destruct h as [|h]; [reflexivity|].
      replace (2 * S h + 1)%nat with (S (S (2 * h + 1))) by lia. cbn [nth]. symmetry. apply (at_dup p h).
  Qed.
  (** for all cutoffs: the call succeeds, and the conditional amplitude <r, p| rho |s, p> is the Taylor coefficient of the Bargmann function
      whenever 2|p| is within the range of weights visited, 0 otherwise *)
  Theorem C26_weights : forall (A : nat -> nat -> K) b c oc pnr, pnr <> [] -> symmetric (2 * (length pnr + 1)) A ->
    exists out, fast_diagonal A b c oc pnr = Some out /\
      forall p r s, Forall2 le p pnr -> (r <= oc)%nat -> (s <= oc)%nat ->
        let k := (r :: p) ++ (s :: p) in
        out p r s = if Nat.leb (2 * list_sum p) (2 * oc + 2 * list_sum pnr - (length pnr + 1) - 1)
                    then c * sqf k * expq (2 * (length pnr + 1)) A b k else k0.
  Proof.
    intros A b c oc pnr Np S. set (L := (length pnr + 1)%nat). assert (DL : (2 * L = 2 + 2 * length pnr)%nat) by (unfold L; lia).
    assert (S' : forall i j, (i < 2 + 2 * length pnr)%nat -> (j < 2 + 2 * length pnr)%nat -> A (perm L i) (perm L j) = A (perm L j) (perm L i)).
    { intros i j Hi Hj. apply S; rewrite <- DL in *; now apply perm_lt. }
    destruct (fast_diagonal_perm_right (fun i j => A (perm L i) (perm L j)) (fun i => b (perm L i)) c pnr Np S' oc) as [out [E [O1 O2]]].
    exists out. split; [exact E|]. intros p r s Fp Hr Hs k. assert (Lp := Forall2_length _ _ _ Fp).
    fold L in O1, O2 |- *. destruct (Nat.leb_spec (2 * list_sum p) (2 * oc + 2 * list_sum pnr - L - 1)) as [H|H]; [|apply O2; [exact Fp|lia]].
    rewrite (O1 p Fp ltac:(lia) r s Hr Hs). rewrite <- DL. change (c * sqf k * expq (2 * L) A b k) with (amp (2 * L) A b c k).
    apply (amp_relabel (2 * L) A b c (perm L) S (perm_lt L) (perm_inj L) (list_sum (r :: s :: dup p))); [| | |lia].
    - cbn [length]. rewrite dup_length. lia.
    - unfold k. rewrite app_length. cbn [length]. lia.
    - intros i Hi. unfold k, L. rewrite <- Lp. apply perm_diag. lia.
  Qed.
  (** C26: every requested amplitude is right as soon as 2 * output_cutoff > number of modes *)
  Theorem C26_correct : forall (A : nat -> nat -> K) b c oc pnr, pnr <> [] -> symmetric (2 * (length pnr + 1)) A -> (length pnr + 1 < 2 * oc)%nat ->
    exists out, fast_diagonal A b c oc pnr = Some out /\
      forall p r s, Forall2 le p pnr -> (r <= oc)%nat -> (s <= oc)%nat ->
        let k := (r :: p) ++ (s :: p) in out p r s = c * sqf k * expq (2 * (length pnr + 1)) A b k.
  Proof.
    intros A b c oc pnr Np S Ho. destruct (C26_weights A b c oc pnr Np S) as [out [E O]]. exists out. split; [exact E|]. intros p r s Fp Hr Hs k.
    rewrite (O p r s Fp Hr Hs). assert (LS : (list_sum p <= list_sum pnr)%nat) by (clear - Fp; unfold list_sum; induction Fp; simpl; lia).
    rewrite (proj2 (Nat.leb_le _ _)); [reflexivity|lia].
  Qed.
  (** false of the code otherwise: the loop stops one or more weights too early and the last density matrix stays 0.
      Concretely output_cutoff = 1, pnr_cutoffs = (1,), A = 0, b = (1,1,1,1), c = 1: the amplitude of (0,1,0,1) is 1, the code returns 0. *)
  Theorem C26_refuted_small_cutoff : exists out, fast_diagonal (K := K) (fun _ _ => k0) (fun _ => k1) k1 1 [1%nat] = Some out
    /\ out [1%nat] 0%nat 0%nat = k0 /\ k1 * sqf [0; 1; 0; 1]%nat * expq 4 (fun _ _ => k0) (fun _ => k1) [0; 1; 0; 1]%nat <> k0 :> K.
  Proof.
    destruct (C26_weights (fun _ _ => k0) (fun _ => k1) k1 1 [1%nat]) as [out [E O]]; [discriminate|intros i j _ _; reflexivity|]. exists out. split; [exact E|]. split.
    - rewrite (O [1%nat] 0%nat 0%nat) by (repeat constructor). reflexivity.
    - assert (S0 : forall i j, (i < 4)%nat -> (j < 4)%nat -> (fun _ _ : nat => @k0 K) i j = (fun _ _ => k0) j i) by reflexivity.
      change (amp 4 (fun _ _ => k0) (fun _ => k1) k1 [0; 1; 0; 1]%nat <> k0 :> K).
      rewrite (amp_step 4 _ (fun _ => k1) S0 k1 1) by (try (unfold at'; simpl); lia). unfold dec, at'. cbn [upd nth pred sumn].
      rewrite (amp_step 4 _ (fun _ => k1) S0 k1 3 [0; 0; 0; 1]%nat) by (try (unfold at'; simpl); lia). unfold dec, at'. cbn [upd nth pred sumn].
      assert (Z : amp 4 (fun _ _ => k0) (fun _ => k1) k1 [0; 0; 0; 0]%nat = k1 :> K) by exact (amp_zero 4 _ _ k1). rewrite Z.
      assert (N1 : sq 1 <> k0 :> K) by (apply sq_neq; lia).
      match goal with |- ?x <> k0 => assert (V : x = k1 / (sq 1 * sq 1)) end; [field; exact N1|]. rewrite V, sq_ok, knat_1. intros C. apply (k1_neq (K := K)). rewrite <- C. field. apply k1_neq.
  Qed.
End C26.
(** the hypotheses hold of complex inputs: one output mode and two photon counters, cutoff 2 *)
Theorem C26_example : exists out, fast_diagonal (K := CF) (fun i j => if Nat.eqb i j then k1 else k0) (fun _ => k1) k1 2 [3; 1]%nat = Some out.
Proof.
  destruct (C26_correct (K := CF) (fun i j => if Nat.eqb i j then k1 else k0) (fun _ => k1) k1 2 [3; 1]%nat) as [out [E _]];
    [discriminate|intros i j _ _; now rewrite Nat.eqb_sym|simpl; lia|]. now exists out.
Qed.
Print Assumptions C26_correct.
