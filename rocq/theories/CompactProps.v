(** C65, C66: entry points of the compact recursions with one undetected mode and of the gradients, and their properties *)
From Coq Require Import List Arith Bool ZArith ZifyNat Lia Field Ring.
From Verif Require Import Base RootField Tensor Series Vanilla VanillaProps FastDiagonal FastDiagonalProps Gradients GradProps ComplexRF CompactDiag CompactLeftover.
Import ListNotations.
Open Scope nat_scope.

Section Entry.
  Context {K : rootfield}.
  Open Scope rf_scope.
  Variable junk : K.
  (** singleLeftoverMode_amps.py:370-421, M detected modes; arr0[(0,) * (M + 1)] = G0 raises IndexError on an empty array *)
  Definition leftover_amps (A : nat -> nat -> K) (B : nat -> K) (G0 : K) (M cut : nat) (tail : list nat) : result (state (@block K)) :=
    if (Nat.ltb 0 cut && forallb (Nat.ltb 0) tail)%bool
    then Ok (leftover K K M cut tail junk k0 k0 (fun _ _ _ v => v) (point_amp A B junk 2) (fun m n => if (Nat.eqb m 0 && Nat.eqb n 0)%bool then G0 else k0))
    else Err IndexError.
  (** backend_jax.py:524-534, math/jax_vjps/hermite.py:343-387, inputValidation.py:103-119.  The tests of A are the argument [valid]; an error inside
      jax.pure_callback reaches the caller as a runtime error, here the one raised in the callback is kept *)
  Definition hermite_1leftover_jax (valid reorderedAB : bool) (n nB : nat) (A : nat -> nat -> K) (B : nat -> K) (c : K) (output_cutoff : nat) (pnr : list nat) : result (state (@block K)) :=
    if (reorderedAB && Nat.odd n)%bool then Err TypeError
    else
      let A' := if reorderedAB then fun i j => A (interleave (n / 2) i) (interleave (n / 2) j) else A in
      let B' := if reorderedAB then fun i => B (interleave (n / 2) i) else B in
      let M := (length pnr + 1)%nat in
      if negb valid then Err ValueError
      else if negb (Nat.eqb n nB) then Err ValueError
      else if negb (Nat.eqb (n / 2) M) then Err ValueError
      else if Nat.leb M 1 then Err ValueError
      else leftover_amps A' B' c (M - 1) (output_cutoff + 1) (map (fun p => p + 1)%nat pnr).
  (** backend_numpy.py:434-446: the argument reorderedAB of backend_manager.py:759-786 is passed in the position of [stable], which does not change the exact result *)
  Definition hermite_1leftover_numpy (reorderedAB : bool) (A : nat -> nat -> K) (B : nat -> K) (c : K) (output_cutoff : nat) (pnr : list nat) : option (nat -> nat -> list nat -> K) :=
    match fast_diagonal A B c output_cutoff pnr with Some out => Some (fun m n p => out p m n) | None => None end.
  Definition zeroG : @grads K := ((fun _ _ => k0), (fun _ => k0)).
  (** diagonal_grad.py:264-378 *)
  Definition diagonal_grad (A : nat -> nat -> K) (B : nat -> K) (M : nat) (cutoffs : list nat) (arrs : state K) : state (@grads K) :=
    traverse grads (K * grads) M cutoffs (fun _ _ => junk, fun _ => junk) (k0, zeroG) (fun x v => (mem arrs x, v)) (point_grad A B junk 0 (seq 0 (2 * M))) (St (fun _ => zeroG) false).
  (** singleLeftoverMode_grad.py:571-724 *)
  Definition leftover_grad (A : nat -> nat -> K) (B : nat -> K) (M cut : nat) (tail : list nat) (arrs : state (@block K)) : state (@block (@grads K)) :=
    leftover grads (K * grads) M cut tail (fun _ _ => junk, fun _ => junk) zeroG (k0, zeroG) (fun x m n v => (mem arrs x m n, v)) (point_grad A B junk 2) (fun _ _ => zeroG).
  (** math/jax_vjps/hermite.py:291-331, inputValidation.py:83-100: g is the cotangent of arr0 *)
  Definition diagonal_bwd (batchedB : bool) (A : nat -> nat -> K) (B : nat -> K) (c : K) (nB M : nat) (cutoffs : list nat) (arrs : state K) (g : list nat -> K) : result (@grads K * K) :=
    if batchedB then Err ValueError
    else if negb (Nat.eqb (2 * M) nB) then Err ValueError
    else let d := diagonal_grad A B M cutoffs arrs in
      Ok (((fun i j => lsum (ndindex cutoffs) (fun p => g p * fst (mem d (C0 p)) i j)), (fun i => lsum (ndindex cutoffs) (fun p => g p * snd (mem d (C0 p)) i))),
          lsum (ndindex cutoffs) (fun p => g p * (mem arrs (C0 p) / c))).
  (** the positions of arr0 of shape (cut, cut, tail) *)
  Definition positions (cut : nat) (tail : list nat) : list (nat * nat * list nat) :=
    flat_map (fun m => flat_map (fun n => map (fun p => (m, n, p)) (ndindex tail)) (seq 0 cut)) (seq 0 cut).
  (** math/jax_vjps/hermite.py:397-439, inputValidation.py:122-142 *)
  Definition leftover_bwd (A : nat -> nat -> K) (B : nat -> K) (c : K) (nB M cut : nat) (tail : list nat) (arrs : state (@block K)) (g : nat -> nat -> list nat -> K) : result (@grads K * K) :=
    if negb (Nat.eqb (2 * M + 2) nB) then Err ValueError
    else if Nat.leb (M + 1) 1 then Err ValueError
    else let d := leftover_grad A B M cut tail arrs in
      Ok (((fun i j => lsum (positions cut tail) (fun '(m, n, p) => g m n p * fst (mem d (C0 p) m n) i j)), (fun i => lsum (positions cut tail) (fun '(m, n, p) => g m n p * snd (mem d (C0 p) m n) i))),
          lsum (positions cut tail) (fun '(m, n, p) => g m n p * (mem arrs (C0 p) m n / c))).
End Entry.

Section Forward.
  Context {K : rootfield}.
  Add Field Kfield : (kft K).
  Open Scope rf_scope.
  Lemma leftover_amps_ok : forall (junk : K) A B G0 M cut tail, length tail = M -> symmetric (2 * M + 2) A -> Forall (fun c => (0 < c <= 1000)%nat) tail -> (0 < cut)%nat ->
    exists s, leftover_amps junk A B G0 M cut tail = Ok s /\ bad s = false /\
      (forall x, want M tail (fun _ => True) x -> forall m n, (m < cut)%nat -> (n < cut)%nat -> mem s x m n = amp (2 * M + 2) A B G0 (m :: n :: ix x)) /\
      (forall p, within p tail = true -> forall m n, (m < cut)%nat -> (n < cut)%nat -> mem s (C0 p) m n = amp (2 * M + 2) A B G0 (m :: n :: dup p)).
  Proof.
    intros junk A B G0 M cut tail LM SA HC Hcut. unfold leftover_amps. rewrite (proj2 (Nat.ltb_lt _ _) Hcut).
    rewrite (proj2 (forallb_forall (Nat.ltb 0) tail)) by (intros c Hc; apply Nat.ltb_lt; rewrite Forall_forall in HC; apply HC, Hc). cbn [andb].
    eexists. split; [reflexivity|].
    refine (leftover_ok K K M cut tail junk k0 k0 _ (point_amp A B junk 2) (fun k v => v = amp (2 * M + 2) A B G0 k) (fun k v => v = amp (2 * M + 2) A B G0 k) LM HC Hcut _ _ _ _); [auto| |].
    - intros ls pivot g gin i Lp Hi Hg ND HL HN Hgin Hb Hbi. apply point_amp_ok; assumption.
    - cbn [Nat.eqb andb]. symmetry. replace (2 * M + 2)%nat with (S (S (2 * M))) by lia. exact (amp_zero (S (S (2 * M))) A B G0).
  Qed.
  (** C65: hermite_renormalized_1leftoverMode with the JAX backend, any number of detected modes, any output_cutoff, pnr_cutoffs up to 999: the array holds at
      (m, n, p) the coefficient <m, p| rho |n, p> of c exp(z.A.z/2 + b.z) in the order (bra, ket); no write leaves the arrays *)
  Theorem C65_conditional : forall (junk : K) A B c oc pnr, pnr <> [] -> symmetric (2 * (length pnr + 1)) A -> Forall (fun p => (p <= 999)%nat) pnr ->
    exists s, hermite_1leftover_jax junk true true (2 * (length pnr + 1)) (2 * (length pnr + 1)) A B c oc pnr = Ok s /\ bad s = false /\
      forall p m n, Forall2 le p pnr -> (m <= oc)%nat -> (n <= oc)%nat ->
        let k := (m :: p) ++ (n :: p) in mem s (C0 p) m n = c * sqf k * expq (2 * (length pnr + 1)) A B k.
  Proof.
    intros junk A B c oc pnr Np SA HC. unfold hermite_1leftover_jax. set (L := (length pnr + 1)%nat).
    assert (L2 : (2 <= L)%nat) by (unfold L; destruct pnr; [congruence|cbn [length]; lia]).
    replace (Nat.odd (2 * L)) with false by (symmetry; unfold Nat.odd; rewrite Nat.even_mul; reflexivity). cbn [andb negb].
    rewrite Nat.eqb_refl. replace (2 * L / 2)%nat with L by (rewrite Nat.mul_comm, Nat.div_mul; lia). rewrite Nat.eqb_refl. cbn [negb].
    rewrite (proj2 (Nat.leb_gt _ _)) by lia.
    assert (DL : (2 * (L - 1) + 2)%nat = (2 * L)%nat) by lia.
    destruct (leftover_amps_ok junk (fun i j => A (interleave L i) (interleave L j)) (fun i => B (interleave L i)) c (L - 1) (oc + 1) (map (fun p => p + 1)%nat pnr)) as [s [E [Hb [_ HR]]]].
    - rewrite map_length. unfold L. lia.
    - rewrite DL. intros i j Hi Hj. apply SA; now apply interleave_lt.
    - apply Forall_forall. intros x Hx. apply in_map_iff in Hx. destruct Hx as [y [<- Hy]]. rewrite Forall_forall in HC. specialize (HC y Hy). lia.
    - lia.
    - exists s. split; [exact E|]. split; [exact Hb|]. intros p m n Fp Hm Hn. cbv zeta. set (k := (m :: p) ++ n :: p). assert (Lp := Forall2_length _ _ _ Fp).
      assert (Wp : within p (map (fun p => p + 1)%nat pnr) = true).
      { clear - Fp. induction Fp as [|x y p pnr H Fp IH]; [reflexivity|]. cbn [map within]. rewrite IH, andb_true_r. apply Nat.ltb_lt. lia. }
      rewrite (HR p Wp m n) by lia. rewrite DL. change (c * sqf k * expq (2 * L) A B k) with (amp (2 * L) A B c k).
      apply (amp_relabel (2 * L) A B c (interleave L) SA (interleave_lt L) (interleave_inj L) (list_sum (m :: n :: dup p))); [| | |lia].
      + cbn [length]. rewrite dup_length. lia.
      + unfold k. rewrite app_length. cbn [length]. lia.
      + intros i Hi. unfold k, L. rewrite <- Lp. apply (perm_diag p m n). lia.
  Qed.
  (** C65: with reorderedAB = False the variables are already in the order mode 0, mode 0, mode 1, mode 1, ... *)
  Theorem C65_interleaved : forall (junk : K) A B c oc pnr, pnr <> [] -> symmetric (2 * (length pnr + 1)) A -> Forall (fun p => (p <= 999)%nat) pnr ->
    exists s, hermite_1leftover_jax junk true false (2 * (length pnr + 1)) (2 * (length pnr + 1)) A B c oc pnr = Ok s /\ bad s = false /\
      forall p m n, Forall2 le p pnr -> (m <= oc)%nat -> (n <= oc)%nat ->
        let k := m :: n :: flat_map (fun x => [x; x]) p in mem s (C0 p) m n = c * sqf k * expq (2 * (length pnr + 1)) A B k.
  Proof.
    intros junk A B c oc pnr Np SA HC. unfold hermite_1leftover_jax. set (L := (length pnr + 1)%nat).
    assert (L2 : (2 <= L)%nat) by (unfold L; destruct pnr; [congruence|cbn [length]; lia]). cbn [andb negb].
    rewrite Nat.eqb_refl. replace (2 * L / 2)%nat with L by (rewrite Nat.mul_comm, Nat.div_mul; lia). rewrite Nat.eqb_refl. cbn [negb].
    rewrite (proj2 (Nat.leb_gt _ _)) by lia.
    assert (DL : (2 * (L - 1) + 2)%nat = (2 * L)%nat) by lia.
    destruct (leftover_amps_ok junk A B c (L - 1) (oc + 1) (map (fun p => p + 1)%nat pnr)) as [s [E [Hb [_ HR]]]].
    - rewrite map_length. unfold L. lia.
    - rewrite DL. exact SA.
    - apply Forall_forall. intros x Hx. apply in_map_iff in Hx. destruct Hx as [y [<- Hy]]. rewrite Forall_forall in HC. specialize (HC y Hy). lia.
    - lia.
    - exists s. split; [exact E|]. split; [exact Hb|]. intros p m n Fp Hm Hn. cbv zeta.
      assert (Wp : within p (map (fun p => p + 1)%nat pnr) = true).
      { clear - Fp. induction Fp as [|x y p pnr H Fp IH]; [reflexivity|]. cbn [map within]. rewrite IH, andb_true_r. apply Nat.ltb_lt. lia. }
      rewrite (HR p Wp m n) by lia. rewrite DL. reflexivity.
  Qed.
  (** C65: at least one detected mode and matching sizes are required *)
  Theorem C65_rejected : forall (junk : K) v r n nB A B c oc pnr,
    (exists e, hermite_1leftover_jax junk v r n nB A B c oc pnr = Err e) <-> (r = true /\ Nat.odd n = true) \/ v = false \/ n <> nB \/ (n / 2)%nat <> (length pnr + 1)%nat \/ pnr = [].
  Proof.
    intros junk v r n nB A B c oc pnr. unfold hermite_1leftover_jax.
    destruct (r && Nat.odd n)%bool eqn:E1; [apply andb_true_iff in E1; split; [intros _; left; exact E1|intros _; eexists; reflexivity]|].
    destruct v; cbn [negb]; [|split; [intros _; right; left; reflexivity|intros _; eexists; reflexivity]].
    destruct (Nat.eqb_spec n nB) as [E2|E2]; cbn [negb]; [|split; [intros _; right; right; left; exact E2|intros _; eexists; reflexivity]].
    destruct (Nat.eqb_spec (n / 2) (length pnr + 1)) as [E3|E3]; cbn [negb]; [|split; [intros _; right; right; right; left; exact E3|intros _; eexists; reflexivity]].
    destruct (Nat.leb_spec (length pnr + 1) 1) as [E4|E4]; [split; [intros _; do 4 right; destruct pnr; [reflexivity|cbn [length] in E4; lia]|intros _; eexists; reflexivity]|].
    split.
    - unfold leftover_amps. rewrite (proj2 (Nat.ltb_lt 0 _)) by lia. rewrite (proj2 (forallb_forall (Nat.ltb 0) _)); [intros [e H]; discriminate|]. intros x Hx. apply in_map_iff in Hx. destruct Hx as [y [<- _]]. apply Nat.ltb_lt. lia.
    - intros [[H1 H2]|[H|[H|[H|H]]]]; [rewrite H1, H2 in E1; discriminate|discriminate|congruence|congruence|]. subst pnr. cbn [length] in E4. lia.
  Qed.
  (** C65: with the default reorderedAB = True the NumPy and the JAX backend return the same array when 2 * output_cutoff exceeds the number of modes ... *)
  Theorem C65_backends : forall (junk : K) A B c oc pnr, pnr <> [] -> symmetric (2 * (length pnr + 1)) A -> Forall (fun p => (p <= 999)%nat) pnr -> (length pnr + 1 < 2 * oc)%nat ->
    exists s out, hermite_1leftover_jax junk true true (2 * (length pnr + 1)) (2 * (length pnr + 1)) A B c oc pnr = Ok s /\ hermite_1leftover_numpy true A B c oc pnr = Some out /\
      forall p m n, Forall2 le p pnr -> (m <= oc)%nat -> (n <= oc)%nat -> mem s (C0 p) m n = out m n p.
  Proof.
    intros junk A B c oc pnr Np SA HC Ho. destruct (C65_conditional junk A B c oc pnr Np SA HC) as [s [E [_ HR]]]. destruct (C26_correct A B c oc pnr Np SA Ho) as [out [E' HR']].
    exists s, (fun m n p => out p m n). split; [exact E|]. split; [unfold hermite_1leftover_numpy; now rewrite E'|]. intros p m n Hp Hm Hn. rewrite (HR p m n Hp Hm Hn). symmetry. exact (HR' p m n Hp Hm Hn).
  Qed.
  (** ... but not for small output_cutoff (the NumPy array has zeros there) *)
  Theorem C65_backends_refuted_small : forall junk : K, exists A B c oc pnr s out, symmetric (2 * (length pnr + 1)) A /\
    hermite_1leftover_jax junk true true (2 * (length pnr + 1)) (2 * (length pnr + 1)) A B c oc pnr = Ok s /\ hermite_1leftover_numpy true A B c oc pnr = Some out /\
    exists p, Forall2 le p pnr /\ mem s (C0 p) 0%nat 0%nat <> out 0%nat 0%nat p.
  Proof.
    intros junk. destruct (C26_refuted_small_cutoff (K := K)) as [out [E [H0 H1]]].
    destruct (C65_conditional junk (fun _ _ => k0) (fun _ => k1) k1 1 [1%nat]) as [s [Es [_ HR]]]; [discriminate|intros i j _ _; reflexivity|repeat constructor; lia|].
    exists (fun _ _ => k0), (fun _ => k1), k1, 1%nat, [1%nat], s, (fun m n p => out p m n). split; [intros i j _ _; reflexivity|]. split; [exact Es|]. split; [unfold hermite_1leftover_numpy; now rewrite E|].
    exists [1%nat]. split; [repeat constructor|]. rewrite H0. rewrite (HR [1%nat] 0%nat 0%nat) by (repeat constructor; lia). exact H1.
  Qed.
  (** ... and not with reorderedAB = False, which the NumPy backend ignores *)
  Theorem C65_backends_refuted_reordered : forall junk : K, exists A B c oc pnr s out, symmetric (2 * (length pnr + 1)) A /\ (length pnr + 1 < 2 * oc)%nat /\
    hermite_1leftover_jax junk true false (2 * (length pnr + 1)) (2 * (length pnr + 1)) A B c oc pnr = Ok s /\ hermite_1leftover_numpy false A B c oc pnr = Some out /\
    exists p, Forall2 le p pnr /\ mem s (C0 p) 0%nat 1%nat <> out 0%nat 1%nat p.
  Proof.
    intros junk. set (B := fun i => if Nat.eqb i 1 then k1 else k0 : K).
    destruct (C26_correct (K := K) (fun _ _ => k0) B k1 2 [1%nat]) as [out [E HO]]; [discriminate|intros i j _ _; reflexivity|cbn; lia|].
    destruct (C65_interleaved junk (fun _ _ => k0) B k1 2 [1%nat]) as [s [Es [_ HR]]]; [discriminate|intros i j _ _; reflexivity|repeat constructor; lia|].
    exists (fun _ _ => k0), B, k1, 2%nat, [1%nat], s, (fun m n p => out p m n). split; [intros i j _ _; reflexivity|]. split; [cbn; lia|]. split; [exact Es|]. split; [unfold hermite_1leftover_numpy; now rewrite E|].
    exists [0%nat]. split; [repeat constructor|]. rewrite (HR [0%nat] 0%nat 1%nat) by (repeat constructor; lia). rewrite (HO [0%nat] 0%nat 1%nat) by (repeat constructor; lia).
    change (amp 4 (fun _ _ => k0) B k1 [0; 1; 0; 0]%nat <> amp 4 (fun _ _ => k0) B k1 [0; 0; 1; 0]%nat).
    assert (S0 : forall i j, (i < 4)%nat -> (j < 4)%nat -> (fun _ _ : nat => @k0 K) i j = (fun _ _ => k0) j i) by reflexivity.
    rewrite (amp_step 4 _ B S0 k1 1 [0; 1; 0; 0]%nat) by (try (unfold at'; simpl); lia). rewrite (amp_step 4 _ B S0 k1 2 [0; 0; 1; 0]%nat) by (try (unfold at'; simpl); lia).
    unfold dec, at'. cbn [upd nth pred sumn]. assert (Z : amp 4 (fun _ _ => k0) B k1 [0; 0; 0; 0]%nat = k1 :> K) by exact (amp_zero 4 _ _ k1). rewrite Z. unfold B. cbn [Nat.eqb].
    assert (N1 : sq 1 <> k0 :> K) by (apply sq_neq; lia).
    match goal with |- ?x <> ?y => assert (V : x = k1 / sq 1) by (field; exact N1); assert (V' : y = k0) by (field; exact N1); rewrite V, V' end.
    intros C. apply (k1_neq (K := K)). transitivity (k1 / sq 1 * sq 1 : K); [field; exact N1|rewrite C; ring].
  Qed.
End Forward.

Section Backward.
  Context {K : rootfield}.
  Add Field Kfield : (kft K).
  Open Scope rf_scope.
  Context {T : Type} (t0 : T) (der : (T -> K) -> K -> Prop) (DR : diff_rules t0 der).
  (** how the loss changes along dA, db, dc given its gradients *)
  Definition change (D : nat) (dA : nat -> nat -> K) (db : nat -> K) (dc : K) (v : @grads K * K) : K :=
    sumn D (fun i => sumn D (fun j => dA i j * fst (fst v) i j)) + sumn D (fun i => db i * snd (fst v) i) + dc * snd v.
  Lemma der_scaled : forall D (A : T -> nat -> nat -> K) b (c : T -> K) dc k d, der c dc -> c t0 <> k0 -> der (fun t => amp D (A t) (b t) (c t0) k) d ->
    der (fun t => amp D (A t) (b t) (c t) k) (dc * (amp D (A t0) (b t0) (c t0) k / c t0) + d).
  Proof.
    intros D A b c dc k d Hc Nc H. apply (der_ext t0 der DR (fun t => c t * (k1 / c t0 * amp D (A t) (b t) (c t0) k))); [intros t; unfold amp; field; exact Nc|].
    eapply der_eq; [|exact (der_mul t0 der DR c (fun t => k1 / c t0 * amp D (A t) (b t) (c t0) k) _ _ Hc (der_cmul t0 der DR _ _ _ H))]. cbv beta. field. exact Nc.
  Qed.
  Lemma change_lsum : forall {X} (l : list X) (w : X -> K) D dA db dc (v : X -> @grads K) (r : X -> K),
    change D dA db dc (((fun i j => lsum l (fun x => w x * fst (v x) i j)), (fun i => lsum l (fun x => w x * snd (v x) i))), lsum l (fun x => w x * r x))
    = lsum l (fun x => w x * (dc * r x + along D dA db (v x))).
  Proof.
    intros X l w D dA db dc v r. unfold change. cbn [fst snd]. induction l as [|x l IH].
    - cbn [lsum fold_right]. rewrite (sumn_0 D (fun i => db i * k0)) by (intros; ring). rewrite sumn_0; [ring|]. intros i Hi. apply sumn_0. intros; ring.
    - change (sumn D (fun i => sumn D (fun j => dA i j * (w x * fst (v x) i j + lsum l (fun x => w x * fst (v x) i j)))) + sumn D (fun i => db i * (w x * snd (v x) i + lsum l (fun x => w x * snd (v x) i)))
        + dc * (w x * r x + lsum l (fun x => w x * r x)) = w x * (dc * r x + along D dA db (v x)) + lsum l (fun x => w x * (dc * r x + along D dA db (v x)))). rewrite <- IH. clear IH. unfold along.
      rewrite (sumn_ext D (fun i => sumn D (fun j => dA i j * (w x * fst (v x) i j + lsum l (fun x => w x * fst (v x) i j))))
                 (fun i => w x * sumn D (fun j => dA i j * fst (v x) i j) + sumn D (fun j => dA i j * lsum l (fun x => w x * fst (v x) i j)))).
      2:{ intros i Hi. rewrite <- sumn_scal, <- sumn_add. apply sumn_ext. intros; ring. }
      rewrite (sumn_ext D (fun i => db i * (w x * snd (v x) i + lsum l (fun x => w x * snd (v x) i))) (fun i => w x * (db i * snd (v x) i) + db i * lsum l (fun x => w x * snd (v x) i))) by (intros; ring).
      rewrite !sumn_add, !sumn_scal. ring.
  Qed.
  (** C66: for any rules of differentiation, any differentiable change of (A, b, c) that keeps A symmetric and any cotangent w, the backward pass of
      hermite_renormalized_diagonal returns dL/dA, dL/db, dL/dc with dL = sum dA_ij (dL/dA)_ij + sum db_i (dL/db)_i + dc dL/dc *)
  Theorem C66_diagonal_vjp : forall (junk : K) M (A : T -> nat -> nat -> K) (b : T -> nat -> K) (c : T -> K) dA db dc cutoffs (w : list nat -> K) (s : T -> state K),
    length cutoffs = M -> Forall (fun n => (1 <= n <= 1000)%nat) cutoffs -> (forall t, symmetric (2 * M) (A t)) ->
    (forall i j, (i < 2 * M)%nat -> (j < 2 * M)%nat -> der (fun t => A t i j) (dA i j)) -> (forall i, (i < 2 * M)%nat -> der (fun t => b t i) (db i)) -> der c dc -> c t0 <> k0 ->
    (forall t, hermite_renormalized_diagonal junk true false (2 * M) (2 * M) (A t) (b t) (c t) cutoffs = Ok (s t)) ->
    exists v, diagonal_bwd junk false (A t0) (b t0) (c t0) (2 * M) M cutoffs (s t0) w = Ok v /\
      der (fun t => lsum (ndindex cutoffs) (fun p => w p * mem (s t) (C0 p))) (change (2 * M) dA db dc v).
  Proof.
    intros junk M A b c dA db dc cutoffs w s LM HC SA HA Hb Hc Nc Hs. unfold diagonal_bwd. rewrite Nat.eqb_refl. cbn [negb]. eexists. split; [reflexivity|].
    assert (HC' : Forall (fun c => (0 < c <= 1000)%nat) cutoffs) by (apply Forall_forall; intros n Hn; rewrite Forall_forall in HC; specialize (HC n Hn); lia).
    assert (FW : forall t, (forall x, want M cutoffs (fun _ => True) x -> mem (s t) x = amp (2 * M) (A t) (b t) (c t) (ix x)) /\ forall p, within p cutoffs = true -> mem (s t) (C0 p) = amp (2 * M) (A t) (b t) (c t) (dup p)).
    { intros t. destruct (diagonal_amps_ok (A t) (b t) M cutoffs junk (c t) LM (SA t) HC') as [s' [E [_ [H1 H2]]]]. specialize (Hs t). unfold hermite_renormalized_diagonal in Hs. cbn [andb negb] in Hs.
      rewrite Nat.eqb_refl in Hs. replace (2 * M / 2)%nat with M in Hs by (rewrite Nat.mul_comm, Nat.div_mul; lia). rewrite LM, Nat.eqb_refl in Hs. cbn [negb] in Hs. rewrite E in Hs. injection Hs as <-. split; assumption. }
    assert (GR : forall p, within p cutoffs = true -> goodG der (2 * M) A b (c t0) dA db (dup p) (mem (diagonal_grad junk (A t0) (b t0) M cutoffs (s t0)) (C0 p))).
    { refine (proj2 (proj2 (traverse_ok grads (K * grads) M cutoffs _ _ (fun x v => (mem (s t0) x, v)) _ (goodG der (2 * M) A b (c t0) dA db) (goodGY t0 der (2 * M) A b (c t0) dA db) LM HC' _ _ _ _))).
      - intros x v Hx Hv. split; [cbn [fst]; now apply (FW t0)|exact Hv].
      - intros pivot g gin i Lp Hi Hg Hgin H1 H2. apply point_grad_ok; try assumption; try (intros; apply H1; lia).
        + apply seq_NoDup.
        + intros l Hl. apply in_seq in Hl. lia.
        + intros l Hl _. apply in_seq. lia.
        + intros _. exact H2.
      - split; [reflexivity|]. intros [p|d p|d e p|d e p|i p]; cbn [want]; [|tauto|tauto|tauto|tauto]. intros [_ [->|[d [_ [_ [_ []]]]]]].
        cbn [mem ix]. unfold goodG. rewrite dup_zeros. apply (der_ext t0 der DR (fun _ => c t0)); [intros t; symmetry; apply amp_zero|]. unfold zeroG. rewrite along_0. apply (der_const t0 der DR). }
    rewrite (change_lsum (ndindex cutoffs) w (2 * M) dA db dc (fun p => mem (diagonal_grad junk (A t0) (b t0) M cutoffs (s t0)) (C0 p)) (fun p => mem (s t0) (C0 p) / c t0)).
    apply (der_ext t0 der DR (fun t => lsum (ndindex cutoffs) (fun p => w p * amp (2 * M) (A t) (b t) (c t) (dup p)))).
    { intros t. apply lsum_ext. intros p Hp. apply in_ndindex in Hp. now rewrite (proj2 (FW t) p Hp). }
    apply (der_lsum t0 der DR). intros p Hp. apply in_ndindex in Hp. apply (der_cmul t0 der DR). rewrite (proj2 (FW t0) p Hp). apply der_scaled; [exact Hc|exact Nc|]. exact (GR p Hp).
  Qed.
  Lemma in_positions : forall cut tail m n p, In (m, n, p) (positions cut tail) <-> (m < cut)%nat /\ (n < cut)%nat /\ within p tail = true.
  Proof.
    intros cut tail m n p. unfold positions. rewrite in_flat_map. split.
    - intros [m' [H1 H]]. apply in_seq in H1. apply in_flat_map in H. destruct H as [n' [H2 H]]. apply in_seq in H2. apply in_map_iff in H. destruct H as [q [E H]]. injection E as -> -> ->. apply in_ndindex in H. repeat split; [lia|lia|exact H].
    - intros (H1 & H2 & H3). exists m. split; [apply in_seq; lia|]. apply in_flat_map. exists n. split; [apply in_seq; lia|]. apply in_map_iff. exists p. split; [reflexivity|]. now apply in_ndindex.
  Qed.
  (** C66: the same of hermite_renormalized_1leftoverMode *)
  Theorem C66_leftover_vjp : forall (junk : K) (A : T -> nat -> nat -> K) (b : T -> nat -> K) (c : T -> K) dA db dc oc pnr (w : nat -> nat -> list nat -> K) (s : T -> state (@block K)),
    let D := (2 * (length pnr + 1))%nat in pnr <> [] -> Forall (fun p => (p <= 999)%nat) pnr -> (forall t, symmetric D (A t)) ->
    (forall i j, (i < D)%nat -> (j < D)%nat -> der (fun t => A t i j) (dA i j)) -> (forall i, (i < D)%nat -> der (fun t => b t i) (db i)) -> der c dc -> c t0 <> k0 ->
    (forall t, hermite_1leftover_jax junk true false D D (A t) (b t) (c t) oc pnr = Ok (s t)) ->
    let tail := map (fun p => p + 1)%nat pnr in
    exists v, leftover_bwd junk (A t0) (b t0) (c t0) D (length pnr) (oc + 1) tail (s t0) w = Ok v /\
      der (fun t => lsum (positions (oc + 1) tail) (fun '(m, n, p) => w m n p * mem (s t) (C0 p) m n)) (change D dA db dc v).
  Proof.
    intros junk A b c dA db dc oc pnr w s D Np HC SA HA Hb Hc Nc Hs tail. unfold leftover_bwd.
    assert (DE : (2 * length pnr + 2)%nat = D) by (unfold D; lia). rewrite DE, Nat.eqb_refl. cbn [negb].
    assert (Lpos : (0 < length pnr)%nat) by (destruct pnr; [congruence|cbn [length]; lia]). rewrite (proj2 (Nat.leb_gt _ _)) by lia. eexists. split; [reflexivity|].
    set (M := length pnr) in *. assert (LM : length tail = M) by (unfold tail; now rewrite map_length).
    assert (HC' : Forall (fun c => (0 < c <= 1000)%nat) tail).
    { apply Forall_forall. intros x Hx. apply in_map_iff in Hx. destruct Hx as [y [<- Hy]]. rewrite Forall_forall in HC. specialize (HC y Hy). lia. }
    assert (SA' : forall t, symmetric (2 * M + 2) (A t)) by (intros t; rewrite DE; apply SA). assert (Hcut : (0 < oc + 1)%nat) by lia.
    assert (FW : forall t, (forall x, want M tail (fun _ => True) x -> forall m n, (m < oc + 1)%nat -> (n < oc + 1)%nat -> mem (s t) x m n = amp D (A t) (b t) (c t) (m :: n :: ix x))
      /\ forall p, within p tail = true -> forall m n, (m < oc + 1)%nat -> (n < oc + 1)%nat -> mem (s t) (C0 p) m n = amp D (A t) (b t) (c t) (m :: n :: dup p)).
    { intros t. destruct (leftover_amps_ok junk (A t) (b t) (c t) M (oc + 1) tail LM (SA' t) HC' Hcut) as [s' [E [_ [H1 H2]]]]. rewrite DE in H1, H2. specialize (Hs t). unfold hermite_1leftover_jax in Hs. cbn [andb negb] in Hs.
      rewrite Nat.eqb_refl in Hs. fold M in Hs. replace (D / 2)%nat with (M + 1)%nat in Hs by (unfold D; rewrite Nat.mul_comm, Nat.div_mul; lia). rewrite Nat.eqb_refl in Hs. cbn [negb] in Hs.
      rewrite (proj2 (Nat.leb_gt _ _)) in Hs by lia. replace (M + 1 - 1)%nat with M in Hs by lia. fold tail in Hs. rewrite E in Hs. injection Hs as <-. split; assumption. }
    assert (GR : forall p, within p tail = true -> goodB grads (oc + 1) (goodG der D A b (c t0) dA db) (dup p) (mem (leftover_grad junk (A t0) (b t0) M (oc + 1) tail (s t0)) (C0 p))).
    { refine (proj2 (proj2 (leftover_ok grads (K * grads) M (oc + 1) tail _ _ _ _ _ (goodG der D A b (c t0) dA db) (goodGY t0 der D A b (c t0) dA db) LM HC' Hcut _ _ _ _))).
      - intros x m n v Hx Hm Hn Hv. split; [cbn [fst]; now apply (FW t0)|exact Hv].
      - rewrite DE. intros ls pivot g gin i Lp Hi Hg ND HL HN Hgin H1 H2. apply point_grad_ok; assumption.
      - unfold goodG. apply (der_ext t0 der DR (fun _ => c t0)); [intros t; symmetry; rewrite <- DE; replace (2 * M + 2)%nat with (S (S (2 * M))) by lia; exact (amp_zero (S (S (2 * M))) (A t) (b t) (c t0))|]. unfold zeroG. rewrite along_0. apply (der_const t0 der DR). }
    set (d := leftover_grad junk (A t0) (b t0) M (oc + 1) tail (s t0)) in *.
    assert (EQ : forall f g h, change D dA db dc
      (((fun i j => lsum (positions (oc + 1) tail) (fun '(m, n, p) => w m n p * f m n p i j)), (fun i => lsum (positions (oc + 1) tail) (fun '(m, n, p) => w m n p * g m n p i))), lsum (positions (oc + 1) tail) (fun '(m, n, p) => w m n p * h m n p))
      = lsum (positions (oc + 1) tail) (fun x => (let '(m, n, p) := x in w m n p) * (dc * (let '(m, n, p) := x in h m n p) + along D dA db (let '(m, n, p) := x in (f m n p, g m n p))))).
    { intros f g h. rewrite <- change_lsum. unfold change. cbn [fst snd].
      assert (X : forall y z : (nat * nat * list nat) -> K, (forall x, y x = z x) -> lsum (positions (oc + 1) tail) y = lsum (positions (oc + 1) tail) z) by (intros y z H; apply lsum_ext; auto).
      f_equal; [f_equal|f_equal]; [apply sumn_ext; intros i Hi; apply sumn_ext; intros j Hj; f_equal|apply sumn_ext; intros i Hi; f_equal|]; apply X; intros [[m n] p]; reflexivity. }
    refine (der_eq der _ _ _ (eq_sym (EQ (fun m n p => fst (mem d (C0 p) m n)) (fun m n p => snd (mem d (C0 p) m n)) (fun m n p => mem (s t0) (C0 p) m n / c t0))) _).
    apply (der_ext t0 der DR (fun t => lsum (positions (oc + 1) tail) (fun x => (let '(m, n, p) := x in w m n p) * (let '(m, n, p) := x in amp D (A t) (b t) (c t) (m :: n :: dup p))))).
    { intros t. apply lsum_ext. intros [[m n] p] Hp. apply in_positions in Hp. destruct Hp as (Hm & Hn & Hp). now rewrite (proj2 (FW t) p Hp m n Hm Hn). }
    apply (der_lsum t0 der DR). intros [[m n] p] Hp. apply in_positions in Hp. destruct Hp as (Hm & Hn & Hp). apply (der_cmul t0 der DR). rewrite (proj2 (FW t0) p Hp m n Hm Hn). apply der_scaled; [exact Hc|exact Nc|].
    assert (G := GR p Hp m n Hm Hn). unfold goodG in G. destruct (mem d (C0 p) m n). exact G.
  Qed.
End Backward.
(** complex differentiation: L(t) = <w, probabilities of c exp(z.A(t).z/2 + b(t).z)> *)
From Coq Require Import Reals.
From Coquelicot Require Import Complex Hierarchy Derive.
Open Scope nat_scope.
Theorem C66_complex : forall z (junk : CF) M (A : C -> nat -> nat -> CF) (b : C -> nat -> CF) (c : C -> CF) dA db dc cutoffs (w : list nat -> CF) (s : C -> state CF),
    length cutoffs = M -> Forall (fun n => (1 <= n <= 1000)%nat) cutoffs -> (forall t, symmetric (2 * M) (A t)) ->
    (forall i j, (i < 2 * M)%nat -> (j < 2 * M)%nat -> cder z (fun t => A t i j) (dA i j)) -> (forall i, (i < 2 * M)%nat -> cder z (fun t => b t i) (db i)) -> cder z c dc -> c z <> RtoC R0 ->
    (forall t, hermite_renormalized_diagonal (K := CF) junk true false (2 * M) (2 * M) (A t) (b t) (c t) cutoffs = Ok (s t)) ->
    exists v, diagonal_bwd (K := CF) junk false (A z) (b z) (c z) (2 * M) M cutoffs (s z) w = Ok v /\
      cder z (fun t => lsum (K := CF) (ndindex cutoffs) (fun p => (w p * mem (s t) (C0 p))%rf)) (change (K := CF) (2 * M) dA db dc v).
Proof. intros z. apply (C66_diagonal_vjp (K := CF) z (cder z) (cder_rules z)). Qed.
(** C66: a batched b, or one of another length than 2M, is rejected by the backward passes; so is the absence of a detected mode *)
Theorem C66_rejected : forall (junk : CF) A b c nB M cut cutoffs arrs g arrs' g',
  diagonal_bwd (K := CF) junk true A b c nB M cutoffs arrs g = Err ValueError /\
  (nB <> 2 * M -> diagonal_bwd (K := CF) junk false A b c nB M cutoffs arrs g = Err ValueError) /\
  (nB <> 2 * M + 2 -> leftover_bwd (K := CF) junk A b c nB M cut cutoffs arrs' g' = Err ValueError) /\
  leftover_bwd (K := CF) junk A b c nB 0 cut cutoffs arrs' g' = Err ValueError.
Proof.
  intros junk A b c nB M cut cutoffs arrs g arrs' g'. unfold diagonal_bwd, leftover_bwd. repeat split.
  - intros H. destruct (Nat.eqb_spec (2 * M) nB); [congruence|reflexivity].
  - intros H. destruct (Nat.eqb_spec (2 * M + 2) nB); [congruence|reflexivity].
  - destruct (Nat.eqb_spec (2 * 0 + 2) nB); reflexivity.
Qed.
(** the hypotheses of C66 hold: one mode, A(t) = [[0, t], [t, 0]], b = 0, c = 1, cutoff 3, every weight 1; and of C65: two detected modes *)
Theorem C66_example : forall z (junk : CF), exists (s : C -> state CF) v,
  (forall t, hermite_renormalized_diagonal (K := CF) junk true false 2 2 (fun i j => if Nat.eqb i j then k0 else t) (fun _ => k0) k1 (3 :: nil) = Ok (s t)) /\
  diagonal_bwd (K := CF) junk false (fun i j => if Nat.eqb i j then k0 else z) (fun _ => k0) k1 2 1 (3 :: nil) (s z) (fun _ => k1) = Ok v /\
  cder z (fun t => lsum (K := CF) (ndindex (3 :: nil)) (fun p => (k1 * mem (s t) (C0 p))%rf)) (fst (fst v) 0 1 + fst (fst v) 1 0)%rf.
Proof.
  intros z junk.
  set (s := fun t : C => match hermite_renormalized_diagonal (K := CF) junk true false 2 2 (fun i j => if Nat.eqb i j then k0 else t) (fun _ => k0) k1 (3 :: nil) with Ok s => s | Err _ => St (fun _ => k0) true end).
  assert (Hs : forall t, hermite_renormalized_diagonal (K := CF) junk true false 2 2 (fun i j => if Nat.eqb i j then k0 else t) (fun _ => k0) k1 (3 :: nil) = Ok (s t)).
  { intros t. destruct (C64_interleaved (K := CF) junk 1 (fun i j => if Nat.eqb i j then k0 else t) (fun _ => k0) k1 (3 :: nil)) as [s' [E _]]; [intros i j _ _; now rewrite Nat.eqb_sym|reflexivity|repeat constructor; lia|].
    unfold s. change (2 * 1) with 2 in E. rewrite E. reflexivity. }
  destruct (C66_complex z junk 1 (fun t i j => if Nat.eqb i j then RtoC R0 else t) (fun _ _ => RtoC R0) (fun _ => RtoC R1)
    (fun i j => if Nat.eqb i j then RtoC R0 else RtoC R1) (fun _ => RtoC R0) (RtoC R0) (3 :: nil) (fun _ => RtoC R1) s) as [v [E H]];
    [reflexivity|repeat constructor; lia|intros t i j _ _; now rewrite Nat.eqb_sym| | | | |exact Hs|].
  - intros i j _ _. destruct (Nat.eqb i j); [apply (der_const z (cder z) (cder_rules z) (RtoC R0))|exact (is_derive_id (K := C_AbsRing) z)].
  - intros i _. apply (der_const z (cder z) (cder_rules z) (RtoC R0)).
  - apply (der_const z (cder z) (cder_rules z) (RtoC R1)).
  - intros X. apply RtoC_inj in X. now apply R1_neq_R0.
  - exists s, v. split; [exact Hs|]. split; [exact E|]. refine (der_eq (cder z) _ _ _ _ H).
    unfold change. change (2 * 1) with 2. destruct v as [[gA gb] gc]. cbn [sumn Nat.eqb fst snd]. match goal with |- ?x = ?y => change (@eq C x y) end. unfold kadd, kmul, k0. cbn. change R1 with (IZR 1). change R0 with (IZR 0). ring.
Qed.
Theorem C65_example : forall junk : CF, exists s, hermite_1leftover_jax (K := CF) junk true true 6 6 (fun i j => if Nat.eqb i j then k1 else k0) (fun _ => k1) k1 0 (0 :: 5 :: nil) = Ok s /\ mem s (C0 (0 :: 0 :: nil)) 0 0 = k1.
Proof.
  intros junk. destruct (C65_conditional (K := CF) junk (fun i j => if Nat.eqb i j then k1 else k0) (fun _ => k1) k1 0 (0 :: 5 :: nil)) as [s [E [_ H]]]; [discriminate|intros i j _ _; now rewrite Nat.eqb_sym|repeat constructor; lia|].
  exists s. split; [exact E|]. rewrite H by (repeat constructor; lia). exact (amp_zero (K := CF) 6 _ _ k1).
Qed.
Print Assumptions C65_conditional.
Print Assumptions C65_interleaved.
Print Assumptions C65_rejected.
Print Assumptions C65_backends.
Print Assumptions C65_backends_refuted_small.
Print Assumptions C65_backends_refuted_reordered.
Print Assumptions C65_example.
Print Assumptions C66_diagonal_vjp.
Print Assumptions C66_leftover_vjp.
Print Assumptions C66_complex.
Print Assumptions C66_example.
