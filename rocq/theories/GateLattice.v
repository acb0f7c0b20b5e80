(** mrmustard/math/lattice/strategies/squeezer.py and displacement.py.  A matrix is a function of two indices; index -1 wraps to the
    last entry of its axis.  Numbers: any rootfield; exp/log/cosh of the parameters enter as field elements (see each definition). *)
From Coq Require Import List Arith Bool Lia Field Ring.
From Verif Require Import Base RootField Tensor Series Vanilla Steps Beamsplitter Gradients.
Import ListNotations.
Open Scope nat_scope.

Section Model.
  Context {K : rootfield}.
  Open Scope rf_scope.
  Definition arr2 := nat -> nat -> K.
  Definition set2 (S : arr2) (m n : nat) (v : K) : arr2 := fun m' n' => if (Nat.eqb m' m && Nat.eqb n' n)%bool then v else S m' n'.
  (** range(lo, hi, 2) *)
  Definition range2 (lo hi : nat) : list nat := map (fun i => (lo + 2 * i)%nat) (seq 0 ((hi - lo + 1) / 2)).
  Variables t tc s c : K.  (** e^{i theta} tanh r, its conjugate, 1/cosh r, sqrt(1/cosh r) *)
  (** squeezer.py:28-67 squeezer *)
  Definition squeezer (M N : nat) : arr2 :=
    let S0 := set2 (fun _ _ => k0) 0 0 c in
    let S1 := fold_left (fun S m => set2 S m 0 (- sq (m - 1) / sq m * t * S (m - 2)%nat 0%nat)) (range2 2 M) S0 in
    fold_left (fun S m => fold_left (fun S n =>
        if Nat.eqb ((m + n) mod 2) 0 then
          set2 S m n (sq (n - 1) / sq n * tc * S m (if Nat.ltb n 2 then N - (2 - n) else n - 2)%nat + sq m / sq n * s * S (prev M m) (prev N n))
        else S) (range2 (2 - m mod 2) N) S) (seq 0 M) S1.
  (** squeezer.py:131-153 squeezed *)
  Definition squeezed (cutoff : nat) : nat -> K :=
    fold_left (fun S m => fun x => if Nat.eqb x m then sq (m - 1) / sq m * - t * S (m - 2)%nat else S x) (range2 2 cutoff)
      (fun x => if Nat.eqb x 0 then c else k0).
  (** triples.py:449-483 squeezing_gate_Abc: A = [[-e^{i phi} tanh r, sech r], [sech r, e^{-i phi} tanh r]], b = 0, c = 1/sqrt(cosh r) *)
  Definition A_sq (i j : nat) : K := match i, j with 0, 0 => - t | 0, 1 | 1, 0 => s | 1, 1 => tc | _, _ => k0 end.

  (** displacement.py:66-81 laguerre: the N first generalized Laguerre polynomials at x; L[m-1] at m = 0 reads the last entry, still zero *)
  Definition laguerre (x : K) (N a : nat) : nat -> K :=
    fold_left (fun L m => fun y => if Nat.eqb y (S m) then ((knat (2 * m + 1 + a) - x) * L m - knat (m + a) * L (prev N m)) / knat (m + 1) else L y)
      (seq 0 (N - 1)) (fun y => if Nat.eqb y 0 then k1 else k0).
  Fixpoint kpow (x : K) (n : nat) : K := match n with 0 => k1 | S m => kpow x m * x end.
  Variable cj : K -> K.
  Variable alpha : K.
  (** displacement.py:24-63 displacement.  Simplification: exp(0.5(log m! - log n!) + k log r - r^2/2 + conj*i phi k + log L) is replaced by the
      product of the exponentials: sqrt(m!/n!), alpha^k (or its conjugate), c = exp(-r^2/2) and L (the code needs r > 0; log 0 = -inf gives 0). *)
  Definition sign (b : bool) : K := if b then k1 else - k1.
  Definition displacement (cut0 cut1 : nat) : arr2 :=
    let flipped := Nat.ltb cut0 cut1 in
    let N := if flipped then cut1 else cut0 in
    let M := if flipped then cut0 else cut1 in
    let D := fold_left (fun D k =>
      let m_max := Nat.min M (N - k) in
      let L := laguerre (alpha * cj alpha) m_max k in
      fold_left (fun D m =>
        let n := (k + m)%nat in
        let sg := sign (negb (flipped && Nat.ltb m n && Nat.odd k))%bool in
        let base := if (flipped && Nat.ltb m n)%bool then cj alpha else alpha in
        let D := set2 D n m (sg * (sqfact m / sqfact n * kpow base k * c * L m)) in
        if Nat.ltb n M then set2 D m n (kpow (- k1) k * cj (D n m)) else D) (seq 0 m_max) D) (seq 0 N) (fun _ _ => k0) in
    if flipped then fun i j => D j i else D.
  (** triples.py:424-446 displacement_gate_Abc: A = [[0,1],[1,0]], b = (alpha, -conj alpha), c = exp(-|alpha|^2/2) *)
  Definition A_x (i j : nat) : K := match i, j with 0, 1 | 1, 0 => k1 | _, _ => k0 end.
  Definition b_d (al alc : K) (i : nat) : K := match i with 0 => al | _ => - alc end.
  (** displacement.py:116-139 jacobian_displacement *)
  Definition jacobian_displacement (M N : nat) (D : arr2) (al alc : K) : arr2 * arr2 :=
    (fun m n => - half * alc * D m n + sq m * D (prev M m) n, fun m n => - half * al * D m n - sq n * D m (prev N n)).
End Model.

Section Proofs.
  Context {K : rootfield}.
  Add Field Kfield : (kft K).
  Open Scope rf_scope.
  Lemma set2_same : forall (S : @arr2 K) m n v, set2 S m n v m n = v.
  Proof. intros. unfold set2. now rewrite !Nat.eqb_refl. Qed.
  Lemma set2_other : forall (S : @arr2 K) m n v m' n', m' <> m \/ n' <> n -> set2 S m n v m' n' = S m' n'.
  Proof. intros S m n v m' n' H. unfold set2. destruct (Nat.eqb_spec m' m), (Nat.eqb_spec n' n); simpl; auto. lia. Qed.
  Lemma fold_seq_inv : forall {St} (I : nat -> St -> Prop) (body : St -> nat -> St) c lo s, I lo s ->
    (forall i s, lo <= i < lo + c -> I i s -> I (S i) (body s i)) -> I (lo + c)%nat (fold_left body (seq lo c) s).
  Proof.
    intros St I body c. induction c as [|c IH]; intros lo s0 H0 HS; [now rewrite Nat.add_0_r|]. cbn [seq fold_left]. rewrite Nat.add_succ_r, <- Nat.add_succ_l.
    apply IH; [apply HS; [lia|exact H0]|]. intros i s' Hi. apply HS. lia.
  Qed.
  Lemma fold_range2_inv : forall {St} (I : nat -> St -> Prop) (body : St -> nat -> St) lo hi s, I lo s ->
    (forall i s, lo <= i < hi -> Nat.even (i - lo) = true -> I i s -> I (i + 2)%nat (body s i)) ->
    (forall i s, hi <= i -> I i s -> I hi s) -> I hi (fold_left body (range2 lo hi) s).
  Proof.
    intros St I body lo hi s0 H0 HS HE. unfold range2. rewrite fold_left_map.
    assert (X := fold_seq_inv (fun i st => I (lo + 2 * i)%nat st) (fun st i => body st (lo + 2 * i)%nat) ((hi - lo + 1) / 2) 0 s0).
    cbn beta in X. apply (HE (lo + 2 * (0 + (hi - lo + 1) / 2))%nat).
    - pose proof (Nat.div_mod (hi - lo + 1) 2). pose proof (Nat.mod_upper_bound (hi - lo + 1) 2). lia.
    - apply X; [now rewrite Nat.mul_0_r, Nat.add_0_r|]. intros i st Hi Hst. replace (lo + 2 * S i)%nat with (lo + 2 * i + 2)%nat by lia. apply HS; [| |exact Hst].
      + pose proof (Nat.div_mod (hi - lo + 1) 2). pose proof (Nat.mod_upper_bound (hi - lo + 1) 2). lia.
      + replace (lo + 2 * i - lo)%nat with (2 * i)%nat by lia. now rewrite Nat.even_mul.
  Qed.

  (** *** squeezer *)
  Section Sq.
    Variables t tc s c : K.
    Notation A := (A_sq t tc s).
    Definition sq_amp (m n : nat) : K := amp 2 A (fun _ => k0) c [m; n].
    Lemma A_sq_sym : forall i j, (i < 2)%nat -> (j < 2)%nat -> A i j = A j i.
    Proof. intros i j Hi Hj. do 2 (try destruct i as [|i]); do 2 (try destruct j as [|j]); try lia; reflexivity. Qed.
    Lemma sq_rec_m : forall m n, sq_amp (S m) n = (- t * sq m * sq_amp (pred m) n + s * sq n * sq_amp m (pred n)) / sq (S m).
    Proof.
      intros m n. unfold sq_amp at 1. rewrite (amp_step 2 A (fun _ => k0) A_sq_sym c 0) by (try (unfold at'; simpl); lia).
      unfold dec, at', sq_amp. cbn [upd nth pred sumn A_sq]. field. apply sq_neq. lia.
    Qed.
    Lemma sq_rec_n : forall m n, sq_amp m (S n) = (s * sq m * sq_amp (pred m) n + tc * sq n * sq_amp m (pred n)) / sq (S n).
    Proof.
      intros m n. unfold sq_amp at 1. rewrite (amp_step 2 A (fun _ => k0) A_sq_sym c 1) by (try (unfold at'; simpl); lia).
      unfold dec, at', sq_amp. cbn [upd nth pred sumn A_sq]. field. apply sq_neq. lia.
    Qed.
    Lemma sq_odd : forall w m n, (m + n <= w)%nat -> Nat.odd (m + n) = true -> sq_amp m n = k0.
    Proof.
      induction w as [w IH] using lt_wf_ind. intros m n Hw Ho. destruct m as [|m].
      - destruct n as [|n]; [discriminate|]. rewrite sq_rec_n, sq_0. destruct n as [|n].
        + rewrite sq_0. cbn [pred]. field. apply sq_neq. lia.
        + cbn [pred]. assert (E : sq_amp 0 n = k0) by (apply (IH (0 + n)%nat); [lia|lia|exact Ho]). rewrite E. field. apply sq_neq. lia.
      - rewrite sq_rec_m. assert (E1 : sq m * sq_amp (pred m) n = k0).
        { destruct m as [|m]; [rewrite sq_0; ring|]. cbn [pred]. rewrite (IH (m + n)%nat); [ring|lia|lia|]. exact Ho. }
        assert (E2 : sq n * sq_amp m (pred n) = k0).
        { destruct n as [|n]; [rewrite sq_0; ring|]. cbn [pred]. rewrite (IH (m + n)%nat); [ring|lia|lia|]. rewrite <- Ho.
          replace (S m + S n)%nat with (S (S (m + n))) by lia. reflexivity. }
        transitivity ((- t * (sq m * sq_amp (pred m) n) + s * (sq n * sq_amp m (pred n))) / sq (S m)); [field; apply sq_neq; lia|]. rewrite E1, E2. field. apply sq_neq. lia.
    Qed.
    Variables M N : nat.
    Definition sq_on (R : nat -> nat -> Prop) (S : @arr2 K) : Prop := forall m n, m < M -> n < N -> Nat.odd (m + n) = true \/ R m n -> S m n = sq_amp m n.
    Lemma sq_on_set : forall (R R' : nat -> nat -> Prop) S m n v, sq_on R S -> v = sq_amp m n ->
      (forall m' n', m' < M -> n' < N -> R' m' n' -> Nat.odd (m' + n') = true \/ R m' n' \/ (m' = m /\ n' = n)) -> sq_on R' (set2 S m n v).
    Proof.
      intros R R' S m n v H -> HR m' n' Hm Hn X. destruct (Nat.eq_dec m' m) as [->|N1]; [destruct (Nat.eq_dec n' n) as [->|N2]|]; [apply set2_same| |];
        rewrite set2_other by tauto; apply H; auto; (destruct X as [X|X]; [now left|]); destruct (HR _ _ Hm Hn X) as [Y|[Y|Y]]; auto; lia.
    Qed.
    Lemma sq_on_sub : forall (R R' : nat -> nat -> Prop) S, sq_on R S -> (forall m n, m < M -> n < N -> R' m n -> Nat.odd (m + n) = true \/ R m n) -> sq_on R' S.
    Proof. intros R R' S H HR m n Hm Hn X. apply H; auto. destruct X as [X|X]; auto. Qed.
    Lemma odd_S_even : forall n, Nat.even n = true -> Nat.odd (S n) = true.
    Proof. intros n H. now rewrite Nat.odd_succ. Qed.
    Lemma squeezer_right : forall m n, m < M -> n < N -> squeezer t tc s c M N m n = sq_amp m n.
    Proof.
      intros m0 n0 Hm0 Hn0. unfold squeezer.
      set (S1 := fold_left _ (range2 2 M) _).
      assert (H1 : sq_on (fun m n => n = 0%nat) S1).
      { apply (sq_on_sub (fun m n => n = 0%nat /\ m < M)); [|intros; right; lia]. unfold S1.
        apply (fold_range2_inv (fun i Y => sq_on (fun m n => n = 0%nat /\ m < i) Y)).
        - intros m n Hm Hn X. destruct (Nat.eq_dec (m + n) 0) as [E|E].
          + replace m with 0%nat by lia. replace n with 0%nat by lia. rewrite set2_same. symmetry. exact (amp_zero 2 A (fun _ => k0) c).
          + rewrite set2_other by lia. symmetry. destruct X as [X|[-> X]]; [exact (sq_odd _ _ _ (le_n _) X)|]. replace m with 1%nat by lia. apply (sq_odd 1); [lia|reflexivity].
        - intros i Y Hi Ev H. destruct i as [|[|i]]; [lia|lia|]. eapply sq_on_set; [exact H| |].
          + replace (S (S i) - 1)%nat with (S i) by lia. replace (S (S i) - 2)%nat with i by lia.
            rewrite H; [|lia|lia|right; lia]. rewrite sq_rec_m, sq_0. cbn [pred]. field. apply sq_neq. lia.
          + intros m' n' Hm Hn [-> Hl]. destruct (Nat.eq_dec m' (S (S i))); [right; right; lia|]. destruct (Nat.eq_dec m' (S (S (S i)))) as [->|]; [|right; left; lia].
            left. rewrite Nat.add_0_r. apply odd_S_even. replace (S (S i) - 2)%nat with i in Ev by lia. exact Ev.
        - intros i Y Hi H. apply (sq_on_sub _ _ _ H). intros; right; lia. }
      clearbody S1.
      assert (H2 : sq_on (fun m n => n = 0%nat \/ m < M) (fold_left (fun S m => fold_left (fun S n =>
        if Nat.eqb ((m + n) mod 2) 0 then
          set2 S m n (sq (n - 1) / sq n * tc * S m (if Nat.ltb n 2 then N - (2 - n) else n - 2)%nat + sq m / sq n * s * S (prev M m) (prev N n))
        else S) (range2 (2 - m mod 2) N) S) (seq 0 M) S1)).
      2:{ apply H2; auto. }
      refine (fold_seq_inv (fun m Y => sq_on (fun m' n' => n' = 0%nat \/ m' < m) Y) _ M 0 S1 _ _).
      - apply (sq_on_sub _ _ _ H1). intros; right; lia.
      - clear H1 S1. intros m Y Hm H. apply (sq_on_sub (fun m' n' => n' = 0%nat \/ m' < m \/ (m' = m /\ n' < N))); [|intros; right; lia].
        refine (fold_range2_inv (fun n Y => sq_on (fun m' n' => n' = 0%nat \/ m' < m \/ (m' = m /\ n' < n)) Y) _ (2 - m mod 2) N Y _ _ _).
        + apply (sq_on_sub _ _ _ H). intros m' n' Hm' Hn' [->|[X|[-> X]]]; [right; lia|right; lia|].
          pose proof (Nat.mod_upper_bound m 2). destruct n' as [|n']; [right; lia|]. assert (n' = 0%nat) as -> by lia. left. rewrite Nat.add_1_r. apply odd_S_even.
          apply Nat.even_spec. exists (m / 2)%nat. pose proof (Nat.div_mod m 2). lia.
        + clear Y H. intros n Y Hn Ev H.
          assert (P : Nat.even (m + n) = true).
          { apply Nat.even_spec in Ev. destruct Ev as [y Ev]. apply Nat.even_spec. pose proof (Nat.div_mod m 2). pose proof (Nat.mod_upper_bound m 2).
            exists (m / 2 + y + 1)%nat. lia. }
          assert (P2 : ((m + n) mod 2 = 0)%nat) by (apply Nat.even_spec in P; destruct P as [y ->]; rewrite Nat.mul_comm; now apply Nat.mod_mul).
          rewrite P2, Nat.eqb_refl. assert (Nn : n <> 0%nat) by (pose proof (Nat.mod_upper_bound m 2); lia).
          destruct n as [|n]; [lia|]. eapply sq_on_set; [exact H| |].
          * rewrite sq_rec_n. replace (S n - 1)%nat with n by lia. rewrite prev_S.
            assert (E1 : sq m * Y (prev M m) n = sq m * sq_amp (pred m) n).
            { destruct m as [|m]; [rewrite sq_0; ring|]. rewrite prev_S. cbn [pred]. rewrite H; [reflexivity|lia|lia|right; lia]. }
            assert (E2 : sq n * Y m (if Nat.ltb (S n) 2 then N - (2 - S n) else S n - 2)%nat = sq n * sq_amp m (pred n)).
            { destruct n as [|n]; [rewrite sq_0; ring|]. replace (Nat.ltb (S (S n)) 2) with false by (symmetry; apply Nat.ltb_ge; lia).
              cbn [pred]. replace (S (S n) - 2)%nat with n by lia. rewrite H; [reflexivity|lia|lia|right; lia]. }
            match goal with |- sq n / sq _ * tc * ?x + sq m / sq _ * s * ?y = _ => transitivity ((s * (sq m * y) + tc * (sq n * x)) / sq (S n)) end; [field; apply sq_neq; lia|].
            rewrite E1, E2. field. apply sq_neq. lia.
          * intros m' n' Hm' Hn' X. destruct (Nat.eq_dec m' m) as [->|]; [|right; left; lia]. destruct (Nat.eq_dec n' (S n)) as [->|]; [auto|].
            destruct (Nat.eq_dec n' (S (S n))) as [->|]; [|right; left; lia]. left. rewrite Nat.add_succ_r. now apply odd_S_even.
        + intros i Y' Hi H'. apply (sq_on_sub _ _ _ H'). intros; right; lia.
    Qed.
    (** the squeezed-vacuum ket *)
    Lemma squeezed_right : forall cut m, (m < cut)%nat -> squeezed t c cut m = amp 1 (fun _ _ => - t) (fun _ => k0) c [m].
    Proof.
      intros cut m0 Hm0. set (a := fun m => amp 1 (fun _ _ => - t) (fun _ => k0) c [m]).
      assert (R : forall m, a (S m) = (- t * sq m * a (pred m)) / sq (S m)).
      { intros m. unfold a at 1. rewrite (amp_step 1 (fun _ _ => - t) (fun _ => k0) (fun _ _ _ _ => eq_refl) c 0) by (try (unfold at'; simpl); lia).
        unfold dec, at', a. cbn [upd nth pred sumn]. field. apply sq_neq. lia. }
      assert (O : forall w m, (m <= w)%nat -> Nat.odd m = true -> a m = k0).
      { induction w as [w IH] using lt_wf_ind. intros m Hw Ho. destruct m as [|m]; [discriminate|]. rewrite R. destruct m as [|m].
        - rewrite sq_0. cbn [pred]. field. apply sq_neq. lia.
        - cbn [pred]. rewrite (IH m); [field; apply sq_neq; lia|lia|lia|exact Ho]. }
      unfold squeezed. change (amp 1 (fun _ _ => - t) (fun _ => k0) c [m0]) with (a m0).
      assert (I : forall m0, Nat.odd m0 = true \/ (m0 < cut)%nat -> fold_left (fun S m => fun x => if Nat.eqb x m then sq (m - 1) / sq m * - t * S (m - 2)%nat else S x) (range2 2 cut)
        (fun x => if Nat.eqb x 0 then c else k0) m0 = a m0); [|apply I; now right].
      apply (fold_range2_inv (fun i Y => forall m0, Nat.odd m0 = true \/ (m0 < i)%nat -> Y m0 = a m0)).
      - intros m Hm. destruct m as [|m]; [symmetry; exact (amp_zero 1 _ _ c)|]. cbn [Nat.eqb]. symmetry. apply (O (S m)); [lia|].
        destruct Hm as [Hm|Hm]; [exact Hm|]. replace m with 0%nat by lia. reflexivity.
      - intros i Y Hi Ev H m Hm. destruct (Nat.eqb_spec m i) as [->|Ne].
        + destruct i as [|[|i]]; [lia|lia|]. replace (S (S i) - 1)%nat with (S i) by lia. replace (S (S i) - 2)%nat with i by lia.
          rewrite H by (right; lia). rewrite R. cbn [pred]. field. apply sq_neq. lia.
        + destruct Hm as [Hm|Hm]; [apply H; now left|]. destruct (Nat.eq_dec m (S i)) as [->|]; [|apply H; lia].
          apply H. left. apply odd_S_even. destruct i as [|[|i]]; [lia|lia|]. replace (S (S i) - 2)%nat with i in Ev by lia. exact Ev.
      - intros i Y Hi H m Hm. apply H. destruct Hm; [now left|right; lia].
    Qed.
  End Sq.

  (** *** displacement *)
  Section Disp.
    Variable c : K.
    Definition d_amp (al alc : K) (n m : nat) : K := amp 2 A_x (b_d al alc) c [n; m].
    Lemma A_x_sym : forall i j, (i < 2)%nat -> (j < 2)%nat -> A_x i j = A_x j i :> K.
    Proof. intros i j Hi Hj. do 2 (try destruct i as [|i]); do 2 (try destruct j as [|j]); try lia; reflexivity. Qed.
    Notation e al alc n m := (expq (K := K) 2 A_x (b_d al alc) [n; m]).
    Lemma e_rec0 : forall al alc n m, knat (S n) * e al alc (S n) m = al * e al alc n m + (match m with O => k0 | S m' => e al alc n m' end).
    Proof.
      intros al alc n m. pose proof (dz_expq 2 A_x (b_d al alc) A_x_sym 0 ltac:(lia) [n; m] eq_refl) as H. unfold dz, lin, inc, at' in H. cbn [upd nth sumn A_x b_d] in H.
      rewrite H. unfold mulz, dec, at'. cbn [upd nth]. destruct m as [|m]; cbn [Nat.eqb pred]; destruct (Nat.eqb n 0); ring.
    Qed.
    Lemma e_rec1 : forall al alc n m, knat (S m) * e al alc n (S m) = - alc * e al alc n m + (match n with O => k0 | S n' => e al alc n' m end).
    Proof.
      intros al alc n m. pose proof (dz_expq 2 A_x (b_d al alc) A_x_sym 1 ltac:(lia) [n; m] eq_refl) as H. unfold dz, lin, inc, at' in H. cbn [upd nth sumn A_x b_d] in H.
      rewrite H. unfold mulz, dec, at'. cbn [upd nth]. destruct n as [|n]; cbn [Nat.eqb pred]; destruct (Nat.eqb m 0); ring.
    Qed.
    (** the three-term recurrence along a diagonal *)
    Lemma e_diag : forall al alc n m, knat (S m) * (knat (S n) * e al alc (S n) (S m))
      = (knat (S (n + m)) - al * alc) * e al alc n m - (match n, m with S n', S m' => e al alc n' m' | _, _ => k0 end).
    Proof.
      intros al alc n m. transitivity (knat (S n) * (knat (S m) * e al alc (S n) (S m))); [ring|]. rewrite e_rec1.
      transitivity (- alc * (knat (S n) * e al alc (S n) m) + knat (S n) * e al alc n m); [ring|]. rewrite e_rec0.
      destruct m as [|m].
      - rewrite Nat.add_0_r. destruct n; ring.
      - pose proof (e_rec1 al alc n m) as H1.
        assert (E : - alc * e al alc n m = knat (S m) * e al alc n (S m) - match n with O => k0 | S n' => e al alc n' m end) by (rewrite H1; ring).
        transitivity (- (al * alc) * e al alc n (S m) + - alc * e al alc n m + knat (S n) * e al alc n (S m)); [ring|]. rewrite E.
        replace (S (n + S m)) with (S n + S m)%nat by lia. rewrite knat_add. destruct n; ring.
    Qed.
    Definition kfact (n : nat) : K := knat (fact n).
    Lemma kfact_S : forall n, kfact (S n) = knat (S n) * kfact n.
    Proof. intros. unfold kfact. change (fact (S n)) with (S n * fact n)%nat. apply knat_mul. Qed.
    Lemma sqfact_sq : forall n, sqfact n * sqfact n = kfact n :> K.
    Proof. induction n as [|n IH]; [unfold kfact; cbn [sqfact fact]; rewrite knat_1; ring|]. rewrite kfact_S, <- IH, <- sq_ok. cbn [sqfact]. ring. Qed.
    Lemma kfact_neq : forall n, kfact n <> k0. Proof. intros. apply knat_neq, fact_neq_0. Qed.
    Lemma sqfact_neq : forall n, sqfact n <> k0 :> K.
    Proof. intros n H. apply (kfact_neq n). rewrite <- sqfact_sq, H. ring. Qed.
    Lemma e_col0 : forall al alc k, kfact k * e al alc k 0%nat = kpow al k.
    Proof.
      intros al alc. induction k as [|k IH].
      - cbn [kpow]. change [0; 0]%nat with (zeros 2). rewrite expq_zero. unfold kfact. cbn [fact]. rewrite knat_1. ring.
      - rewrite kfact_S. transitivity (kfact k * (knat (S k) * e al alc (S k) 0%nat)); [ring|]. rewrite e_rec0. cbn [kpow]. rewrite <- IH. ring.
    Qed.
    Lemma laguerre_ok : forall al alc k N m, (m < N)%nat -> kfact (k + m) * e al alc (k + m)%nat m = kpow al k * laguerre (al * alc) N k m.
    Proof.
      intros al alc k N m0 Hm0. unfold laguerre.
      set (body := fun (L : nat -> K) m => fun y => if Nat.eqb y (S m) then ((knat (2 * m + 1 + k) - al * alc) * L m - knat (m + k) * L (prev N m)) / knat (m + 1) else L y).
      pose proof (fold_seq_inv (fun i L => (forall y, (y <= i)%nat -> kfact (k + y) * e al alc (k + y)%nat y = kpow al k * L y) /\ forall y, (i < y)%nat -> L y = k0)
        body (N - 1) 0 (fun y => if Nat.eqb y 0 then k1 else k0)) as H. cbn beta in H. destruct H as [H _].
      - split; [intros y Hy; replace y with 0%nat by lia; cbn [Nat.eqb]; rewrite Nat.add_0_r, e_col0; ring|]. intros [|y] Hy; [lia|reflexivity].
      - intros m L Hm [H1 H2]. split.
        + intros y Hy. unfold body. destruct (Nat.eqb_spec y (S m)) as [->|Ne]; [|apply H1; lia].
          assert (Nm : knat (S m) <> k0 :> K) by (apply knat_neq; lia).
          assert (E : kfact (k + S m) * (knat (S m) * e al alc (k + S m)%nat (S m)) = kpow al k * ((knat (2 * m + 1 + k) - al * alc) * L m - knat (m + k) * L (prev N m))).
          { rewrite Nat.add_succ_r, kfact_S. transitivity (kfact (k + m) * (knat (S m) * (knat (S (k + m)) * e al alc (S (k + m)) (S m)))); [ring|]. rewrite e_diag.
            replace (S (k + m + m)) with (2 * m + 1 + k)%nat by lia.
            transitivity ((knat (2 * m + 1 + k) - al * alc) * (kfact (k + m) * e al alc (k + m)%nat m) - kfact (k + m) * (match (k + m)%nat, m with S n', S m' => e al alc n' m' | _, _ => k0 end)); [ring|].
            rewrite H1 by lia. destruct m as [|m].
            - cbn [prev]. rewrite (H2 (N - 1)%nat) by lia. destruct (k + 0)%nat; ring.
            - rewrite prev_S, (Nat.add_succ_r k m), kfact_S. replace (S m + k)%nat with (S (k + m)) by lia.
              transitivity (kpow al k * ((knat (2 * S m + 1 + k) - al * alc) * L (S m)) - knat (S (k + m)) * (kfact (k + m) * e al alc (k + m)%nat m)); [ring|].
              rewrite H1 by lia. ring. }
          rewrite (Nat.add_1_r m). set (ee := e al alc (k + S m)%nat (S m)) in *. set (kf := kfact (k + S m)) in *. transitivity (kf * (knat (S m) * ee) / knat (S m)); [field; exact Nm|]. rewrite E. field. exact Nm.
        + intros y Hy. unfold body. rewrite (proj2 (Nat.eqb_neq y (S m))) by lia. apply H2. lia.
      - apply H. lia.
    Qed.
    Lemma low_ok : forall al alc k N m, (m < N)%nat -> sqfact m / sqfact (k + m) * kpow al k * c * laguerre (al * alc) N k m = d_amp al alc (k + m) m.
    Proof.
      intros al alc k N m H. pose proof (laguerre_ok al alc k N m H) as E. unfold d_amp, amp. cbn [sqf].
      transitivity (sqfact m / sqfact (k + m) * c * (kpow al k * laguerre (al * alc) N k m)); [field; apply sqfact_neq|]. rewrite <- E, <- sqfact_sq. field. apply sqfact_neq.
    Qed.
    Lemma d_swap : forall w al alc n m, (n + m <= w)%nat -> d_amp al alc n m = d_amp (- alc) (- al) m n.
    Proof.
      induction w as [w IH] using lt_wf_ind. intros al alc n m Hw. unfold d_amp.
      destruct n as [|n].
      - destruct m as [|m]; [exact (eq_trans (amp_zero 2 _ _ c) (eq_sym (amp_zero 2 _ _ c)))|].
        rewrite (amp_step 2 A_x (b_d al alc) A_x_sym c 1) by (try (unfold at'; simpl); lia). rewrite (amp_step 2 A_x (b_d (- alc) (- al)) A_x_sym c 0) by (try (unfold at'; simpl); lia).
        unfold dec, at'. cbn [upd nth pred sumn A_x b_d]. pose proof (IH (0 + m)%nat ltac:(lia) al alc 0%nat m ltac:(lia)) as E. unfold d_amp in E. rewrite E. rewrite !sq_0. field. apply sq_neq. lia.
      - rewrite (amp_step 2 A_x (b_d al alc) A_x_sym c 0) by (try (unfold at'; simpl); lia). rewrite (amp_step 2 A_x (b_d (- alc) (- al)) A_x_sym c 1) by (try (unfold at'; simpl); lia).
        unfold dec, at'. cbn [upd nth pred sumn A_x b_d]. pose proof (IH (n + m)%nat ltac:(lia) al alc n m ltac:(lia)) as E. unfold d_amp in E. rewrite E.
        assert (E2 : sq m * amp 2 A_x (b_d al alc) c [n; pred m] = sq m * amp 2 A_x (b_d (- alc) (- al)) c [pred m; n]).
        { destruct m as [|m]; [rewrite sq_0; ring|]. cbn [pred]. f_equal. exact (IH (n + m)%nat ltac:(lia) al alc n m ltac:(lia)). }
        transitivity ((al * amp 2 A_x (b_d (- alc) (- al)) c [m; n] + sq m * amp 2 A_x (b_d al alc) c [n; pred m]) / sq (S n)); [field; apply sq_neq; lia|]. rewrite E2. field. apply sq_neq. lia.
    Qed.
    Lemma kpow_opp : forall x k, kpow (- x) k = kpow (- k1) k * kpow x k :> K.
    Proof. intros x. induction k as [|k IH]; cbn [kpow]; [ring|]. rewrite IH. ring. Qed.
    Lemma kpow_m1_sq : forall k, kpow (- k1) k * kpow (- k1) k = k1 :> K.
    Proof. induction k as [|k IH]; cbn [kpow]; [ring|]. transitivity (kpow (- k1) k * kpow (- k1) k : K); [ring|exact IH]. Qed.
    Lemma kpow_m1_odd : forall k, kpow (- k1) k = (if Nat.odd k then - k1 else k1) :> K.
    Proof. induction k as [|k IH]; [reflexivity|]. cbn [kpow]. rewrite IH, Nat.odd_succ, <- Nat.negb_odd. destruct (Nat.odd k); simpl; ring. Qed.
    Lemma high_ok : forall al alc k N m, (m < N)%nat -> kpow (- k1) k * (sqfact m / sqfact (k + m) * kpow alc k * c * laguerre (al * alc) N k m) = d_amp al alc m (k + m).
    Proof.
      intros al alc k N m H. rewrite (d_swap _ al alc m (k + m) (le_n _)). rewrite <- (low_ok (- alc) (- al) k N m H). rewrite (kpow_opp alc k).
      replace (- alc * - al) with (al * alc) by ring. field. apply sqfact_neq.
    Qed.

    Variable cj : K -> K.
    Hypothesis cj_add : forall x y, cj (x + y) = cj x + cj y.
    Hypothesis cj_mul : forall x y, cj (x * y) = cj x * cj y.
    Hypothesis cj_inv : forall x, cj (cj x) = x.
    Hypothesis cj_sq : forall n, cj (sq n) = sq n.
    Hypothesis cj_c : cj c = c.
    Lemma cj_0 : cj k0 = k0.
    Proof. rewrite <- (sq_0 K). apply cj_sq. Qed.
    Lemma cj_1 : cj k1 = k1.
    Proof. rewrite <- knat_1, <- sq_ok, cj_mul, cj_sq. reflexivity. Qed.
    Lemma cj_opp : forall x, cj (- x) = - cj x.
    Proof. intros x. assert (H : cj (x + - x) = k0) by (replace (x + - x) with (@k0 K) by ring; apply cj_0). rewrite cj_add in H. transitivity (cj x + cj (- x) - cj x); [ring|]. rewrite H. ring. Qed.
    Lemma cj_nat : forall n, cj (knat n) = knat n.
    Proof. intros n. rewrite <- sq_ok, cj_mul, cj_sq. reflexivity. Qed.
    Lemma cj_div : forall x y, y <> k0 -> cj y <> k0 -> cj (x / y) = cj x / cj y.
    Proof. intros x y N N'. assert (H : cj (x / y) * cj y = cj x) by (rewrite <- cj_mul; f_equal; field; exact N). rewrite <- H. field. exact N'. Qed.
    Lemma cj_sqfact : forall n, cj (sqfact n) = sqfact n.
    Proof. induction n as [|n IH]; cbn [sqfact]; [apply cj_1|]. now rewrite cj_mul, IH, cj_sq. Qed.
    Lemma cj_pow : forall x k, cj (kpow x k) = kpow (cj x) k.
    Proof. intros x. induction k as [|k IH]; cbn [kpow]; [apply cj_1|]. now rewrite cj_mul, IH. Qed.
    Lemma cj_laguerre : forall x N a y, cj x = x -> cj (laguerre x N a y) = laguerre x N a y.
    Proof.
      intros x N a y Hx. unfold laguerre. revert y. generalize (seq 0 (N - 1)) as l. intros l.
      assert (X : forall (L : nat -> K), (forall y, cj (L y) = L y) -> forall y, cj (fold_left (fun L m => fun y => if Nat.eqb y (S m) then ((knat (2 * m + 1 + a) - x) * L m - knat (m + a) * L (prev N m)) / knat (m + 1) else L y) l L y)
         = fold_left (fun L m => fun y => if Nat.eqb y (S m) then ((knat (2 * m + 1 + a) - x) * L m - knat (m + a) * L (prev N m)) / knat (m + 1) else L y) l L y).
      { induction l as [|m l IH]; intros L HL y; cbn [fold_left]; [apply HL|]. apply IH. intros z. destruct (Nat.eqb z (S m)); [|apply HL].
        assert (Nz : knat (m + 1) <> k0 :> K) by (apply knat_neq; lia).
        rewrite cj_div by (rewrite ?cj_nat; exact Nz). rewrite cj_nat. f_equal.
        transitivity (cj ((knat (2 * m + 1 + a) + - x) * L m + - (knat (m + a) * L (prev N m)))); [f_equal; ring|].
        rewrite cj_add, cj_opp, !cj_mul, cj_add, cj_opp, !cj_nat, Hx, !HL. ring. }
      apply X. intros y. destruct (Nat.eqb y 0); [apply cj_1|apply cj_0].
    Qed.
    Variable al : K.
    Notation alc := (cj al).
    Lemma x_real : cj (al * alc) = al * alc.
    Proof. rewrite cj_mul, cj_inv. ring. Qed.
    Lemma cj_term : forall b k m N, cj (sqfact m / sqfact (k + m) * kpow b k * c * laguerre (al * alc) N k m) = sqfact m / sqfact (k + m) * kpow (cj b) k * c * laguerre (al * alc) N k m.
    Proof.
      intros b k m N. rewrite !cj_mul, cj_laguerre, cj_c, cj_pow by apply x_real. rewrite cj_div by (rewrite ?cj_sqfact; apply sqfact_neq). now rewrite !cj_sqfact.
    Qed.
    Lemma displacement_right : forall cut0 cut1 n m, (n < cut0)%nat -> (m < cut1)%nat -> displacement c cj al cut0 cut1 n m = d_amp al alc n m.
    Proof.
      intros cut0 cut1 n0 m0 Hn0 Hm0. unfold displacement. cbv zeta. set (fl := Nat.ltb cut0 cut1). set (N := if fl then cut1 else cut0). set (M := if fl then cut0 else cut1).
      assert (MN : (M <= N)%nat) by (unfold M, N, fl; destruct (Nat.ltb_spec cut0 cut1); lia).
      set (T := fun n m => if fl then d_amp al alc m n else d_amp al alc n m).
      match goal with |- (if fl then fun i j => ?F j i else ?F) n0 m0 = _ => set (D := F) end.
      assert (HD : forall n m, (n < N)%nat -> (m < M)%nat -> D n m = T n m).
      2:{ unfold T, N, M in HD. destruct fl eqn:E; [apply (HD m0 n0 Hm0 Hn0)|now apply HD]. }
      clearbody fl N M. clear n0 m0 Hn0 Hm0 cut0 cut1.
      set (dist := fun n m : nat => (n - m + (m - n))%nat).
      assert (H : (fun k Y => forall n m, (n < N)%nat -> (m < M)%nat -> (dist n m < k)%nat -> Y n m = T n m) (0 + N)%nat D).
      2:{ intros n m Hn Hm. apply H; auto. unfold dist. lia. }
      apply (fold_seq_inv (fun k (Y : @arr2 K) => forall n m, (n < N)%nat -> (m < M)%nat -> (dist n m < k)%nat -> Y n m = T n m)); [intros; lia|].
      clear D. intros k Y Hk HY. set (mx := Nat.min M (N - k)).
      assert (H : (fun i Z => forall n m, (n < N)%nat -> (m < M)%nat -> (dist n m < k)%nat \/ (dist n m = k /\ Nat.min n m < i)%nat -> Z n m = T n m) (0 + mx)%nat
         (fold_left (fun D m =>
        let n := (k + m)%nat in
        let sg := sign (negb (fl && Nat.ltb m n && Nat.odd k))%bool in
        let base := if (fl && Nat.ltb m n)%bool then cj al else al in
        let D := set2 D n m (sg * (sqfact m / sqfact n * kpow base k * c * laguerre (al * cj al) mx k m)) in
        if Nat.ltb n M then set2 D m n (kpow (- k1) k * cj (D n m)) else D) (seq 0 mx) Y)).
      2:{ intros n m Hn Hm Hd. apply H; auto. unfold dist, mx in *. lia. }
      refine (fold_seq_inv (fun i (Z : @arr2 K) => forall n m, (n < N)%nat -> (m < M)%nat -> (dist n m < k)%nat \/ (dist n m = k /\ Nat.min n m < i)%nat -> Z n m = T n m) _ mx 0 Y _ _).
      - intros n m Hn Hm [Hd|Hd]; [now apply HY|lia].
      - clear Y HY. intros m Y Hm HY. cbv zeta. set (n := (k + m)%nat). set (L := laguerre (al * alc) mx k m).
        set (v := sign _ * _).
        assert (Lw : sqfact m / sqfact n * kpow al k * c * L = d_amp al alc n m) by (apply low_ok; lia).
        assert (Hg : kpow (- k1) k * (sqfact m / sqfact n * kpow alc k * c * L) = d_amp al alc m n) by (apply high_ok; lia).
        assert (V : v = T n m /\ kpow (- k1) k * cj v = T m n).
        { unfold v, T. destruct fl; cbn [andb].
          - destruct (Nat.ltb_spec m n) as [Lt|Ge]; cbn [andb].
            + assert (Sg : sign (negb (Nat.odd k)) = kpow (- k1) k :> K) by (rewrite kpow_m1_odd; unfold sign; destruct (Nat.odd k); reflexivity). rewrite Sg.
              split; [exact Hg|]. rewrite cj_mul, cj_pow, cj_opp, cj_1. unfold n, L. rewrite cj_term, cj_inv. fold n. fold L. rewrite <- Lw.
              transitivity ((kpow (- k1) k * kpow (- k1) k) * (sqfact m / sqfact n * kpow al k * c * L)); [ring|]. rewrite kpow_m1_sq. ring.
            + assert (k = 0%nat) as -> by (unfold n in Ge; lia). cbn [negb sign kpow] in *. change (0 + m)%nat with m in n. unfold n in *. rewrite <- Lw.
              unfold L. split; [ring|]. rewrite cj_mul, cj_1. pose proof (cj_term al 0%nat m mx) as CT. cbn [kpow] in CT. change (0 + m)%nat with m in CT. rewrite CT. ring.
          - cbn [negb sign]. split; [rewrite <- Lw; ring|]. rewrite cj_mul, cj_1. unfold n, L. rewrite cj_term. fold n. fold L. rewrite <- Hg. ring. }
        destruct V as [V1 V2].
        assert (W : forall Z : @arr2 K, (Z n m = T n m) -> (n < M -> Z m n = T m n)%nat -> (forall n' m', (n' <> n \/ m' <> m) -> (n' <> m \/ m' <> n \/ ~ (n < M)%nat) -> Z n' m' = Y n' m') ->
            forall n' m', (n' < N)%nat -> (m' < M)%nat -> (dist n' m' < k)%nat \/ (dist n' m' = k /\ Nat.min n' m' < S m)%nat -> Z n' m' = T n' m').
        { intros Z Z1 Z2 Z3 n' m' Hn' Hm' X. destruct (Nat.eq_dec n' n) as [E1|E1]; [destruct (Nat.eq_dec m' m) as [E2|E2]; [rewrite E1, E2; exact Z1|]|].
          - destruct (Nat.eq_dec n' m) as [E3|E3]; [|rewrite Z3 by tauto; apply HY; auto; unfold dist, n in *; lia].
            destruct (Nat.eq_dec m' n) as [E4|E4]; [rewrite E3, E4; apply Z2; lia|]. rewrite Z3 by tauto. apply HY; auto. unfold dist, n in *. lia.
          - destruct (Nat.eq_dec n' m) as [E3|E3]; [destruct (Nat.eq_dec m' n) as [E4|E4]; [rewrite E3, E4; apply Z2; lia|]|]; rewrite Z3 by tauto; apply HY; auto; unfold dist, n in *; lia. }
        destruct (Nat.ltb_spec n M) as [Lt|Ge].
        + apply W.
          * destruct (Nat.eq_dec k 0) as [E|E].
            -- assert (n = m) as En by (unfold n; lia). rewrite (set2_same Y n m v). assert (X : forall (Z : @arr2 K) a b x, a = b -> set2 Z b a x a b = x) by (intros Z a b x ->; apply set2_same). rewrite X by exact En. rewrite V2. now rewrite En.
            -- rewrite set2_other by (unfold n; lia). rewrite set2_same. exact V1.
          * intros _. rewrite set2_same, set2_same. exact V2.
          * intros n' m' C1 C2. rewrite set2_other by tauto. apply set2_other. tauto.
        + apply W.
          * rewrite set2_same. exact V1.
          * intros C. lia.
          * intros n' m' C1 _. apply set2_other. tauto.
    Qed.
  End Disp.
End Proofs.
