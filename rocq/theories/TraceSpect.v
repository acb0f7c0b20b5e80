(** Support for claim C72: summing a pair of axes of the amplitudes of a Gaussian in any number of variables. *)
From Coq Require Import List Reals Lra Lia Arith Permutation.
From Coquelicot Require Import Coquelicot.
From Verif Require Import RootField ComplexRF Tensor Series HermAlg VanillaProps CExp TraceDecay TraceScalar.
Import ListNotations.
Open Scope nat_scope.
Open Scope C_scope.
Local Arguments INR : simpl never.

Notation camp := (amp (K := CF)).
(** the index K with n at position i and m at position j *)
Definition put (i j n m : nat) (K : list nat) : list nat := upd i n (upd j m K).
(** the values of the index K at the positions r *)
Definition keep (r K : list nat) : list nat := map (fun p => at' p K) r.

Lemma put_length : forall i j n m K, length (put i j n m K) = length K.
Proof. intros. unfold put. now rewrite !upd_length. Qed.
Lemma at_put : forall i j n m K p, i < length K -> j < length K -> at' p (put i j n m K) = if Nat.eqb p i then n else if Nat.eqb p j then m else at' p K.
Proof. intros. unfold put. rewrite at_upd by (rewrite upd_length; lia). destruct (Nat.eqb p i); [reflexivity|]. now rewrite at_upd by lia. Qed.
Ltac pidx := apply at_ext; [rewrite ?dec_length, ?put_length, ?dec_length; reflexivity|]; intros x Hx;
  repeat first [rewrite at_put by (rewrite ?dec_length; lia) | rewrite at_dec by (rewrite ?put_length, ?dec_length; lia)];
  repeat match goal with |- context [Nat.eqb ?a ?b] => destruct (Nat.eqb_spec a b); subst end; try lia.
Lemma dec_put_i : forall i j n m K, i < length K -> j < length K -> i <> j -> dec i (put i j n m K) = put i j (pred n) m K.
Proof. intros. pidx. Qed.
Lemma dec_put_j : forall i j n m K, i < length K -> j < length K -> i <> j -> dec j (put i j n m K) = put i j n (pred m) K.
Proof. intros. pidx. Qed.
Lemma dec_put_p : forall i j p n m K, i < length K -> j < length K -> p < length K -> p <> i -> p <> j -> dec p (put i j n m K) = put i j n m (dec p K).
Proof. intros. pidx. Qed.
Lemma keep_at : forall r K a, a < length r -> at' a (keep r K) = at' (nth a r 0) K.
Proof. intros r K a H. unfold keep. change (nth a (map (fun p => at' p K) r) 0 = at' (nth a r 0) K). rewrite (nth_indep _ 0 (at' 0 K)) by (rewrite map_length; exact H). apply (map_nth (fun p => at' p K)). Qed.
Lemma keep_dec : forall r K a, NoDup r -> a < length r -> List.Forall (fun p => p < length K) r -> dec a (keep r K) = keep r (dec (nth a r 0) K).
Proof.
  intros r K a N H F. rewrite Forall_forall in F. assert (L : length (keep r K) = length r) by (unfold keep; apply map_length).
  apply at_ext; [rewrite dec_length; unfold keep; now rewrite !map_length|]. rewrite dec_length, L. intros x Hx. rewrite at_dec, !keep_at by lia.
  rewrite at_dec by (apply F, nth_In; exact H). destruct (Nat.eqb_spec x a) as [->|E]; [now rewrite Nat.eqb_refl|].
  destruct (Nat.eqb_spec (nth x r 0) (nth a r 0)) as [Q|Q]; [|reflexivity]. exfalso. apply E. apply (proj1 (NoDup_nth r 0)); assumption.
Qed.

Lemma sums_lsum : forall {X} (l : list X) (f : X -> nat -> C) (g : X -> C), (forall x, In x l -> sums (f x) (g x)) ->
  sums (fun n => lsum (K := CF) l (fun x => f x n)) (lsum (K := CF) l g).
Proof.
  intros X. induction l as [|x l IH]; intros f g H; [exact sums_zero|].
  change (sums (fun n => f x n + lsum (K := CF) l (fun x => f x n)) (g x + lsum (K := CF) l g)). apply sums_add; [apply H; now left|apply IH; intros; apply H; now right].
Qed.
Lemma Cmod_lsum : forall {X} (l : list X) (f : X -> C) (B : R), (0 <= B)%R -> (forall x, In x l -> (Cmod (f x) <= B)%R) -> (Cmod (lsum (K := CF) l f) <= INR (length l) * B)%R.
Proof.
  intros X. induction l as [|x l IH]; intros f B HB H; [cbn; rewrite Cmod_0; change (INR 0) with 0%R; lra|]. rewrite (lsum_cons (K := CF)). cbn [length]. rewrite S_INR.
  eapply Rle_trans; [exact (Cmod_triangle (f x) (lsum (K := CF) l f))|]. specialize (IH f B HB (fun y Hy => H y (or_intror Hy))). specialize (H x (or_introl eq_refl)). lra.
Qed.

Section Spectators.
  Variables (D : nat) (A : nat -> nat -> C) (b : nat -> C) (i j : nat) (r : list nat).
  Hypothesis Sy : symmetric (K := CF) D A.
  Hypothesis Pm : Permutation (i :: j :: r) (seq 0 D).
  Hypothesis Q1 : (Cmod (A i i) + Cmod (A i j) < 1)%R.
  Hypothesis Q2 : (Cmod (A j j) + Cmod (A i j) < 1)%R.

  Lemma in_D : forall p, In p (i :: j :: r) -> p < D.
  Proof. intros p H. apply (Permutation_in _ Pm) in H. apply in_seq in H. lia. Qed.
  Lemma nodup : NoDup (i :: j :: r).
  Proof. apply (Permutation_NoDup (Permutation_sym Pm)), seq_NoDup. Qed.
  Lemma iD : i < D. Proof. apply in_D. now left. Qed.
  Lemma jD : j < D. Proof. apply in_D. right. now left. Qed.
  Lemma rD : forall p, In p r -> p < D. Proof. intros p H. apply in_D. now do 2 right. Qed.
  Lemma ij : i <> j. Proof. pose proof nodup as N. inversion N as [|? ? X Y]; subst. intros E. apply X. now left. Qed.
  Lemma ri : forall p, In p r -> p <> i. Proof. pose proof nodup as N. inversion N as [|? ? X Y]; subst. intros p H E. apply X. right. now subst. Qed.
  Lemma rj : forall p, In p r -> p <> j. Proof. pose proof nodup as N. inversion N as [|? ? X Y]; subst. inversion Y; subst. intros p H E. now subst. Qed.
  Lemma Nr : NoDup r. Proof. pose proof nodup as N. inversion N as [|? ? X Y]; subst. now inversion Y. Qed.

  Definition GG (K : list nat) (n m : nat) : C := camp D A b (RtoC 1) (put i j n m K).
  (** the terms of the recurrence with one photon less on another axis *)
  Definition FF (p0 : nat) (K : list nat) (n m : nat) : C := lsum (K := CF) r (fun p => A p0 p * (rt (at' p K) * GG (dec p K) n m)).
  Lemma split_sum : forall f : nat -> C, sumn (K := CF) D f = f i + f j + lsum (K := CF) r f.
  Proof.
    intros f. rewrite <- (lsum_seq0 (K := CF)), <- (lsum_perm (K := CF) _ _ _ Pm), !(lsum_cons (K := CF)). cbn [kadd CF]. ceq. ring.
  Qed.
  Lemma rec_at : forall p0 K n m, p0 < D -> length K = D -> at' p0 (put i j n m K) <> 0 ->
    rt (at' p0 (put i j n m K)) * GG K n m =
    b p0 * camp D A b (RtoC 1) (dec p0 (put i j n m K)) + sumn (K := CF) D (fun q => A p0 q * (rt (at' q (dec p0 (put i j n m K))) * camp D A b (RtoC 1) (dec q (dec p0 (put i j n m K))))).
  Proof. intros p0 K n m Hp L Nz. apply (amp_rec (K := CF) D A b Sy (RtoC 1) p0 (put i j n m K)); [exact Hp|now rewrite put_length|exact Nz]. Qed.
  (** the value of the sum over all axes at an index put i j n m K *)
  Lemma sum_at : forall p0 K n m, length K = D ->
    sumn (K := CF) D (fun q => A p0 q * (rt (at' q (put i j n m K)) * camp D A b (RtoC 1) (dec q (put i j n m K)))) =
    A p0 i * (rt n * GG K (pred n) m) + A p0 j * (rt m * GG K n (pred m)) + FF p0 K n m.
  Proof.
    intros p0 K n m L. pose proof iD. pose proof jD. pose proof ij. rewrite split_sum. f_equal; [f_equal|].
    - rewrite at_put, Nat.eqb_refl by lia. now rewrite dec_put_i by lia.
    - rewrite at_put by lia. replace (Nat.eqb j i) with false by (symmetry; apply Nat.eqb_neq; lia). rewrite Nat.eqb_refl. now rewrite dec_put_j by lia.
    - unfold FF. apply (lsum_ext (K := CF)). intros p Hp. pose proof (ri p Hp). pose proof (rj p Hp). pose proof (rD p Hp). rewrite at_put by lia.
      replace (Nat.eqb p i) with false by (symmetry; now apply Nat.eqb_neq). replace (Nat.eqb p j) with false by (symmetry; now apply Nat.eqb_neq).
      rewrite dec_put_p by lia. reflexivity.
  Qed.
  Lemma rec_i : forall K n m, length K = D -> rt (S n) * GG K (S n) m = b i * GG K n m + A i i * (rt n * GG K (pred n) m) + A i j * (rt m * GG K n (pred m)) + FF i K n m.
  Proof.
    intros K n m L. pose proof iD. pose proof jD. pose proof ij. pose proof (rec_at i K (S n) m iD L) as H2. rewrite at_put, Nat.eqb_refl in H2 by lia.
    rewrite H2 by lia. rewrite dec_put_i by lia. cbn [pred]. rewrite sum_at by exact L. unfold GG. ring.
  Qed.
  Lemma rec_j : forall K n m, length K = D -> rt (S m) * GG K n (S m) = b j * GG K n m + A i j * (rt n * GG K (pred n) m) + A j j * (rt m * GG K n (pred m)) + FF j K n m.
  Proof.
    intros K n m L. pose proof iD. pose proof jD. pose proof ij. pose proof (rec_at j K n (S m) jD L) as H2. rewrite at_put in H2 by lia.
    replace (Nat.eqb j i) with false in H2 by (symmetry; apply Nat.eqb_neq; lia). rewrite Nat.eqb_refl in H2.
    rewrite H2 by lia. rewrite dec_put_j by lia. cbn [pred]. rewrite sum_at by exact L. rewrite (Sy j i jD iD). unfold GG. ring.
  Qed.
  Lemma rec_p : forall p0 K n m, In p0 r -> length K = D -> at' p0 K <> 0 -> rt (at' p0 K) * GG K n m =
    b p0 * GG (dec p0 K) n m + A p0 i * (rt n * GG (dec p0 K) (pred n) m) + A p0 j * (rt m * GG (dec p0 K) n (pred m)) + FF p0 (dec p0 K) n m.
  Proof.
    intros p0 K n m Hp L Nz. pose proof iD. pose proof jD. pose proof ij. pose proof (ri p0 Hp). pose proof (rj p0 Hp). pose proof (rD p0 Hp).
    pose proof (rec_at p0 K n m ltac:(assumption) L) as H5. rewrite at_put in H5 by lia.
    replace (Nat.eqb p0 i) with false in H5 by (symmetry; now apply Nat.eqb_neq). replace (Nat.eqb p0 j) with false in H5 by (symmetry; now apply Nat.eqb_neq).
    rewrite H5 by exact Nz. rewrite dec_put_p by lia. rewrite sum_at by (rewrite dec_length; exact L). unfold GG. ring.
  Qed.

  (** *** decay *)
  Definition wt (K : list nat) : nat := list_sum (keep r K).
  Lemma wt_dec : forall p K, In p r -> length K = D -> at' p K <> 0 -> S (wt (dec p K)) = wt K.
  Proof.
    intros p K H L Nz. destruct (In_nth r p 0 H) as [a [Ha Ea]]. unfold wt. assert (F : List.Forall (fun p => p < length K) r) by (apply Forall_forall; intros x Hx; rewrite L; now apply rD).
    rewrite <- Ea, <- (keep_dec r K a Nr Ha F). apply sum_dec; [unfold keep; now rewrite map_length|]. rewrite keep_at by exact Ha. now rewrite Ea.
  Qed.
  Lemma decay_all : forall q, (0 < q < 1)%R -> (Cmod (A i i) + Cmod (A i j) < q * q)%R -> (Cmod (A j j) + Cmod (A i j) < q * q)%R ->
    forall w K, wt K < w -> length K = D -> exists KG, (0 <= KG)%R /\ forall n m, (Cmod (GG K n m) <= KG * q ^ (n + m))%R.
  Proof.
    intros q Hq R1 R2. induction w as [|w IH]; intros K Hw L; [lia|].
    assert (B : exists KB, (0 <= KB)%R /\ forall p, In p r -> forall n m, (Cmod (Cmult (rt (at' p K)) (GG (dec p K) n m)) <= KB * q ^ (n + m))%R).
    { assert (X : forall l, (forall p, In p l -> In p r) -> exists KB, (0 <= KB)%R /\ forall p, In p l -> forall n m, (Cmod (Cmult (rt (at' p K)) (GG (dec p K) n m)) <= KB * q ^ (n + m))%R).
      { induction l as [|p l IHl]; intros Hl; [exists 0%R; split; [lra|intros p []]|]. destruct IHl as [KB [K0 HB]]; [intros; apply Hl; now right|].
        assert (Hp : In p r) by (apply Hl; now left).
        assert (Y : exists KC, (0 <= KC)%R /\ forall n m, (Cmod (Cmult (rt (at' p K)) (GG (dec p K) n m)) <= KC * q ^ (n + m))%R).
        { destruct (Nat.eq_dec (at' p K) 0) as [E|E].
          - exists 0%R. split; [lra|]. intros n m. rewrite E. change (INR 0) with 0%R. rewrite sqrt_0, Cmult_0_l, Cmod_0. lra.
          - destruct (IH (dec p K)) as [KC [KC0 HC]]; [pose proof (wt_dec p K Hp L E); lia|now rewrite dec_length|].
            exists (sqrt (INR (at' p K)) * KC)%R. split; [apply Rmult_le_pos; [apply sqrt_pos|exact KC0]|]. intros n m. rewrite Cmod_mult, rt_mod, Rmult_assoc.
            apply Rmult_le_compat_l; [apply sqrt_pos|apply HC]. }
        destruct Y as [KC [KC0 HC]]. exists (KB + KC)%R. split; [lra|]. intros p' [<-|Hp'] n m.
        - eapply Rle_trans; [apply HC|]. assert (0 < q ^ (n + m))%R by (apply pow_lt; lra). nra.
        - eapply Rle_trans; [apply HB; exact Hp'|]. assert (0 < q ^ (n + m))%R by (apply pow_lt; lra). nra. }
      apply X. auto. }
    destruct B as [KB [KB0 HB]].
    destruct (fin_bound1 (fun p => Rmax (Cmod (A i p)) (Cmod (A j p))) D) as [KA [KA0 HA]].
    assert (HF : forall p0, p0 = i \/ p0 = j -> forall n m, (Cmod (FF p0 K n m) <= INR (length r) * (KA * KB) * q ^ (n + m))%R).
    { intros p0 Hp n m. assert (P : (0 < q ^ (n + m))%R) by (apply pow_lt; lra). unfold FF. rewrite Rmult_assoc. apply Cmod_lsum; [apply Rmult_le_pos; [apply Rmult_le_pos; assumption|lra]|].
      intros p Hpr. rewrite Cmod_mult, (Rmult_assoc KA). apply Rmult_le_compat; [apply Cmod_ge_0|apply Cmod_ge_0| |apply HB; exact Hpr].
      eapply Rle_trans; [|apply (HA p), rD, Hpr]. destruct Hp as [->| ->]; [apply Rmax_l|apply Rmax_r]. }
    apply (decay (b i) (b j) (A i i) (A i j) (A j j) (GG K) (FF i K) (FF j K)) with (KF := (INR (length r) * (KA * KB))%R); try assumption.
    - intros n m. now apply rec_i. - intros n m. now apply rec_j. - apply Rmult_le_pos; [apply pos_INR|now apply Rmult_le_pos]. - apply HF. now left. - apply HF. now right.
  Qed.
  Definition sG (K : list nat) (n : nat) : C := GG K n n.
  Definition uG (K : list nat) (n : nat) : C := rt (S n) * GG K (S n) n.
  Definition vG (K : list nat) (n : nat) : C := rt (S n) * GG K n (S n).
  Lemma geo3 : forall K, length K = D -> geo (sG K) /\ geo (uG K) /\ geo (vG K).
  Proof.
    intros K L. destruct (rate (A i i) (A i j) (A j j)) as [q [Hq [R1 R2]]]; try assumption.
    destruct (decay_all q Hq R1 R2 (S (wt K)) K ltac:(lia) L) as [KG [K0 H]]. assert (R2' : (0 < q * q < 1)%R) by nra.
    assert (P : forall n, (0 < (q * q) ^ n)%R) by (intros n; apply pow_lt; lra).
    assert (E : forall n, (q ^ (n + n) = (q * q) ^ n)%R) by (intros n; rewrite Rpow_mult_distr, pow_add; reflexivity).
    assert (E1 : forall n, (q ^ (S n + n) <= (q * q) ^ n)%R) by (intros n; rewrite Nat.add_succ_l, <- tech_pow_Rmult, E; specialize (P n); nra).
    assert (E2 : forall n, (q ^ (n + S n) <= (q * q) ^ n)%R) by (intros n; rewrite Nat.add_comm; apply E1).
    assert (M : forall c g n, (0 <= c <= INR n + 1)%R -> (g <= KG * (q * q) ^ n)%R -> (0 <= g)%R -> (c * g <= KG * (INR n + 1) * (q * q) ^ n)%R).
    { intros c g n Hc Hg Hg0. apply Rle_trans with ((INR n + 1) * g)%R; [apply Rmult_le_compat_r; lra|].
      replace (KG * (INR n + 1) * (q * q) ^ n)%R with ((INR n + 1) * (KG * (q * q) ^ n))%R by ring. apply Rmult_le_compat_l; [|exact Hg]. pose proof (pos_INR n). lra. }
    split; [|split].
    - exists KG, (q * q)%R. repeat split; try lra. intros n. unfold sG. rewrite <- E. apply H.
    - apply geo_lin with KG (q * q)%R; try assumption. intros n. unfold uG. rewrite Cmod_mult, rt_mod. apply M; [split; [apply sqrt_pos|apply sqrt_S]| |apply Cmod_ge_0].
      eapply Rle_trans; [apply H|]. apply Rmult_le_compat_l; [exact K0|apply E1].
    - apply geo_lin with KG (q * q)%R; try assumption. intros n. unfold vG. rewrite Cmod_mult, rt_mod. apply M; [split; [apply sqrt_pos|apply sqrt_S]| |apply Cmod_ge_0].
      eapply Rle_trans; [apply H|]. apply Rmult_le_compat_l; [exact K0|apply E2].
  Qed.

  (** *** the integrated parameters: A' = R - D M^-1 D^T, b' = bR - D M^-1 bM with M = A[ij, ij] - X *)
  Definition ud : C := RtoC 1 - A i j.
  Definition dt : C := ud * ud - A i i * A j j.
  Definition Ar (p p' : nat) : C := A p p' + (A p i * (ud * A j p' + A j j * A i p') + A p j * (ud * A i p' + A i i * A j p')) * / dt.
  Definition br (p : nat) : C := b p + (A p i * (ud * b j + A j j * b i) + A p j * (ud * b i + A i i * b j)) * / dt.
  Definition er : C := / RtoC 2 * ((A j j * b i * b i + RtoC 2 * b i * b j * ud + A i i * b j * b j) * / dt).
  Definition cr : C := csqrt (/ dt) * Cexp er.
  Lemma dt_nz : dt <> RtoC 0.
  Proof.
    pose proof (den_nz (A i i) (A i j) (A j j) Q1 Q2 1 ltac:(lra)) as H. unfold den in H. unfold dt, ud.
    intros E. apply H. rewrite <- E. ring.
  Qed.
  Definition A' (a c : nat) : C := Ar (nth a r 0) (nth c r 0).
  Definition b' (a : nat) : C := br (nth a r 0).

  Lemma A'_sym : symmetric (K := CF) (length r) A'.
  Proof.
    intros a c Ha Hc. unfold A', Ar. pose proof (rD _ (nth_In r 0 Ha)) as P. pose proof (rD _ (nth_In r 0 Hc)) as Q. pose proof iD. pose proof jD.
    set (p := nth a r 0) in *. set (q := nth c r 0) in *. rewrite (Sy p q P Q), (Sy i q), (Sy j q), (Sy i p), (Sy j p) by assumption. ceq. ring.
  Qed.
  Lemma sums_trace : forall w K, wt K < w -> length K = D -> sums (sG K) (camp (length r) A' b' cr (keep r K)).
  Proof.
    induction w as [|w IH]; intros K Hw L; [lia|]. destruct (Nat.eq_dec (wt K) 0) as [W|W].
    - (* no photon on the other axes *)
      assert (Z : forall p, In p r -> at' p K = 0).
      { intros p Hp. destruct (Nat.eq_dec (at' p K) 0) as [E|E]; [exact E|]. pose proof (wt_dec p K Hp L E). lia. }
      assert (Ek : keep r K = zeros (length r)).
      { rewrite <- (map_length (fun p => at' p K) r). apply sum_zero_iff. exact W. }
      rewrite Ek, (amp_zero (K := CF)).
      assert (F0 : forall p0 n m, FF p0 K n m = RtoC 0).
      { intros p0 n m. apply (lsum_zero (K := CF)). intros p Hp. rewrite (Z p Hp). change (INR 0) with 0%R. rewrite sqrt_0. cbn [k0 CF]. ceq. ring. }
      assert (E0 : GG K 0 0 = RtoC 1).
      { unfold GG. replace (put i j 0 0 K) with (zeros D); [apply (amp_zero (K := CF))|]. pose proof iD. pose proof jD.
        apply at_ext; [rewrite put_length; unfold zeros; now rewrite repeat_length|]. intros x Hx. unfold zeros in Hx. rewrite repeat_length in Hx. rewrite at_zeros, at_put by lia.
        destruct (Nat.eqb_spec x i) as [|Ni]; [reflexivity|]. destruct (Nat.eqb_spec x j) as [|Nj]; [reflexivity|]. symmetry. apply Z.
        assert (I : In x (i :: j :: r)) by (apply (Permutation_in _ (Permutation_sym Pm)), in_seq; lia). destruct I as [->|[->|I]]; [contradiction|contradiction|exact I]. }
      pose proof (diagonal_one (b i) (b j) (A i i) (A i j) (A j j) (GG K)) as H. unfold cr.
      replace dt with (den (A i i) (A i j) (A j j) 1) by (unfold den, dt, ud; ring).
      replace er with (ex (b i) (b j) (A i i) (A i j) (A j j) 1); [apply H; try assumption|].
      + intros n m. rewrite rec_i, F0 by exact L. ring.
      + intros n m. rewrite rec_j, F0 by exact L. ring.
      + unfold ex, er, num. replace (den (A i i) (A i j) (A j j) 1) with dt by (unfold den, dt, ud; ring). unfold ud. ring.
    - (* one photon less on some axis *)
      assert (X : exists p, In p r /\ at' p K <> 0).
      { destruct (nz_axis (keep r K)) as [a [Ha Na]]; [intros E; apply W; unfold wt; rewrite E; apply sum_zeros|].
        unfold keep in Ha. rewrite map_length in Ha. exists (nth a r 0). rewrite keep_at in Na by exact Ha. split; [now apply nth_In|exact Na]. }
      destruct X as [p0 [Hp Nz]]. set (K1 := dec p0 K). assert (L1 : length K1 = D) by (unfold K1; now rewrite dec_length).
      pose proof (wt_dec p0 K Hp L Nz) as W1. fold K1 in W1.
      set (am := fun k => camp (length r) A' b' cr k). assert (S1 : sums (sG K1) (am (keep r K1))) by (apply IH; [lia|exact L1]).
      (* the sums with one photon less on one more axis *)
      set (LL := fun p => rt (at' p K1) * am (keep r (dec p K1))).
      assert (SL : forall p, In p r -> sums (fun n => rt (at' p K1) * GG (dec p K1) n n) (LL p)).
      { intros p Hpr. unfold LL. destruct (Nat.eq_dec (at' p K1) 0) as [E|E].
        - rewrite E. change (INR 0) with 0%R. rewrite sqrt_0. eapply sums_ext; [|replace (RtoC 0 * am (keep r (dec p K1))) with (RtoC 0) by ring; exact sums_zero]. intros n. cbn beta. ring.
        - apply sums_scal. apply (IH (dec p K1)); [pose proof (wt_dec p K1 Hpr L1 E); lia|now rewrite dec_length]. }
      set (ff := fun p0 => lsum (K := CF) r (fun p => A p0 p * LL p)).
      assert (SF : forall p0, sums (fun n => FF p0 K1 n n) (ff p0)).
      { intros q0. unfold FF, ff. apply sums_lsum. intros p Hpr. apply sums_scal. now apply SL. }
      destruct (geo3 K1 L1) as [_ [Gu Gv]]. destruct (geo_sums _ Gu) as [U HU]. destruct (geo_sums _ Gv) as [V HV].
      assert (Pv : sums (fun n => rt n * GG K1 (pred n) n) V).
      { eapply sums_ext; [|apply sums_shift; exact HV]. intros [|n]; cbn [shift pred]; [change (INR 0) with 0%R; rewrite sqrt_0; ring|reflexivity]. }
      assert (Pu : sums (fun n => rt n * GG K1 n (pred n)) U).
      { eapply sums_ext; [|apply sums_shift; exact HU]. intros [|n]; cbn [shift pred]; [change (INR 0) with 0%R; rewrite sqrt_0; ring|reflexivity]. }
      set (l1 := am (keep r K1)) in *.
      assert (EU : U = b i * l1 + A i i * V + A i j * U + ff i).
      { eapply sums_unique; [exact HU|]. eapply sums_ext; [|apply sums_add; [apply sums_add; [apply sums_add; apply sums_scal|apply sums_scal]|]; [exact S1|exact Pv|exact Pu|exact (SF i)]].
        intros n. cbn beta. unfold uG, sG. rewrite rec_i by exact L1. reflexivity. }
      assert (EV : V = b j * l1 + A i j * V + A j j * U + ff j).
      { eapply sums_unique; [exact HV|]. eapply sums_ext; [|apply sums_add; [apply sums_add; [apply sums_add; apply sums_scal|apply sums_scal]|]; [exact S1|exact Pv|exact Pu|exact (SF j)]].
        intros n. cbn beta. unfold vG, sG. rewrite rec_j by exact L1. reflexivity. }
      assert (X1 : ud * U = A i i * V + (b i * l1 + ff i)) by (unfold ud; transitivity (U - A i j * U); [ring|rewrite EU at 1; ring]).
      assert (X2 : ud * V = A j j * U + (b j * l1 + ff j)) by (unfold ud; transitivity (V - A i j * V); [ring|rewrite EV at 1; ring]).
      pose proof dt_nz as Dz.
      assert (DU : U = (ud * (b i * l1 + ff i) + A i i * (b j * l1 + ff j)) * / dt).
      { apply Creg with dt; [exact Dz|]. transitivity (ud * (ud * U) - A i i * A j j * U); [unfold dt; ring|]. rewrite X1.
        transitivity (A i i * (ud * V) + ud * (b i * l1 + ff i) - A i i * A j j * U); [ring|]. rewrite X2. field. exact Dz. }
      assert (DV : V = (ud * (b j * l1 + ff j) + A j j * (b i * l1 + ff i)) * / dt).
      { apply Creg with dt; [exact Dz|]. transitivity (ud * (ud * V) - A i i * A j j * V); [unfold dt; ring|]. rewrite X2.
        transitivity (A j j * (ud * U) + ud * (b j * l1 + ff j) - A i i * A j j * V); [ring|]. rewrite X1. field. exact Dz. }
      assert (Rz : rt (at' p0 K) <> RtoC 0).
      { intros E. apply RtoC_inj in E. apply sqrt_eq_0 in E; [|apply pos_INR]. change 0%R with (INR 0) in E. apply INR_eq in E. contradiction. }
      assert (SK : sums (fun n => rt (at' p0 K) * sG K n) (b p0 * l1 + A p0 i * V + A p0 j * U + ff p0)).
      { eapply sums_ext; [|apply sums_add; [apply sums_add; [apply sums_add; apply sums_scal|apply sums_scal]|]; [exact S1|exact Pv|exact Pu|exact (SF p0)]].
        intros n. cbn beta. unfold sG. rewrite (rec_p p0 K n n Hp L Nz). reflexivity. }
      (* the recurrence of the integrated amplitudes *)
      destruct (In_nth r p0 0 Hp) as [a [Ha Ea]].
      assert (Fk : List.Forall (fun p => p < length K) r) by (apply Forall_forall; intros x Hx; rewrite L; now apply rD).
      assert (Fk1 : List.Forall (fun p => p < length K1) r) by (apply Forall_forall; intros x Hx; rewrite L1; now apply rD).
      pose proof (amp_rec (K := CF) (length r) A' b' A'_sym cr a (keep r K) Ha ltac:(unfold keep; now rewrite map_length)) as AR.
      rewrite keep_at, Ea in AR by exact Ha. specialize (AR Nz). rewrite (keep_dec r K a Nr Ha Fk), Ea in AR. fold K1 in AR.
      assert (TS : sumn (K := CF) (length r) (fun c => A' a c * (rt (at' c (keep r K1)) * camp (length r) A' b' cr (dec c (keep r K1)))) = lsum (K := CF) r (fun p => Ar p0 p * LL p)).
      { rewrite <- (lsum_nth (K := CF)). apply (sumn_ext (K := CF)). intros c Hc. rewrite keep_at, (keep_dec r K1 c Nr Hc Fk1) by exact Hc. unfold A'. rewrite Ea. reflexivity. }
      cbn [kmul kadd sq CF] in AR. change (csq (at' p0 K)) with (rt (at' p0 K)) in AR.
      assert (AR' : rt (at' p0 K) * am (keep r K) = br p0 * l1 + lsum (K := CF) r (fun p => Ar p0 p * LL p)).
      { rewrite <- TS. unfold am at 1. etransitivity; [exact AR|]. unfold b'. rewrite Ea. reflexivity. }
      assert (EA : lsum (K := CF) r (fun p => Ar p0 p * LL p) = ff p0 + (A p0 i * (ud * ff j + A j j * ff i) + A p0 j * (ud * ff i + A i i * ff j)) * / dt).
      { unfold ff. set (x := (A p0 i * ud + A p0 j * A i i) * / dt). set (y := (A p0 i * A j j + A p0 j * ud) * / dt).
        transitivity (lsum (K := CF) r (fun p => A p0 p * LL p + (x * (A j p * LL p) + y * (A i p * LL p)))).
        - apply (lsum_ext (K := CF)). intros p _. unfold Ar, x, y. ceq. ring.
        - etransitivity; [exact (lsum_add (K := CF) r (fun p => A p0 p * LL p) (fun p => x * (A j p * LL p) + y * (A i p * LL p)))|].
          pose proof (lsum_add (K := CF) r (fun p => x * (A j p * LL p)) (fun p => y * (A i p * LL p))) as E1.
          pose proof (lsum_scal (K := CF) r x (fun p => A j p * LL p)) as E2. pose proof (lsum_scal (K := CF) r y (fun p => A i p * LL p)) as E3.
          cbn [kadd kmul CF] in E1, E2, E3. rewrite E2, E3 in E1. etransitivity; [apply f_equal; exact E1|]. cbn [kadd kmul CF]. unfold x, y. ceq. ring. }
      assert (EQ : b p0 * l1 + A p0 i * V + A p0 j * U + ff p0 = rt (at' p0 K) * am (keep r K)).
      { rewrite AR', EA, DU, DV. unfold br. ring. }
      rewrite EQ in SK. pose proof (sums_scal (/ rt (at' p0 K)) _ _ SK) as FS.
      assert (EE : forall z w : C, z <> RtoC 0 -> / z * (z * w) = w) by (intros z v Hz; field; exact Hz).
      rewrite EE in FS by exact Rz. eapply sums_ext; [|exact FS]. intros n. cbn beta. apply EE. exact Rz.
  Qed.
End Spectators.
