(** C25: beam-splitter strategies *)
From Coq Require Import List Arith Bool Lia Field Ring.
From Verif Require Import Base RootField Tensor Series Vanilla VanillaProps Beamsplitter ComplexRF.
Import ListNotations.
Open Scope nat_scope.

(** beamsplitter.py:244-288 beamsplitter_schwinger: the loops and the writes U[N-i,i,N-j,j] = block[i,j].  The block of each photon
    number (the matrix exponential computed with numpy.linalg.eig) is an arbitrary function.  An index outside its axis is an IndexError. *)
Section Schwinger.
  Context {K : rootfield}.
  Variable block : nat -> nat -> nat -> K.
  Definition max_photons (c1 c2 : nat) (max_N : option nat) : nat :=
    match max_N with Some n => if Nat.ltb (c1 + c2 - 2) n then c1 + c2 - 2 else n | None => c1 + c2 - 2 end.
  Definition range (lo hi : nat) : list nat := seq lo (hi - lo).
  Definition schwinger_loop (c1 c2 maxN : nat) : list (nat * nat * nat) :=
    flat_map (fun N => flat_map (fun i => map (fun j => (N, i, j)) (range (N + 1 - c1) (Nat.min (N + 1) c2)))
                         (range (N + 1 - c1) (Nat.min (N + 1) c1))) (seq 0 (maxN + 1)).
  Definition schwinger_write (c1 c2 : nat) (U : result (@arr4 K)) (x : nat * nat * nat) : result arr4 :=
    let '(N, i, j) := x in
    match U with
    | Ok U => if (Nat.ltb (N - i) c1 && Nat.ltb i c2 && Nat.ltb (N - j) c1 && Nat.ltb j c2)%bool then Ok (set4 U (N - i) i (N - j) j (block N i j)) else Err IndexError
    | Err e => Err e
    end.
  Definition beamsplitter_schwinger (c1 c2 c3 c4 : nat) (max_N : option nat) : result arr4 :=
    if (negb (Nat.eqb c1 c3) || negb (Nat.eqb c2 c4))%bool then Err ValueError
    else fold_left (schwinger_write c1 c2) (schwinger_loop c1 c2 (max_photons c1 c2 max_N)) (Ok (fun _ _ _ _ => k0)).

  Lemma in_loop : forall c1 c2 maxN N i j, In (N, i, j) (schwinger_loop c1 c2 maxN) <->
    N <= maxN /\ N < i + c1 /\ i <= N /\ i < c1 /\ N < j + c1 /\ j <= N /\ j < c2.
  Proof.
    intros c1 c2 maxN N i j. unfold schwinger_loop, range. rewrite in_flat_map. split.
    - intros [N' [H1 H]]. apply in_flat_map in H. destruct H as [i' [H2 H]]. apply in_map_iff in H. destruct H as [j' [E H3]]. injection E as -> -> ->.
      apply in_seq in H1, H2, H3. lia.
    - intros H. exists N. split; [apply in_seq; lia|]. apply in_flat_map. exists i. split; [apply in_seq; lia|]. apply in_map_iff. exists j.
      split; [reflexivity|apply in_seq; lia].
  Qed.
  Lemma write_err : forall c1 c2 l e, fold_left (schwinger_write c1 c2) l (Err e) = Err e.
  Proof. intros c1 c2. induction l as [|[[N i] j] l IH]; intros e; simpl; auto. Qed.
  Lemma writes : forall c1 c2 l U, (forall N i j, In (N, i, j) l -> i <= N /\ j <= N /\ N - i < c1 /\ i < c2 /\ N - j < c1 /\ j < c2) ->
    exists V, fold_left (schwinger_write c1 c2) l (Ok U) = Ok V
      /\ forall m n p q, (m + n = p + q /\ In (m + n, n, q) l -> V m n p q = block (m + n) n q)
         /\ (~ (m + n = p + q /\ In (m + n, n, q) l) -> V m n p q = U m n p q).
  Proof.
    intros c1 c2 l. induction l as [|[[N i] j] l IH]; intros U H.
    - exists U. split; [reflexivity|]. intros. split; [intros [_ []]|auto].
    - destruct (H N i j (or_introl eq_refl)) as [H1 [H2 [H3 [H4 [H5 H6]]]]]. cbn [fold_left schwinger_write].
      rewrite (proj2 (Nat.ltb_lt _ _) H3), (proj2 (Nat.ltb_lt _ _) H4), (proj2 (Nat.ltb_lt _ _) H5), (proj2 (Nat.ltb_lt _ _) H6). cbn [andb].
      destruct (IH (set4 U (N - i) i (N - j) j (block N i j))) as [V [E HV]]; [intros; apply H; now right|]. exists V. split; [exact E|].
      intros m n p q. destruct (HV m n p q) as [X1 X2]. split.
      + intros [E1 [E2|E2]]; [|now apply X1]. injection E2 as E2 E3 E4.
        assert (D : {In (m + n, n, q) l} + {~ In (m + n, n, q) l}) by (apply in_dec; repeat decide equality).
        destruct D as [D|D]; [now apply X1|]. rewrite X2 by tauto. replace m with (N - i) by lia. replace n with i by lia. replace p with (N - j) by lia.
        replace q with j by lia. rewrite set4_same. f_equal. lia.
      + intros C. rewrite X2 by (intros [C1 C2]; apply C; split; [exact C1|now right]). apply set4_other.
        destruct (Nat.eq_dec m (N - i)); [|now left]. destruct (Nat.eq_dec n i); [|right; now left]. destruct (Nat.eq_dec p (N - j)); [|right; right; now left].
        destruct (Nat.eq_dec q j); [|right; right; now right]. exfalso. apply C. split; [lia|left]. f_equal; [f_equal|]; lia.
  Qed.
  (** C25: for square shapes every photon-number conserving entry up to the requested photon number is the entry of its block, the others are 0 *)
  Theorem C25_schwinger_square : forall d max_N, 0 < d -> exists U, beamsplitter_schwinger d d d d max_N = Ok U
    /\ forall m n p q, m < d -> n < d -> p < d -> q < d ->
       U m n p q = if (Nat.eqb (m + n) (p + q) && Nat.leb (m + n) (match max_N with Some x => x | None => 2 * d end))%bool then block (m + n) n q else k0.
  Proof.
    intros d max_N Hd. unfold beamsplitter_schwinger. rewrite Nat.eqb_refl. cbn [negb orb].
    destruct (writes d d (schwinger_loop d d (max_photons d d max_N)) (fun _ _ _ _ => k0)) as [U [E H]].
    { intros N i j I. apply in_loop in I. lia. }
    exists U. split; [exact E|]. intros m n p q Hm Hn Hp Hq. destruct (H m n p q) as [H1 H2].
    assert (MX : m + n <= max_photons d d max_N <-> m + n <= match max_N with Some x => x | None => 2 * d end).
    { unfold max_photons. destruct max_N as [x|]; [destruct (Nat.ltb_spec (d + d - 2) x); lia|lia]. }
    destruct (Nat.eqb_spec (m + n) (p + q)) as [C|C]; [destruct (Nat.leb_spec (m + n) (match max_N with Some x => x | None => 2 * d end)) as [L|L]|]; cbn [andb].
    - apply H1. split; [exact C|]. apply in_loop. lia.
    - apply H2. intros [_ I]. apply in_loop in I. lia.
    - apply H2. intros [I _]. contradiction.
  Qed.
  (** refuted for the other documented shapes (i,k,i,k): IndexError when i > k, entries left at zero when i < k *)
  Theorem C25_schwinger_refuted_error : forall c1 c2, 0 < c2 < c1 -> beamsplitter_schwinger c1 c2 c1 c2 None = Err IndexError.
  Proof.
    intros c1 c2 H. unfold beamsplitter_schwinger. rewrite !Nat.eqb_refl. cbn [negb orb]. unfold max_photons.
    assert (I : In (c2, c2, 0) (schwinger_loop c1 c2 (c1 + c2 - 2))) by (apply in_loop; lia).
    assert (X : forall l U, In (c2, c2, 0) l -> (forall N i j, In (N, i, j) l -> True) -> fold_left (schwinger_write c1 c2) l U = Err IndexError \/ exists e, U = Err e).
    { induction l as [|[[N i] j] l IH]; intros U Hin _; [destruct Hin|]. destruct U as [U|e]; [left|right; eauto]. destruct Hin as [E|Hin].
      - injection E as -> -> ->. cbn [fold_left schwinger_write]. rewrite (proj2 (Nat.ltb_ge c2 c2)) by lia. rewrite andb_false_r. cbn [andb]. apply write_err.
      - cbn [fold_left schwinger_write]. destruct (_ && _)%bool; [|apply write_err]. destruct (IH (Ok (set4 U (N - i) i (N - j) j (block N i j))) Hin) as [J|[e J]]; auto. discriminate. }
    destruct (X _ (Ok (fun _ _ _ _ => k0)) I (fun _ _ _ _ => Logic.I)) as [J|[e J]]; [exact J|discriminate].
  Qed.
  Theorem C25_schwinger_refuted_missing : forall c1 c2, 0 < c1 < c2 -> exists U, beamsplitter_schwinger c1 c2 c1 c2 None = Ok U
    /\ forall n q, c1 <= n < c2 -> q < c2 -> U 0 n (n - q) q = k0.
  Proof.
    intros c1 c2 H. unfold beamsplitter_schwinger. rewrite !Nat.eqb_refl. cbn [negb orb].
    destruct (writes c1 c2 (schwinger_loop c1 c2 (max_photons c1 c2 None)) (fun _ _ _ _ => k0)) as [U [E HU]].
    { intros N i j I. apply in_loop in I. lia. }
    exists U. split; [exact E|]. intros n q Hn Hq. apply (proj2 (HU 0 n (n - q) q)). intros [_ I]. apply in_loop in I. lia.
  Qed.
End Schwinger.

(** beamsplitter.py:291-337 sector_idx: flat positions of the N-photon states of a two-mode array; None is numpy's ValueError *)
Definition sector_idx (N : nat) (s0 s1 : nat) : option (list nat) :=
  let l := filter (fun i => Nat.ltb (Nat.max i (N - i)) (Nat.max s0 s1)) (seq 0 (N + 1)) in
  if forallb (fun i => (Nat.ltb i s0 && Nat.ltb (N - i) s1)%bool) l then Some (map (fun i => ravel [s0; s1] [i; N - i]) l) else None.
Lemma ravel2 : forall a b i j, ravel [a; b] [i; j] = i * b + j.
Proof. intros. unfold ravel, prod. cbn [fold_right]. now rewrite !Nat.mul_1_r, Nat.add_0_r. Qed.
Theorem C25_sector_idx : forall N d, exists l, sector_idx N d d = Some l /\ NoDup l
  /\ forall x, In x l <-> exists i j, i < d /\ j < d /\ i + j = N /\ x = i * d + j.
Proof.
  intros N d. unfold sector_idx. rewrite Nat.max_id. set (l := filter _ _).
  assert (Hl : forall i, In i l <-> i <= N /\ i < d /\ N - i < d).
  { intros i. unfold l. rewrite filter_In, in_seq, Nat.ltb_lt. lia. }
  rewrite (proj2 (forallb_forall _ l)).
  2:{ intros i Hi. apply Hl in Hi. apply andb_true_intro. split; apply Nat.ltb_lt; lia. }
  eexists. split; [reflexivity|]. split.
  - assert (ND : NoDup l) by (apply NoDup_filter, seq_NoDup). assert (Hl' : forall i, In i l -> i <= N /\ i < d /\ N - i < d) by (intros i; apply Hl).
    clear Hl. clearbody l. induction l as [|i l IH]; [constructor|]. inversion ND; subst. cbn [map]. constructor.
    + intros C. apply in_map_iff in C. destruct C as [i' [E I]]. rewrite !ravel2 in E. assert (Hi := Hl' i (or_introl eq_refl)). assert (Hi' := Hl' i' (or_intror I)).
      assert (i' = i) by nia. subst. contradiction.
    + apply IH; auto. intros; apply Hl'; now right.
  - intros x. rewrite in_map_iff. split.
    + intros [i [<- I]]. apply Hl in I. exists i, (N - i). rewrite ravel2. repeat split; lia.
    + intros [i [j [Hi [Hj [E ->]]]]]. exists i. split; [rewrite ravel2; f_equal; lia|]. apply Hl. lia.
Qed.
(** refuted for unequal cutoffs: a 3-photon sector of a (2,4) array raises *)
Theorem C25_sector_refuted : sector_idx 3 2 4 = None.
Proof. reflexivity. Qed.

Section Props.
  Context {K : rootfield}.
  Add Field Kfield : (kft K).
  Open Scope rf_scope.
  Lemma pos4 : forall M N P Q m n p q, in4 M N P Q m n p q -> positive_shape [M; N; P; Q] /\ Forall2 lt [m; n; p; q] [M; N; P; Q].
  Proof. intros M N P Q m n p q [B1 [B2 [B3 B4]]]. split; [split; [simpl; lia|repeat constructor; lia]|repeat constructor; assumption]. Qed.

  (** C25: the stable strategy gives, for every shape, the array of the general recursion on the gate's Bargmann matrix; entries that do not conserve
      the photon number are zero *)
  Theorem C25_stable : forall (ct st stc : K) M N P Q out, fits [M; N; P; Q] out -> forall m n p q, m < M -> n < N -> p < P -> q < Q ->
    stable_beamsplitter ct st stc M N P Q m n p q = entry [M; N; P; Q] (vanilla 4 (A_bs ct st stc) (fun _ => k0) [M; N; P; Q] k1 out) [m; n; p; q].
  Proof.
    intros ct st stc M N P Q out F m n p q Hm Hn Hp Hq. assert (B : in4 M N P Q m n p q) by (repeat split; assumption). rewrite stable_beamsplitter_right by exact B.
    destruct (pos4 _ _ _ _ _ _ _ _ B) as [Ps Hk]. symmetry. exact (C19_taylor [M; N; P; Q] (A_bs ct st stc) (fun _ => k0) k1 out Ps (A_bs_sym ct st stc) F _ Hk).
  Qed.
  Theorem C25_beamsplitter : forall (ct st stc : K) M N P Q out, (P <= N \/ M <= 1) -> fits [M; N; P; Q] out -> forall m n p q, m < M -> n < N -> p < P -> q < Q ->
    beamsplitter ct st stc M N P Q m n p q = entry [M; N; P; Q] (vanilla 4 (A_bs ct st stc) (fun _ => k0) [M; N; P; Q] k1 out) [m; n; p; q].
  Proof.
    intros ct st stc M N P Q out HP F m n p q Hm Hn Hp Hq. assert (B : in4 M N P Q m n p q) by (repeat split; assumption). rewrite beamsplitter_right by assumption.
    destruct (pos4 _ _ _ _ _ _ _ _ B) as [Ps Hk]. symmetry. exact (C19_taylor [M; N; P; Q] (A_bs ct st stc) (fun _ => k0) k1 out Ps (A_bs_sym ct st stc) F _ Hk).
  Qed.
  Theorem C25_conservation : forall (ct st stc : K) M N P Q m n p q, m < M -> n < N -> p < P -> q < Q -> (m + n <> p + q)%nat ->
    stable_beamsplitter ct st stc M N P Q m n p q = k0 /\ (P <= N \/ M <= 1 -> beamsplitter ct st stc M N P Q m n p q = k0).
  Proof.
    intros ct st stc M N P Q m n p q Hm Hn Hp Hq C. assert (B : in4 M N P Q m n p q) by (repeat split; assumption).
    split; [rewrite stable_beamsplitter_right by exact B|intros HP; rewrite beamsplitter_right by assumption]; apply (bs_zero ct st stc (m + n + p + q)); lia.
  Qed.
  (** refuted: when the first input cutoff exceeds the second output cutoff, the plain strategy leaves conserving entries at zero *)
  Theorem C25_refuted_wide_input : forall (ct st stc : K) M N P Q m n, m < M -> n < N -> N <= m + n < P -> 0 < Q ->
    beamsplitter ct st stc M N P Q m n (m + n)%nat 0%nat = k0.
  Proof. intros. apply bs_untouched; lia. Qed.
  Theorem C25_refuted_wide_input_value : forall ct st stc : K, bs_amp ct st stc 1 0 1 0 = ct.
  Proof. intros. rewrite bs_rec_m. cbn [pred]. rewrite sq_0. assert (E : bs_amp ct st stc 0 0 0 0 = k1) by exact (amp_zero 4 _ _ _). rewrite E. field. apply sq_neq. lia. Qed.
  (** so shape (2,1,2,1) with cos(theta) nonzero: the one-photon transmission amplitude is cos(theta), the plain strategy says 0 *)
  Theorem C25_refuted_example : forall ct st stc : K, ct <> k0 ->
    beamsplitter ct st stc 2 1 2 1 1%nat 0%nat 1%nat 0%nat = k0 /\ stable_beamsplitter ct st stc 2 1 2 1 1%nat 0%nat 1%nat 0%nat = ct
    /\ beamsplitter ct st stc 2 1 2 1 1%nat 0%nat 1%nat 0%nat <> stable_beamsplitter ct st stc 2 1 2 1 1%nat 0%nat 1%nat 0%nat.
  Proof.
    intros ct st stc N. assert (E1 : beamsplitter ct st stc 2 1 2 1 1%nat 0%nat 1%nat 0%nat = k0) by (apply (C25_refuted_wide_input ct st stc 2 1 2 1 1 0); lia).
    assert (E2 : stable_beamsplitter ct st stc 2 1 2 1 1%nat 0%nat 1%nat 0%nat = ct) by (rewrite stable_beamsplitter_right by (repeat split; lia); apply C25_refuted_wide_input_value).
    split; [exact E1|]. split; [exact E2|]. rewrite E1, E2. congruence.
  Qed.
  (** a concrete case: Hong-Ou-Mandel, shape (2,2,2,2): <1,1|BS|1,1> = ct^2 - st stc *)
  Theorem C25_example : forall ct st stc : K, stable_beamsplitter ct st stc 2 2 2 2 1%nat 1%nat 1%nat 1%nat = ct * ct - st * stc
     /\ beamsplitter ct st stc 2 2 2 2 1%nat 1%nat 1%nat 1%nat = ct * ct - st * stc.
  Proof.
    intros ct st stc. rewrite stable_beamsplitter_right by (repeat split; lia). rewrite beamsplitter_right by (try (left; lia); repeat split; lia).
    assert (S1 : sq 1 <> k0 :> K) by (apply sq_neq; lia).
    assert (SS : sq 1 * sq 1 = k1 :> K) by (rewrite sq_ok; apply knat_1).
    assert (E0 : bs_amp ct st stc 0 0 0 0 = k1) by exact (amp_zero 4 _ _ _).
    assert (V : bs_amp ct st stc 1 1 1 1 = ct * ct - st * stc).
    { rewrite bs_rec_m. cbn [pred]. rewrite !bs_rec_n. cbn [pred]. rewrite E0, sq_0. field. exact S1. }
    auto.
  Qed.
End Props.
Print Assumptions C25_stable.
