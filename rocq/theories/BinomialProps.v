(** C24 (binomial strategies) and C28 (visiting order of the array strategies) *)
From Coq Require Import List Arith Bool Lia Field Ring ZArith Permutation.
From Verif Require Import Base RootField Tensor Series Vanilla VanillaProps Steps Binomial ComplexRF.
Import ListNotations.
Open Scope nat_scope.

Section Props.
  Context {K : rootfield}.
  Add Field Kfield : (kft K).
  Open Scope rf_scope.
  Definition a_schedule (s : list (list nat) -> list (list nat)) : Prop := forall l, Permutation (s l) l.

  Lemma last_weight_unique : forall shape (abs2 : K -> K) exceeds a gc W W',
    last_weight shape abs2 exceeds a gc W -> last_weight shape abs2 exceeds a gc W' -> W = W'.
  Proof.
    assert (H : forall shape (abs2 : K -> K) exceeds a gc W W',
      last_weight shape abs2 exceeds a gc W -> last_weight shape abs2 exceeds a gc W' -> ~ W < W').
    { intros shape abs2 exceeds a gc W W' [B [_ X]] [B' [F' _]] L. destruct X as [L1 X]; [lia|]. rewrite F' in X by lia. discriminate. }
    intros shape abs2 exceeds a gc W W' H1 H2. pose proof (H _ _ _ _ _ _ _ H1 H2). pose proof (H _ _ _ _ _ _ _ H2 H1). lia.
  Qed.

  (** C24: for every schedule, cache content, cutoff and stopping rule, the array holds the amplitudes of all patterns with at most W
      photons and zeros elsewhere, and the returned norm is the squared norm of what was computed *)
  Theorem C24_by_weight : forall shape A b (c : K) abs2 exceeds sched gc ch, positive_shape shape -> symmetric (length shape) A -> a_schedule sched ->
    valid_cache ch -> exists G W ch', binomial A b abs2 exceeds sched shape c gc ch = Some (G, norm_upto shape abs2 (amp (length shape) A b c) W, ch')
      /\ length G = prod shape /\ last_weight shape abs2 exceeds (amp (length shape) A b c) gc W /\ valid_cache ch'
      /\ forall k, Forall2 lt k shape -> entry shape G k = if Nat.leb (list_sum k) W then c * sqf k * expq (length shape) A b k else k0.
  Proof.
    intros shape A b c abs2 exceeds sched gc ch [P1 P2] S Hs V.
    destruct (binomial_ok A b c abs2 exceeds sched Hs shape S P2 gc ch V) as [G [W [ch' [E [[L H] [V' LW]]]]]].
    exists G, W, ch'. split; [exact E|]. split; [exact L|]. split; [exact LW|]. split; [exact V'|exact H].
  Qed.
  (** the order of the parallel iterations and the cache do not matter *)
  Theorem C24_schedule_free : forall shape A b (c : K) abs2 exceeds s s' gc ch ch', positive_shape shape -> symmetric (length shape) A ->
    a_schedule s -> a_schedule s' -> valid_cache ch -> valid_cache ch' ->
    option_map fst (binomial A b abs2 exceeds s shape c gc ch) = option_map fst (binomial A b abs2 exceeds s' shape c gc ch').
  Proof.
    intros shape A b c abs2 exceeds s s' gc ch ch' P S Hs Hs' V V'.
    destruct (C24_by_weight shape A b c abs2 exceeds s gc ch P S Hs V) as [G [W [x [E [L [LW [_ H]]]]]]].
    destruct (C24_by_weight shape A b c abs2 exceeds s' gc ch' P S Hs' V') as [G' [W' [x' [E' [L' [LW' [_ H']]]]]]].
    pose proof (last_weight_unique _ _ _ _ _ _ _ LW LW') as <-. rewrite E, E'. simpl. f_equal. f_equal.
    apply (entries_eq shape); auto. intros k Hk. now rewrite H, H'.
  Qed.
  Lemma sum_lt_top : forall k shape, Forall2 lt k shape -> list_sum k + length shape <= list_sum shape.
  Proof. intros k shape F. induction F as [|x d k t H F IH]; simpl; lia. Qed.

  (** C24: without an early stop the default cutoff of hermite_renormalized_binomial fills the whole array, with the vanilla values *)
  Theorem C24_default_fills : forall shape A b (c : K) abs2 sched ch out, positive_shape shape -> symmetric (length shape) A -> a_schedule sched ->
    valid_cache ch -> fits shape out ->
    option_map (fun r => fst (fst r)) (hermite_renormalized_binomial A b abs2 (fun _ => false) sched shape c None ch)
    = Some (vanilla (length shape) A b shape c out).
  Proof.
    intros shape A b c abs2 sched ch out P S Hs V F. unfold hermite_renormalized_binomial.
    destruct (C24_by_weight shape A b c abs2 (fun _ => false) sched (list_sum shape - length shape + 1) ch P S Hs V) as [G [W [x [E [L [LW [_ H]]]]]]].
    rewrite E. simpl. f_equal. destruct P as [P1 P2]. destruct (vanilla_correct A b c shape S P1 P2 out F) as [L' H'].
    apply (entries_eq shape); auto. intros k Hk. rewrite H, H' by exact Hk. rewrite (proj2 (Nat.leb_le _ _)); [reflexivity|].
    pose proof (sum_lt_top k shape Hk). destruct LW as [LW1 [_ LW3]].
    destruct (Nat.lt_ge_cases (1 + W) (list_sum shape - length shape + 1)) as [C|C]; [destruct (LW3 C); discriminate|]. lia.
  Qed.
  (** an early stop only ever drops whole subspaces of high photon number: what is there agrees with the vanilla array *)
  Theorem C24_early_stop_agrees : forall shape A b (c : K) abs2 exceeds sched gc ch out, positive_shape shape -> symmetric (length shape) A ->
    a_schedule sched -> valid_cache ch -> fits shape out -> exists G n ch',
      binomial A b abs2 exceeds sched shape c gc ch = Some (G, n, ch')
      /\ forall k, Forall2 lt k shape -> entry shape G k = entry shape (vanilla (length shape) A b shape c out) k \/ entry shape G k = k0.
  Proof.
    intros shape A b c abs2 exceeds sched gc ch out P S Hs V F.
    destruct (C24_by_weight shape A b c abs2 exceeds sched gc ch P S Hs V) as [G [W [x [E [L [LW [_ H]]]]]]]. exists G. eexists. exists x.
    split; [exact E|]. intros k Hk. rewrite H by exact Hk. rewrite (C19_taylor shape A b c out P S F k Hk). destruct (Nat.leb _ _); auto.
  Qed.
  (** C24: the dictionary version: its keys are exactly the patterns with at most W photons; no KeyError *)
  Theorem C24_dict : forall cutoffs A b (c : K) abs2 exceeds sched gc ch, positive_shape cutoffs -> symmetric (length cutoffs) A -> a_schedule sched ->
    valid_cache ch -> exists G W ch', binomial_dict A b abs2 exceeds sched cutoffs c (Some gc) ch = Some (G, norm_upto cutoffs abs2 (amp (length cutoffs) A b c) W, ch')
      /\ last_weight cutoffs abs2 exceeds (amp (length cutoffs) A b c) gc W
      /\ (forall k, Forall2 lt k cutoffs -> G (toZ k) = if Nat.leb (list_sum k) W then Some (c * sqf k * expq (length cutoffs) A b k) else None)
      /\ forall z, (forall k, Forall2 lt k cutoffs -> z <> toZ k) -> G z = None.
  Proof.
    intros shape A b c abs2 exceeds sched gc ch [P1 P2] S Hs V.
    destruct (binomial_dict_ok A b c abs2 exceeds sched Hs shape S P2 gc ch V) as [G [W [ch' [E [[H H'] [V' LW]]]]]].
    exists G, W, ch'. auto.
  Qed.
  (** refuted: with their default global cutoff, binomial_dict and binomial_numba never compute the pattern with the most photons *)
  Definition top (shape : list nat) : list nat := map pred shape.
  Lemma top_box : forall shape, Forall (fun d => 0 < d) shape -> Forall2 lt (top shape) shape /\ list_sum (top shape) = (list_sum shape - length shape)%nat.
  Proof.
    intros shape P. induction P as [|d t H P [IH1 IH2]]; [split; [constructor|reflexivity]|]. simpl. split; [constructor; [lia|exact IH1]|].
    rewrite IH2. assert (length t <= list_sum t) by (clear -P; induction P; simpl; lia). lia.
  Qed.
  Theorem C24_dict_default_refuted : forall cutoffs A b (c : K) abs2 exceeds sched ch, positive_shape cutoffs -> list_sum cutoffs > length cutoffs ->
    symmetric (length cutoffs) A -> a_schedule sched -> valid_cache ch -> exists G n ch',
      binomial_dict A b abs2 exceeds sched cutoffs c None ch = Some (G, n, ch') /\ G (toZ (top cutoffs)) = None.
  Proof.
    intros cutoffs A b c abs2 exceeds sched ch P N S Hs V. pose proof P as [_ P2].
    destruct (C24_dict cutoffs A b c abs2 exceeds sched (list_sum cutoffs - length cutoffs) ch P S Hs V) as [G [W [ch' [E [LW [H _]]]]]].
    exists G. eexists. exists ch'. split; [exact E|]. destruct (top_box cutoffs P2) as [B T]. rewrite H by exact B. rewrite T.
    destruct LW as [LW _]. rewrite (proj2 (Nat.leb_gt _ _)) by lia. reflexivity.
  Qed.
  Theorem C24_numba_default_refuted : forall shape A b (c : K) abs2 exceeds sched ch, positive_shape shape -> list_sum shape > length shape ->
    symmetric (length shape) A -> a_schedule sched -> valid_cache ch -> exists G n ch',
      binomial_numba A b abs2 exceeds sched shape c None ch = Some (G, n, ch') /\ entry shape G (top shape) = k0.
  Proof.
    intros shape A b c abs2 exceeds sched ch P N S Hs V. pose proof P as [_ P2]. unfold binomial_numba, numba_default_cutoff.
    destruct (C24_by_weight shape A b c abs2 exceeds sched (list_sum shape - length shape) ch P S Hs V) as [G [W [ch' [E [L [LW [_ H]]]]]]].
    exists G. eexists. exists ch'. split; [exact E|]. destruct (top_box shape P2) as [B T]. rewrite H by exact B. rewrite T.
    destruct LW as [LW _]. rewrite (proj2 (Nat.leb_gt _ _)) by lia. reflexivity.
  Qed.
  (** and that amplitude need not vanish: one mode, cutoff 2, A = 0, b = 1, c = 1: the amplitude of one photon is 1 *)
  Theorem C24_top_nonzero : amp 1 (fun _ _ => k0) (fun _ => k1) k1 (top [2]) <> k0 :> K.
  Proof.
    change (top [2]) with [1]. rewrite (amp_step 1 (fun _ _ => k0) (fun _ => k1) (fun _ _ _ _ => eq_refl) k1 0) by (unfold at'; simpl; lia).
    unfold dec, at'. cbn [upd nth pred sumn]. change [0] with (zeros 1). rewrite amp_zero.
    assert (N : sq 1 <> k0 :> K) by (apply sq_neq; lia). intros H. apply (@k1_neq K).
    transitivity ((k1 * k1 + (k0 + k0 * (sq 0 * k1))) / sq 1 * sq 1 : K); [field; exact N|]. rewrite H. ring.
  Qed.

  (** C28: the array strategies visit the indices of the shape in row-major order (np.ndindex): each index exactly once, and the pivot
      and the lower neighbours of an index strictly before it *)
  Theorem C28_row_major : forall shape,
    NoDup (box shape) /\ (forall k, In k (box shape) <-> Forall2 lt k shape)
    /\ (forall n k i, nth_error (box shape) n = Some k -> i < length shape -> at' i k <> 0 ->
          exists m, m < n /\ nth_error (box shape) m = Some (dec i k)).
  Proof.
    intros shape. split; [apply box_NoDup|]. split; [apply in_box|]. intros n k i E Hi N.
    assert (Ln : n < prod shape) by (rewrite <- box_length; apply nth_error_Some; congruence).
    assert (Ek : nth n (box shape) [] = k) by (now apply nth_error_nth). destruct (ravel_nth shape n Ln) as [R Hk]. rewrite Ek in R, Hk.
    pose proof (ravel_dec i k shape Hk Hi N) as X. pose proof (dec_box i k shape Hk) as Hd.
    exists (ravel shape (dec i k)). split.
    - assert (0 < nth i (strides shape) 0).
      { rewrite strides_nth by exact Hi. apply prod_pos, Forall_forall. intros x Hx.
        assert (Forall (fun d => 0 < d) shape) as F by (clear -Hk; induction Hk; constructor; auto; lia).
        rewrite Forall_forall in F. apply F. rewrite <- (firstn_skipn (1 + i) shape). apply in_or_app. now right. }
      lia.
    - rewrite (nth_error_nth' _ []) by (rewrite box_length; now apply ravel_lt). now rewrite nth_box.
  Qed.
End Props.

Theorem C24_example : exists G n ch', hermite_renormalized_binomial (K := CF) (fun _ _ => k0) (fun _ => k1) (fun x => kmul x x) (fun _ => false) (fun l => l) [2; 2] k1 None (fun _ _ => None) = Some (G, n, ch')
   /\ entry [2; 2] G [0; 0] = k1.
Proof.
  assert (P : positive_shape [2; 2]) by (split; [simpl; lia|repeat constructor]).
  destruct (C24_by_weight (K := CF) [2; 2] (fun _ _ => k0) (fun _ => k1) k1 (fun x => kmul x x) (fun _ => false) (fun l => l) 3 (fun _ _ => None) P) as [G [W [ch' [E [_ [_ [_ H]]]]]]].
  - intros i j _ _. reflexivity.
  - intros l. apply Permutation_refl.
  - intros cu w l H. discriminate.
  - exists G. eexists. exists ch'. split; [exact E|]. rewrite H by repeat constructor. simpl Nat.leb. cbn iota.
    exact (amp_zero 2 (fun _ _ => k0) (fun _ => k1) (k1 : CF)).
Qed.
Theorem C28_example : first_available_pivot [0; 2; 1] = Some (1, [0; 1; 1]) /\ smallest_pivot [0; 2; 1] = Some (2, [0; 2; 0])
  /\ all_pivots [0; 2; 1] = [(1, [0; 1; 1]); (2, [0; 2; 0])] /\ lower_neighbors [1; 0]%Z = [(0, [0; 0]%Z); (1, [1; -1]%Z)]
  /\ binomial_subspace_basis [3; 2] 2 = [[1; 1]; [2; 0]].
Proof. repeat split. Qed.
Print Assumptions C24_schedule_free.
