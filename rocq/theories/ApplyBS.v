(** C68: apply_BS_schwinger (math/lattice/strategies/beamsplitter.py:291-382) acts on two axes of an array as the beam-splitter gate. *)
From Coq Require Import List Arith Bool Lia ZArith Reals Permutation Sorted.
From Coquelicot Require Import Coquelicot.
From Verif Require Import Base RootField Tensor Series Beamsplitter BeamsplitterProps ComplexRF RealDer GateGrad HermAlg ArrayOps Schwinger.
Import ListNotations.
Open Scope C_scope.

Lemma nth_map_nat : forall (f : nat -> nat) l a, (a < length l)%nat -> nth a (map f l) 0%nat = f (nth a l 0%nat).
Proof. intros f l. induction l as [|x l IH]; intros [|a] H; cbn in *; try lia; auto. apply IH. lia. Qed.

Section Model.
  Variable eigh : nat -> (nat -> nat -> C) -> (nat -> R) * (nat -> nat -> C).
  Variables theta phi : R.
  (** numpy.argsort of a list without repetitions: the positions of the sorted entries *)
  Definition position (l : list nat) (v : nat) : nat := match look Nat.eqb l (seq 0 (length l)) v with Some p => p | None => 0%nat end.
  Definition np_argsort (l : list nat) : list nat := map (position l) (isort Z.of_nat l).
  (** beamsplitter.py:377 *)
  Definition sector_subset (N s0 s1 : nat) : list nat := filter (fun k => (Nat.ltb k s0 && Nat.ltb (N - k) s1)%bool) (seq 0 (N + 1)).
  (** beamsplitter.py:374-378, one turn of the loop; the matrix product checks the sizes (ValueError).  The flattened array: index of the other axes, then the flat index *)
  Definition sector_step (s0 s1 : nat) (F : result (list nat -> nat -> C)) (N : nat) : result (list nat -> nat -> C) :=
    bind F (fun F => match sector_idx N s0 s1 with
    | None => Err ValueError
    | Some l =>
      let u := sector_u eigh theta phi N in
      let sub := sector_subset N s0 s1 in
      let cut := (Nat.ltb 0 (length sub) && Nat.ltb (length sub) N)%bool in
      let size := if cut then length sub else (N + 1)%nat in
      let M := if cut then (fun a b => u (nth a sub 0%nat) (nth b sub 0%nat)) else u in
      if Nat.eqb (length l) size then Ok (fun ix k => match look Nat.eqb l (seq 0 (length l)) k with
                                                      | Some b => csum (length l) (fun a => F ix (nth a l 0%nat) * M a b)
                                                      | None => F ix k end)
      else Err ValueError
    end).
  (** beamsplitter.py:369, the order of the axes *)
  Definition axes_order (r i j : nat) : list nat := filter (fun k => (negb (Nat.eqb k i) && negb (Nat.eqb k j))%bool) (seq 0 r) ++ [i; j].
  (** beamsplitter.py:358-382.  Simplification: complex entries; axes are non-negative integers *)
  Definition apply_BS_schwinger (i j : nat) (A : array (R := C)) : result (array (R := C)) :=
    let r := length (shape A) in
    bind (transposeR (axes_order r i j) A) (fun B =>
    let s0 := nth (r - 2) (shape B) 0%nat in let s1 := nth (r - 1) (shape B) 0%nat in
    bind (fold_left (sector_step s0 s1) (seq 0 (s0 + s1 - 1)) (Ok (fun ix k => at_ B (ix ++ [(k / s1)%nat; (k mod s1)%nat])))) (fun F =>
    transposeR (np_argsort (axes_order r i j)) (mkArray (firstn (r - 2) (shape B) ++ [s0; s1]) (fun k => F (firstn (r - 2) k) (nth (r - 2) k 0 * s1 + nth (r - 1) k 0)%nat)))).

  (** contract of numpy.linalg.eigh on -i theta iJy *)
  Hypothesis HE : forall N, let '(E, V) := eigh (S N) (fun i j => - Ci * RtoC theta * iJy phi N i j) in eig_ok (S N) (fun i j => - Ci * RtoC theta * iJy phi N i j) (fun k => RtoC (E k)) V.
  Notation B := (bs_entry theta phi).
  Lemma sector_u_is_gate : forall N n q, (n <= N)%nat -> (q <= N)%nat -> sector_u eigh theta phi N n q = B (N - n) n (N - q) q.
  Proof.
    intros N n q Hn Hq. unfold sector_u. specialize (HE N). destruct (eigh _ _) as [E V]. apply block_is_gate; [|exact Hn|exact Hq].
    destruct HE as [H1 [H2 H3]]. split; [|split; assumption]. intros i j Hi Hj.
    transitivity (Ci * csum (S N) (fun k => - Ci * RtoC theta * iJy phi N i k * V k j)).
    - rewrite csum_scal. apply (sumn_ext (K := CF)). intros k _. transitivity ((- Ci * Ci) * (RtoC theta * iJy phi N i k * V k j)); [|ceq; ring].
      replace (- Ci * Ci) with (RtoC 1) by (unfold Ci, Cmult, Copp, RtoC; simpl; f_equal; ring). ceq. ring.
    - rewrite H1 by assumption. ceq. ring.
  Qed.
  Variable d : nat.
  Hypothesis Hd : (0 < d)%nat.
  Lemma flat_inj : forall x y x' y', (y < d)%nat -> (y' < d)%nat -> (x * d + y = x' * d + y')%nat -> x = x' /\ y = y'.
  Proof. clear HE. intros x y x' y' H H' E. assert (x = x') by nia. subst. lia. Qed.
  Notation sumL := (lsum (K := CF)).
  Lemma sumL_filter : forall {X} (P : X -> bool) (l : list X) f, sumL (filter P l) f = sumL l (fun x => if P x then f x else RtoC 0).
  Proof. clear. intros X P l f. induction l as [|x l IH]; [reflexivity|]. cbn [filter]. rewrite (lsum_cons (K := CF) x l). destruct (P x); [rewrite (lsum_cons (K := CF)), IH; reflexivity|]. rewrite IH. cbn [kadd CF]. ceq. symmetry. apply Cplus_0_l. Qed.
  Lemma subset_sum : forall N (f : nat -> C), sumL (sector_subset N d d) f = csum d (fun p => if (Nat.leb p N && Nat.ltb (N - p) d)%bool then f p else RtoC 0).
  Proof.
    clear HE. intros N f. rewrite <- (lsum_seq0 (K := CF)). rewrite <- (sumL_filter (fun p => (Nat.leb p N && Nat.ltb (N - p) d)%bool) (seq 0 d)). apply (lsum_perm (K := CF)).
    apply NoDup_Permutation; [apply NoDup_filter, seq_NoDup|apply NoDup_filter, seq_NoDup|].
    intros x. unfold sector_subset. rewrite !filter_In, !in_seq, !andb_true_iff, !Nat.ltb_lt, Nat.leb_le. lia.
  Qed.
  (** the beam splitter on the last two axes *)
  Definition gated (F : nat -> nat -> C) (x y : nat) : C := csum d (fun p => csum d (fun q => B x y p q * F p q)).
  Lemma gated_sector : forall F x y, (x < d)%nat -> (y < d)%nat -> gated F x y = sumL (sector_subset (x + y) d d) (fun s => F s (x + y - s)%nat * B (x + y - s) s y x).
  Proof.
    intros F x y Hx Hy. rewrite subset_sum. unfold gated. apply (sumn_ext (K := CF)). intros p Hp.
    destruct (Nat.leb_spec p (x + y)) as [L|L]; [destruct (Nat.ltb_spec (x + y - p) d) as [L2|L2]|]; cbn [andb].
    - rewrite <- (sumn_delta_mul (K := CF) d (x + y - p) (fun q => F p q * B (x + y - p) p y x) L2). apply (sumn_ext (K := CF)). intros q Hq.
      destruct (Nat.eqb_spec q (x + y - p)) as [->|N].
      + unfold bs_entry. rewrite (bs_swap _ _ _ (x + y - p) p y x). ceq. ring.
      + assert (Z : B x y p q = RtoC 0) by (refine (bs_zero (K := CF) _ _ _ _ x y p q (le_n _) _); lia). rewrite Z. cbn. ceq. ring.
    - apply (sumn_0 (K := CF)). intros q Hq. assert (Z : B x y p q = RtoC 0) by (refine (bs_zero (K := CF) _ _ _ _ x y p q (le_n _) _); lia). rewrite Z. cbn. ceq. ring.
    - apply (sumn_0 (K := CF)). intros q Hq. assert (Z : B x y p q = RtoC 0) by (refine (bs_zero (K := CF) _ _ _ _ x y p q (le_n _) _); lia). rewrite Z. cbn. ceq. ring.
  Qed.
  Lemma step_ok : forall N F, (N < d + d - 1)%nat -> exists G, sector_step d d (Ok F) N = Ok G
    /\ forall ix x y, (x < d)%nat -> (y < d)%nat -> G ix (x * d + y)%nat = if Nat.eqb (x + y) N then gated (fun p q => F ix (p * d + q)%nat) x y else F ix (x * d + y)%nat.
  Proof.
    intros N F HN. unfold sector_step. cbn [bind].
    destruct (C25_sector_idx N d) as [l [El [ND Il]]].
    set (sub := sector_subset N d d).
    assert (L : l = map (fun i => (i * d + (N - i))%nat) sub).
    { unfold sector_idx in El. rewrite Nat.max_id in El. destruct (forallb _ _); [|discriminate]. injection El as <-.
      unfold sub, sector_subset. rewrite (filter_ext (fun i => Nat.ltb (Nat.max i (N - i)) d) (fun k => (Nat.ltb k d && Nat.ltb (N - k) d)%bool)).
      - apply map_ext. intros i. exact (BeamsplitterProps.ravel2 d d i (N - i)%nat).
      - intros i. destruct (Nat.ltb_spec i d), (Nat.ltb_spec (N - i) d), (Nat.ltb_spec (Nat.max i (N - i)) d); try reflexivity; lia. }
    rewrite El. assert (LL : length l = length sub) by (rewrite L; apply map_length).
    assert (SU : forall s, In s sub <-> (s <= N /\ s < d /\ N - s < d)%nat).
    { intros s. unfold sub, sector_subset. rewrite filter_In, in_seq, andb_true_iff, !Nat.ltb_lt. lia. }
    assert (FULL : (N < d)%nat -> sub = seq 0 (N + 1)).
    { intros H. unfold sub, sector_subset. clear - H. assert (X : forall l, (forall x, In x l -> (x <= N)%nat) -> filter (fun k => (Nat.ltb k d && Nat.ltb (N - k) d)%bool) l = l).
      { induction l as [|x l IH]; intros Hl; [reflexivity|]. cbn [filter]. assert (x <= N)%nat by (apply Hl; now left).
        destruct (Nat.ltb_spec x d); [|lia]. destruct (Nat.ltb_spec (N - x) d); [|lia]. cbn [andb]. f_equal. apply IH. intros; apply Hl; now right. }
      apply X. intros x Hx. apply in_seq in Hx. lia. }
    assert (CUT : (d <= N)%nat -> (0 < length sub < N)%nat).
    { intros H. assert (P : Permutation sub (seq (N + 1 - d) (d + d - 1 - N))).
      { apply NoDup_Permutation; [apply NoDup_filter, seq_NoDup|apply seq_NoDup|]. intros s. rewrite SU, in_seq. lia. }
      rewrite (Permutation_length P), seq_length. lia. }
    set (u := sector_u eigh theta phi N). set (cut := (Nat.ltb 0 (length sub) && Nat.ltb (length sub) N)%bool).
    assert (SIZE : length l = if cut then length sub else (N + 1)%nat).
    { unfold cut. destruct (Nat.lt_ge_cases N d) as [H|H].
      - rewrite LL, (FULL H), seq_length. destruct (Nat.ltb_spec (N + 1) N); [lia|]. now rewrite andb_false_r.
      - specialize (CUT H). destruct (Nat.ltb_spec 0 (length sub)); [|lia]. destruct (Nat.ltb_spec (length sub) N); [|lia]. exact LL. }
    assert (MM : forall a b, (a < length sub)%nat -> (b < length sub)%nat -> (if cut then (fun a b => u (nth a sub 0%nat) (nth b sub 0%nat)) else u) a b = u (nth a sub 0%nat) (nth b sub 0%nat)).
    { intros a b Ha Hb. destruct cut eqn:EC; [reflexivity|]. destruct (Nat.lt_ge_cases N d) as [H|H].
      - rewrite (FULL H) in *. rewrite seq_length in *. now rewrite !seq_nth by assumption.
      - exfalso. specialize (CUT H). unfold cut in EC. destruct (Nat.ltb_spec 0 (length sub)); [|lia]. destruct (Nat.ltb_spec (length sub) N); [discriminate|lia]. }
    rewrite SIZE, Nat.eqb_refl. eexists. split; [reflexivity|]. intros ix x y Hx Hy. rewrite <- SIZE.
    destruct (Nat.eqb_spec (x + y) N) as [E|E].
    - assert (I : In (x * d + y)%nat l) by (apply Il; exists x, y; repeat split; assumption).
      destruct (In_nth l (x * d + y)%nat 0%nat I) as [b [Hb Eb]]. rewrite <- Eb at 1.
      rewrite (look_nth Nat.eqb Nat.eqb_eq) by (try assumption; now rewrite seq_length). rewrite seq_nth by assumption. cbn [Nat.add].
      assert (Xb : nth b sub 0%nat = x).
      { rewrite L in Eb. rewrite nth_map_nat in Eb by lia.
        assert (Is : In (nth b sub 0%nat) sub) by (apply nth_In; lia). apply SU in Is. apply flat_inj in Eb; lia. }
      rewrite gated_sector by assumption. rewrite E. fold sub. rewrite LL. rewrite <- (lsum_nth (K := CF) sub). apply (sumn_ext (K := CF)). intros a Ha.
      rewrite MM by (try assumption; lia). rewrite Xb. assert (Is : In (nth a sub 0%nat) sub) by (apply nth_In; lia). apply SU in Is.
      unfold u. rewrite sector_u_is_gate by lia. replace (N - x)%nat with y by lia. f_equal. rewrite L.
      rewrite nth_map_nat by lia. reflexivity.
    - rewrite look_notin; [reflexivity|exact Nat.eqb_eq|]. intros I. apply Il in I. destruct I as [i [j [Hi [Hj [Eij EX]]]]]. apply flat_inj in EX; lia.
  Qed.
  Lemma loop_ok : forall K F0, (K <= d + d - 1)%nat -> exists G, fold_left (sector_step d d) (seq 0 K) (Ok F0) = Ok G
    /\ forall ix x y, (x < d)%nat -> (y < d)%nat -> G ix (x * d + y)%nat = if Nat.ltb (x + y) K then gated (fun p q => F0 ix (p * d + q)%nat) x y else F0 ix (x * d + y)%nat.
  Proof.
    induction K as [|K IH]; intros F0 HK; [exists F0; split; reflexivity|].
    destruct (IH F0 ltac:(lia)) as [F [E HF]]. rewrite seq_S, fold_left_app, E. cbn [fold_left Nat.add].
    destruct (step_ok K F ltac:(lia)) as [G [EG HG]]. exists G. split; [exact EG|]. intros ix x y Hx Hy. rewrite HG by assumption.
    destruct (Nat.eqb_spec (x + y) K) as [E1|E1].
    - destruct (Nat.ltb_spec (x + y) (S K)); [|lia]. rewrite !gated_sector by assumption. apply (lsum_ext (K := CF)). intros s Is.
      unfold sector_subset in Is. apply filter_In in Is. destruct Is as [Is1 Is2]. apply in_seq in Is1. apply andb_true_iff in Is2. rewrite !Nat.ltb_lt in Is2.
      rewrite HF by lia. destruct (Nat.ltb_spec (s + (x + y - s)) K); [lia|reflexivity].
    - rewrite HF by assumption. destruct (Nat.ltb_spec (x + y) K), (Nat.ltb_spec (x + y) (S K)); try reflexivity; lia.
  Qed.
End Model.

(** ** the axes *)
Section Axes.
  Variables r i j : nat.
  Hypothesis Hi : (i < r)%nat.
  Hypothesis Hj : (j < r)%nat.
  Hypothesis Hij : i <> j.
  Notation order := (axes_order r i j).
  Let others := filter (fun k => (negb (Nat.eqb k i) && negb (Nat.eqb k j))%bool) (seq 0 r).
  Lemma in_others : forall k, In k others <-> (k < r /\ k <> i /\ k <> j)%nat.
  Proof. intros k. unfold others. rewrite filter_In, in_seq, andb_true_iff, !negb_true_iff, !Nat.eqb_neq. lia. Qed.
  Lemma order_nodup : NoDup order.
  Proof.
    unfold axes_order. fold others. apply NoDup_app_intro; [apply NoDup_filter, seq_NoDup| |].
    - repeat constructor; cbn; intuition lia.
    - intros k H1 H2. apply in_others in H1. cbn in H2. lia.
  Qed.
  Lemma in_order : forall k, In k order <-> (k < r)%nat.
  Proof. intros k. unfold axes_order. fold others. rewrite in_app_iff, in_others. cbn. destruct (Nat.eq_dec k i), (Nat.eq_dec k j); lia. Qed.
  Lemma order_perm : Permutation order (seq 0 r).
  Proof. apply NoDup_Permutation; [exact order_nodup|apply seq_NoDup|]. intros k. rewrite in_order, in_seq. lia. Qed.
  Lemma order_length : length order = r.
  Proof. rewrite (Permutation_length order_perm). apply seq_length. Qed.
  Lemma others_length : length others = (r - 2)%nat.
  Proof. pose proof order_length as H. unfold axes_order in H. fold others in H. rewrite app_length in H. cbn in H. lia. Qed.
  Lemma seq_sorted : forall n m, StronglySorted (key_lt Z.of_nat) (seq m n).
  Proof. induction n as [|n IH]; intros m; cbn; constructor; [apply IH|]. apply Forall_forall. intros x Hx. apply in_seq in Hx. unfold key_lt. lia. Qed.
  Lemma order_argsort : np_argsort order = map (position order) (seq 0 r).
  Proof.
    unfold np_argsort. f_equal. apply (sorted_perm_unique Z.of_nat).
    - apply isort_strict. apply FinFun.Injective_map_NoDup; [intros x y; lia|exact order_nodup].
    - apply seq_sorted.
    - rewrite isort_perm. exact order_perm.
  Qed.
  Lemma position_nth : forall t, (t < r)%nat -> position order (nth t order 0%nat) = t.
  Proof. intros t Ht. unfold position. rewrite (look_nth Nat.eqb Nat.eqb_eq); [|exact order_nodup|now rewrite seq_length|now rewrite order_length]. rewrite seq_nth by now rewrite order_length. reflexivity. Qed.
  Lemma position_lt : forall v, (v < r)%nat -> (position order v < r)%nat /\ nth (position order v) order 0%nat = v.
  Proof. intros v Hv. apply in_order in Hv. destruct (In_nth _ _ 0%nat Hv) as [t [Ht E]]. rewrite order_length in Ht. rewrite <- E, position_nth by exact Ht. split; [exact Ht|reflexivity]. Qed.
  Lemma transpose_there : forall (A : array (R := C)), length (shape A) = r -> transposeR order A = Ok (Tensor.transpose order A).
  Proof.
    intros A L. unfold transposeR. rewrite L, order_length, Nat.eqb_refl. replace (forallb _ _) with true; [reflexivity|]. symmetry. apply forallb_forall. intros q Hq.
    apply existsb_exists. exists q. split; [|apply Nat.eqb_refl]. apply in_order. apply in_seq in Hq. lia.
  Qed.
  Lemma transpose_back : forall (A : array (R := C)), length (shape A) = r -> transposeR (np_argsort order) A = Ok (Tensor.transpose (np_argsort order) A).
  Proof.
    intros A L. rewrite order_argsort. unfold transposeR. rewrite L, map_length, seq_length, Nat.eqb_refl. replace (forallb _ _) with true; [reflexivity|]. symmetry. apply forallb_forall. intros q Hq.
    apply in_seq in Hq. apply existsb_exists. exists q. split; [|apply Nat.eqb_refl]. apply in_map_iff. exists (nth q order 0%nat). split; [apply position_nth; lia|].
    apply in_seq. split; [lia|]. apply in_order. apply nth_In. rewrite order_length. lia.
  Qed.
  (** reading the transposed array back *)
  Lemma back_index : forall k, length k = r ->
    map (fun q => match look Nat.eqb (np_argsort order) k q with Some v => v | None => 0%nat end) (seq 0 r) = map (fun v => nth v k 0%nat) order.
  Proof.
    intros k Lk. rewrite order_argsort. apply (nth_ext _ _ 0%nat 0%nat); [now rewrite !map_length, seq_length, order_length|].
    intros t Ht. rewrite map_length, seq_length in Ht. rewrite !nth_map_nat by (rewrite ?seq_length, ?order_length; exact Ht). rewrite seq_nth by exact Ht. cbn [Nat.add].
    set (v := nth t order 0%nat). assert (Hv : (v < r)%nat) by (apply in_order, nth_In; now rewrite order_length).
    replace t with (nth v (map (position order) (seq 0 r)) 0%nat) at 1 by (rewrite nth_map_nat by (rewrite seq_length; exact Hv); rewrite seq_nth by exact Hv; unfold v; now apply position_nth).
    rewrite (look_nth Nat.eqb Nat.eqb_eq); [reflexivity| | |]; rewrite ?map_length, ?seq_length; [|now rewrite Lk|exact Hv].
    assert (X : forall l, NoDup l -> (forall x, In x l -> (x < r)%nat) -> NoDup (map (position order) l)).
    { induction l as [|x l IH]; intros ND B; cbn; constructor; inversion ND as [|? ? N1 N2].
      - intros I. apply in_map_iff in I. destruct I as [y [E I]]. destruct (position_lt x (B x (or_introl eq_refl))) as [_ E1]. destruct (position_lt y (B y (or_intror I))) as [_ E2].
        rewrite E in E2. rewrite E1 in E2. apply N1. rewrite E2. exact I.
      - apply IH; [exact N2|]. intros y I. apply B. now right. }
    apply X; [apply seq_NoDup|]. intros x I. apply in_seq in I. lia.
  Qed.
  Lemma there_index : forall k p q, length k = r ->
    map (fun a => match look Nat.eqb order (map (fun v => nth v k 0%nat) others ++ [p; q]) a with Some v => v | None => 0%nat end) (seq 0 r) = upd i p (upd j q k).
  Proof.
    intros k p q Lk. set (g := fun v => if Nat.eqb v i then p else if Nat.eqb v j then q else nth v k 0%nat).
    replace (map (fun v => nth v k 0%nat) others ++ [p; q]) with (map g order).
    2:{ unfold axes_order. fold others. rewrite map_app. f_equal.
        - apply map_ext_in. intros v Hv. apply in_others in Hv. unfold g. destruct (Nat.eqb_spec v i); [lia|]. destruct (Nat.eqb_spec v j); [lia|reflexivity].
        - cbn. unfold g. rewrite !Nat.eqb_refl. destruct (Nat.eqb_spec j i); [lia|reflexivity]. }
    apply at_ext; [now rewrite map_length, seq_length, !upd_length|]. intros v Hv. rewrite map_length, seq_length in Hv.
    unfold at' at 1. rewrite nth_map_nat by now rewrite seq_length. rewrite seq_nth by exact Hv. cbn [Nat.add]. rewrite (look_map_val Nat.eqb Nat.eqb_eq) by (now apply in_order).
    rewrite !at_upd by (rewrite ?upd_length; lia). unfold g, at'. reflexivity.
  Qed.
  Lemma shape_back : forall sh, length sh = r -> map (fun p => nth p (map (fun p => nth p sh 0%nat) order) 0%nat) (np_argsort order) = sh.
  Proof.
    intros sh L. rewrite order_argsort, map_map. apply (nth_ext _ _ 0%nat 0%nat); [now rewrite map_length, seq_length|]. intros v Hv. rewrite map_length, seq_length in Hv.
    rewrite nth_map_nat by now rewrite seq_length. rewrite seq_nth by exact Hv. cbn [Nat.add]. destruct (position_lt v Hv) as [H1 H2]. rewrite nth_map_nat by now rewrite order_length. now rewrite H2.
  Qed.
End Axes.

(** C68: applied to two axes of equal size d, the result is the contraction of the array with the Fock matrix of the gate on these axes, the others staying put *)
Theorem C68_apply : forall eigh theta phi,
  (forall N, let '(E, V) := eigh (S N) (fun i j => - Ci * RtoC theta * iJy phi N i j) in eig_ok (S N) (fun i j => - Ci * RtoC theta * iJy phi N i j) (fun k => RtoC (E k)) V) ->
  forall i j d (A : array (R := C)), (i < length (shape A))%nat -> (j < length (shape A))%nat -> i <> j -> (0 < d)%nat -> nth i (shape A) 0%nat = d -> nth j (shape A) 0%nat = d ->
  exists A', apply_BS_schwinger eigh theta phi i j A = Ok A' /\ shape A' = shape A
    /\ forall k, Forall2 lt k (shape A) -> at_ A' k = csum d (fun p => csum d (fun q => math_beamsplitter theta phi d d d d (nth i k 0%nat) (nth j k 0%nat) p q * at_ A (upd i p (upd j q k)))).
Proof.
  intros eigh theta phi HE i j d A Hi Hj Hij Hd Di Dj. set (r := length (shape A)) in *. unfold apply_BS_schwinger. fold r.
  rewrite (transpose_there r i j Hi Hj Hij A eq_refl). cbn [bind]. cbn [Tensor.transpose shape].
  pose proof (order_length r i j Hi Hj Hij) as LO. pose proof (others_length r i j Hi Hj Hij) as LT. set (others := filter _ (seq 0 r)) in LT.
  assert (SH : map (fun p => nth p (shape A) 0%nat) (axes_order r i j) = map (fun p => nth p (shape A) 0%nat) others ++ [d; d]).
  { unfold axes_order. fold others. rewrite map_app. cbn [map]. now rewrite Di, Dj. }
  assert (S0 : nth (r - 2) (map (fun p => nth p (shape A) 0%nat) (axes_order r i j)) 0%nat = d).
  { rewrite SH, app_nth2; rewrite map_length, LT; [|lia]. now rewrite Nat.sub_diag. }
  assert (S1 : nth (r - 1) (map (fun p => nth p (shape A) 0%nat) (axes_order r i j)) 0%nat = d).
  { rewrite SH, app_nth2; rewrite map_length, LT; [|lia]. replace (r - 1 - (r - 2))%nat with 1%nat by lia. reflexivity. }
  rewrite S0, S1.
  match goal with |- context [fold_left _ _ (Ok ?F0)] => set (F := F0); destruct (loop_ok eigh theta phi HE d Hd (d + d - 1) F (le_n _)) as [G [EG HG]] end.
  rewrite EG. cbn [bind].
  assert (FS : firstn (r - 2) (map (fun p => nth p (shape A) 0%nat) (axes_order r i j)) ++ [d; d] = map (fun p => nth p (shape A) 0%nat) (axes_order r i j)).
  { rewrite SH. f_equal. rewrite firstn_app, map_length, LT, Nat.sub_diag. cbn [firstn]. rewrite app_nil_r. apply firstn_all2. rewrite map_length. lia. }
  rewrite FS. rewrite (transpose_back r i j Hi Hj Hij); [|cbn [shape]; now rewrite map_length]. eexists. split; [reflexivity|]. cbn [Tensor.transpose shape at_]. split.
  - apply (shape_back r i j Hi Hj Hij). reflexivity.
  - intros k Hk. assert (Lk : length k = r) by (unfold r; clear - Hk; induction Hk; cbn; congruence). rewrite map_length, LO.
    rewrite (back_index r i j Hi Hj Hij k Lk). unfold axes_order. fold others. rewrite map_app. cbn [map].
    assert (ki : (nth i k 0 < d)%nat /\ (nth j k 0 < d)%nat).
    { assert (X : forall k sh, Forall2 lt k sh -> forall a, (a < length sh)%nat -> (nth a k 0 < nth a sh 0)%nat).
      { clear. induction 1 as [|x y k sh H Hk IH]; intros a Ha; [cbn in Ha; lia|]. destruct a; cbn in *; [exact H|]. apply IH. lia. }
      rewrite <- Di at 1. rewrite <- Dj at 1. split; apply X; assumption. }
    destruct ki as [ki kj].
    rewrite firstn_app, map_length, LT, Nat.sub_diag. cbn [firstn]. rewrite app_nil_r, firstn_all2 by (rewrite map_length; lia).
    rewrite !app_nth2; rewrite map_length, LT; [|lia|lia]. rewrite Nat.sub_diag. replace (r - 1 - (r - 2))%nat with 1%nat by lia. cbn [nth].
    rewrite HG by assumption. destruct (Nat.ltb_spec (nth i k 0 + nth j k 0) (d + d - 1)); [|lia]. unfold gated. apply (sumn_ext (K := CF)). intros p Hp. apply (sumn_ext (K := CF)). intros q Hq.
    rewrite math_bs_right by (repeat split; assumption). f_equal. unfold F. cbn [at_ shape].
    replace ((p * d + q) / d)%nat with p by (rewrite Nat.div_add_l, Nat.div_small; lia).
    replace ((p * d + q) mod d)%nat with q by (rewrite Nat.add_comm, Nat.mod_add, Nat.mod_small; lia).
    exact (f_equal (at_ A) (there_index r i j Hi Hj Hij k p q Lk)).
Qed.

(** the contract of eigh can be met *)
Theorem C68_eigh_exists : forall theta phi N, eig_ok (S N) (fun i j => - Ci * RtoC theta * iJy phi N i j) (fun k => RtoC (- theta * (INR (N - k) - INR k))) (schwinger_V phi N).
Proof.
  intros theta phi N. destruct (C25_eig_exists theta phi N) as [H1 H2]. split; [|exact H2]. intros i j Hi Hj.
  transitivity (- Ci * csum (S N) (fun k => RtoC theta * iJy phi N i k * schwinger_V phi N k j)); [rewrite csum_scal; apply (sumn_ext (K := CF)); intros k _; ceq; ring|].
  rewrite H1 by assumption. unfold schwinger_E. rewrite RtoC_mult, RtoC_opp, RtoC_minus.
  transitivity (Ci * Ci * (schwinger_V phi N i j * (RtoC theta * (RtoC (INR (N - j)) - RtoC (INR j))))); [ceq; ring|].
  replace (Ci * Ci) with (- RtoC 1) by (unfold Ci, Cmult, Copp, RtoC; simpl; f_equal; ring). ceq. ring.
Qed.
(** refuted for axes of different size: the call always raises *)
Lemma step_err : forall eigh theta phi s0 s1 l F, (exists N, In N l /\ sector_idx N s0 s1 = None) -> (forall e, F = Err e -> e = ValueError) -> fold_left (sector_step eigh theta phi s0 s1) l F = Err ValueError.
Proof.
  intros eigh theta phi s0 s1. assert (E : forall l, fold_left (sector_step eigh theta phi s0 s1) l (Err ValueError) = Err ValueError) by (induction l as [|N l IH]; [reflexivity|exact IH]).
  induction l as [|N l IH]; intros F [M [HM HN]] HF; [destruct HM|]. cbn [fold_left]. destruct F as [F|e]; [|cbn [sector_step bind]; rewrite (HF e eq_refl); apply E].
  destruct HM as [->|HM].
  - unfold sector_step at 2. cbn [bind]. rewrite HN. apply E.
  - apply IH; [now exists M|]. intros e. unfold sector_step. cbn [bind]. destruct (sector_idx N s0 s1) as [l'|]; [|congruence]. destruct (Nat.eqb _ _); congruence.
Qed.
Theorem C68_refuted_unequal : forall eigh theta phi i j (A : array (R := C)), (i < length (shape A))%nat -> (j < length (shape A))%nat -> i <> j ->
  (0 < nth i (shape A) 0%nat)%nat -> (0 < nth j (shape A) 0%nat)%nat -> nth i (shape A) 0%nat <> nth j (shape A) 0%nat -> apply_BS_schwinger eigh theta phi i j A = Err ValueError.
Proof.
  intros eigh theta phi i j A Hi Hj Hij P0 P1 NE. set (r := length (shape A)) in *. unfold apply_BS_schwinger. fold r.
  rewrite (transpose_there r i j Hi Hj Hij A eq_refl). cbn [bind]. cbn [Tensor.transpose shape].
  pose proof (others_length r i j Hi Hj Hij) as LT. set (others := filter _ (seq 0 r)) in LT.
  set (s0 := nth i (shape A) 0%nat) in *. set (s1 := nth j (shape A) 0%nat) in *.
  assert (SH : map (fun p => nth p (shape A) 0%nat) (axes_order r i j) = map (fun p => nth p (shape A) 0%nat) others ++ [s0; s1]) by (unfold axes_order; fold others; now rewrite map_app).
  rewrite SH. rewrite !app_nth2; rewrite map_length, LT; [|lia|lia]. rewrite Nat.sub_diag. replace (r - 1 - (r - 2))%nat with 1%nat by lia. cbn [nth].
  rewrite (step_err eigh theta phi s0 s1); [reflexivity| |congruence].
  exists (Nat.max s0 s1 - 1)%nat. split; [apply in_seq; lia|]. unfold sector_idx. replace (forallb _ _) with false; [reflexivity|]. symmetry. apply not_true_iff_false. intros X. rewrite forallb_forall in X.
  destruct (Nat.lt_ge_cases s0 s1) as [L|L].
  - specialize (X (Nat.max s0 s1 - 1)%nat). rewrite andb_true_iff, !Nat.ltb_lt in X. assert (s1 - 1 < s0)%nat; [|lia].
    replace (Nat.max s0 s1 - 1)%nat with (s1 - 1)%nat in X by lia. apply X. apply filter_In. split; [apply in_seq; lia|]. apply Nat.ltb_lt. lia.
  - specialize (X 0%nat). rewrite andb_true_iff, !Nat.ltb_lt in X. assert (Nat.max s0 s1 - 1 - 0 < s1)%nat; [|lia]. apply X. apply filter_In. split; [apply in_seq; lia|]. apply Nat.ltb_lt. lia.
Qed.
(** C68: the Fock matrix of the beam splitter preserves inner products of states whose total photon number is below the cutoff *)
Lemma csum_cut : forall a b (f : nat -> C), (a <= b)%nat -> (forall i, (a <= i)%nat -> f i = RtoC 0) -> csum b f = csum a f.
Proof.
  intros a b f L H. replace b with (a + (b - a))%nat by lia. rewrite (sumn_plus (K := CF)). rewrite (sumn_0 (K := CF) (b - a)); [cbn [kadd k0 CF]; ceq; apply Cplus_0_r|].
  intros i _. apply H. lia.
Qed.
Theorem C68_isometry : forall theta phi d p q p' q', (p + q < d)%nat -> (p' + q' < d)%nat ->
  csum d (fun m => csum d (fun n => Cconj (math_beamsplitter theta phi d d d d m n p q) * math_beamsplitter theta phi d d d d m n p' q')) = if (Nat.eqb p p' && Nat.eqb q q')%bool then RtoC 1 else RtoC 0.
Proof.
  intros theta phi d p q p' q' H H'.
  transitivity (csum d (fun n => csum d (fun m => Cconj (bs_entry theta phi m n p q) * bs_entry theta phi m n p' q'))).
  { rewrite (sumn_swap (K := CF)). apply (sumn_ext (K := CF)). intros n Hn. apply (sumn_ext (K := CF)). intros m Hm. rewrite !math_bs_right by (repeat split; lia). reflexivity. }
  assert (Z : forall m n p q, (m + n <> p + q)%nat -> bs_entry theta phi m n p q = RtoC 0) by (intros m n x y E; exact (bs_zero (K := CF) _ _ _ _ m n x y (le_n _) E)).
  assert (CZ : Cconj (RtoC 0) = RtoC 0) by (unfold Cconj, RtoC; simpl; f_equal; ring).
  destruct (Nat.eq_dec (p + q) (p' + q')) as [E|E].
  - set (N := (p + q)%nat) in *. transitivity (csum (S N) (fun n => Cconj (bs_entry theta phi (N - n) n (N - q) q) * bs_entry theta phi (N - n) n (N - q') q')).
    + rewrite (csum_cut (S N) d); [|lia|].
      * apply (sumn_ext (K := CF)). intros n Hn. replace (N - q)%nat with p by (unfold N; lia). replace (N - q')%nat with p' by lia.
        rewrite <- (sumn_delta_mul (K := CF) d (N - n) (fun m => Cconj (bs_entry theta phi m n p q) * bs_entry theta phi m n p' q')) by lia. apply (sumn_ext (K := CF)). intros m Hm.
        destruct (Nat.eqb_spec m (N - n)); [reflexivity|]. rewrite (Z m n p q) by (fold N; lia). rewrite CZ. cbn [k0 CF]. ceq. ring.
      * intros n Hn. apply (sumn_0 (K := CF)). intros m Hm. rewrite (Z m n p q) by (fold N; lia). rewrite CZ. cbn [k0 CF]. ceq. ring.
    + rewrite columns by lia. destruct (Nat.eqb_spec q q') as [->|]; [destruct (Nat.eqb_spec p p'); [reflexivity|lia]|now rewrite andb_false_r].
  - rewrite (sumn_0 (K := CF)).
    + destruct (Nat.eqb_spec p p') as [->|]; [destruct (Nat.eqb_spec q q') as [->|]; [lia|]|]; reflexivity.
    + intros n _. apply (sumn_0 (K := CF)). intros m _. destruct (Nat.eq_dec (m + n) (p + q)) as [E2|E2]; [rewrite (Z m n p' q') by lia|rewrite (Z m n p q) by lia; rewrite CZ]; cbn [k0 CF]; ceq; ring.
Qed.
(** concrete: two photons meeting on a balanced beam splitter (array of shape (3,3), the state |1,1>) never leave in different modes *)
Theorem C68_example : forall eigh phi,
  (forall N, let '(E, V) := eigh (S N) (fun i j => - Ci * RtoC (PI / 4) * iJy phi N i j) in eig_ok (S N) (fun i j => - Ci * RtoC (PI / 4) * iJy phi N i j) (fun k => RtoC (E k)) V) ->
  exists A', apply_BS_schwinger eigh (PI / 4) phi 0 1 (mkArray [3%nat; 3%nat] (fun k => if (Nat.eqb (nth 0 k 0) 1 && Nat.eqb (nth 1 k 0) 1)%bool then RtoC 1 else RtoC 0)) = Ok A'
    /\ at_ A' [1%nat; 1%nat] = RtoC 0.
Proof.
  intros eigh phi HE. destruct (C68_apply eigh (PI / 4) phi HE 0%nat 1%nat 3%nat (mkArray [3%nat; 3%nat] (fun k => if (Nat.eqb (nth 0 k 0) 1 && Nat.eqb (nth 1 k 0) 1)%bool then RtoC 1 else RtoC 0))) as [A' [E [_ H]]];
    cbn [shape length nth]; try lia.
  exists A'. split; [exact E|]. rewrite H by (cbn [shape]; repeat constructor). cbn [sumn upd nth at_ Nat.eqb andb].
  assert (V : bs_entry (PI / 4) phi 1 1 1 1 = RtoC 0).
  { apply (csq_cancel 0). rewrite up_m. cbn [pred]. assert (X0 : bs_entry (PI / 4) phi 0 1 0 1 = RtoC (cos (PI / 4))).
    { apply (csq_cancel 0). rewrite up_n. cbn [pred]. rewrite csq_0. assert (bs_entry (PI / 4) phi 0 0 0 0 = RtoC 1) as -> by (unfold bs_entry; now rewrite bs_vac). ring. }
    assert (X1 : bs_entry (PI / 4) phi 0 1 1 0 = RtoC (sin (PI / 4)) * cis phi).
    { apply (csq_cancel 0). rewrite up_n. cbn [pred]. rewrite csq_0. assert (bs_entry (PI / 4) phi 0 0 0 0 = RtoC 1) as -> by (unfold bs_entry; now rewrite bs_vac). ring. }
    rewrite X0, X1, sin_PI4, cos_PI4. set (s := RtoC (1 / sqrt 2)). pose proof (cis_mul_conj phi) as PC.
    transitivity (csq 1 * s * s * (RtoC 1 - cis phi * cis (- phi))); [ceq; ring|rewrite PC; ceq; ring]. }
  rewrite <- (math_bs_right (PI / 4) phi 3 3 3 3 1 1 1 1) in V by (repeat split; lia). rewrite V. cbn [kadd k0 CF]. ceq. ring.
Qed.
