(** C64: PNR probabilities (diagonal of the Fock representation) by the compact recursion.
    Model of mrmustard/math/lattice/strategies/compactFock/diagonal_amps.py and helperFunctions.py, and of the entry points
    BackendNumpy.hermite_renormalized_diagonal (math/backend_numpy.py:423-432) and hermite_multidimensional_diagonal (compactFock/inputValidation.py:62-80).
    Exact arithmetic; one batch element (the batch axis of B is last and every operation is element-wise in it). *)
From Coq Require Import List Arith Bool ZArith ZifyNat Lia Field Ring.
From Verif Require Import Base RootField Tensor Series Vanilla VanillaProps FastDiagonal FastDiagonalProps ComplexRF.
Import ListNotations.
Open Scope nat_scope.

(** the cells of the five arrays *)
Inductive cell := C0 (p : list nat) | C2 (d : nat) (p : list nat) | C1010 (d e : nat) (p : list nat) | C1001 (d e : nat) (p : list nat) | C1 (i : nat) (p : list nat).
Definition cell_eq (x y : cell) : {x = y} + {x <> y}.
Proof. decide equality; try apply Nat.eq_dec; apply (list_eq_dec Nat.eq_dec). Defined.
(** np.ndindex(cutoffs) *)
Definition ndindex (cutoffs : list nat) : list (list nat) := product (map (seq 0) cutoffs).
(** p is an index of an array of shape cutoffs *)
Fixpoint within (p cutoffs : list nat) : bool :=
  match p, cutoffs with [], [] => true | x :: p', c :: c' => Nat.ltb x c && within p' c' | _, _ => false end.
(** diagonal_amps.py:214-223: is the cell inside the arrays allocated for M modes? *)
Definition in_bounds (M : nat) (cutoffs : list nat) (x : cell) : bool :=
  match x with
  | C0 p => within p cutoffs
  | C2 d p => Nat.ltb d M && within p cutoffs
  | C1 i p => Nat.ltb i (2 * M) && within p cutoffs
  | C1010 d e p | C1001 d e p => if Nat.eqb M 1 then Nat.ltb d 1 && Nat.ltb e 1 && within p [1] else Nat.ltb d M && Nat.ltb e (M - 1) && within p cutoffs
  end.

(** ** the traversal, common to diagonal_amps.py, diagonal_grad.py, singleLeftoverMode_amps.py and singleLeftoverMode_grad.py.
    V: what a cell holds (an amplitude; its derivatives; a block of amplitudes; a block of derivatives).
    aux: what is read at a cell (in the gradients also the amplitude computed before).
    F pivot g gin i: the value written at pivot + e_i, from the values g at the pivot and gin j at pivot - e_j *)
Section Traversal.
  Variables V W : Type.
  Variable M : nat.
  Variable cutoffs : list nat.
  (** what an unchecked read outside an array returns; the entries of G_in = np.zeros(...) *)
  Variables (junk : V) (z0 : W).
  Variable aux : cell -> V -> W.
  Variable F : list nat -> W -> (nat -> W) -> nat -> V.
  (** contents of the arrays; [bad] records a write outside an array *)
  Record state := St { mem : cell -> V; bad : bool }.
  Definition read (s : state) (x : cell) : W := aux x (if in_bounds M cutoffs x then mem s x else junk).
  Definition write (x : cell) (v : V) (s : state) : state :=
    if in_bounds M cutoffs x then St (fun y => if cell_eq y x then v else mem s y) (bad s) else St (mem s) true.
  Definition writes (l : list (cell * V)) (s : state) : state := fold_left (fun s w => write (fst w) (snd w) s) l s.
  (** diagonal_amps.py:19-93, diagonal_grad.py:45-201, singleLeftoverMode_amps.py:100-220, singleLeftoverMode_grad.py:266-473 *)
  Definition use_offDiag_pivot (p : list nat) (d : nat) (s : state) : state :=
    let pivot := inc (2 * d) (dup p) in
    let gin := fun j =>
      if Nat.eqb j (2 * d) then read s (C0 p)
      else if Nat.eqb j (2 * d + 1) then (if Nat.ltb 0 (at' d p) then read s (C2 d (dec d p)) else z0)
      else let i := (j / 2)%nat in
        if (Nat.ltb d i && Nat.ltb 0 (at' i p))%bool
        then read s ((if Nat.even j then C1001 else C1010) d (i - d - 1)%nat (dec i p)) else z0 in
    let e := F pivot (read s (C1 (2 * d)%nat p)) gin in
    writes ([(C0 (inc d p), e (2 * d + 1)%nat)]
            ++ (if Nat.ltb (at' d p + 2) (at' d cutoffs) then [(C2 d p, e (2 * d)%nat)] else [])
            ++ flat_map (fun i => if Nat.ltb (at' i p + 1) (at' i cutoffs)
                                  then [(C1010 d (i - d - 1)%nat p, e (2 * i)%nat); (C1001 d (i - d - 1)%nat p, e (2 * i + 1)%nat)] else [])
                        (seq (d + 1)%nat (M - (d + 1))%nat)) s.
  (** diagonal_amps.py:96-140, diagonal_grad.py:205-261, singleLeftoverMode_amps.py:224-285, singleLeftoverMode_grad.py:477-568 *)
  Definition use_diag_pivot (p : list nat) (s : state) : state :=
    let gin := fun i => let i2 := (i / 2)%nat in
      if Nat.ltb 0 (at' i2 p) then read s (C1 (i + 1 - 2 * (i mod 2))%nat (dec i2 p)) else z0 in
    let e := F (dup p) (read s (C0 p)) gin in
    writes (flat_map (fun i => let i2 := (i / 2)%nat in
      if (Nat.ltb (at' i2 p + 1) (at' i2 cutoffs) && (negb (Nat.eqb i 1) || Nat.ltb (at' 0 p + 2) (at' 0 cutoffs)))%bool then [(C1 i p, e i)] else [])
      (seq 0 (2 * M))) s.
  (** diagonal_amps.py:176-195, diagonal_grad.py:306-356, singleLeftoverMode_amps.py:338-366: one value of params *)
  Definition visit (s : state) (p : list nat) : state :=
    let s := if (Nat.eqb (at' 0 cutoffs) 1 || Nat.ltb (at' 0 p) (at' 0 cutoffs - 1))%bool then use_diag_pivot p s else s in
    fold_left (fun s d => if (forallb (Nat.eqb 0) (firstn d p) && Nat.ltb (at' d p) (at' d cutoffs - 1))%bool then use_offDiag_pivot p d s else s) (seq 0 M) s.
  (** helperFunctions.py:31-46 and diagonal_amps.py:173-175: the order of the params *)
  Definition order : list (list nat) :=
    flat_map (fun w => filter (fun p => Nat.eqb (list_sum p) w) (ndindex cutoffs)) (seq 0 (list_sum cutoffs)).
  Definition traverse (s : state) : state := fold_left visit order s.
End Traversal.
Arguments St {V}. Arguments mem {V}. Arguments bad {V}. Arguments writes {V}. Arguments write {V}.

Section Model.
  Context {K : rootfield}.
  Open Scope rf_scope.
  Variable A : nat -> nat -> K.
  Variable B : nat -> K.
  Variable M : nat.
  Variable cutoffs : list nat.
  Variable junk : K.
  (** helperFunctions.py:11 *)
  Definition SQRT (n : nat) : K := if Nat.ltb n 1000 then sq n else junk.
  (** (GB[i] + A[i] @ (K_l * G_in)) / K_i[i], diagonal_amps.py:51-90, 113-139 *)
  Definition entry (pivot : list nat) (g : K) (gin : nat -> K) (i : nat) : K :=
    (g * B i + sumn (2 * M) (fun j => A i j * (SQRT (at' j pivot) * gin j))) / SQRT (at' i pivot + 1).
  (** diagonal_amps.py:143-196 *)
  Definition diagonal_amps_numba : state K -> state K := traverse K K M cutoffs junk k0 (fun _ v => v) entry.
  (** diagonal_amps.py:199-249; arr0[(0,)*M] = G0 raises IndexError when a cutoff is 0 *)
  Definition diagonal_amps (G0 : K) : result (state K) :=
    if forallb (Nat.ltb 0) cutoffs then Ok (diagonal_amps_numba (St (fun x => if cell_eq x (C0 (zeros M)) then G0 else k0) false)) else Err IndexError.
End Model.

Section Entry.
  Context {K : rootfield}.
  (** backend_numpy.py:367-375 reorder_AB_bargmann: variable i of the interleaved order *)
  Definition interleave (M : nat) (i : nat) : nat := if Nat.even i then i / 2 else i / 2 + M.
  (** backend_numpy.py:423-432, inputValidation.py:62-80; A of n rows, B of nB entries.  The tests of A (square, no NaN, symmetric) are the
      argument [valid]; arr0 as a function of the photon numbers *)
  Definition hermite_renormalized_diagonal (junk : K) (valid reorderedAB : bool) (n nB : nat) (A : nat -> nat -> K) (B : nat -> K) (c : K) (cutoffs : list nat) : result (state K) :=
    let M := n / 2 in
    if (reorderedAB && Nat.odd n)%bool then Err ValueError
    else
      let A' := if reorderedAB then fun i j => A (interleave M i) (interleave M j) else A in
      let B' := if reorderedAB then fun i => B (interleave M i) else B in
      if negb valid then Err ValueError
      else if negb (Nat.eqb n nB) then Err ValueError
      else if negb (Nat.eqb M (length cutoffs)) then Err ValueError
      else diagonal_amps A' B' (length cutoffs) cutoffs junk c.
End Entry.

Local Opaque Nat.div Nat.modulo.
Lemma at_dup_half : forall p j, at' j (dup p) = at' (j / 2) p.
Proof.
  intros p j. destruct (at_dup p (j / 2)) as [E O]. destruct (Nat.even j) eqn:H.
  - rewrite <- E. f_equal. apply Nat.even_spec in H. destruct H as [h ->]. lia.
  - rewrite <- O. f_equal. assert (H' : Nat.odd j = true) by (unfold Nat.odd; now rewrite H). apply Nat.odd_spec in H'. destruct H' as [h ->]. lia.
Qed.
Lemma within_spec : forall cutoffs p, within p cutoffs = true <-> length p = length cutoffs /\ forall i, i < length p -> at' i p < at' i cutoffs.
Proof.
  unfold at'. induction cutoffs as [|c cs IH]; intros [|x p]; simpl.
  - split; [split; [reflexivity|intros; lia]|reflexivity].
  - split; [discriminate|intros [H _]; discriminate].
  - split; [discriminate|intros [H _]; discriminate].
  - rewrite andb_true_iff, Nat.ltb_lt, IH. split.
    + intros [H [L F]]. split; [lia|]. intros [|i] Hi; [exact H|]. apply F. lia.
    + intros [L F]. split; [apply (F 0); lia|]. split; [lia|]. intros i Hi. apply (F (S i)). lia.
Qed.
Lemma in_ndindex : forall cutoffs p, In p (ndindex cutoffs) <-> within p cutoffs = true.
Proof.
  intros cutoffs p. unfold ndindex. rewrite in_product. revert p. induction cutoffs as [|c cs IH]; intros [|x p]; simpl.
  - split; [reflexivity|constructor].
  - split; [intros H; inversion H|discriminate].
  - split; [intros H; inversion H|discriminate].
  - rewrite andb_true_iff, Nat.ltb_lt, <- IH. split.
    + intros H. inversion H; subst. match goal with H : In x _ |- _ => apply in_seq in H end. split; [lia|assumption].
    + intros [H F]. constructor; [apply in_seq; lia|exact F].
Qed.
Ltac dlen := repeat (rewrite inc_length || rewrite dec_length || rewrite dup_length).
Ltac didx := apply at_ext; [dlen; lia|]; intros x Hx; repeat rewrite inc_length in Hx; repeat rewrite dec_length in Hx; repeat rewrite dup_length in Hx;
  repeat first [rewrite at_inc by (dlen; lia) | rewrite at_dec by (dlen; lia) | rewrite at_dup_half];
  repeat match goal with |- context [Nat.eqb ?a ?b] => destruct (Nat.eqb_spec a b) end; try (exfalso; lia); try lia; repeat match goal with |- context [at' ?a _] => progress (replace a with (x / 2) by lia) end; try lia; repeat match goal with N : at' ?a _ <> 0 |- _ => progress (replace a with (x / 2) in N by lia) end; try lia.

(** the multi-index of a cell *)
Definition ix (x : cell) : list nat :=
  match x with
  | C0 p => dup p
  | C1 i p => inc i (dup p)
  | C2 d p => inc (2 * d)%nat (inc (2 * d)%nat (dup p))
  | C1010 d e p => inc (2 * (d + e + 1))%nat (inc (2 * d)%nat (dup p))
  | C1001 d e p => inc (2 * (d + e + 1) + 1)%nat (inc (2 * d)%nat (dup p))
  end.
Definition zero_before (d : nat) (p : list nat) : Prop := forall j, (j < d)%nat -> at' j p = 0%nat.
(** the cells that are right once the params in D have been visited *)
Definition want (M : nat) (cutoffs : list nat) (D : list nat -> Prop) (x : cell) : Prop :=
  match x with
  | C0 p => within p cutoffs = true /\ (p = zeros M \/ exists d, (d < M)%nat /\ zero_before d p /\ at' d p <> 0%nat /\ D (dec d p))
  | C1 i p => within p cutoffs = true /\ D p /\ (i < 2 * M)%nat /\ (at' 0 cutoffs = 1 \/ at' 0 p < at' 0 cutoffs - 1)%nat /\ (at' (i / 2) p + 1 < at' (i / 2) cutoffs)%nat /\ (i <> 1 \/ at' 0 p + 2 < at' 0 cutoffs)%nat
  | C2 d p => within p cutoffs = true /\ D p /\ (d < M)%nat /\ zero_before d p /\ (at' d p + 2 < at' d cutoffs)%nat
  | C1010 d e p | C1001 d e p => within p cutoffs = true /\ D p /\ (d + e + 1 < M)%nat /\ zero_before d p /\ (at' d p + 1 < at' d cutoffs)%nat /\ (at' (d + e + 1) p + 1 < at' (d + e + 1) cutoffs)%nat
  end.
Lemma want_mono : forall M cutoffs (D D' : list nat -> Prop) x, (forall p, D p -> D' p) -> want M cutoffs D x -> want M cutoffs D' x.
Proof.
  intros M cutoffs D D' [p|d p|d e p|d e p|i p] H; cbn [want].
  - intros [W [E|[d [H1 [H2 [H3 H4]]]]]]; split; auto. right. exists d. auto.
  - intros (W & H1 & H2); auto.
  - intros (W & H1 & H2); auto.
  - intros (W & H1 & H2); auto.
  - intros (W & H1 & H2); auto.
Qed.

Section Correct.
  Variables V U : Type.
  Variable M : nat.
  Variable cutoffs : list nat.
  Variables (junk : V) (z0 : U).
  Variable aux : cell -> V -> U.
  Variable F : list nat -> U -> (nat -> U) -> nat -> V.
  (** what it means that the value of a cell (what is read at a cell) is right, by its multi-index *)
  Variable good : list nat -> V -> Prop.
  Variable goodW : list nat -> U -> Prop.
  Hypothesis LM : length cutoffs = M.
  Hypothesis HC : Forall (fun c => (0 < c <= 1000)%nat) cutoffs.
  Hypothesis Haux : forall x v, want M cutoffs (fun _ => True) x -> good (ix x) v -> goodW (ix x) (aux x v).
  Hypothesis HF : forall pivot g gin i, length pivot = (2 * M)%nat -> (i < 2 * M)%nat -> goodW pivot g ->
    (forall j, (j < 2 * M)%nat -> at' j pivot <> 0%nat -> goodW (dec j pivot) (gin j)) ->
    (forall j, (j < 2 * M)%nat -> (at' j pivot < 1000)%nat) -> (at' i pivot + 1 < 1000)%nat ->
    good (inc i pivot) (F pivot g gin i).
  Notation wants := (want M cutoffs).
  Notation right s x := (good (ix x) (mem s x)).
  Lemma writes_ok : forall l s, (forall x v, In (x, v) l -> in_bounds M cutoffs x = true /\ good (ix x) v) ->
    bad (writes M cutoffs l s) = bad s /\ (forall x v, In (x, v) l -> right (writes M cutoffs l s) x) /\ (forall x, right s x -> right (writes M cutoffs l s) x).
  Proof.
    induction l as [|[x v] l IH]; intros s H; [split; [reflexivity|split; [intros x v []|auto]]|].
    destruct (H x v (or_introl eq_refl)) as [Bx Vx]. unfold writes. cbn [fold_left fst snd]. fold (writes M cutoffs l (write M cutoffs x v s)).
    destruct (IH (write M cutoffs x v s)) as [I1 [I2 I3]]; [intros; apply H; now right|].
    assert (E : forall y, mem (write M cutoffs x v s) y = if cell_eq y x then v else mem s y) by (intros y; unfold write; now rewrite Bx).
    split; [rewrite I1; unfold write; now rewrite Bx|]. split.
    - intros y w [Hy|Hy]; [injection Hy as <- <-|now apply (I2 y w)]. apply I3. rewrite E. destruct (cell_eq x x); [exact Vx|congruence].
    - intros y Hy. apply I3. rewrite E. destruct (cell_eq y x) as [->|]; [exact Vx|exact Hy].
  Qed.
  Lemma cut_le : forall i, (at' i cutoffs <= 1000)%nat.
  Proof.
    intros i. unfold at'. destruct (Nat.lt_ge_cases i (length cutoffs)) as [H|H]; [|rewrite nth_overflow by exact H; lia].
    rewrite Forall_forall in HC. apply HC. now apply nth_In.
  Qed.
  Lemma cut_pos : forall i, (i < M)%nat -> (0 < at' i cutoffs)%nat.
  Proof. intros i H. unfold at'. rewrite Forall_forall in HC. apply HC. apply nth_In. lia. Qed.
  Lemma within_at : forall p i, within p cutoffs = true -> (i < M)%nat -> (at' i p < at' i cutoffs)%nat.
  Proof. intros p i W H. apply within_spec in W. destruct W as [L Fo]. apply Fo. lia. Qed.
  Lemma within_len : forall p, within p cutoffs = true -> length p = M.
  Proof. intros p W. apply within_spec in W. lia. Qed.
  Lemma within_dec : forall p i, within p cutoffs = true -> within (dec i p) cutoffs = true.
  Proof.
    intros p i W. apply within_spec in W. destruct W as [L Fo]. apply within_spec. rewrite dec_length. split; [exact L|]. intros j Hj. specialize (Fo j Hj).
    destruct (Nat.lt_ge_cases i (length p)) as [H|H]; [rewrite at_dec by exact H; destruct (Nat.eqb_spec j i); lia|].
    unfold dec. assert (E : forall k v l, (length l <= k)%nat -> upd k v l = l) by (induction k; destruct l; simpl; intros; try lia; f_equal; try apply IHk; lia). rewrite E by exact H. exact Fo.
  Qed.
  Lemma within_inc : forall p i, within p cutoffs = true -> (i < M)%nat -> (at' i p + 1 < at' i cutoffs)%nat -> within (inc i p) cutoffs = true.
  Proof.
    intros p i W Hi H. apply within_spec in W. destruct W as [L Fo]. apply within_spec. rewrite inc_length. split; [exact L|]. intros j Hj. specialize (Fo j Hj).
    rewrite at_inc by lia. destruct (Nat.eqb_spec j i); [subst|]; lia.
  Qed.
  Lemma reads : forall s x k, ix x = k -> in_bounds M cutoffs x = true -> wants (fun _ => True) x -> right s x -> goodW k (read V U M cutoffs junk aux s x).
  Proof. intros s x k <- H Wt R. unfold read. rewrite H. now apply Haux. Qed.
  Lemma wantT : forall D x, wants D x -> wants (fun _ => True) x.
  Proof. intros D x. apply want_mono. auto. Qed.
  Lemma even_lt : forall i, (i < 2 * M)%nat -> (i / 2 < M)%nat. Proof. intros. lia. Qed.

  Section Visit.
    Variable D : list nat -> Prop.
    Variable p : list nat.
    Hypothesis WP : within p cutoffs = true.
    Hypothesis HD : forall q, within q cutoffs = true -> (list_sum q < list_sum p)%nat -> D q.
    Let Lp : length p = M := within_len p WP.
    Lemma D_dec : forall i, (i < M)%nat -> at' i p <> 0%nat -> D (dec i p).
    Proof. intros i Hi N. apply HD; [now apply within_dec|]. pose proof (sum_dec i p ltac:(lia) N). lia. Qed.
    Definition diag_cond : Prop := (at' 0 cutoffs = 1 \/ at' 0 p < at' 0 cutoffs - 1)%nat.
    Lemma want_C0 : wants D (C0 p).
    Proof.
      cbn [want]. split; [exact WP|]. destruct (Nat.eq_dec (list_sum p) 0) as [E|E]; [left; rewrite <- Lp; now apply sum_zero_iff|right].
      assert (X : forall l, list_sum l <> 0%nat -> exists d, (d < length l)%nat /\ (forall j, (j < d)%nat -> at' j l = 0%nat) /\ at' d l <> 0%nat).
      { unfold at'. induction l as [|y l IH]; simpl; intros Hl; [congruence|]. destruct (Nat.eq_dec y 0) as [->|Ny].
        - destruct IH as [d [H1 [H2 H3]]]; [exact Hl|]. exists (S d). split; [lia|]. split; [|exact H3]. intros [|j] Hj; [reflexivity|]. apply H2. lia.
        - exists 0%nat. split; [lia|]. split; [intros; lia|exact Ny]. }
      destruct (X p E) as [d [H1 [H2 H3]]]. exists d. rewrite Lp in H1. split; [exact H1|]. split; [exact H2|]. split; [exact H3|]. now apply D_dec.
    Qed.
    (** the diagonal pivot *)
    Lemma diag_ok : diag_cond -> forall s, bad s = false -> (forall x, wants D x -> right s x) ->
      let s' := use_diag_pivot V U M cutoffs junk z0 aux F p s in
      bad s' = false /\ (forall x, right s x -> right s' x) /\ (forall i, wants (fun q => q = p) (C1 i p) -> right s' (C1 i p)).
    Proof.
      intros DC s Hb HR s'. unfold s', use_diag_pivot.
      match goal with |- context [writes M cutoffs ?l s] => set (w := l) end.
      assert (HV : forall x v, In (x, v) w -> in_bounds M cutoffs x = true /\ good (ix x) v).
      { intros x v Hx. unfold w in Hx. apply in_flat_map in Hx. destruct Hx as [i [Hi Hx]]. apply in_seq in Hi.
        match type of Hx with In _ (if ?c then _ else _) => destruct c eqn:E end; [|destruct Hx]. destruct Hx as [Hx|[]]. apply pair_equal_spec in Hx. destruct Hx as [<- <-].
        apply andb_true_iff in E. destruct E as [E1 E2]. apply Nat.ltb_lt in E1. split; [cbn [in_bounds]; rewrite WP, (proj2 (Nat.ltb_lt i (2 * M))) by lia; reflexivity|].
        cbn [ix]. apply HF; [rewrite dup_length; lia|lia| | | |].
        - apply reads; [reflexivity|exact WP|exact (wantT _ _ want_C0)|apply HR, want_C0].
        - intros j Hj N. rewrite at_dup_half in N. rewrite (proj2 (Nat.ltb_lt 0 _)) by lia.
          assert (WT : wants D (C1 (j + 1 - 2 * (j mod 2)) (dec (j / 2) p))); [|apply reads; [| |exact (wantT _ _ WT)|exact (HR _ WT)]].
          3:{ cbn [in_bounds]. apply andb_true_iff. split; [apply Nat.ltb_lt; lia|now apply within_dec]. }
          2:{ cbn [ix]. assert (H2 : (j / 2 < M)%nat) by lia. didx. }
          cbn [want]. assert (H2 : (j / 2 < M)%nat) by lia. split; [now apply within_dec|]. split; [now apply D_dec|]. split; [lia|].
            replace ((j + 1 - 2 * (j mod 2)) / 2)%nat with (j / 2)%nat by lia. rewrite !at_dec by lia. rewrite Nat.eqb_refl. pose proof (within_at p (j / 2) WP H2).
            assert (M0 : (0 < M)%nat) by lia. pose proof (within_at p 0 WP M0). destruct (Nat.eqb_spec 0 (j / 2)) as [e|e]; unfold diag_cond in DC; [rewrite <- e in *|]; repeat split; try lia.
        - intros j Hj. rewrite at_dup_half. pose proof (within_at p (j / 2) WP ltac:(lia)). pose proof (cut_le (j / 2)). lia.
        - rewrite at_dup_half. pose proof (cut_le (i / 2)). lia. }
      destruct (writes_ok w s HV) as [I1 [I2 I3]]. split; [now rewrite I1|]. split; [exact I3|]. intros i (_ & _ & Hi & _ & H1 & H2).
      refine (I2 (C1 i p) _ _). unfold w. apply in_flat_map. exists i. split; [apply in_seq; lia|].
      rewrite (proj2 (Nat.ltb_lt _ _) H1). replace (negb (Nat.eqb i 1) || Nat.ltb (at' 0 p + 2) (at' 0 cutoffs))%bool with true; [left; reflexivity|].
      destruct H2 as [H2|H2]; [rewrite (proj2 (Nat.eqb_neq _ _) H2); reflexivity|rewrite (proj2 (Nat.ltb_lt _ _) H2); now rewrite orb_true_r].
    Qed.
    Definition off_cond (d : nat) : Prop := (d < M)%nat /\ zero_before d p /\ (at' d p + 1 < at' d cutoffs)%nat.
    Lemma off_ok : forall d, off_cond d -> forall s, bad s = false -> (forall x, wants D x -> right s x) -> wants (fun q => q = p) (C1 (2 * d)%nat p) -> right s (C1 (2 * d)%nat p) ->
      let s' := use_offDiag_pivot V U M cutoffs junk z0 aux F p d s in
      bad s' = false /\ (forall x, right s x -> right s' x) /\ right s' (C0 (inc d p)) /\ (wants (fun q => q = p) (C2 d p) -> right s' (C2 d p)) /\
      (forall e, wants (fun q => q = p) (C1010 d e p) -> right s' (C1010 d e p)) /\ (forall e, wants (fun q => q = p) (C1001 d e p) -> right s' (C1001 d e p)).
    Proof.
      intros d [Hd [Z Hc]] s Hb HR HPW HP s'. unfold s', use_offDiag_pivot.
      match goal with |- context [F ?pv ?g ?gi] => set (pivot := pv); set (gv := g); set (gin := gi) end.
      assert (Lpv : length pivot = (2 * M)%nat) by (unfold pivot; rewrite inc_length, dup_length; lia).
      assert (Apv : forall j, at' j pivot = (at' (j / 2) p + (if Nat.eqb j (2 * d) then 1 else 0))%nat).
      { intros j. unfold pivot. rewrite at_inc by (rewrite dup_length; lia). rewrite at_dup_half. destruct (Nat.eqb j (2 * d)); lia. }
      assert (EN : forall i, (i < 2 * M)%nat -> (at' i pivot + 1 < at' (i / 2) cutoffs)%nat -> good (inc i pivot) (F pivot gv gin i)).
      { intros i Hi Hlt. apply HF; [exact Lpv|exact Hi| | | |].
        - unfold gv. apply reads; [reflexivity| |exact (wantT _ _ HPW)|exact HP]. cbn [in_bounds]. apply andb_true_iff. split; [apply Nat.ltb_lt; lia|exact WP].
        - intros j Hj N. rewrite Apv in N. unfold gin. destruct (Nat.eqb_spec j (2 * d)) as [->|N1].
          { apply reads; [|exact WP|exact (wantT _ _ want_C0)|apply HR, want_C0]. cbn [ix]. unfold pivot. symmetry. apply dec_inc. rewrite dup_length. lia. }
          rewrite Nat.add_0_r in N. destruct (Nat.eqb_spec j (2 * d + 1)) as [->|N2].
          { replace ((2 * d + 1) / 2)%nat with d in N by lia. rewrite (proj2 (Nat.ltb_lt 0 _)) by lia.
            assert (WT : wants D (C2 d (dec d p))); [|apply reads; [cbn [ix]; unfold pivot; didx| |exact (wantT _ _ WT)|exact (HR _ WT)]].
            2:{ cbn [in_bounds]. apply andb_true_iff. split; [apply Nat.ltb_lt; lia|now apply within_dec]. }
            cbn [want]. split; [now apply within_dec|]. split; [now apply D_dec|]. split; [exact Hd|]. split.
              + intros i' Hi'. rewrite at_dec by lia. destruct (Nat.eqb_spec i' d); [lia|]. now apply Z.
              + rewrite at_dec, Nat.eqb_refl by lia. lia. }
          assert (Hj2 : (j / 2 < M)%nat) by lia. assert (Dj : (d < j / 2)%nat).
          { destruct (Nat.lt_ge_cases d (j / 2)) as [Hx|Hx]; [exact Hx|]. destruct (Nat.eq_dec (j / 2) d); [lia|]. rewrite (Z (j / 2)%nat) in N by lia. congruence. }
          rewrite (proj2 (Nat.ltb_lt _ _) Dj), (proj2 (Nat.ltb_lt 0 _)) by lia. cbn [andb].
          assert (Wd : wants D (C1001 d (j / 2 - d - 1) (dec (j / 2) p)) /\ wants D (C1010 d (j / 2 - d - 1) (dec (j / 2) p))).
          { assert (X : wants D (C1001 d (j / 2 - d - 1) (dec (j / 2) p))); [|split; exact X]. cbn [want]. replace (d + (j / 2 - d - 1) + 1)%nat with (j / 2)%nat by lia. split; [now apply within_dec|]. split; [now apply D_dec|]. split; [exact Hj2|]. split.
            - intros i' Hi'. rewrite at_dec by lia. destruct (Nat.eqb_spec i' (j / 2)); [lia|]. now apply Z.
            - rewrite !at_dec by lia. rewrite Nat.eqb_refl. destruct (Nat.eqb_spec d (j / 2)); [lia|]. pose proof (within_at p (j / 2) WP Hj2). split; lia. }
          assert (IB : forall f, f = C1001 \/ f = C1010 -> in_bounds M cutoffs (f d (j / 2 - d - 1)%nat (dec (j / 2) p)) = true).
          { assert (X : (if Nat.eqb M 1 then Nat.ltb d 1 && Nat.ltb (j / 2 - d - 1) 1 && within (dec (j / 2) p) [1%nat] else Nat.ltb d M && Nat.ltb (j / 2 - d - 1) (M - 1) && within (dec (j / 2) p) cutoffs)%bool = true).
            { rewrite (proj2 (Nat.eqb_neq M 1)) by lia. rewrite within_dec by exact WP. rewrite !(proj2 (Nat.ltb_lt _ _)) by lia. reflexivity. }
            intros f [->| ->]; exact X. }
          destruct Wd as [Wd1 Wd2]. pose proof (HR _ Wd1) as Rd1. pose proof (HR _ Wd2) as Rd2. destruct (Nat.even j) eqn:Ev.
          + apply reads; [|apply IB; now left|exact (wantT _ _ Wd1)|exact Rd1]. cbn [ix]. apply Nat.even_spec in Ev. destruct Ev as [h ->]. unfold pivot. didx.
          + apply reads; [|apply IB; now right|exact (wantT _ _ Wd2)|exact Rd2]. cbn [ix]. assert (Od : Nat.odd j = true) by (unfold Nat.odd; now rewrite Ev). apply Nat.odd_spec in Od. destruct Od as [h ->]. unfold pivot. didx.
        - intros j Hj. rewrite Apv. pose proof (within_at p (j / 2) WP ltac:(lia)). pose proof (cut_le (j / 2)). destruct (Nat.eqb_spec j (2 * d)) as [->|]; [|lia]. replace (2 * d / 2)%nat with d in * by lia. lia.
        - pose proof (cut_le (i / 2)). lia. }
      match goal with |- context [writes M cutoffs ?l s] => set (w := l) end.
      assert (HV : forall x v, In (x, v) w -> in_bounds M cutoffs x = true /\ good (ix x) v).
      { intros x v Hx. unfold w in Hx. rewrite !in_app_iff in Hx. destruct Hx as [Hx|[Hx|Hx]].
        - destruct Hx as [Hx|[]]. apply pair_equal_spec in Hx. destruct Hx as [<- <-]. split; [cbn [in_bounds]; now apply within_inc|].
          cbn [ix]. replace (dup (inc d p)) with (inc (2 * d + 1) pivot) by (unfold pivot; didx).
          apply EN; [lia|rewrite Apv; replace ((2 * d + 1) / 2)%nat with d by lia; destruct (Nat.eqb_spec (2 * d + 1) (2 * d)); lia].
        - destruct (Nat.ltb_spec (at' d p + 2) (at' d cutoffs)) as [H|H]; [|destruct Hx]. destruct Hx as [Hx|[]]. apply pair_equal_spec in Hx. destruct Hx as [<- <-].
          split; [cbn [in_bounds]; rewrite WP, (proj2 (Nat.ltb_lt _ _) Hd); reflexivity|]. apply EN; [lia|]. rewrite Apv, Nat.eqb_refl. replace (2 * d / 2)%nat with d by lia. lia.
        - apply in_flat_map in Hx. destruct Hx as [i [Hi Hx]]. apply in_seq in Hi. destruct (Nat.ltb_spec (at' i p + 1) (at' i cutoffs)) as [H|H]; [|destruct Hx].
          assert (IB : (if Nat.eqb M 1 then Nat.ltb d 1 && Nat.ltb (i - d - 1) 1 && within p [1%nat] else Nat.ltb d M && Nat.ltb (i - d - 1) (M - 1) && within p cutoffs)%bool = true).
          { rewrite (proj2 (Nat.eqb_neq M 1)) by lia. rewrite WP. rewrite !(proj2 (Nat.ltb_lt _ _)) by lia. reflexivity. }
          destruct Hx as [Hx|[Hx|[]]]; apply pair_equal_spec in Hx; destruct Hx as [<- <-]; (split; [exact IB|]); cbn [ix]; replace (d + (i - d - 1) + 1)%nat with i by lia; apply EN;
            [lia|rewrite Apv; destruct (Nat.eqb_spec (2 * i) (2 * d)); [lia|]; replace (2 * i / 2)%nat with i by lia; lia
             |lia|rewrite Apv; destruct (Nat.eqb_spec (2 * i + 1) (2 * d)); [lia|]; replace ((2 * i + 1) / 2)%nat with i by lia; lia]. }
      destruct (writes_ok w s HV) as [I1 [I2 I3]]. split; [now rewrite I1|]. split; [exact I3|]. split; [|split; [|split]].
      - refine (I2 _ _ _). unfold w. apply in_app_iff. left. left. reflexivity.
      - intros (_ & _ & _ & _ & H). refine (I2 _ _ _). unfold w. rewrite !in_app_iff. right. left. rewrite (proj2 (Nat.ltb_lt _ _) H). left. reflexivity.
      - intros e (_ & _ & He & _ & _ & H). refine (I2 _ _ _). unfold w. rewrite !in_app_iff. right. right. apply in_flat_map. exists (d + e + 1)%nat. split; [apply in_seq; lia|].
        rewrite (proj2 (Nat.ltb_lt _ _) H). replace (d + e + 1 - d - 1)%nat with e by lia. left. reflexivity.
      - intros e (_ & _ & He & _ & _ & H). refine (I2 _ _ _). unfold w. rewrite !in_app_iff. right. right. apply in_flat_map. exists (d + e + 1)%nat. split; [apply in_seq; lia|].
        rewrite (proj2 (Nat.ltb_lt _ _) H). replace (d + e + 1 - d - 1)%nat with e by lia. right. left. reflexivity.
    Qed.
    Lemma zero_before_b : forall d, (d <= M)%nat -> forallb (Nat.eqb 0) (firstn d p) = true <-> zero_before d p.
    Proof.
      intros d Hd. rewrite <- Lp in Hd. clear - Hd. unfold zero_before, at'. revert d Hd. induction p as [|x q IH]; intros [|d] Hd; simpl in *; try lia; try (split; [intros; lia|reflexivity]).
      rewrite andb_true_iff, IH by lia. split.
      - intros [H1 H2] [|j] Hj; [destruct x; [reflexivity|discriminate]|]. apply H2. lia.
      - intros H. split; [pose proof (H 0%nat ltac:(lia)) as H0; simpl in H0; now subst|]. intros j Hj. apply (H (S j)). lia.
    Qed.
    Definition Inv (D : list nat -> Prop) (s : state V) : Prop := bad s = false /\ forall x, wants D x -> right s x.
    Lemma diag_needed : forall d, off_cond d -> diag_cond.
    Proof. intros d [Hd [Z Hc]]. unfold diag_cond. destruct d as [|d]; [right; lia|]. pose proof (Z 0%nat ltac:(lia)). pose proof (cut_pos 0%nat ltac:(lia)). lia. Qed.
    Lemma visit_ok : forall s, Inv D s -> Inv (fun q => D q \/ q = p) (visit V U M cutoffs junk z0 aux F s p).
    Proof.
      intros s [Hb HR]. unfold visit.
      set (s1 := if (Nat.eqb (at' 0 cutoffs) 1 || Nat.ltb (at' 0 p) (at' 0 cutoffs - 1))%bool then use_diag_pivot V U M cutoffs junk z0 aux F p s else s).
      assert (P1 : bad s1 = false /\ (forall x, right s x -> right s1 x) /\ (forall i, wants (fun q => q = p) (C1 i p) -> right s1 (C1 i p))).
      { unfold s1. destruct (Nat.eqb (at' 0 cutoffs) 1 || Nat.ltb (at' 0 p) (at' 0 cutoffs - 1))%bool eqn:E.
        - apply diag_ok; [|exact Hb|exact HR]. unfold diag_cond. apply orb_true_iff in E. destruct E as [E|E]; [left; now apply Nat.eqb_eq in E|right; now apply Nat.ltb_lt in E].
        - split; [exact Hb|]. split; [auto|]. intros i (_ & _ & _ & [H|H] & _); [rewrite (proj2 (Nat.eqb_eq _ _) H) in E; discriminate|rewrite (proj2 (Nat.ltb_lt _ _) H), orb_true_r in E; discriminate]. }
      destruct P1 as [B1 [R1 F1]]. clearbody s1.
      match goal with |- Inv _ (fold_left ?f _ _) => set (step := f) end.
      assert (FL : forall l, (forall d, In d l -> (d < M)%nat) -> forall t, bad t = false -> (forall x, right s1 x -> right t x) ->
        let t' := fold_left step l t in bad t' = false /\ (forall x, right t x -> right t' x) /\
        forall d, In d l -> off_cond d -> right t' (C0 (inc d p)) /\ (wants (fun q => q = p) (C2 d p) -> right t' (C2 d p)) /\
          (forall e, wants (fun q => q = p) (C1010 d e p) -> right t' (C1010 d e p)) /\ (forall e, wants (fun q => q = p) (C1001 d e p) -> right t' (C1001 d e p))).
      { induction l as [|d l IH]; intros Hl t Bt Rt; [cbn [fold_left]; split; [exact Bt|]; split; [auto|intros d []]|]. cbn [fold_left]. cbv zeta.
        assert (Hd := Hl d (or_introl eq_refl)).
        assert (ST : bad (step t d) = false /\ (forall x, right t x -> right (step t d) x) /\ (off_cond d -> right (step t d) (C0 (inc d p)) /\ (wants (fun q => q = p) (C2 d p) -> right (step t d) (C2 d p)) /\
          (forall e, wants (fun q => q = p) (C1010 d e p) -> right (step t d) (C1010 d e p)) /\ (forall e, wants (fun q => q = p) (C1001 d e p) -> right (step t d) (C1001 d e p)))).
        { unfold step. destruct (forallb (Nat.eqb 0) (firstn d p) && Nat.ltb (at' d p) (at' d cutoffs - 1))%bool eqn:E.
          - apply andb_true_iff in E. destruct E as [E1 E2]. apply zero_before_b in E1; [|lia]. apply Nat.ltb_lt in E2.
            assert (OC : off_cond d) by (split; [exact Hd|]; split; [exact E1|lia]).
            assert (WT : wants (fun q => q = p) (C1 (2 * d) p)); [|destruct (off_ok d OC t Bt) as [O1 [O2 O3]]; [intros x Hx; apply Rt, R1, HR, Hx|exact WT|apply Rt, F1, WT|split; [exact O1|]; split; [exact O2|intros _; exact O3]]].
            cbn [want]. split; [exact WP|]. split; [reflexivity|]. split; [lia|]. split; [exact (diag_needed d OC)|]. replace (2 * d / 2)%nat with d by lia. split; lia.
          - split; [exact Bt|]. split; [auto|]. intros [_ [Z Hc]]. exfalso. apply zero_before_b in Z; [|lia]. rewrite Z in E. rewrite (proj2 (Nat.ltb_lt _ _)) in E by lia. discriminate. }
        destruct ST as [S1 [S2 S3]]. destruct (IH ltac:(intros; apply Hl; now right) (step t d) S1 ltac:(auto)) as [I1 [I2 I3]]. split; [exact I1|]. split; [auto|].
        intros d' [<-|Hd'] OC; [|now apply I3]. destruct (S3 OC) as [T1 [T2 [T3 T4]]]. repeat split; auto. }
      destruct (FL (seq 0 M) ltac:(intros d Hd; apply in_seq in Hd; lia) s1 B1 ltac:(auto)) as [G1 [G2 G3]]. split; [exact G1|].
      intros x Hx.
      assert (OLD : wants D x -> right (fold_left step (seq 0 M) s1) x) by (intros H; apply G2, R1, HR, H).
      destruct x as [q|d q|d e q|d e q|i q]; cbn [want] in Hx.
      - destruct Hx as [Wq [E|[d [Hd [Z [N [Dq|Eq]]]]]]]; [apply OLD; cbn [want]; auto|apply OLD; cbn [want]; split; [exact Wq|]; right; exists d; auto|].
        pose proof (within_len q Wq) as Lq. replace q with (inc d p) by (rewrite <- Eq; apply inc_dec; [lia|exact N]). apply (G3 d); [apply in_seq; lia|]. split; [exact Hd|].
        rewrite <- Eq. split; [intros j Hj; rewrite at_dec by lia; destruct (Nat.eqb_spec j d); [lia|now apply Z]|]. rewrite at_dec, Nat.eqb_refl by lia. pose proof (within_at q d Wq Hd). lia.
      - destruct Hx as [Wq [[Dq|Eq] H]]; [apply OLD; cbn [want]; auto|]. rewrite Eq in *. destruct H as (Hd & Z & H). destruct (G3 d ltac:(apply in_seq; lia)) as [_ [T _]]; [split; [exact Hd|]; split; [exact Z|lia]|]. apply T. cbn [want]. auto.
      - destruct Hx as [Wq [[Dq|Eq] H]]; [apply OLD; cbn [want]; auto|]. rewrite Eq in *. destruct H as (Hd & Z & H & H'). destruct (G3 d ltac:(apply in_seq; lia)) as [_ [_ [T _]]]; [split; [lia|]; split; [exact Z|lia]|]. apply T. cbn [want]. auto 8.
      - destruct Hx as [Wq [[Dq|Eq] H]]; [apply OLD; cbn [want]; auto|]. rewrite Eq in *. destruct H as (Hd & Z & H & H'). destruct (G3 d ltac:(apply in_seq; lia)) as [_ [_ [_ T]]]; [split; [lia|]; split; [exact Z|lia]|]. apply T. cbn [want]. auto 8.
      - destruct Hx as [Wq [[Dq|Eq] H]]; [apply OLD; cbn [want]; auto|]. rewrite Eq in *. apply G2, F1. cbn [want]. auto.
    Qed.
  End Visit.
  Lemma Inv_mono : forall (D D' : list nat -> Prop) (s : state V), (forall p, D' p -> D p) -> Inv D s -> Inv D' s.
  Proof. intros D D' s H [Hb HR]. split; [exact Hb|]. intros x Hx. apply HR. exact (want_mono M cutoffs D' D x H Hx). Qed.
  Lemma level_ok : forall w l s (D : list nat -> Prop), (forall q, within q cutoffs = true -> (list_sum q < w)%nat -> D q) -> (forall q, In q l -> within q cutoffs = true /\ list_sum q = w) ->
    Inv D s -> Inv (fun q => D q \/ In q l) (fold_left (visit V U M cutoffs junk z0 aux F) l s).
  Proof.
    intros w. induction l as [|p l IH]; intros s D HD Hl HI; [cbn [fold_left]; apply (Inv_mono D); [intros q [H|[]]; exact H|exact HI]|].
    destruct (Hl p (or_introl eq_refl)) as [Wp Sp]. cbn [fold_left].
    apply (Inv_mono (fun q => (D q \/ q = p) \/ In q l)); [intros q [H|[H|H]]; auto|].
    apply IH; [intros q Wq Hq; left; now apply HD|intros q Hq; apply Hl; now right|]. apply visit_ok; [exact Wp|intros q Wq Hq; apply HD; [exact Wq|lia]|exact HI].
  Qed.
  Lemma order_ok : forall n s, Inv (fun _ => False) s ->
    Inv (fun q => within q cutoffs = true /\ (list_sum q < n)%nat) (fold_left (visit V U M cutoffs junk z0 aux F) (flat_map (fun w => filter (fun p => Nat.eqb (list_sum p) w) (ndindex cutoffs)) (seq 0 n)) s).
  Proof.
    induction n as [|n IH]; intros s HI; [cbn [seq flat_map fold_left]; apply (Inv_mono (fun _ => False)); [intros q [_ H]; lia|exact HI]|].
    rewrite seq_S, flat_map_app, fold_left_app. cbn [flat_map]. rewrite app_nil_r. apply (Inv_mono (fun q => (within q cutoffs = true /\ (list_sum q < n)%nat) \/ In q (filter (fun p => Nat.eqb (list_sum p) (0 + n)) (ndindex cutoffs)))).
    - intros q [Wq Hq]. destruct (Nat.eq_dec (list_sum q) n) as [E|E]; [right; apply filter_In; split; [now apply in_ndindex|now apply Nat.eqb_eq]|left; split; [exact Wq|lia]].
    - apply (level_ok n); [auto| |apply IH, HI]. intros q Hq. apply filter_In in Hq. destruct Hq as [H1 H2]. split; [now apply in_ndindex|now apply Nat.eqb_eq in H2].
  Qed.
  Lemma sum_lt : forall cs p, within p cs = true -> cs <> [] -> (list_sum p < list_sum cs)%nat.
  Proof.
    induction cs as [|c cs IH]; intros [|x p] H N; simpl in H; try discriminate; [congruence|]. apply andb_true_iff in H. destruct H as [H1 H2]. apply Nat.ltb_lt in H1.
    destruct cs as [|c' cs]; [destruct p; [simpl; lia|discriminate]|]. specialize (IH p H2 ltac:(discriminate)). simpl in *. lia.
  Qed.
  Lemma traverse_ok : forall s, Inv (fun _ => False) s ->
    let s' := traverse V U M cutoffs junk z0 aux F s in bad s' = false /\ (forall x, wants (fun _ => True) x -> right s' x) /\ forall p, within p cutoffs = true -> right s' (C0 p).
  Proof.
    intros s I0 s'. unfold s', traverse, order. destruct (order_ok (list_sum cutoffs) s I0) as [Hb HR]. split; [exact Hb|].
    assert (RT : forall x, wants (fun _ => True) x -> right (traverse V U M cutoffs junk z0 aux F s) x).
    { intros x Hx. apply HR. assert (X : forall q, within q cutoffs = true -> M <> 0%nat -> (list_sum q < list_sum cutoffs)%nat) by (intros q Wq N; apply sum_lt; [exact Wq|]; intros E; rewrite E in LM; simpl in LM; lia).
      destruct x as [q|d q|d e q|d e q|i q]; cbn [want] in *.
      - destruct Hx as [Wq [E|[d (H1 & H2 & H3 & _)]]]; (split; [exact Wq|]); [left; exact E|right; exists d; repeat split; auto; [now apply within_dec|]]. apply X; [now apply within_dec|lia].
      - destruct Hx as (Wq & _ & H & H2). repeat split; try tauto; apply X; [exact Wq|lia].
      - destruct Hx as (Wq & _ & H & H2). repeat split; try tauto; apply X; [exact Wq|lia].
      - destruct Hx as (Wq & _ & H & H2). repeat split; try tauto; apply X; [exact Wq|lia].
      - destruct Hx as (Wq & _ & H & H2). repeat split; try tauto; apply X; [exact Wq|lia]. }
    split; [exact RT|]. intros p Wp. apply (RT (C0 p)). apply want_C0; auto.
  Qed.
End Correct.

Section Amps.
  Context {K : rootfield}.
  Open Scope rf_scope.
  Add Field Kfield : (kft K).
  Variable A : nat -> nat -> K.
  Variable B : nat -> K.
  Variable M : nat.
  Variable cutoffs : list nat.
  Variables junk G0 : K.
  Hypothesis LM : length cutoffs = M.
  Hypothesis SA : symmetric (2 * M) A.
  Hypothesis HC : Forall (fun c => (0 < c <= 1000)%nat) cutoffs.
  Lemma entry_ok : forall pivot g gin i, length pivot = (2 * M)%nat -> (i < 2 * M)%nat -> g = amp (2 * M) A B G0 pivot ->
    (forall j, (j < 2 * M)%nat -> at' j pivot <> 0%nat -> gin j = amp (2 * M) A B G0 (dec j pivot)) ->
    (forall j, (j < 2 * M)%nat -> (at' j pivot < 1000)%nat) -> (at' i pivot + 1 < 1000)%nat ->
    entry A B M junk pivot g gin i = amp (2 * M) A B G0 (inc i pivot).
  Proof.
    intros pivot g gin i L Hi -> Hg H1 H2. unfold entry. rewrite (amp_step (2 * M) A B SA G0 i (inc i pivot)); [|exact Hi|now rewrite inc_length|rewrite at_inc, Nat.eqb_refl; lia].
    rewrite at_inc, Nat.eqb_refl by lia. rewrite dec_inc by lia. unfold SQRT at 2. rewrite (proj2 (Nat.ltb_lt _ _) H2). replace (at' i pivot + 1)%nat with (S (at' i pivot)) by lia.
    f_equal. f_equal; [ring|]. apply sumn_ext. intros j Hj. f_equal. unfold SQRT. rewrite (proj2 (Nat.ltb_lt _ _) (H1 j Hj)).
    destruct (Nat.eq_dec (at' j pivot) 0) as [E|E]; [rewrite E, sq_0; ring|]. now rewrite Hg.
  Qed.
  Theorem diagonal_amps_ok : exists s, diagonal_amps A B M cutoffs junk G0 = Ok s /\ bad s = false /\
    (forall x, want M cutoffs (fun _ => True) x -> mem s x = amp (2 * M) A B G0 (ix x)) /\ forall p, within p cutoffs = true -> mem s (C0 p) = amp (2 * M) A B G0 (dup p).
  Proof.
    unfold diagonal_amps. rewrite (proj2 (forallb_forall (Nat.ltb 0) cutoffs)) by (intros c Hc; apply Nat.ltb_lt; rewrite Forall_forall in HC; apply HC, Hc).
    eexists. split; [reflexivity|].
    refine (traverse_ok K K M cutoffs junk k0 (fun _ v => v) (entry A B M junk) (fun k v => v = amp (2 * M) A B G0 k) (fun k v => v = amp (2 * M) A B G0 k) LM HC _ entry_ok _ _); [auto|].
    split; [reflexivity|]. intros [p|d p|d e p|d e p|i p]; cbn [want]; [|tauto|tauto|tauto|tauto]. intros [_ [->|[d [_ [_ [_ []]]]]]].
    cbn [mem]. destruct (cell_eq (C0 (zeros M)) (C0 (zeros M))); [|congruence]. cbn [ix]. rewrite dup_zeros. symmetry. apply amp_zero.
  Qed.
End Amps.

Lemma interleave_dup : forall p i, i < 2 * length p -> at' (interleave (length p) i) (p ++ p) = at' i (dup p).
Proof.
  intros p i Hi. unfold interleave. rewrite at_dup_half. destruct (Nat.even i) eqn:E; unfold at'.
  - rewrite app_nth1 by lia. reflexivity.
  - rewrite app_nth2 by lia. f_equal. lia.
Qed.
Lemma interleave_lt : forall M i, i < 2 * M -> interleave M i < 2 * M.
Proof. intros M i H. exact (perm_lt M i H). Qed.
Lemma interleave_inj : forall M i j, i < 2 * M -> j < 2 * M -> interleave M i = interleave M j -> i = j.
Proof. intros M i j. exact (perm_inj M i j). Qed.

Section C64.
  Context {K : rootfield}.
  Open Scope rf_scope.
  (** C64: for every symmetric A, every b, c and all cutoffs from 1 to 1000, the array returned by hermite_renormalized_diagonal holds at the photon
      numbers p the Taylor coefficient <p|rho|p> of c exp(z.A.z/2 + b.z) in the order (bra, ket), whatever unchecked reads would return, and no write leaves the arrays *)
  Theorem C64_diagonal : forall (junk : K) M A B c cutoffs, symmetric (2 * M) A -> length cutoffs = M -> Forall (fun n => (1 <= n <= 1000)%nat) cutoffs ->
    exists s, hermite_renormalized_diagonal junk true true (2 * M) (2 * M) A B c cutoffs = Ok s /\ bad s = false /\
      forall p, within p cutoffs = true -> mem s (C0 p) = c * sqf (p ++ p) * expq (2 * M) A B (p ++ p).
  Proof.
    intros junk M A B c cutoffs SA LM HC. unfold hermite_renormalized_diagonal.
    replace (Nat.odd (2 * M)) with false by (symmetry; unfold Nat.odd; rewrite Nat.even_mul; reflexivity). cbn [andb negb].
    rewrite Nat.eqb_refl. replace (2 * M / 2)%nat with M by lia. rewrite LM, Nat.eqb_refl. cbn [negb].
    assert (SA' : forall i j, (i < 2 * M)%nat -> (j < 2 * M)%nat -> A (interleave M i) (interleave M j) = A (interleave M j) (interleave M i)) by (intros; apply SA; now apply interleave_lt).
    destruct (diagonal_amps_ok (fun i j => A (interleave M i) (interleave M j)) (fun i => B (interleave M i)) M cutoffs junk c LM SA') as [s [E [Hb [_ HR]]]].
    { apply Forall_forall. intros n Hn. rewrite Forall_forall in HC. specialize (HC n Hn). lia. }
    exists s. split; [exact E|]. split; [exact Hb|]. intros p Wp. rewrite (HR p Wp). assert (Lp : length p = M) by (apply within_spec in Wp; lia).
    change (c * sqf (p ++ p) * expq (2 * M) A B (p ++ p)) with (amp (2 * M) A B c (p ++ p)).
    apply (amp_relabel (2 * M) A B c (interleave M) SA (interleave_lt M) (interleave_inj M) (list_sum (dup p))); [rewrite dup_length; lia|rewrite app_length; lia| |lia].
    intros i Hi. rewrite <- Lp. apply interleave_dup. lia.
  Qed.
  (** C64: with reorderedAB = False the variables are already in the order mode 0, mode 0, mode 1, mode 1, ... *)
  Theorem C64_interleaved : forall (junk : K) M A B c cutoffs, symmetric (2 * M) A -> length cutoffs = M -> Forall (fun n => (1 <= n <= 1000)%nat) cutoffs ->
    exists s, hermite_renormalized_diagonal junk true false (2 * M) (2 * M) A B c cutoffs = Ok s /\ bad s = false /\
      forall p, within p cutoffs = true -> let k := flat_map (fun n => [n; n]) p in mem s (C0 p) = c * sqf k * expq (2 * M) A B k.
  Proof.
    intros junk M A B c cutoffs SA LM HC. unfold hermite_renormalized_diagonal. cbn [andb negb]. rewrite Nat.eqb_refl. replace (2 * M / 2)%nat with M by lia. rewrite LM, Nat.eqb_refl. cbn [negb].
    destruct (diagonal_amps_ok A B M cutoffs junk c LM SA) as [s [E [Hb [_ HR]]]].
    { apply Forall_forall. intros n Hn. rewrite Forall_forall in HC. specialize (HC n Hn). lia. }
    exists s. split; [exact E|]. split; [exact Hb|]. exact HR.
  Qed.
  (** C64: inputs that do not fit are rejected *)
  Theorem C64_rejected : forall (junk : K) v r n nB A B c cutoffs,
    hermite_renormalized_diagonal junk v r n nB A B c cutoffs = Err ValueError <-> (r = true /\ Nat.odd n = true) \/ v = false \/ n <> nB \/ (n / 2)%nat <> length cutoffs.
  Proof.
    intros junk v r n nB A B c cutoffs. unfold hermite_renormalized_diagonal, diagonal_amps.
    destruct (r && Nat.odd n)%bool eqn:E1; [apply andb_true_iff in E1; split; [intros _; left; exact E1|reflexivity]|].
    destruct v; cbn [negb]; [|split; [intros _; right; left; reflexivity|reflexivity]].
    destruct (Nat.eqb_spec n nB) as [E2|E2]; cbn [negb]; [|split; [intros _; right; right; left; exact E2|reflexivity]].
    destruct (Nat.eqb_spec (n / 2) (length cutoffs)) as [E3|E3]; cbn [negb]; [|split; [intros _; right; right; right; exact E3|reflexivity]].
    split; [destruct (forallb _ _); discriminate|]. intros [[H1 H2]|[H|[H|H]]]; [rewrite H1, H2 in E1; discriminate|discriminate|congruence|congruence].
  Qed.
End C64.
(** the hypotheses hold: exp(z0 z2 + z1 z3 + z0), two modes with cutoffs 3 and 1000; the entry (0, 0) is the vacuum probability 1 *)
Theorem C64_example : forall junk : CF, exists s,
  hermite_renormalized_diagonal (K := CF) junk true true 4 4 (fun i j => if Nat.eqb (i + 2) j || Nat.eqb (j + 2) i then k1 else k0) (fun i => if Nat.eqb i 0 then k1 else k0) k1 [3; 1000] = Ok s
  /\ mem s (C0 [0; 0]) = k1.
Proof.
  intros junk. destruct (C64_diagonal (K := CF) junk 2 (fun i j => if Nat.eqb (i + 2) j || Nat.eqb (j + 2) i then k1 else k0) (fun i => if Nat.eqb i 0 then k1 else k0) k1 [3; 1000]) as [s [E [_ H]]];
    [intros i j _ _; rewrite orb_comm; reflexivity|reflexivity|repeat constructor; lia|]. exists s. split; [exact E|]. rewrite H by reflexivity.
  change (amp (K := CF) 4 (fun i j => if Nat.eqb (i + 2) j || Nat.eqb (j + 2) i then k1 else k0) (fun i => if Nat.eqb i 0 then k1 else k0) k1 (zeros 4) = k1). apply amp_zero.
Qed.
Print Assumptions C64_diagonal.
Print Assumptions C64_interleaved.
Print Assumptions C64_rejected.
Print Assumptions C64_example.
