(** C67: gradients of the Fock matrices of the squeezing gate, the squeezed vacuum, the beamsplitter and the displacement gate with respect to their parameters
    (math/lattice/strategies/squeezer.py, beamsplitter.py, displacement.py; mrmustard/math/jax_vjps/fock_utils.py). *)
From Coq Require Import List Arith Bool Lia Reals Lra.
From Coquelicot Require Import Coquelicot.
From Verif Require Import Base RootField Tensor Series Vanilla VanillaProps Beamsplitter Gradients GateLattice ComplexRF RealDer GateProps HermAlg.
Import ListNotations.
Open Scope C_scope.

Section Model.
  (** what an index outside a numpy array reads (numba does not check bounds) *)
  Variable junk : C.
  (** steps.py:33 SQRT = np.sqrt(np.arange(100000)) *)
  Definition table (n : nat) : C := if Nat.ltb n 100000 then csq n else junk.
  (** G[index - e_i - e_j]; index -1 or -2 wraps around or leaves the array: some entry which is multiplied by sqrt(0) *)
  Definition behind (G : list nat -> C) (k : list nat) (i j : nat) : C :=
    if (Nat.eqb (at' i k) 0 || Nat.eqb (at' j (dec i k)) 0)%bool then junk else G (dec j (dec i k)).
  (** steps.py:145-171 vanilla_step_grad, the matrix part: the entries on and above the diagonal are written, the others are left as they are *)
  Definition step_grad (D : nat) (G : list nat -> C) (k : list nat) (dA : nat -> nat -> C) : nat -> nat -> C := fun i j =>
    if (Nat.ltb i D && Nat.ltb j D && Nat.leb i j)%bool then
      (if Nat.eqb i j then RtoC (/ 2) * table (at' i k * (at' i k - 1)) * behind G k i i else table (at' i k * at' j k) * behind G k i j)
    else dA i j.
  (** the loops dLdA += dA * dLdG[index]; dA is reused from one index to the next *)
  Definition accumulate (D : nat) (G w : list nat -> C) (indices : list (list nat)) : nat -> nat -> C :=
    snd (fold_left (fun '(dA, dLdA) k => let dA := step_grad D G k dA in (dA, fun i j => dLdA i j + dA i j * w k)) indices
           ((fun _ _ => RtoC 0), (fun _ _ => RtoC 0))).
  Definition get2 (G : nat -> nat -> C) (k : list nat) : C := G (at' 0 k) (at' 1 k).
  Definition get4 (G : nat -> nat -> nat -> nat -> C) (k : list nat) : C := G (at' 0 k) (at' 1 k) (at' 2 k) (at' 3 k).

  (** squeezer.py:70-127 squeezer_vjp *)
  Definition squeezer_indices (M N : nat) : list (list nat) :=
    map (fun m => [m; 0%nat]) (range2 2 M)
    ++ flat_map (fun m => flat_map (fun n => if Nat.eqb ((m + n) mod 2) 0 then [[m; n]] else []) (seq 1 (N - 1))) (seq 0 M).
  Definition total2 (M N : nat) (f : nat -> nat -> C) : C := sumn (K := CF) M (fun m => sumn (K := CF) N (fun n => f m n)).
  Definition squeezer_vjp (M N : nat) (G dLdG : nat -> nat -> C) (r phi : R) : R * R :=
    let dLdA := accumulate 2 (get2 G) (get2 dLdG) (squeezer_indices M N) in
    let dLdC := total2 M N (fun m n => G m n * dLdG m n) in
    let d_sech := RtoC (- tanhr r / cosh r) in let d_tanh := RtoC (1 / (cosh r * cosh r)) in let tanh := RtoC (tanhr r) in
    let e := cis phi in let ec := cis (- phi) in
    (2 * Re (- dLdA 0%nat 0%nat * e * d_tanh + dLdA 0%nat 1%nat * d_sech + dLdA 1%nat 1%nat * ec * d_tanh - Cconj dLdC * RtoC (/ 2) * tanh)%C,
     2 * Re (- dLdA 0%nat 0%nat * Ci * e * tanh - dLdA 1%nat 1%nat * Ci * ec * tanh)%C)%R.
  (** squeezer.py:154-192 squeezed_vjp *)
  Definition squeezed_vjp (M : nat) (G dLdG : nat -> C) (r phi : R) : R * R :=
    let dLdA := accumulate 1 (fun k => G (at' 0 k)) (fun k => dLdG (at' 0 k)) (map (fun m => [m]) (range2 2 M)) in
    let dLdC := sumn (K := CF) M (fun m => G m * dLdG m) in
    let d_tanh := RtoC (1 / (cosh r * cosh r)) in let tanh := RtoC (tanhr r) in let e := cis phi in
    (2 * Re (- dLdA 0%nat 0%nat * e * d_tanh - Cconj dLdC * RtoC (/ 2) * tanh)%C, 2 * Re (- dLdA 0%nat 0%nat * Ci * e * tanh)%C)%R.
  (** beamsplitter.py:174-239 beamsplitter_vjp *)
  Definition beamsplitter_indices (M N P Q : nat) : list (list nat) :=
    flat_map (fun m => flat_map (fun n => let p := (m + n)%nat in if (Nat.ltb 0 p && Nat.ltb p P)%bool then [[m; n; p; 0%nat]] else []) (seq 0 (Nat.min N (P - m)))) (seq 0 M)
    ++ flat_map (fun m => flat_map (fun n => flat_map (fun p => let q := (m + n - p)%nat in if (Nat.ltb 0 q && Nat.ltb q Q)%bool then [[m; n; p; q]] else [])
         (seq (m + n - Q) (Nat.min P (m + n) - (m + n - Q)))) (seq 0 N)) (seq 0 M).
  Definition total4 (M N P Q : nat) (f : nat -> nat -> nat -> nat -> C) : C :=
    sumn (K := CF) M (fun m => sumn (K := CF) N (fun n => sumn (K := CF) P (fun p => sumn (K := CF) Q (fun q => f m n p q)))).
  Definition beamsplitter_vjp (M N P Q : nat) (G dLdG : nat -> nat -> nat -> nat -> C) (theta phi : R) : R * R :=
    let dLdA := accumulate 4 (get4 G) (get4 dLdG) (beamsplitter_indices M N P Q) in
    let st := RtoC (sin theta) in let ct := RtoC (cos theta) in let e := cis phi in let em := cis (- phi) in
    (2 * Re (- st * dLdA 0%nat 2%nat - ct * em * dLdA 0%nat 3%nat + ct * e * dLdA 1%nat 2%nat - st * dLdA 1%nat 3%nat)%C,
     2 * Re (Ci * st * em * dLdA 0%nat 3%nat + Ci * st * e * dLdA 1%nat 2%nat)%C)%R.
End Model.
(** fock_utils.py:154-173 displacement_jax_bwd *)
Definition displacement_bwd (M N : nat) (D g : nat -> nat -> C) (alpha : C) : C :=
  let '(ja, jc) := jacobian_displacement (K := CF) M N D alpha (Cconj alpha) in
  total2 M N (fun m n => g m n * ja m n) + Cconj (total2 M N (fun m n => g m n * jc m n)).
(** displacement.py:84-112 grad_displacement; T[-1] is the last row *)
Definition grad_displacement (cutoff : nat) (T : nat -> nat -> C) (r phi : R) : (nat -> nat -> C) * (nat -> nat -> C) :=
  let ei := cis phi in let eic := cis (- phi) in let alpha := RtoC r * ei in let alphac := RtoC r * eic in
  ((fun m n => - RtoC r * T m n + csq m * ei * T (prev cutoff m) n - csq n * eic * T m (prev cutoff n)),
   (fun m n => csq m * Ci * alpha * T (prev cutoff m) n + csq n * Ci * alphac * T m (prev cutoff n))).

(** ** sums over the visited indices *)
Section Sums.
  Context {K : rootfield}.
  Add Field Kf : (kft K).
  Open Scope rf_scope.
  Lemma lsum_flat_map : forall {X Y} (g : X -> list Y) l (f : Y -> K), lsum (flat_map g l) f = lsum l (fun x => lsum (g x) f).
  Proof. intros X Y g l f. induction l as [|x l IH]; [reflexivity|]. cbn [flat_map]. rewrite lsum_app, IH. reflexivity. Qed.
  Lemma lsum_if : forall {X} (b : bool) (x : X) (f : X -> K), lsum (if b then [x] else []) f = if b then f x else k0.
  Proof. intros X [|] x f; [|reflexivity]. cbn. ring. Qed.
  Lemma lsum_window : forall lo hi P (g : nat -> K), (hi <= P)%nat -> lsum (seq lo (hi - lo)) g = sumn P (fun p => if (Nat.leb lo p && Nat.ltb p hi)%bool then g p else k0).
  Proof.
    intros lo hi P g H. destruct (Nat.le_gt_cases hi lo) as [L|L].
    - replace (hi - lo)%nat with 0%nat by lia. cbn [seq]. symmetry. apply sumn_0. intros p _. destruct (Nat.leb_spec lo p), (Nat.ltb_spec p hi); cbn [andb]; try reflexivity; lia.
    - revert H. induction P as [|P IH]; intros H; [lia|]. cbn [sumn]. destruct (Nat.eq_dec hi (S P)) as [->|N].
      + clear IH. replace (S P - lo)%nat with (S (P - lo)) by lia. rewrite seq_S, lsum_app. f_equal.
        * assert (lo <= P)%nat by lia. clear L.
          assert (E : forall n, (n <= P)%nat -> lsum (seq lo (n - lo)) g = sumn n (fun p => if (Nat.leb lo p && Nat.ltb p (S P))%bool then g p else k0)).
          { induction n as [|n IHn]; intros Hn; [reflexivity|]. cbn [sumn]. rewrite <- IHn by lia. rewrite (proj2 (Nat.ltb_lt n (S P))) by lia. rewrite andb_true_r. destruct (Nat.leb_spec lo n).
            - replace (S n - lo)%nat with (S (n - lo)) by lia. rewrite seq_S, lsum_app. f_equal. replace (lo + (n - lo))%nat with n by lia. cbn. ring.
            - replace (S n - lo)%nat with (n - lo)%nat by lia. ring. }
          now apply E.
        * replace (lo + (P - lo))%nat with P by lia. cbn [lsum fold_right]. rewrite (proj2 (Nat.leb_le lo P)), (proj2 (Nat.ltb_lt P (S P))) by lia. cbn. ring.
      + rewrite IH by lia. rewrite (proj2 (Nat.ltb_ge P hi)) by lia. rewrite andb_false_r. ring.
  Qed.
  Lemma lsum_range2 : forall M (g : nat -> K), lsum (range2 2 M) g = sumn M (fun m => if (Nat.leb 2 m && Nat.even m)%bool then g m else k0).
  Proof.
    intros M g. assert (E : forall M, lsum (range2 2 M) g = sumn M (fun m => if (Nat.leb 2 m && Nat.even m)%bool then g m else k0)
       /\ lsum (range2 2 (S M)) g = sumn (S M) (fun m => if (Nat.leb 2 m && Nat.even m)%bool then g m else k0)); [|apply E].
    clear M. induction M as [|M [_ IH]]; [split; cbn; ring|]. split; [exact IH|].
    assert (S1 : exists h, M = (2 * h)%nat \/ M = (2 * h + 1)%nat) by (exists (M / 2)%nat; pose proof (Nat.div_mod M 2 ltac:(lia)); pose proof (Nat.mod_upper_bound M 2 ltac:(lia)); lia).
    destruct S1 as [h [E|E]].
    - transitivity (lsum (range2 2 (S M)) g).
      + unfold range2. do 3 f_equal. destruct h as [|h]; [now subst|]. replace (S (S M) - 2 + 1)%nat with (1 + (S h) * 2)%nat by lia. replace (S M - 2 + 1)%nat with (0 + (S h) * 2)%nat by lia. rewrite !Nat.div_add by lia. reflexivity.
      + rewrite IH. cbn [sumn]. assert (E2 : Nat.even (S M) = false) by (subst M; rewrite Nat.even_succ, Nat.odd_mul; reflexivity). rewrite E2, andb_false_r. ring.
    - assert (R : range2 2 (S (S M)) = range2 2 (S M) ++ [(S M)%nat]).
      { unfold range2. replace (S (S M) - 2 + 1)%nat with (0 + (S h) * 2)%nat by lia. replace (S M - 2 + 1)%nat with (1 + h * 2)%nat by lia. rewrite !Nat.div_add by lia. cbn [Nat.div Nat.divmod fst Nat.add].
        rewrite seq_S, map_app. cbn [map]. do 2 f_equal. lia. }
      rewrite R, lsum_app, IH. cbn [sumn]. f_equal. rewrite (proj2 (Nat.leb_le 2 (S M))) by lia. assert (E2 : Nat.even (S M) = true) by (subst M; rewrite Nat.even_succ; apply Nat.odd_spec; exists h; lia). rewrite E2. cbn. ring.
  Qed.
End Sums.

(** ** the derivative of an amplitude, with the entries of A on and above the diagonal *)
Lemma csq_mul : forall a b, csq (a * b) = csq a * csq b.
Proof. intros a b. unfold csq. rewrite mult_INR, sqrt_mult by apply pos_INR. apply RtoC_mult. Qed.
Section Generic.
  Variable junk : C.
  Variable D : nat.
  Notation up F k := (upper (K := CF) (SA (K := CF) F k)).
  Lemma step_ok : forall G F k dA i j, length k = D -> (i < D)%nat -> (j < D)%nat -> (i <= j)%nat -> (forall x, (at' x k <= 316)%nat) ->
    (forall u v, at' u k <> 0%nat -> at' v (dec u k) <> 0%nat -> (u < D)%nat -> (v < D)%nat -> G (dec v (dec u k)) = F (dec v (dec u k))) ->
    step_grad junk D G k dA i j = up F k i j.
  Proof.
    intros G F k dA i j L Hi Hj Hij HT HG. unfold step_grad. rewrite (proj2 (Nat.ltb_lt i D) Hi), (proj2 (Nat.ltb_lt j D) Hj), (proj2 (Nat.leb_le i j) Hij). cbn [andb].
    assert (T : forall a b, (a <= 316)%nat -> (b <= 316)%nat -> table junk (a * b) = csq a * csq b).
    { intros a b Ha Hb. unfold table. assert (a * b <= 316 * 316)%nat by (apply Nat.mul_le_mono; assumption). rewrite (proj2 (Nat.ltb_lt _ _)); [apply csq_mul|]. 
      eapply Nat.le_lt_trans; [eassumption|]. apply Nat.ltb_lt. vm_compute. reflexivity. }
    unfold upper, SA. change (sq (r := CF)) with csq. destruct (Nat.eqb_spec i j) as [->|N].
    - rewrite at_dec, Nat.eqb_refl by lia. rewrite T; [|apply HT|specialize (HT j); lia]. unfold behind. rewrite at_dec, Nat.eqb_refl by lia.
      assert (HF : half (K := CF) = RtoC (/ 2)) by (unfold half; cbn; unfold Cdiv, Cinv, Cplus, Cmult, RtoC; cbn; f_equal; field).
      rewrite HF. replace (at' j k - 1)%nat with (pred (at' j k)) by lia. cbn [kmul CF].
      destruct (Nat.eqb_spec (at' j k) 0) as [E|E]; cbn [orb]; [rewrite E; rewrite csq_0; ring|].
      destruct (Nat.eqb_spec (pred (at' j k)) 0) as [E'|E']; cbn [orb]; [rewrite E', csq_0; ring|]. rewrite (HG j j); [ring|assumption| |assumption|assumption]. rewrite at_dec, Nat.eqb_refl by lia. exact E'.
    - destruct (Nat.ltb_spec i j); [|lia]. assert (E0 : at' j (dec i k) = at' j k) by (rewrite at_dec by lia; now rewrite (proj2 (Nat.eqb_neq j i)) by lia).
      rewrite E0, T by apply HT. unfold behind. rewrite E0. cbn [kmul CF].
      destruct (Nat.eqb_spec (at' i k) 0) as [E|E]; cbn [orb]; [rewrite E; rewrite csq_0; ring|].
      destruct (Nat.eqb_spec (at' j k) 0) as [E'|E']; cbn [orb]; [rewrite E', csq_0; ring|]. rewrite (HG i j); [ring|assumption| |assumption|assumption]. congruence.
  Qed.
  Lemma accumulate_ok : forall G F w indices i j, (i < D)%nat -> (j < D)%nat -> (i <= j)%nat ->
    (forall k, In k indices -> length k = D /\ (forall x, (at' x k <= 316)%nat) /\
       forall u v, at' u k <> 0%nat -> at' v (dec u k) <> 0%nat -> (u < D)%nat -> (v < D)%nat -> G (dec v (dec u k)) = F (dec v (dec u k))) ->
    accumulate junk D G w indices i j = lsum (K := CF) indices (fun k => up F k i j * w k).
  Proof.
    intros G F w indices i j Hi Hj Hij H. unfold accumulate.
    assert (E : forall dA dL, snd (fold_left (fun '(dA, dLdA) k => let dA := step_grad junk D G k dA in (dA, fun i j => dLdA i j + dA i j * w k)) indices (dA, dL)) i j
                = dL i j + lsum (K := CF) indices (fun k => up F k i j * w k)).
    { induction indices as [|k l IH]; intros dA dL; [cbn; ring|]. cbn [fold_left]. cbv zeta. rewrite IH by (intros; apply H; now right).
      destruct (H k (or_introl eq_refl)) as (H1 & H2 & H3). rewrite (step_ok G F) by assumption. rewrite (lsum_cons (K := CF)). cbn [kadd CF]. match goal with |- ?x = ?y => change (@eq C x y) end. ring. }
    rewrite E. ring.
  Qed.
  Variables (A : R -> nat -> nat -> C) (c : R -> C) (dA : nat -> nat -> C) (dc : C) (t0 : R).
  Hypothesis DP : (0 < D)%nat.
  Hypothesis SD : forall i j, (i < D)%nat -> (j < D)%nat -> dA i j = dA j i.
  Hypothesis HA : forall i j, (i < D)%nat -> (j < D)%nat -> rder t0 (fun t => A t i j) (dA i j).
  Hypothesis Hc : rder t0 c dc.
  Hypothesis Nc : c t0 <> RtoC 0.
  Notation G t := (amp (K := CF) D (A t) (fun _ => RtoC 0) (c t)).
  Lemma der_upper : forall k, length k = D ->
    rder t0 (fun t => G t k) (dc * (G t0 k / c t0) + sumn (K := CF) D (fun i => sumn (K := CF) D (fun j => dA i j * up (G t0) k i j))).
  Proof.
    intros k L. refine (der_eq (K := CF) _ _ _ _ _ (der_amp (K := CF) t0 (rder t0) (rder_rules t0) D A (fun _ _ => RtoC 0) dA (fun _ => RtoC 0) HA _ c dc Hc Nc k L)).
    2:{ intros i Hi. apply (der_const (K := CF) t0 (rder t0) (rder_rules t0)). }
    cbn [kadd kmul kdiv CF]. f_equal.
    - rewrite (sumn_0 (K := CF) D). 2:{ intros i _. cbn. ring. } cbn. ring.
    - assert (L0 : length (repeat 0%nat D) = D) by apply repeat_length. assert (P0 : @length (car CF) [] = Vanilla.prod (repeat 0%nat D)) by (destruct D as [|d]; [lia|reflexivity]).
      pose proof (sum_upper (K := CF) (repeat 0%nat D) ltac:(rewrite L0; exact DP) [] P0 dA (SA (K := CF) (G t0) k)) as E. rewrite !L0 in E. specialize (E SD).
      specialize (E ltac:(intros i j Hi Hj; apply (SA_sym (K := CF) (repeat 0%nat D) ltac:(rewrite L0; exact DP) (G t0) [] P0 k i j); rewrite L0; assumption)).
      cbn [kadd kmul kdiv k1 CF] in E. etransitivity; [symmetry; exact E|]. clear E. set (u := up (G t0) k).
      rewrite (sumn_ext (K := CF) D _ (fun i => (sumn (K := CF) D (fun j => RtoC (/ 2) * (dA i j * u i j)) + sumn (K := CF) D (fun j => RtoC (/ 2) * (dA i j * u j i)))%C)).
      2:{ intros i Hi. pose proof (sumn_add (K := CF) D (fun j => RtoC (/ 2) * (dA i j * u i j)) (fun j => RtoC (/ 2) * (dA i j * u j i))) as X. cbn [kadd CF] in X. rewrite <- X.
          apply (sumn_ext (K := CF)). intros j Hj. match goal with |- ?x = ?y => change (@eq C x y) end.
          assert (E2 : / (RtoC 1 + RtoC 1) = RtoC (/ 2)) by (unfold Cinv, Cplus, RtoC; cbn; f_equal; field). unfold Cdiv. rewrite E2. ring. }
      pose proof (sumn_add (K := CF) D (fun i => sumn (K := CF) D (fun j => RtoC (/ 2) * (dA i j * u i j))) (fun i => sumn (K := CF) D (fun j => RtoC (/ 2) * (dA i j * u j i)))) as X.
      cbn [kadd CF] in X. etransitivity; [exact X|]. clear X. rewrite (sumn_swap (K := CF) D D (fun i j => RtoC (/ 2) * (dA i j * u j i))).
      rewrite (sumn_ext (K := CF) D (fun j => sumn (K := CF) D (fun i => RtoC (/ 2) * (dA i j * u j i))) (fun i => sumn (K := CF) D (fun j => RtoC (/ 2) * (dA i j * u i j)))).
      2:{ intros i Hi. apply (sumn_ext (K := CF)). intros j Hj. now rewrite (SD j i). }
      pose proof (sumn_add (K := CF) D (fun i => sumn (K := CF) D (fun j => RtoC (/ 2) * (dA i j * u i j))) (fun i => sumn (K := CF) D (fun j => RtoC (/ 2) * (dA i j * u i j)))) as X.
      cbn [kadd CF] in X. etransitivity; [symmetry; exact X|]. apply (sumn_ext (K := CF)). intros i Hi.
      pose proof (sumn_add (K := CF) D (fun j => RtoC (/ 2) * (dA i j * u i j)) (fun j => RtoC (/ 2) * (dA i j * u i j))) as Y. cbn [kadd CF] in Y. etransitivity; [symmetry; exact Y|].
      apply (sumn_ext (K := CF)). intros j Hj. match goal with |- ?x = ?y => change (@eq C x y) end. transitivity ((RtoC (/ 2) + RtoC (/ 2)) * (dA i j * u i j)); [ring|].
      rewrite <- RtoC_plus. replace (/ 2 + / 2)%R with 1%R by field. ring.
  Qed.
End Generic.

(** ** squeezing gate *)
Lemma rder_lin : forall (t0 : R) n (f : nat -> R -> C) d (w : nat -> C), (forall i, (i < n)%nat -> rder t0 (f i) (d i)) ->
  rder t0 (fun t => sumn (K := CF) n (fun i => w i * f i t)) (sumn (K := CF) n (fun i => w i * d i)).
Proof.
  intros t0 n f d w H. apply (der_sumn (K := CF) t0 (rder t0) (rder_rules t0) n (fun i t => w i * f i t) (fun i => w i * d i)). intros i Hi.
  apply (der_cmul (K := CF) t0 (rder t0) (rder_rules t0)). now apply H.
Qed.
Lemma rder_total2 : forall (t0 : R) M N (w : nat -> nat -> C) (f : R -> nat -> nat -> C) d, (forall m n, (m < M)%nat -> (n < N)%nat -> rder t0 (fun t => f t m n) (d m n)) ->
  rder t0 (fun t => total2 M N (fun m n => w m n * f t m n)) (total2 M N (fun m n => w m n * d m n)).
Proof.
  intros t0 M N w f d H. unfold total2. apply (der_sumn (K := CF) t0 (rder t0) (rder_rules t0) M (fun m t => sumn (K := CF) N (fun n => w m n * f t m n)) (fun m => sumn (K := CF) N (fun n => w m n * d m n))).
  intros m Hm. apply (rder_lin t0 N (fun n t => f t m n) (d m) (w m)). intros n Hn. now apply H.
Qed.
Lemma total2_ext : forall M N f g, (forall m n, (m < M)%nat -> (n < N)%nat -> f m n = g m n) -> total2 M N f = total2 M N g.
Proof. intros M N f g H. apply (sumn_ext (K := CF)). intros m Hm. apply (sumn_ext (K := CF)). intros n Hn. now apply H. Qed.
Lemma total2_lin : forall M N (x y : C) f g, total2 M N (fun m n => x * f m n + y * g m n) = x * total2 M N f + y * total2 M N g.
Proof.
  intros M N x y f g. unfold total2. rewrite (sumn_ext (K := CF) M _ (fun m => (x * sumn (K := CF) N (f m) + y * sumn (K := CF) N (g m))%C)).
  - pose proof (sumn_add (K := CF) M (fun m => x * sumn (K := CF) N (f m)) (fun m => y * sumn (K := CF) N (g m))) as E. cbn [kadd CF] in E. etransitivity; [exact E|].
    f_equal; apply (sumn_scal (K := CF)).
  - intros m _. pose proof (sumn_add (K := CF) N (fun n => x * f m n) (fun n => y * g m n)) as E. cbn [kadd CF] in E. etransitivity; [exact E|]. f_equal; apply (sumn_scal (K := CF)).
Qed.
Lemma squeezer_visits : forall M N (f : list nat -> C), (0 < N)%nat ->
  f [0; 0]%nat = RtoC 0 -> (forall m n, Nat.odd (m + n) = true -> f [m; n] = RtoC 0) ->
  lsum (K := CF) (squeezer_indices M N) f = total2 M N (fun m n => f [m; n]).
Proof.
  intros M N f HN F0 FO. unfold squeezer_indices. rewrite (lsum_app (K := CF)), (lsum_map (K := CF)), (lsum_range2 (K := CF)), (lsum_flat_map (K := CF)), (lsum_seq0 (K := CF)).
  pose proof (sumn_add (K := CF) M (fun m => if (Nat.leb 2 m && Nat.even m)%bool then f [m; 0%nat] else k0 (r := CF))
    (fun m => lsum (K := CF) (flat_map (fun n => if Nat.eqb ((m + n) mod 2) 0 then [[m; n]] else []) (seq 1 (N - 1))) f)) as E. etransitivity; [symmetry; exact E|]. clear E.
  apply (sumn_ext (K := CF)). intros m Hm. rewrite (lsum_flat_map (K := CF)), (lsum_window (K := CF) 1 N N) by lia.
  transitivity (kadd (r := CF) (sumn (K := CF) N (fun n => if Nat.eqb n 0 then f [m; n] else k0 (r := CF))) (sumn (K := CF) N (fun n => if Nat.eqb n 0 then k0 (r := CF) else f [m; n]))).
  - f_equal.
    + rewrite (sumn_delta_mul (K := CF) N 0 (fun n => f [m; n]) HN). destruct (Nat.leb_spec 2 m) as [H|H]; cbn [andb].
      * destruct (Nat.even m) eqn:E; [reflexivity|]. symmetry. apply FO. rewrite Nat.add_0_r, <- Nat.negb_even, E. reflexivity.
      * destruct m as [|[|m]]; [exact (eq_sym F0)|symmetry; apply FO; reflexivity|lia].
    + apply (sumn_ext (K := CF)). intros n Hn. rewrite (lsum_if (K := CF)). destruct n as [|n]; [reflexivity|]. rewrite (proj2 (Nat.ltb_lt _ _) Hn). cbn [Nat.leb andb Nat.eqb].
      destruct (Nat.eqb_spec ((m + S n) mod 2) 0) as [E|E]; [reflexivity|]. symmetry. apply FO. rewrite <- Nat.negb_even. apply negb_true_iff. destruct (Nat.even (m + S n)) eqn:X; [|reflexivity]. exfalso. apply E.
      apply Nat.even_spec in X. destruct X as [h ->]. rewrite Nat.mul_comm. apply Nat.mod_mul. lia.
  - rewrite <- (sumn_add (K := CF)). apply (sumn_ext (K := CF)). intros n Hn. destruct (Nat.eqb n 0); cbn; match goal with |- ?x = ?y => change (@eq C x y) end; ring.
Qed.
Section Squeezer.
  Variable junk : C.
  Variables (T Tc S cc : R -> C) (dT dTc dS dcc : C) (t0 : R).
  Hypothesis HT : rder t0 T dT.
  Hypothesis HTc : rder t0 Tc dTc.
  Hypothesis HS : rder t0 S dS.
  Hypothesis Hcc : rder t0 cc dcc.
  Hypothesis Ncc : cc t0 <> RtoC 0.
  Variables (M N : nat) (G w : nat -> nat -> C).
  Hypothesis HM : (0 < M <= 317)%nat.
  Hypothesis HN : (0 < N <= 317)%nat.
  Notation Gt t := (sq_amp (K := CF) (T t) (Tc t) (S t) (cc t)).
  Hypothesis HG : forall m n, (m < M)%nat -> (n < N)%nat -> G m n = Gt t0 m n.
  Let dLdA := accumulate junk 2 (get2 G) (get2 w) (squeezer_indices M N).
  Let F := amp (K := CF) 2 (A_sq (K := CF) (T t0) (Tc t0) (S t0)) (fun _ => RtoC 0) (cc t0).
  Lemma F_odd : forall m n, Nat.odd (m + n) = true -> F [m; n] = RtoC 0.
  Proof. intros m n H. exact (sq_odd (K := CF) (T t0) (Tc t0) (S t0) (cc t0) (m + n) m n (le_n _) H). Qed.
  Lemma up_zero : forall m n i j, (i <= j < 2)%nat -> (m = 0 /\ n = 0)%nat \/ Nat.odd (m + n) = true -> upper (K := CF) (SA (K := CF) F [m; n]) i j = RtoC 0.
  Proof.
    intros m n i j Hij H. assert (X : forall u v, (u < 2)%nat -> (v < 2)%nat -> SA (K := CF) F [m; n] u v = RtoC 0).
    { intros u v Hu Hv. unfold SA, dec, at'. destruct H as [[-> ->]|H].
      - destruct u as [|[|u]]; [| |lia]; cbn [nth]; rewrite (sq_0 CF); cbn; ring.
      - destruct u as [|[|u]]; [| |lia]; (destruct v as [|[|v]]; [| |lia]); cbn [upd nth pred].
        + destruct m as [|[|m]]; cbn [pred]; try (rewrite (sq_0 CF); cbn; ring). rewrite F_odd; [cbn; ring|]. exact H.
        + destruct m as [|m]; [rewrite (sq_0 CF); cbn; ring|]. destruct n as [|n]; [rewrite (sq_0 CF); cbn; ring|]. cbn [pred]. rewrite F_odd; [cbn; ring|]. rewrite <- H. replace (Datatypes.S m + Datatypes.S n)%nat with (Datatypes.S (Datatypes.S (m + n))) by lia. reflexivity.
        + destruct m as [|m]; [rewrite (sq_0 CF); cbn; ring|]. destruct n as [|n]; [rewrite (sq_0 CF); cbn; ring|]. cbn [pred]. rewrite F_odd; [cbn; ring|]. rewrite <- H. replace (Datatypes.S m + Datatypes.S n)%nat with (Datatypes.S (Datatypes.S (m + n))) by lia. reflexivity.
        + destruct n as [|[|n]]; cbn [pred]; try (rewrite (sq_0 CF); cbn; ring). rewrite F_odd; [cbn; ring|]. rewrite <- H. replace (m + Datatypes.S (Datatypes.S n))%nat with (Datatypes.S (Datatypes.S (m + n))) by lia. reflexivity. }
    unfold upper. destruct (Nat.eqb_spec i j) as [->|Ne]; [rewrite X by lia; cbn; ring|]. destruct (Nat.ltb_spec i j); [apply X; lia|reflexivity].
  Qed.
  Lemma dLdA_ok : forall i j, (i <= j < 2)%nat -> dLdA i j = total2 M N (fun m n => w m n * upper (K := CF) (SA (K := CF) F [m; n]) i j).
  Proof.
    intros i j Hij. unfold dLdA. rewrite (accumulate_ok junk 2 (get2 G) F (get2 w)); try lia.
    - rewrite squeezer_visits; [|lia| |].
      + apply total2_ext. intros m n _ _. unfold get2, at'. cbn [nth]. ring.
      + rewrite up_zero; [ring|exact Hij|left; auto].
      + intros m n H. rewrite up_zero; [ring|exact Hij|right; exact H].
    - assert (R2 : forall m, In m (range2 2 M) -> (m < M)%nat).
      { unfold range2. intros m Hm. apply in_map_iff in Hm. destruct Hm as (x & <- & Hx). apply in_seq in Hx. pose proof (Nat.div_mod (M - 2 + 1) 2 ltac:(lia)). pose proof (Nat.mod_upper_bound (M - 2 + 1) 2 ltac:(lia)). lia. }
      intros k Hk. assert (exists m n, k = [m; n] /\ (m < M)%nat /\ (n < N)%nat) as (m & n & -> & Hm & Hn).
      { unfold squeezer_indices in Hk. apply in_app_iff in Hk. destruct Hk as [Hk|Hk].
        - apply in_map_iff in Hk. destruct Hk as (m & <- & Hm). exists m, 0%nat. repeat split; [now apply R2|lia].
        - apply in_flat_map in Hk. destruct Hk as (m & Hm & Hk). apply in_flat_map in Hk. destruct Hk as (n & Hn & Hk). apply in_seq in Hm, Hn. exists m, n.
          destruct (Nat.eqb _ _); [|destruct Hk]. destruct Hk as [<-|[]]. repeat split; lia. }
      split; [reflexivity|]. split; [intros [|[|x]]; unfold at'; cbn [nth]; try lia; destruct x; lia|].
      intros u v Nu Nv Hu Hv. unfold get2.
      unfold dec, at' in *. destruct u as [|[|u]]; [| |lia]; (destruct v as [|[|v]]; [| |lia]); cbn [upd nth pred] in *; apply HG; lia.
  Qed.
  Lemma squeezer_core : rder t0 (fun t => total2 M N (fun m n => w m n * Gt t m n))
    (dcc * (total2 M N (fun m n => G m n * w m n) / cc t0) + (- dT * dLdA 0%nat 0%nat + dS * dLdA 0%nat 1%nat + dTc * dLdA 1%nat 1%nat)).
  Proof.
    set (dA := A_sq (K := CF) dT dTc dS).
    assert (U : forall m n, (m < M)%nat -> (n < N)%nat -> rder t0 (fun t => Gt t m n)
      (dcc * (F [m; n] / cc t0) + sumn (K := CF) 2 (fun i => sumn (K := CF) 2 (fun j => dA i j * upper (K := CF) (SA (K := CF) F [m; n]) i j)))).
    { intros m n Hm Hn. apply (der_upper 2 (fun t => A_sq (K := CF) (T t) (Tc t) (S t)) cc dA dcc t0); auto.
      - intros i j Hi Hj. unfold dA. exact (A_sq_sym (K := CF) dT dTc dS i j Hi Hj).
      - intros i j Hi Hj. unfold dA. destruct i as [|[|i]]; [| |lia]; (destruct j as [|[|j]]; [| |lia]); cbn [A_sq]; auto.
        apply (der_ext (K := CF) t0 (rder t0) (rder_rules t0) (fun t => kmul (r := CF) (Copp (RtoC 1)) (T t))); [intros t; cbn; ring|].
        refine (der_eq (K := CF) _ _ _ _ _ (der_cmul (K := CF) t0 (rder t0) (rder_rules t0) (Copp (RtoC 1)) T dT HT)). cbn. ring. }
    refine (der_eq (K := CF) _ _ _ _ _ (rder_total2 t0 M N w (fun t m n => Gt t m n) _ U)).
    rewrite !dLdA_ok by lia.
    transitivity (total2 M N (fun m n => (dcc * / cc t0) * (G m n * w m n) + RtoC 1 * (- dT * (w m n * upper (K := CF) (SA (K := CF) F [m; n]) 0 0)
       + RtoC 1 * (dS * (w m n * upper (K := CF) (SA (K := CF) F [m; n]) 0 1) + dTc * (w m n * upper (K := CF) (SA (K := CF) F [m; n]) 1 1))))).
    - apply total2_ext. intros m n Hm Hn. cbn [sumn]. unfold dA. cbn [A_sq].
      assert (Z : upper (K := CF) (SA (K := CF) F [m; n]) 1 0 = RtoC 0) by reflexivity. rewrite Z. assert (EG : G m n = F [m; n]) by exact (HG m n Hm Hn). rewrite EG.
      cbn [kadd kopp k0 CF]. match goal with |- ?x = ?y => change (@eq C x y) end. unfold Cdiv. set (u0 := upper (K := CF) _ 0%nat 0%nat). set (u1 := upper (K := CF) _ 0%nat 1%nat). set (u2 := upper (K := CF) _ 1%nat 1%nat). ring.
    - rewrite total2_lin. rewrite (total2_lin M N (- dT) (RtoC 1)). rewrite total2_lin. match goal with |- ?x = ?y => change (@eq C x y) end. unfold Cdiv. ring.
  Qed.
End Squeezer.
Lemma rder_Re2 : forall t0 f d, rder t0 f d -> is_derive (fun t => 2 * Re (f t))%R t0 (2 * Re d)%R.
Proof. intros t0 f d [H _]. refine (eq_ind _ (fun x => is_derive _ t0 x) (is_derive_scal (fun t => Re (f t)) t0 2 (Re d) H) _ _). reflexivity. Qed.
Lemma rder_eq : forall t0 f d e, d = e -> rder t0 f d -> rder t0 f e.
Proof. now intros t0 f d e ->. Qed.
Lemma cosh_pos : forall r, (0 < cosh r)%R.
Proof. intros r. unfold cosh. pose proof (exp_pos r). pose proof (exp_pos (- r)). lra. Qed.
Lemma der_cosh : forall r, is_derive cosh r (sinh r).
Proof. intros r. unfold cosh, sinh. auto_derive; [exact I|]. match goal with |- ?x = ?y => change (@eq R x y) end. field. Qed.
Lemma der_sinh : forall r, is_derive sinh r (cosh r).
Proof. intros r. unfold cosh, sinh. auto_derive; [exact I|]. match goal with |- ?x = ?y => change (@eq R x y) end. field. Qed.
Lemma cosh_sinh : forall r, (cosh r * cosh r = 1 + sinh r * sinh r)%R.
Proof. intros r. unfold cosh, sinh. assert (E : (exp r * exp (- r) = 1)%R) by (rewrite <- exp_plus; replace (r + - r)%R with 0%R by ring; apply exp_0). nra. Qed.
Lemma der_tanh : forall r, is_derive tanhr r (1 / (cosh r * cosh r))%R.
Proof.
  intros r. pose proof (cosh_pos r) as P. unfold tanhr. refine (eq_ind _ (fun x => is_derive _ r x) (is_derive_div sinh cosh r _ _ (der_sinh r) (der_cosh r) ltac:(lra)) _ _).
  pose proof (cosh_sinh r). change (@eq R ((cosh r * cosh r - sinh r * sinh r) / cosh r ^ 2)%R (1 / (cosh r * cosh r))%R). replace (cosh r * cosh r - sinh r * sinh r)%R with 1%R by lra. field. lra.
Qed.
Lemma der_sech : forall r, is_derive (fun x => 1 / cosh x)%R r (- tanhr r / cosh r)%R.
Proof.
  intros r. pose proof (cosh_pos r) as P. apply (is_derive_ext (fun x => / cosh x)%R); [intros t; unfold Rdiv; exact (eq_sym (Rmult_1_l _))|].
  refine (eq_ind _ (fun x => is_derive _ r x) (is_derive_inv cosh r _ (der_cosh r) ltac:(lra)) _ _). unfold tanhr. change (@eq R (- sinh r / cosh r ^ 2)%R (- (sinh r / cosh r) / cosh r)%R). field. lra.
Qed.
Lemma der_vacuum : forall r, is_derive (fun x => sqrt (1 / cosh x))%R r (- tanhr r * / 2 * sqrt (1 / cosh r))%R.
Proof.
  intros r. pose proof (cosh_pos r) as P. assert (P' : (0 < 1 / cosh r)%R) by (apply Rdiv_lt_0_compat; lra).
  refine (eq_ind _ (fun x => is_derive _ r x) (is_derive_comp sqrt (fun x => 1 / cosh x)%R r _ _ (is_derive_sqrt (fun x => x) (1 / cosh r) 1 (is_derive_id _) P') (der_sech r)) _ _).
  change (@eq R ((- tanhr r / cosh r) * (1 / (2 * sqrt (1 / cosh r))))%R (- tanhr r * / 2 * sqrt (1 / cosh r))%R).
  pose proof (sqrt_lt_R0 _ P') as Q. assert (E : (/ cosh r = sqrt (1 / cosh r) * sqrt (1 / cosh r))%R) by (rewrite sqrt_sqrt by lra; field; lra).
  unfold Rdiv at 1. rewrite E. field. lra.
Qed.
Lemma rder_mul_r : forall t0 (x : C) f d, rder t0 f d -> rder t0 (fun t => x * f t) (x * d).
Proof. intros t0 x f d H. exact (der_cmul (K := CF) t0 (rder t0) (rder_rules t0) x f d H). Qed.
Lemma rder_mul_l : forall t0 (x : C) f d, rder t0 f d -> rder t0 (fun t => f t * x) (d * x).
Proof. intros t0 x f d H. apply (der_ext (K := CF) t0 (rder t0) (rder_rules t0) (fun t => x * f t)); [intros t; cbn; ring|]. eapply rder_eq; [|apply rder_mul_r; exact H]. match goal with |- ?x = ?y => change (@eq C x y) end. ring. Qed.
Lemma rder_const : forall t0 (x : C), rder t0 (fun _ => x) (RtoC 0).
Proof. intros t0 x. exact (der_const (K := CF) t0 (rder t0) (rder_rules t0) x). Qed.
Lemma vacuum_nz : forall r, RtoC (sqrt (1 / cosh r)) <> RtoC 0.
Proof. intros r E. apply RtoC_inj in E. pose proof (cosh_pos r). pose proof (sqrt_lt_R0 (1 / cosh r) ltac:(apply Rdiv_lt_0_compat; lra)). lra. Qed.
Lemma Re_conj_real : forall z x, Re (Cconj z * RtoC x) = Re (z * RtoC x).
Proof. intros [a b] x. unfold Re, Cconj, Cmult, RtoC; cbn. ring. Qed.
Lemma Re_add' : forall a b, Re (a + b) = (Re a + Re b)%R. Proof. reflexivity. Qed.
Lemma Re_opp' : forall a, Re (- a) = (- Re a)%R. Proof. reflexivity. Qed.

(** sum of w G *)
Definition weighted2 (M N : nat) (w G : nat -> nat -> C) : C := total2 M N (fun m n => w m n * G m n).
Definition sq_entry (r phi : R) : nat -> nat -> C := sq_amp (K := CF) (cis phi * RtoC (tanhr r)) (cis (- phi) * RtoC (tanhr r)) (RtoC (1 / cosh r)) (RtoC (sqrt (1 / cosh r))).
(** C67, squeezing gate: both numbers are derivatives of 2 Re (sum of dLdG * G), for every cutoff up to 317 (the square roots are read from a table at products of two
    indices) and every matrix of weights *)
Theorem C67_squeezer : forall junk r phi M N w, (0 < M <= 317)%nat -> (0 < N <= 317)%nat ->
  let '(dr, dphi) := squeezer_vjp junk M N (math_squeezer r phi M N) w r phi in
  is_derive (fun x => 2 * Re (weighted2 M N w (math_squeezer x phi M N)))%R r dr /\
  is_derive (fun x => 2 * Re (weighted2 M N w (math_squeezer r x M N)))%R phi dphi.
Proof.
  intros junk r phi M N w HM HN. unfold squeezer_vjp. set (G := math_squeezer r phi M N).
  assert (RR : forall r' phi' m n, (m < M)%nat -> (n < N)%nat -> math_squeezer r' phi' M N m n
     = sq_amp (K := CF) (cis phi' * RtoC (tanhr r')) (cis (- phi') * RtoC (tanhr r')) (RtoC (1 / cosh r')) (RtoC (sqrt (1 / cosh r'))) m n).
  { intros r' phi' m n Hm Hn. exact (squeezer_right (K := CF) _ _ _ _ M N m n Hm Hn). }
  set (X := accumulate junk 2 (get2 G) (get2 w) (squeezer_indices M N)). cbv zeta. split.
  - apply (is_derive_ext (fun x => 2 * Re (weighted2 M N w (sq_entry x phi)))%R).
    { intros x. f_equal. f_equal. apply total2_ext. intros m n Hm Hn. now rewrite RR. }
    pose proof (squeezer_core junk (fun x => cis phi * RtoC (tanhr x)) (fun x => cis (- phi) * RtoC (tanhr x)) (fun x => RtoC (1 / cosh x)) (fun x => RtoC (sqrt (1 / cosh x)))
      (cis phi * RtoC (1 / (cosh r * cosh r))) (cis (- phi) * RtoC (1 / (cosh r * cosh r))) (RtoC (- tanhr r / cosh r)) (RtoC (- tanhr r * / 2 * sqrt (1 / cosh r))) r
      (rder_mul_r r _ _ _ (rder_real _ _ _ (der_tanh r))) (rder_mul_r r _ _ _ (rder_real _ _ _ (der_tanh r))) (rder_real _ _ _ (der_sech r)) (rder_real _ _ _ (der_vacuum r)) (vacuum_nz r) M N G w HM HN (RR r phi)) as H.
    fold X in H. apply rder_Re2 in H. refine (eq_ind _ (fun d => is_derive _ r d) H _ _). f_equal.
    match goal with |- context [Cconj ?S] => set (Sg := S) in * end.
    transitivity (Re (- X 0%nat 0%nat * cis phi * RtoC (1 / (cosh r * cosh r)) + X 0%nat 1%nat * RtoC (- tanhr r / cosh r) + X 1%nat 1%nat * cis (- phi) * RtoC (1 / (cosh r * cosh r)) - Sg * RtoC (/ 2) * RtoC (tanhr r))).
    + f_equal. rewrite !RtoC_mult, !RtoC_opp. field. apply vacuum_nz.
    + unfold Cminus. rewrite !Re_add', !Re_opp'. f_equal. f_equal. rewrite <- !Cmult_assoc, <- !RtoC_mult. symmetry. apply Re_conj_real.
  - apply (is_derive_ext (fun x => 2 * Re (weighted2 M N w (sq_entry r x)))%R).
    { intros x. f_equal. f_equal. apply total2_ext. intros m n Hm Hn. now rewrite RR. }
    pose proof (squeezer_core junk (fun x => cis x * RtoC (tanhr r)) (fun x => cis (- x) * RtoC (tanhr r)) (fun x => RtoC (1 / cosh r)) (fun x => RtoC (sqrt (1 / cosh r)))
      (Ci * cis phi * RtoC (tanhr r)) (- (Ci * cis (- phi)) * RtoC (tanhr r)) (RtoC 0) (RtoC 0) phi
      (rder_mul_l phi _ _ _ (rder_cis phi)) (rder_mul_l phi _ _ _ (rder_cis_neg phi)) (rder_const phi _) (rder_const phi _) (vacuum_nz r) M N G w HM HN (RR r phi)) as H.
    fold X in H. apply rder_Re2 in H. refine (eq_ind _ (fun d => is_derive _ phi d) H _ _). f_equal. f_equal. field. apply vacuum_nz.
Qed.

(** ** squeezed vacuum *)
(** backend_numpy.py:469-471 *)
Definition math_squeezed (r phi : R) (M : nat) : nat -> C := squeezed (K := CF) (cis phi * RtoC (tanhr r)) (RtoC (sqrt (1 / cosh r))) M.
Definition weighted1 (M : nat) (w G : nat -> C) : C := sumn (K := CF) M (fun m => w m * G m).
Section Squeezed.
  Variable junk : C.
  Variables (T cc : R -> C) (dT dcc : C) (t0 : R).
  Hypothesis HT : rder t0 T dT.
  Hypothesis Hcc : rder t0 cc dcc.
  Hypothesis Ncc : cc t0 <> RtoC 0.
  Variables (M : nat) (G w : nat -> C).
  Hypothesis HM : (0 < M <= 317)%nat.
  Notation Gt t := (amp (K := CF) 1 (fun _ _ => - T t) (fun _ => RtoC 0) (cc t)).
  Hypothesis HG : forall m, (m < M)%nat -> G m = Gt t0 [m].
  Let dLdA := accumulate junk 1 (fun k => G (at' 0 k)) (fun k => w (at' 0 k)) (map (fun m => [m]) (range2 2 M)).
  Let F := Gt t0.
  Lemma F1_odd : forall m, Nat.odd m = true -> F [m] = RtoC 0.
  Proof.
    induction m as [m IH] using lt_wf_ind. intros H. destruct m as [|m]; [discriminate|]. unfold F.
    rewrite (amp_step (K := CF) 1 (fun _ _ => - T t0) (fun _ => RtoC 0) ltac:(intros; reflexivity) (cc t0) 0) by (try (unfold at'; simpl); lia).
    unfold dec, at'. cbn [upd nth pred sumn]. destruct m as [|m].
    - rewrite (sq_0 CF). cbn. unfold Cdiv. ring.
    - cbn [pred]. assert (E : Gt t0 [m] = RtoC 0) by (apply IH; [lia|exact H]). rewrite E. cbn. unfold Cdiv. ring.
  Qed.
  Lemma dLdA1_ok : dLdA 0%nat 0%nat = weighted1 M w (fun m => upper (K := CF) (SA (K := CF) F [m]) 0%nat 0%nat).
  Proof.
    unfold dLdA. rewrite (accumulate_ok junk 1 (fun k => G (at' 0 k)) F (fun k => w (at' 0 k))); try lia.
    - rewrite (lsum_map (K := CF)), (lsum_range2 (K := CF)). apply (sumn_ext (K := CF)). intros m Hm. change (at' 0 [m]) with m. unfold upper, SA, dec, at'. cbn [Nat.eqb upd nth].
      destruct (Nat.leb_spec 2 m) as [L|L]; cbn [andb].
      + destruct (Nat.even m) eqn:E; [cbn; match goal with |- ?x = ?y => change (@eq C x y) end; ring|]. rewrite F1_odd; [cbn; match goal with |- ?x = ?y => change (@eq C x y) end; ring|].
        destruct m as [|[|m]]; [lia|lia|]. cbn [pred]. rewrite <- Nat.negb_even. apply negb_true_iff. exact E.
      + destruct m as [|[|m]]; [| |lia]; cbn [pred]; rewrite (sq_0 CF); cbn; match goal with |- ?x = ?y => change (@eq C x y) end; ring.
    - intros k Hk. apply in_map_iff in Hk. destruct Hk as (m & <- & Hm). unfold range2 in Hm. apply in_map_iff in Hm. destruct Hm as (x & Ex & Hx). apply in_seq in Hx.
      pose proof (Nat.div_mod (M - 2 + 1) 2 ltac:(lia)). pose proof (Nat.mod_upper_bound (M - 2 + 1) 2 ltac:(lia)). assert (Hm : (m < M)%nat) by lia.
      split; [reflexivity|]. split; [intros [|y]; unfold at'; cbn [nth]; [lia|destruct y; lia]|].
      intros u v Nu Nv Hu Hv. assert (u = 0)%nat by lia. assert (v = 0)%nat by lia. subst u v. unfold dec, at'. cbn [upd nth]. apply HG. lia.
  Qed.
  Lemma squeezed_entry : forall m, (m < M)%nat -> rder t0 (fun t => Gt t [m]) (dcc * (F [m] / cc t0) + - dT * upper (K := CF) (SA (K := CF) F [m]) 0%nat 0%nat).
  Proof.
    intros m Hm. eapply rder_eq; [|apply (der_upper 1 (fun t _ _ => - T t) cc (fun _ _ => - dT) dcc t0); auto].
    - f_equal. cbn [sumn]. cbn [kadd k0 CF]. match goal with |- ?x = ?y => change (@eq C x y) end. unfold F. ring.
    - intros i j _ _. apply (der_ext (K := CF) t0 (rder t0) (rder_rules t0) (fun t => kmul (r := CF) (Copp (RtoC 1)) (T t))); [intros t; cbn; ring|].
      eapply rder_eq; [|exact (rder_mul_r t0 (Copp (RtoC 1)) T dT HT)]. match goal with |- ?x = ?y => change (@eq C x y) end. ring.
  Qed.
  Lemma squeezed_core : rder t0 (fun t => weighted1 M w (fun m => Gt t [m])) (dcc * (weighted1 M G w / cc t0) + - dT * dLdA 0%nat 0%nat).
  Proof.
    eapply rder_eq; [|exact (rder_lin t0 M (fun m t => Gt t [m]) _ w squeezed_entry)]. rewrite dLdA1_ok. unfold weighted1.
    transitivity (kadd (r := CF) (sumn (K := CF) M (fun m => (dcc * / cc t0) * (G m * w m))) (sumn (K := CF) M (fun m => - dT * (w m * upper (K := CF) (SA (K := CF) F [m]) 0%nat 0%nat)))).
    - rewrite <- (sumn_add (K := CF)). apply (sumn_ext (K := CF)). intros m Hm. rewrite (HG m Hm). change (Gt t0 [m]) with (F [m]). cbn [kadd CF]. match goal with |- ?x = ?y => change (@eq C x y) end. unfold Cdiv. ring.
    - pose proof (sumn_scal (K := CF) M (dcc * / cc t0) (fun m => G m * w m)) as E1. pose proof (sumn_scal (K := CF) M (- dT) (fun m => w m * upper (K := CF) (SA (K := CF) F [m]) 0%nat 0%nat)) as E2.
      cbn [kmul CF] in E1, E2. rewrite E1, E2. cbn [kadd CF]. match goal with |- ?x = ?y => change (@eq C x y) end. unfold Cdiv. ring.
  Qed.
End Squeezed.
Definition sqd_entry (r phi : R) (m : nat) : C := amp (K := CF) 1 (fun _ _ => - (cis phi * RtoC (tanhr r))) (fun _ => RtoC 0) (RtoC (sqrt (1 / cosh r))) [m].
Lemma math_squeezed_right : forall r phi M m, (m < M)%nat -> math_squeezed r phi M m = sqd_entry r phi m.
Proof. intros r phi M m Hm. exact (squeezed_right (K := CF) (cis phi * RtoC (tanhr r)) (RtoC (sqrt (1 / cosh r))) M m Hm). Qed.
Theorem C67_squeezed : forall junk r phi M w, (0 < M <= 317)%nat ->
  let '(dr, dphi) := squeezed_vjp junk M (math_squeezed r phi M) w r phi in
  is_derive (fun x => 2 * Re (weighted1 M w (math_squeezed x phi M)))%R r dr /\ is_derive (fun x => 2 * Re (weighted1 M w (math_squeezed r x M)))%R phi dphi.
Proof.
  intros junk r phi M w HM. unfold squeezed_vjp. set (G := math_squeezed r phi M).
  set (X := accumulate junk 1 (fun k => G (at' 0 k)) (fun k => w (at' 0 k)) (map (fun m => [m]) (range2 2 M))). cbv zeta. split.
  - apply (is_derive_ext (fun x => 2 * Re (weighted1 M w (sqd_entry x phi)))%R).
    { intros x. f_equal. f_equal. apply (sumn_ext (K := CF)). intros m Hm. now rewrite math_squeezed_right. }
    pose proof (squeezed_core junk (fun x => cis phi * RtoC (tanhr x)) (fun x => RtoC (sqrt (1 / cosh x))) (cis phi * RtoC (1 / (cosh r * cosh r))) (RtoC (- tanhr r * / 2 * sqrt (1 / cosh r))) r
      (rder_mul_r r _ _ _ (rder_real _ _ _ (der_tanh r))) (rder_real _ _ _ (der_vacuum r)) (vacuum_nz r) M G w HM (math_squeezed_right r phi M)) as H.
    fold X in H. apply rder_Re2 in H. refine (eq_ind _ (fun d => is_derive _ r d) H _ _). f_equal.
    unfold weighted1. set (Sg := sumn (K := CF) M (fun m => G m * w m)).
    transitivity (Re (- X 0%nat 0%nat * cis phi * RtoC (1 / (cosh r * cosh r)) - Sg * RtoC (/ 2) * RtoC (tanhr r))).
    + f_equal. rewrite !RtoC_mult, !RtoC_opp. match goal with |- ?x = ?y => change (@eq C x y) end. field. apply vacuum_nz.
    + unfold Cminus. rewrite !Re_add', !Re_opp'. f_equal. f_equal. rewrite <- !Cmult_assoc, <- !RtoC_mult. symmetry. apply Re_conj_real.
  - apply (is_derive_ext (fun x => 2 * Re (weighted1 M w (sqd_entry r x)))%R).
    { intros x. f_equal. f_equal. apply (sumn_ext (K := CF)). intros m Hm. now rewrite math_squeezed_right. }
    pose proof (squeezed_core junk (fun x => cis x * RtoC (tanhr r)) (fun x => RtoC (sqrt (1 / cosh r))) (Ci * cis phi * RtoC (tanhr r)) (RtoC 0) phi
      (rder_mul_l phi _ _ _ (rder_cis phi)) (rder_const phi _) (vacuum_nz r) M G w HM (math_squeezed_right r phi M)) as H.
    fold X in H. apply rder_Re2 in H. refine (eq_ind _ (fun d => is_derive _ phi d) H _ _). f_equal. f_equal. match goal with |- ?x = ?y => change (@eq C x y) end. field. apply vacuum_nz.
Qed.

(** ** beamsplitter *)
Definition weighted4 (M N P Q : nat) (w G : nat -> nat -> nat -> nat -> C) : C := total4 M N P Q (fun m n p q => w m n p q * G m n p q).
Lemma total4_ext : forall M N P Q f g, (forall m n p q, in4 M N P Q m n p q -> f m n p q = g m n p q) -> total4 M N P Q f = total4 M N P Q g.
Proof.
  intros M N P Q f g H. do 2 (apply (sumn_ext (K := CF)); intros ? ?). do 2 (apply (sumn_ext (K := CF)); intros ? ?). apply H. repeat split; assumption.
Qed.
Lemma sumn_lin2 : forall n (x y : C) f g, sumn (K := CF) n (fun i => x * f i + y * g i) = x * sumn (K := CF) n f + y * sumn (K := CF) n g.
Proof.
  intros n x y f g. pose proof (sumn_add (K := CF) n (fun i => x * f i) (fun i => y * g i)) as E. cbn [kadd CF] in E. etransitivity; [exact E|]. f_equal; apply (sumn_scal (K := CF)).
Qed.
Lemma total4_lin : forall M N P Q (x y : C) f g, total4 M N P Q (fun m n p q => x * f m n p q + y * g m n p q) = x * total4 M N P Q f + y * total4 M N P Q g.
Proof.
  intros. unfold total4. rewrite <- sumn_lin2. apply (sumn_ext (K := CF)). intros m _. rewrite <- sumn_lin2. apply (sumn_ext (K := CF)). intros n _.
  rewrite <- sumn_lin2. apply (sumn_ext (K := CF)). intros p _. apply sumn_lin2.
Qed.
Lemma rder_total4 : forall (t0 : R) M N P Q (w : nat -> nat -> nat -> nat -> C) (f : R -> nat -> nat -> nat -> nat -> C) d,
  (forall m n p q, in4 M N P Q m n p q -> rder t0 (fun t => f t m n p q) (d m n p q)) ->
  rder t0 (fun t => weighted4 M N P Q w (f t)) (weighted4 M N P Q w d).
Proof.
  intros t0 M N P Q w f d H. unfold weighted4, total4.
  apply (der_sumn (K := CF) t0 (rder t0) (rder_rules t0) M (fun m t => sumn (K := CF) N (fun n => sumn (K := CF) P (fun p => sumn (K := CF) Q (fun q => w m n p q * f t m n p q)))) (fun m => sumn (K := CF) N (fun n => sumn (K := CF) P (fun p => sumn (K := CF) Q (fun q => w m n p q * d m n p q))))). intros m Hm.
  apply (der_sumn (K := CF) t0 (rder t0) (rder_rules t0) N (fun n t => sumn (K := CF) P (fun p => sumn (K := CF) Q (fun q => w m n p q * f t m n p q))) (fun n => sumn (K := CF) P (fun p => sumn (K := CF) Q (fun q => w m n p q * d m n p q)))). intros n Hn.
  apply (der_sumn (K := CF) t0 (rder t0) (rder_rules t0) P (fun p t => sumn (K := CF) Q (fun q => w m n p q * f t m n p q)) (fun p => sumn (K := CF) Q (fun q => w m n p q * d m n p q))). intros p Hp.
  apply (rder_lin t0 Q (fun q t => f t m n p q) (d m n p) (w m n p)). intros q Hq. apply H. repeat split; assumption.
Qed.
Lemma beamsplitter_visits : forall M N P Q (f : list nat -> C), (0 < Q)%nat ->
  f [0; 0; 0; 0]%nat = RtoC 0 -> (forall m n p q, (m + n <> p + q)%nat -> f [m; n; p; q] = RtoC 0) ->
  lsum (K := CF) (beamsplitter_indices M N P Q) f = total4 M N P Q (fun m n p q => f [m; n; p; q]).
Proof.
  intros M N P Q f HQ F0 FO. unfold beamsplitter_indices. rewrite (lsum_app (K := CF)), !(lsum_flat_map (K := CF)), !(lsum_seq0 (K := CF)), <- (sumn_add (K := CF)).
  apply (sumn_ext (K := CF)). intros m Hm. rewrite !(lsum_flat_map (K := CF)). rewrite (lsum_seq0 (K := CF) _ N).
  pose proof (lsum_window (K := CF) 0 (Nat.min N (P - m)) N) as W. rewrite Nat.sub_0_r in W. rewrite W by lia. clear W. rewrite <- (sumn_add (K := CF)).
  apply (sumn_ext (K := CF)). intros n Hn. rewrite (lsum_if (K := CF)), (lsum_flat_map (K := CF)). rewrite (lsum_window (K := CF) _ _ P) by lia. cbn [Nat.leb andb].
  set (s := (m + n)%nat).
  rewrite (sumn_ext (K := CF) P (fun p => sumn (K := CF) Q (fun q => f [m; n; p; q])) (fun p => if (Nat.leb p s && Nat.ltb (s - p) Q)%bool then f [m; n; p; (s - p)%nat] else k0 (r := CF))).
  2:{ intros p Hp. destruct (Nat.leb_spec p s) as [L|L]; cbn [andb].
      - destruct (Nat.ltb_spec (s - p) Q) as [H|H].
        + rewrite (sumn_ext (K := CF) Q _ (fun q => if Nat.eqb q (s - p) then f [m; n; p; q] else k0 (r := CF))); [exact (sumn_delta_mul (K := CF) Q (s - p) (fun q => f [m; n; p; q]) H)|].
          intros q Hq. destruct (Nat.eqb_spec q (s - p)) as [->|Nq]; [reflexivity|]. apply FO. unfold s in *. lia.
        + apply (sumn_0 (K := CF)). intros q Hq. apply FO. unfold s in *. lia.
      - apply (sumn_0 (K := CF)). intros q Hq. apply FO. unfold s in *. lia. }
  transitivity (kadd (r := CF) (sumn (K := CF) P (fun p => if Nat.eqb p s then (if Nat.ltb 0 s then f [m; n; p; (s - p)%nat] else k0 (r := CF)) else k0 (r := CF)))
     (sumn (K := CF) P (fun p => if (Nat.leb (s - Q) p && Nat.ltb p (Nat.min P s))%bool then (if (Nat.ltb 0 (s - p) && Nat.ltb (s - p) Q)%bool then f [m; n; p; (s - p)%nat] else k0 (r := CF)) else k0 (r := CF)))).
  - f_equal.
    + destruct (Nat.ltb_spec s P) as [L|L].
      * rewrite (sumn_delta_mul (K := CF) P s (fun p => if Nat.ltb 0 s then f [m; n; p; (s - p)%nat] else k0 (r := CF)) L). rewrite Nat.sub_diag, andb_true_r.
        rewrite (proj2 (Nat.ltb_lt n (Nat.min N (P - m)))); [reflexivity|]. unfold s in L. lia.
      * rewrite andb_false_r. rewrite (sumn_0 (K := CF) P); [destruct (Nat.ltb n _); reflexivity|]. intros p Hp. destruct (Nat.eqb_spec p s); [lia|reflexivity].
    + apply (sumn_ext (K := CF)). intros p Hp. rewrite (lsum_if (K := CF)). reflexivity.
  - rewrite <- (sumn_add (K := CF)). apply (sumn_ext (K := CF)). intros p Hp.
    destruct (Nat.eqb_spec p s) as [->|Np].
    + rewrite (proj2 (Nat.ltb_ge s (Nat.min P s))) by lia. rewrite andb_false_r, Nat.leb_refl, Nat.sub_diag, (proj2 (Nat.ltb_lt 0 Q) HQ). cbn [andb].
      destruct (Nat.ltb_spec 0 s) as [L|L].
      * cbn [kadd k0 CF]. match goal with |- ?x = ?y => change (@eq C x y) end. ring.
      * assert (m = 0 /\ n = 0)%nat as [-> ->] by (unfold s in L; lia). change s with 0%nat. rewrite F0. cbn. ring.
    + cbn [kadd k0 CF].
      assert (E : (if (Nat.leb (s - Q) p && Nat.ltb p (Nat.min P s))%bool then (if (Nat.ltb 0 (s - p) && Nat.ltb (s - p) Q)%bool then f [m; n; p; (s - p)%nat] else RtoC 0) else RtoC 0)
         = (if (Nat.leb p s && Nat.ltb (s - p) Q)%bool then f [m; n; p; (s - p)%nat] else RtoC 0)).
      { destruct (Nat.leb_spec (s - Q) p), (Nat.ltb_spec p (Nat.min P s)), (Nat.ltb_spec 0 (s - p)), (Nat.ltb_spec (s - p) Q), (Nat.leb_spec p s); cbn [andb]; try reflexivity; lia. }
      match goal with |- _ + ?x = ?y => change (@eq C (RtoC 0 + x) y) end. rewrite Cplus_0_l. exact E.
Qed.
Section Beamsplitter.
  Variable junk : C.
  Variables (ct st stc : R -> C) (dct dst dstc : C) (t0 : R).
  Hypothesis Hct : rder t0 ct dct.
  Hypothesis Hst : rder t0 st dst.
  Hypothesis Hstc : rder t0 stc dstc.
  Variables (M N P Q : nat) (G w : nat -> nat -> nat -> nat -> C).
  Hypothesis HM : (0 < M <= 317)%nat.
  Hypothesis HN : (0 < N <= 317)%nat.
  Hypothesis HP : (0 < P <= 317)%nat.
  Hypothesis HQ : (0 < Q <= 317)%nat.
  Notation Gt t := (bs_amp (K := CF) (ct t) (st t) (stc t)).
  Hypothesis HG : forall m n p q, in4 M N P Q m n p q -> G m n p q = Gt t0 m n p q.
  Let dLdA := accumulate junk 4 (get4 G) (get4 w) (beamsplitter_indices M N P Q).
  Let F := amp (K := CF) 4 (A_bs (K := CF) (ct t0) (st t0) (stc t0)) (fun _ => RtoC 0) (RtoC 1).
  Lemma F4_zero : forall m n p q, (m + n <> p + q)%nat -> F [m; n; p; q] = RtoC 0.
  Proof. intros m n p q H. exact (bs_zero (K := CF) (ct t0) (st t0) (stc t0) (m + n + p + q) m n p q (le_n _) H). Qed.
  Lemma up4_zero : forall m n p q i j, (i < 2)%nat -> (1 < j < 4)%nat -> (m + n + p + q = 0)%nat \/ (m + n <> p + q)%nat -> upper (K := CF) (SA (K := CF) F [m; n; p; q]) i j = RtoC 0.
  Proof.
    intros m n p q i j Hi Hj H. unfold upper. destruct (Nat.eqb_spec i j); [lia|]. destruct (Nat.ltb_spec i j); [|lia]. unfold SA, dec, at'.
    destruct i as [|[|i]]; [| |lia]; (destruct j as [|[|[|[|j]]]]; [lia|lia| | |lia]); cbn [upd nth].
    - destruct m as [|m]; [rewrite (sq_0 CF); cbn; ring|]. destruct p as [|p]; [rewrite (sq_0 CF); cbn; ring|]. cbn [pred]. rewrite F4_zero by lia. cbn. ring.
    - destruct m as [|m]; [rewrite (sq_0 CF); cbn; ring|]. destruct q as [|q]; [rewrite (sq_0 CF); cbn; ring|]. cbn [pred]. rewrite F4_zero by lia. cbn. ring.
    - destruct n as [|n]; [rewrite (sq_0 CF); cbn; ring|]. destruct p as [|p]; [rewrite (sq_0 CF); cbn; ring|]. cbn [pred]. rewrite F4_zero by lia. cbn. ring.
    - destruct n as [|n]; [rewrite (sq_0 CF); cbn; ring|]. destruct q as [|q]; [rewrite (sq_0 CF); cbn; ring|]. cbn [pred]. rewrite F4_zero by lia. cbn. ring.
  Qed.
  Lemma dLdA4_ok : forall i j, (i < 2)%nat -> (1 < j < 4)%nat -> dLdA i j = weighted4 M N P Q w (fun m n p q => upper (K := CF) (SA (K := CF) F [m; n; p; q]) i j).
  Proof.
    intros i j Hi Hj. unfold dLdA. rewrite (accumulate_ok junk 4 (get4 G) F (get4 w)); try lia.
    - rewrite beamsplitter_visits; [|lia| |].
      + apply total4_ext. intros m n p q _. unfold get4, at'. cbn [nth]. ring.
      + rewrite up4_zero; [ring|exact Hi|exact Hj|left; reflexivity].
      + intros m n p q H. rewrite up4_zero; [ring|exact Hi|exact Hj|right; exact H].
    - intros k Hk. assert (exists m n p q, k = [m; n; p; q] /\ in4 M N P Q m n p q) as (m & n & p & q & -> & B).
      { unfold beamsplitter_indices in Hk. apply in_app_iff in Hk. destruct Hk as [Hk|Hk].
        - apply in_flat_map in Hk. destruct Hk as (m & Hm & Hk). apply in_flat_map in Hk. destruct Hk as (n & Hn & Hk). apply in_seq in Hm, Hn. exists m, n, (m + n)%nat, 0%nat.
          destruct (Nat.ltb_spec 0 (m + n)); cbn [andb] in Hk; [|destruct Hk]. destruct (Nat.ltb_spec (m + n) P); [|destruct Hk]. destruct Hk as [<-|[]]. split; [reflexivity|]. repeat split; lia.
        - apply in_flat_map in Hk. destruct Hk as (m & Hm & Hk). apply in_flat_map in Hk. destruct Hk as (n & Hn & Hk). apply in_flat_map in Hk. destruct Hk as (p & Hp & Hk). apply in_seq in Hm, Hn, Hp. exists m, n, p, (m + n - p)%nat.
          destruct (Nat.ltb_spec 0 (m + n - p)); cbn [andb] in Hk; [|destruct Hk]. destruct (Nat.ltb_spec (m + n - p) Q); [|destruct Hk]. destruct Hk as [<-|[]]. split; [reflexivity|]. repeat split; lia. }
      destruct B as (B1 & B2 & B3 & B4). split; [reflexivity|]. split; [intros [|[|[|[|x]]]]; unfold at'; cbn [nth]; try lia; destruct x; lia|].
      intros u v Nu Nv Hu Hv. unfold get4. unfold dec, at' in *.
      destruct u as [|[|[|[|u]]]]; [| | | |lia]; (destruct v as [|[|[|[|v]]]]; [| | | |lia]); cbn [upd nth pred] in *; apply HG; repeat split; lia.
  Qed.
  Lemma bs_entry_der : forall m n p q, rder t0 (fun t => Gt t m n p q)
    (dct * (upper (K := CF) (SA (K := CF) F [m; n; p; q]) 0 2 + upper (K := CF) (SA (K := CF) F [m; n; p; q]) 1 3) + - dstc * upper (K := CF) (SA (K := CF) F [m; n; p; q]) 0 3 + dst * upper (K := CF) (SA (K := CF) F [m; n; p; q]) 1 2).
  Proof using Hct Hst Hstc.
    clear HM HN HP HQ HG dLdA. intros m n p q. set (dA := A_bs (K := CF) dct dst dstc).
    assert (H4 : (0 < 4)%nat) by lia. assert (N1 : RtoC 1 <> RtoC 0) by (intros E; apply RtoC_inj in E; lra).
    assert (SD : forall i j, (i < 4)%nat -> (j < 4)%nat -> dA i j = dA j i) by (intros i j Hi Hj; exact (A_bs_sym (K := CF) dct dst dstc i j Hi Hj)).
    assert (HA : forall i j, (i < 4)%nat -> (j < 4)%nat -> rder t0 (fun t => A_bs (K := CF) (ct t) (st t) (stc t) i j) (dA i j)).
    { assert (O : rder t0 (fun t => - stc t) (- dstc)).
      { apply (der_ext (K := CF) t0 (rder t0) (rder_rules t0) (fun t => kmul (r := CF) (Copp (RtoC 1)) (stc t))); [intros t; cbn; ring|].
        eapply rder_eq; [|exact (rder_mul_r t0 (Copp (RtoC 1)) stc dstc Hstc)]. match goal with |- ?x = ?y => change (@eq C x y) end. ring. }
      intros i j Hi Hj. unfold dA. destruct i as [|[|[|[|i]]]]; [| | | |lia]; (destruct j as [|[|[|[|j]]]]; [| | | |lia]); cbn [A_bs]; auto; apply rder_const. }
    pose proof (der_upper 4 (fun t => A_bs (K := CF) (ct t) (st t) (stc t)) (fun _ => RtoC 1) dA (RtoC 0) t0 H4 SD HA (rder_const t0 (RtoC 1)) N1 [m; n; p; q] eq_refl) as H.
    eapply rder_eq; [|exact H]. fold F. change (amp (K := CF) 4 (A_bs (K := CF) (ct t0) (st t0) (stc t0)) (fun _ => RtoC 0) (RtoC 1)) with F.
    assert (Z : forall i j, (j < i)%nat -> upper (K := CF) (SA (K := CF) F [m; n; p; q]) i j = RtoC 0).
    { intros i j L. unfold upper. destruct (Nat.eqb_spec i j); [lia|]. destruct (Nat.ltb_spec i j); [lia|reflexivity]. }
    cbn [sumn]. unfold dA. cbn [A_bs]. unfold F in *. set (u := upper (K := CF) (SA (K := CF) _ [m; n; p; q])) in *. rewrite (Z 2 0)%nat, (Z 2 1)%nat, (Z 3 0)%nat, (Z 3 1)%nat by lia. clear Z H.
    set (u02 := u 0%nat 2%nat). set (u03 := u 0%nat 3%nat). set (u12 := u 1%nat 2%nat). set (u13 := u 1%nat 3%nat).
    cbn [kadd kopp k0 CF]. match goal with |- ?x = ?y => change (@eq C x y) end. unfold Cdiv. ring.
  Qed.
  Lemma beamsplitter_core : rder t0 (fun t => weighted4 M N P Q w (Gt t))
    (dct * (dLdA 0%nat 2%nat + dLdA 1%nat 3%nat) + - dstc * dLdA 0%nat 3%nat + dst * dLdA 1%nat 2%nat).
  Proof.
    eapply rder_eq; [|exact (rder_total4 t0 M N P Q w (fun t => Gt t) _ (fun m n p q _ => bs_entry_der m n p q))]. rewrite !dLdA4_ok by lia. unfold weighted4.
    match goal with |- total4 _ _ _ _ ?f = _ => transitivity (total4 M N P Q (fun m n p q => dct * (RtoC 1 * (w m n p q * upper (K := CF) (SA (K := CF) F [m; n; p; q]) 0 2) + RtoC 1 * (w m n p q * upper (K := CF) (SA (K := CF) F [m; n; p; q]) 1 3))
       + RtoC 1 * (- dstc * (w m n p q * upper (K := CF) (SA (K := CF) F [m; n; p; q]) 0 3) + dst * (w m n p q * upper (K := CF) (SA (K := CF) F [m; n; p; q]) 1 2)))) end.
    - apply total4_ext. intros m n p q _. set (u02 := upper (K := CF) _ 0%nat 2%nat). set (u03 := upper (K := CF) _ 0%nat 3%nat). set (u12 := upper (K := CF) _ 1%nat 2%nat). set (u13 := upper (K := CF) _ 1%nat 3%nat). ring.
    - rewrite total4_lin. rewrite (total4_lin M N P Q (RtoC 1) (RtoC 1)). rewrite total4_lin. match goal with |- ?x = ?y => change (@eq C x y) end. ring.
  Qed.
End Beamsplitter.
(** the gate as a function of the angles, by the stable strategy *)
Definition math_beamsplitter (theta phi : R) (M N P Q : nat) : nat -> nat -> nat -> nat -> C :=
  stable_beamsplitter (K := CF) (RtoC (cos theta)) (RtoC (sin theta) * cis phi) (RtoC (sin theta) * cis (- phi)) M N P Q.
Definition bs_entry (theta phi : R) : nat -> nat -> nat -> nat -> C := bs_amp (K := CF) (RtoC (cos theta)) (RtoC (sin theta) * cis phi) (RtoC (sin theta) * cis (- phi)).
Lemma math_bs_right : forall theta phi M N P Q m n p q, in4 M N P Q m n p q -> math_beamsplitter theta phi M N P Q m n p q = bs_entry theta phi m n p q.
Proof. intros theta phi M N P Q m n p q B. unfold math_beamsplitter, bs_entry. rewrite stable_beamsplitter_right by exact B. reflexivity. Qed.
Lemma rder_cos : forall t, rder t (fun x => RtoC (cos x)) (RtoC (- sin t)).
Proof. intros t. apply rder_real. auto_derive; [exact I|]. match goal with |- ?x = ?y => change (@eq R x y) end. ring. Qed.
Lemma rder_sin : forall t, rder t (fun x => RtoC (sin x)) (RtoC (cos t)).
Proof. intros t. apply rder_real. auto_derive; [exact I|]. match goal with |- ?x = ?y => change (@eq R x y) end. ring. Qed.
Theorem C67_beamsplitter : forall junk theta phi M N P Q w, (0 < M <= 317)%nat -> (0 < N <= 317)%nat -> (0 < P <= 317)%nat -> (0 < Q <= 317)%nat ->
  let '(dtheta, dphi) := beamsplitter_vjp junk M N P Q (math_beamsplitter theta phi M N P Q) w theta phi in
  is_derive (fun x => 2 * Re (weighted4 M N P Q w (math_beamsplitter x phi M N P Q)))%R theta dtheta /\
  is_derive (fun x => 2 * Re (weighted4 M N P Q w (math_beamsplitter theta x M N P Q)))%R phi dphi.
Proof.
  intros junk theta phi M N P Q w HM HN HP HQ. unfold beamsplitter_vjp. set (G := math_beamsplitter theta phi M N P Q).
  set (X := accumulate junk 4 (get4 G) (get4 w) (beamsplitter_indices M N P Q)). cbv zeta. split.
  - apply (is_derive_ext (fun x => 2 * Re (weighted4 M N P Q w (bs_entry x phi)))%R).
    { intros x. f_equal. f_equal. apply total4_ext. intros m n p q B. now rewrite math_bs_right. }
    pose proof (beamsplitter_core junk (fun x => RtoC (cos x)) (fun x => RtoC (sin x) * cis phi) (fun x => RtoC (sin x) * cis (- phi)) _ _ _ theta
      (rder_cos theta) (rder_mul_l theta (cis phi) _ _ (rder_sin theta)) (rder_mul_l theta (cis (- phi)) _ _ (rder_sin theta)) M N P Q G w HM HN HP HQ (math_bs_right theta phi M N P Q)) as H.
    fold X in H. apply rder_Re2 in H. refine (eq_ind _ (fun d => is_derive _ theta d) H _ _). f_equal. f_equal. rewrite RtoC_opp. ring.
  - apply (is_derive_ext (fun x => 2 * Re (weighted4 M N P Q w (bs_entry theta x)))%R).
    { intros x. f_equal. f_equal. apply total4_ext. intros m n p q B. now rewrite math_bs_right. }
    pose proof (beamsplitter_core junk (fun x => RtoC (cos theta)) (fun x => RtoC (sin theta) * cis x) (fun x => RtoC (sin theta) * cis (- x)) _ _ _ phi
      (rder_const phi _) (rder_mul_r phi _ _ _ (rder_cis phi)) (rder_mul_r phi _ _ _ (rder_cis_neg phi)) M N P Q G w HM HN HP HQ (math_bs_right theta phi M N P Q)) as H.
    fold X in H. apply rder_Re2 in H. refine (eq_ind _ (fun d => is_derive _ phi d) H _ _). f_equal. f_equal. ring.
Qed.

(** ** the jax backward passes
    jax hands the backward pass the cotangent g of the array: the change of a real loss L is Re (sum of g * dG) (g = dL/dRe G - i dL/dIm G); for a real parameter it expects the derivative
    of the loss, for a complex parameter z the number h with dL = Re (h dz). *)
Definition has_gradient1 (M : nat) (L : (nat -> C) -> R) (G g : nat -> C) : Prop := forall (path : R -> nat -> C) d t0,
  (forall m, (m < M)%nat -> path t0 m = G m) -> (forall m, (m < M)%nat -> rder t0 (fun t => path t m) (d m)) -> is_derive (fun t => L (path t)) t0 (Re (weighted1 M g d)).
Definition has_gradient2 (M N : nat) (L : (nat -> nat -> C) -> R) (G g : nat -> nat -> C) : Prop := forall (path : R -> nat -> nat -> C) d t0,
  (forall m n, (m < M)%nat -> (n < N)%nat -> path t0 m n = G m n) -> (forall m n, (m < M)%nat -> (n < N)%nat -> rder t0 (fun t => path t m n) (d m n)) ->
  is_derive (fun t => L (path t)) t0 (Re (weighted2 M N g d)).
Definition has_gradient4 (M N P Q : nat) (L : (nat -> nat -> nat -> nat -> C) -> R) (G g : nat -> nat -> nat -> nat -> C) : Prop := forall (path : R -> nat -> nat -> nat -> nat -> C) d t0,
  (forall m n p q, in4 M N P Q m n p q -> path t0 m n p q = G m n p q) -> (forall m n p q, in4 M N P Q m n p q -> rder t0 (fun t => path t m n p q) (d m n p q)) ->
  is_derive (fun t => L (path t)) t0 (Re (weighted4 M N P Q g d)).
(** fock_utils.py:260-280 squeezer_jax_bwd: g is passed on unchanged *)
Definition squeezer_jax_bwd (junk : C) (M N : nat) (squeezer g : nat -> nat -> C) (r phi : R) : R * R := squeezer_vjp junk M N squeezer g r phi.
(** fock_utils.py:207-224 squeezed_jax_bwd *)
Definition squeezed_jax_bwd (junk : C) (M : nat) (sq_state g : nat -> C) (r phi : R) : R * R := squeezed_vjp junk M sq_state g r phi.
(** fock_utils.py:79-102 beamsplitter_jax_bwd *)
Definition beamsplitter_jax_bwd (junk : C) (M N P Q : nat) (bs_unitary g : nat -> nat -> nat -> nat -> C) (theta phi : R) : R * R := beamsplitter_vjp junk M N P Q bs_unitary g theta phi.

Lemma sum_pick : forall n k (z : C) (f : nat -> C), (k < n)%nat -> sumn (K := CF) n (fun i => (if Nat.eqb i k then z else RtoC 0) * f i) = z * f k.
Proof.
  intros n k z f H. rewrite (sumn_ext (K := CF) n _ (fun i => if Nat.eqb i k then z * f i else k0 (r := CF))); [exact (sumn_delta_mul (K := CF) n k (fun i => z * f i) H)|].
  intros i _. destruct (Nat.eqb i k); [reflexivity|]. cbn. match goal with |- ?x = ?y => change (@eq C x y) end. ring.
Qed.
Lemma sum_if : forall n k (f : nat -> C), (k < n)%nat -> (forall i, (i < n)%nat -> i <> k -> f i = RtoC 0) -> sumn (K := CF) n f = f k.
Proof.
  intros n k f H Z. rewrite (sumn_ext (K := CF) n _ (fun i => if Nat.eqb i k then f i else k0 (r := CF))); [exact (sumn_delta_mul (K := CF) n k f H)|].
  intros i Hi. destruct (Nat.eqb_spec i k); [reflexivity|]. now apply Z.
Qed.
Lemma sum_z : forall n (f : nat -> C), (forall i, (i < n)%nat -> f i = RtoC 0) -> sumn (K := CF) n f = RtoC 0.
Proof. intros n f H. exact (sumn_0 (K := CF) n f H). Qed.
Lemma eqb_ne : forall i k, i <> k -> Nat.eqb i k = false.
Proof. intros i k. apply Nat.eqb_neq. Qed.
Lemma weighted1_pick : forall M (z : C) G m, (m < M)%nat -> weighted1 M (fun m' => if Nat.eqb m' m then z else RtoC 0) G = z * G m.
Proof. intros. now apply sum_pick. Qed.
Lemma weighted2_pick : forall M N (z : C) G m n, (m < M)%nat -> (n < N)%nat -> weighted2 M N (fun m' n' => if (Nat.eqb m' m && Nat.eqb n' n)%bool then z else RtoC 0) G = z * G m n.
Proof.
  intros M N z G m n Hm Hn. unfold weighted2, total2. rewrite (sum_if M m); [|exact Hm|].
  - rewrite (sum_if N n); [rewrite !Nat.eqb_refl; reflexivity|exact Hn|]. intros i _ Ni. rewrite (eqb_ne _ _ Ni), andb_false_r. ring.
  - intros i _ Ni. apply sum_z. intros j _. rewrite (eqb_ne _ _ Ni). cbn [andb]. ring.
Qed.
Lemma weighted4_pick : forall M N P Q (z : C) G m n p q, in4 M N P Q m n p q ->
  weighted4 M N P Q (fun m' n' p' q' => if (Nat.eqb m' m && Nat.eqb n' n && Nat.eqb p' p && Nat.eqb q' q)%bool then z else RtoC 0) G = z * G m n p q.
Proof.
  intros M N P Q z G m n p q (Hm & Hn & Hp & Hq). unfold weighted4, total4. rewrite (sum_if M m); [|exact Hm|].
  - rewrite (sum_if N n); [|exact Hn|].
    + rewrite (sum_if P p); [|exact Hp|].
      * rewrite (sum_if Q q); [rewrite !Nat.eqb_refl; reflexivity|exact Hq|]. intros i _ Ni. rewrite (eqb_ne _ _ Ni), andb_false_r. ring.
      * intros i _ Ni. apply sum_z. intros j _. rewrite (eqb_ne _ _ Ni), andb_false_r. cbn [andb]. ring.
    + intros i _ Ni. apply sum_z. intros j _. apply sum_z. intros k _. rewrite (eqb_ne _ _ Ni), andb_false_r. cbn [andb]. ring.
  - intros i _ Ni. apply sum_z. intros j _. apply sum_z. intros k _. apply sum_z. intros l _. rewrite (eqb_ne _ _ Ni). cbn [andb]. ring.
Qed.
Lemma half_der : forall (f g : R -> R) t0 d, (forall x, g x = 2 * f x)%R -> is_derive g t0 d -> is_derive f t0 (d / 2)%R.
Proof.
  intros f g t0 d E H. apply (is_derive_ext (fun x => / 2 * g x)%R); [intros t; rewrite E; match goal with |- ?x = ?y => change (@eq R x y) end; field|].
  refine (eq_ind _ (fun x => is_derive _ t0 x) (is_derive_scal g t0 (/ 2) d H) _ _). change (@eq R (/ 2 * d)%R (d / 2)%R). field.
Qed.
Lemma Re_one : forall z, Re (RtoC 1 * z) = Re z. Proof. intros z. f_equal. ring. Qed.
Lemma Re_mi : forall z, Re (- Ci * z) = Im z. Proof. intros [a b]. unfold Re, Im, Copp, Ci, Cmult; cbn. ring. Qed.
(** a loss is differentiated through its gradient; the weighted sums determine the derivatives of the entries *)
Lemma chain1 : forall M (H : R -> nat -> C) t0 (D : (nat -> C) -> R), (forall w, is_derive (fun x => 2 * Re (weighted1 M w (H x)))%R t0 (D w)) ->
  forall L g, has_gradient1 M L (H t0) g -> is_derive (fun x => L (H x)) t0 (D g / 2)%R.
Proof.
  intros M H t0 D HD L g HL. set (dl := fun m (z : C) (m' : nat) => if Nat.eqb m' m then z else RtoC 0).
  set (d := fun m => ((D (dl m (RtoC 1)) / 2)%R, (D (dl m (Copp Ci)) / 2)%R) : C).
  assert (Hd : forall m, (m < M)%nat -> rder t0 (fun t => H t m) (d m)).
  { intros m Hm. split; [eapply half_der; [|exact (HD (dl m (RtoC 1)))]|eapply half_der; [|exact (HD (dl m (Copp Ci)))]]; intros x; cbv beta; unfold dl; rewrite weighted1_pick by assumption; f_equal; [apply Re_one|apply Re_mi]. }
  pose proof (HL H d t0 ltac:(reflexivity) Hd) as X. refine (eq_ind _ (fun y => is_derive _ t0 y) X _ _).
  pose proof (rder_Re2 _ _ _ (rder_lin t0 M (fun m t => H t m) d g Hd)) as Y. pose proof (is_derive_unique _ _ _ (HD g)) as U1. pose proof (is_derive_unique _ _ _ Y) as U2.
  assert (E : D g = (2 * Re (weighted1 M g d))%R) by (etransitivity; [symmetry; exact U1|exact U2]). rewrite E. match goal with |- ?x = ?y => change (@eq R x y) end. field.
Qed.
Lemma chain2 : forall M N (H : R -> nat -> nat -> C) t0 (D : (nat -> nat -> C) -> R), (forall w, is_derive (fun x => 2 * Re (weighted2 M N w (H x)))%R t0 (D w)) ->
  forall L g, has_gradient2 M N L (H t0) g -> is_derive (fun x => L (H x)) t0 (D g / 2)%R.
Proof.
  intros M N H t0 D HD L g HL. set (dl := fun m n (z : C) (m' n' : nat) => if (Nat.eqb m' m && Nat.eqb n' n)%bool then z else RtoC 0).
  set (d := fun m n => ((D (dl m n (RtoC 1)) / 2)%R, (D (dl m n (Copp Ci)) / 2)%R) : C).
  assert (Hd : forall m n, (m < M)%nat -> (n < N)%nat -> rder t0 (fun t => H t m n) (d m n)).
  { intros m n Hm Hn. split; [eapply half_der; [|exact (HD (dl m n (RtoC 1)))]|eapply half_der; [|exact (HD (dl m n (Copp Ci)))]]; intros x; cbv beta; unfold dl; rewrite weighted2_pick by assumption; f_equal; [apply Re_one|apply Re_mi]. }
  pose proof (HL H d t0 ltac:(reflexivity) Hd) as X. refine (eq_ind _ (fun y => is_derive _ t0 y) X _ _).
  pose proof (rder_Re2 _ _ _ (rder_total2 t0 M N g (fun t m n => H t m n) d Hd)) as Y. pose proof (is_derive_unique _ _ _ (HD g)) as U1. pose proof (is_derive_unique _ _ _ Y) as U2.
  assert (E : D g = (2 * Re (weighted2 M N g d))%R) by (etransitivity; [symmetry; exact U1|exact U2]). rewrite E. match goal with |- ?x = ?y => change (@eq R x y) end. field.
Qed.
Lemma chain4 : forall M N P Q (H : R -> nat -> nat -> nat -> nat -> C) t0 (D : (nat -> nat -> nat -> nat -> C) -> R), (forall w, is_derive (fun x => 2 * Re (weighted4 M N P Q w (H x)))%R t0 (D w)) ->
  forall L g, has_gradient4 M N P Q L (H t0) g -> is_derive (fun x => L (H x)) t0 (D g / 2)%R.
Proof.
  intros M N P Q H t0 D HD L g HL. set (dl := fun m n p q (z : C) (m' n' p' q' : nat) => if (Nat.eqb m' m && Nat.eqb n' n && Nat.eqb p' p && Nat.eqb q' q)%bool then z else RtoC 0).
  set (d := fun m n p q => ((D (dl m n p q (RtoC 1)) / 2)%R, (D (dl m n p q (Copp Ci)) / 2)%R) : C).
  assert (Hd : forall m n p q, in4 M N P Q m n p q -> rder t0 (fun t => H t m n p q) (d m n p q)).
  { intros m n p q B. split; [eapply half_der; [|exact (HD (dl m n p q (RtoC 1)))]|eapply half_der; [|exact (HD (dl m n p q (Copp Ci)))]]; intros x; cbv beta; unfold dl; rewrite weighted4_pick by assumption; f_equal; [apply Re_one|apply Re_mi]. }
  pose proof (HL H d t0 ltac:(reflexivity) Hd) as X. refine (eq_ind _ (fun y => is_derive _ t0 y) X _ _).
  pose proof (rder_Re2 _ _ _ (rder_total4 t0 M N P Q g (fun t => H t) d Hd)) as Y. pose proof (is_derive_unique _ _ _ (HD g)) as U1. pose proof (is_derive_unique _ _ _ Y) as U2.
  assert (E : D g = (2 * Re (weighted4 M N P Q g d))%R) by (etransitivity; [symmetry; exact U1|exact U2]). rewrite E. match goal with |- ?x = ?y => change (@eq R x y) end. field.
Qed.
(** C67: for every loss with a gradient, the backward passes of squeezer, squeezed vacuum and beamsplitter return twice the derivatives of the loss *)
Theorem C67_jax_squeezer : forall junk r phi M N L g, (0 < M <= 317)%nat -> (0 < N <= 317)%nat -> has_gradient2 M N L (math_squeezer r phi M N) g ->
  let '(dr, dphi) := squeezer_jax_bwd junk M N (math_squeezer r phi M N) g r phi in
  is_derive (fun x => L (math_squeezer x phi M N)) r (dr / 2)%R /\ is_derive (fun x => L (math_squeezer r x M N)) phi (dphi / 2)%R.
Proof.
  intros junk r phi M N L g HM HN HL. unfold squeezer_jax_bwd. rewrite (surjective_pairing (squeezer_vjp _ _ _ _ _ _ _)). split.
  - apply (chain2 M N (fun x => math_squeezer x phi M N) r (fun w => fst (squeezer_vjp junk M N (math_squeezer r phi M N) w r phi))); [|exact HL].
    intros w. pose proof (C67_squeezer junk r phi M N w HM HN) as X. rewrite (surjective_pairing (squeezer_vjp _ _ _ _ _ _ _)) in X. apply X.
  - apply (chain2 M N (fun x => math_squeezer r x M N) phi (fun w => snd (squeezer_vjp junk M N (math_squeezer r phi M N) w r phi))); [|exact HL].
    intros w. pose proof (C67_squeezer junk r phi M N w HM HN) as X. rewrite (surjective_pairing (squeezer_vjp _ _ _ _ _ _ _)) in X. apply X.
Qed.
Theorem C67_jax_squeezed : forall junk r phi M L g, (0 < M <= 317)%nat -> has_gradient1 M L (math_squeezed r phi M) g ->
  let '(dr, dphi) := squeezed_jax_bwd junk M (math_squeezed r phi M) g r phi in
  is_derive (fun x => L (math_squeezed x phi M)) r (dr / 2)%R /\ is_derive (fun x => L (math_squeezed r x M)) phi (dphi / 2)%R.
Proof.
  intros junk r phi M L g HM HL. unfold squeezed_jax_bwd. rewrite (surjective_pairing (squeezed_vjp _ _ _ _ _ _)). split.
  - apply (chain1 M (fun x => math_squeezed x phi M) r (fun w => fst (squeezed_vjp junk M (math_squeezed r phi M) w r phi))); [|exact HL].
    intros w. pose proof (C67_squeezed junk r phi M w HM) as X. rewrite (surjective_pairing (squeezed_vjp _ _ _ _ _ _)) in X. apply X.
  - apply (chain1 M (fun x => math_squeezed r x M) phi (fun w => snd (squeezed_vjp junk M (math_squeezed r phi M) w r phi))); [|exact HL].
    intros w. pose proof (C67_squeezed junk r phi M w HM) as X. rewrite (surjective_pairing (squeezed_vjp _ _ _ _ _ _)) in X. apply X.
Qed.
Theorem C67_jax_beamsplitter : forall junk theta phi M N P Q L g, (0 < M <= 317)%nat -> (0 < N <= 317)%nat -> (0 < P <= 317)%nat -> (0 < Q <= 317)%nat ->
  has_gradient4 M N P Q L (math_beamsplitter theta phi M N P Q) g ->
  let '(dtheta, dphi) := beamsplitter_jax_bwd junk M N P Q (math_beamsplitter theta phi M N P Q) g theta phi in
  is_derive (fun x => L (math_beamsplitter x phi M N P Q)) theta (dtheta / 2)%R /\ is_derive (fun x => L (math_beamsplitter theta x M N P Q)) phi (dphi / 2)%R.
Proof.
  intros junk theta phi M N P Q L g HM HN HP HQ HL. unfold beamsplitter_jax_bwd. rewrite (surjective_pairing (beamsplitter_vjp _ _ _ _ _ _ _ _ _)). split.
  - apply (chain4 M N P Q (fun x => math_beamsplitter x phi M N P Q) theta (fun w => fst (beamsplitter_vjp junk M N P Q (math_beamsplitter theta phi M N P Q) w theta phi))); [|exact HL].
    intros w. pose proof (C67_beamsplitter junk theta phi M N P Q w HM HN HP HQ) as X. rewrite (surjective_pairing (beamsplitter_vjp _ _ _ _ _ _ _ _ _)) in X. apply X.
  - apply (chain4 M N P Q (fun x => math_beamsplitter theta x M N P Q) phi (fun w => snd (beamsplitter_vjp junk M N P Q (math_beamsplitter theta phi M N P Q) w theta phi))); [|exact HL].
    intros w. pose proof (C67_beamsplitter junk theta phi M N P Q w HM HN HP HQ) as X. rewrite (surjective_pairing (beamsplitter_vjp _ _ _ _ _ _ _ _ _)) in X. apply X.
Qed.
(** C67, displacement gate: along every path of alpha the loss changes by Re (h dalpha), h the returned cotangent *)
Theorem C67_jax_displacement : forall tol t0 (al : R -> C) d M N L g, rder t0 al d -> (tol < Cmod (al t0) \/ 0 <= tol /\ al t0 = RtoC 0)%R ->
  has_gradient2 M N L (displacement (K := CF) (vac (al t0)) Cconj (al t0) M N) g ->
  is_derive (fun t => L (displacement (K := CF) (vac (al t)) Cconj (al t) M N)) t0 (Re (displacement_bwd M N (math_displacement tol (al t0) M N) g (al t0) * d)).
Proof.
  intros tol t0 al d M N L g Hal Ht HL. set (D := displacement (K := CF) (vac (al t0)) Cconj (al t0) M N).
  set (ja := fst (jacobian_displacement (K := CF) M N D (al t0) (Cconj (al t0)))). set (jc := snd (jacobian_displacement (K := CF) M N D (al t0) (Cconj (al t0)))).
  assert (J : forall m n, (m < M)%nat -> (n < N)%nat -> rder t0 (fun t => displacement (K := CF) (vac (al t)) Cconj (al t) M N m n) (d * ja m n + Cconj d * jc m n)).
  { intros m n Hm Hn. exact (C27_jacobian_complex t0 al d Hal M N m n Hm Hn). }
  pose proof (HL (fun t => displacement (K := CF) (vac (al t)) Cconj (al t) M N) _ t0 ltac:(reflexivity) J) as X. cbv beta in X.
  refine (eq_ind _ (fun y => is_derive _ t0 y) X _ _). clear X.
  assert (ED : forall m n, (m < M)%nat -> (n < N)%nat -> math_displacement tol (al t0) M N m n = D m n).
  { intros m n Hm Hn. unfold math_displacement, D. destruct (Rlt_dec tol (Cmod (al t0))) as [L0|L0]; [reflexivity|]. destruct Ht as [?|[T0 ->]]; [lra|].
    pose proof (C27_displacement_zero tol T0 M N (repeat (RtoC 0) (Vanilla.prod [M; N])) m n Hm Hn (repeat_length _ _)) as Z.
    rewrite <- (C27_displacement (K := CF) Cconj Cconj_conjugation (vac (RtoC 0)) (RtoC 0) (vac_conj _) M N _ m n Hm Hn (repeat_length _ _)) in Z.
    unfold math_displacement in Z. destruct (Rlt_dec tol (Cmod (RtoC 0))) as [B|_]; [rewrite Cmod_0 in B; lra|]. exact Z. }
  assert (PB : forall k b, (0 < b)%nat -> (k < b)%nat -> (prev b k < b)%nat) by (intros k b H0 H1; unfold prev; destruct k; lia).
  assert (EB : displacement_bwd M N (math_displacement tol (al t0) M N) g (al t0) = total2 M N (fun m n => g m n * ja m n) + Cconj (total2 M N (fun m n => g m n * jc m n))).
  { unfold displacement_bwd, jacobian_displacement. cbv beta iota zeta. f_equal; [|f_equal]; apply total2_ext; intros m n Hm Hn; f_equal; unfold ja, jc, jacobian_displacement; cbn [fst snd]; rewrite ?ED by (try assumption; apply PB; lia); reflexivity. }
  rewrite EB. set (Sa := total2 M N (fun m n => g m n * ja m n)). set (Sc := total2 M N (fun m n => g m n * jc m n)).
  transitivity (Re (d * Sa + Cconj d * Sc)).
  - f_equal. unfold weighted2, Sa, Sc. rewrite <- total2_lin. apply total2_ext. intros m n _ _. ring.
  - clearbody Sa Sc. destruct d as [d1 d2], Sa as [a1 a2], Sc as [c1 c2]. unfold Re, Cplus, Cmult, Cconj; cbn. ring.
Qed.
Lemma cis_conj' : forall x, Cconj (cis x) = cis (- x).
Proof. intros x. unfold cis, Cconj. cbn. rewrite cos_neg, sin_neg. reflexivity. Qed.
(** C67: the two matrices of grad_displacement are the derivatives of the square displacement matrix of alpha = r e^(i phi) in r and in phi *)
Theorem C67_grad_displacement : forall r phi cutoff m n, (m < cutoff)%nat -> (n < cutoff)%nat ->
  let disp := fun r phi => displacement (K := CF) (vac (RtoC r * cis phi)) Cconj (RtoC r * cis phi) cutoff cutoff in
  let '(grad_r, grad_phi) := grad_displacement cutoff (disp r phi) r phi in
  rder r (fun x => disp x phi m n) (grad_r m n) /\ rder phi (fun x => disp r x m n) (grad_phi m n).
Proof.
  intros r phi cutoff m n Hm Hn disp. unfold grad_displacement.
  assert (H2 : half (K := CF) = RtoC (/ 2)) by (unfold half; cbn; unfold Cdiv, Cinv, Cplus, Cmult, RtoC; cbn; f_equal; field).
  assert (E2 : RtoC (/ 2) + RtoC (/ 2) = RtoC 1) by (rewrite <- RtoC_plus; f_equal; field).
  assert (EC : cis (- phi) * cis phi = RtoC 1).
  { unfold cis, Cmult, RtoC. cbn. rewrite cos_neg, sin_neg. pose proof (sin2_cos2 phi) as S2. unfold Rsqr in S2. f_equal; nra. }
  assert (EJ : Cconj (RtoC r * cis phi) = RtoC r * cis (- phi)).
  { rewrite <- cis_conj'. destruct (cis phi) as [a b]. unfold Cconj, RtoC, Cmult; cbn. f_equal; ring. }
  split.
  - pose proof (C27_jacobian_complex r (fun x => RtoC x * cis phi) (cis phi)) as X. cbv beta in X.
    assert (Hd : rder r (fun x => RtoC x * cis phi) (cis phi)).
    { eapply rder_eq; [|apply rder_mul_l; exact (rder_real (fun x => x) 1%R r (is_derive_id r))]. match goal with |- ?x = ?y => change (@eq C x y) end. ring. }
    specialize (X Hd cutoff cutoff m n Hm Hn). unfold jacobian_displacement in X. cbv beta iota zeta in X. eapply rder_eq; [|exact X]. clear X Hd.
    unfold disp. rewrite EJ, cis_conj', H2. set (T := displacement (K := CF) _ _ _ _ _). change (sq (r := CF)) with csq. cbn [kadd kmul ksub kopp CF].
    match goal with |- ?x = ?y => change (@eq C x y) end.
    transitivity (- RtoC r * (cis (- phi) * cis phi) * (RtoC (/ 2) + RtoC (/ 2)) * T m n + csq m * cis phi * T (prev cutoff m) n - csq n * cis (- phi) * T m (prev cutoff n)); [ring|]. rewrite EC, E2. ring.
  - pose proof (C27_jacobian_complex phi (fun x => RtoC r * cis x) (RtoC r * (Ci * cis phi)) (rder_mul_r phi (RtoC r) _ _ (rder_cis phi)) cutoff cutoff m n Hm Hn) as X. cbv beta in X.
    unfold jacobian_displacement in X. cbv beta iota zeta in X. eapply rder_eq; [|exact X]. clear X.
    assert (ED : Cconj (RtoC r * (Ci * cis phi)) = - (RtoC r * (Ci * cis (- phi)))).
    { rewrite <- (cis_conj' phi). destruct (cis phi) as [a b]. unfold Cconj, Cmult, RtoC, Ci, Copp; cbn. f_equal; ring. }
    unfold disp. rewrite ED, EJ, H2. set (T := displacement (K := CF) _ _ _ _ _). change (sq (r := CF)) with csq. cbn [kadd kmul ksub kopp CF].
    match goal with |- ?x = ?y => change (@eq C x y) end. ring.
Qed.

(** ** the factor two, on a probability; the table *)
Definition prob00 (G : nat -> nat -> C) : R := (Re (G 0%nat 0%nat) * Re (G 0%nat 0%nat) + Im (G 0%nat 0%nat) * Im (G 0%nat 0%nat))%R.
Lemma prob00_gradient : forall M N G, (0 < M)%nat -> (0 < N)%nat ->
  has_gradient2 M N prob00 G (fun m n => if (Nat.eqb m 0 && Nat.eqb n 0)%bool then RtoC 2 * Cconj (G 0%nat 0%nat) else RtoC 0).
Proof.
  intros M N G HM HN path d t0 HG Hd. rewrite weighted2_pick by assumption. destruct (Hd 0%nat 0%nat HM HN) as [D1 D2]. unfold prob00.
  pose proof (is_derive_mult (fun t => Re (path t 0%nat 0%nat)) _ t0 _ _ D1 D1 ltac:(intros; apply Rmult_comm)) as X1.
  pose proof (is_derive_mult (fun t => Im (path t 0%nat 0%nat)) _ t0 _ _ D2 D2 ltac:(intros; apply Rmult_comm)) as X2.
  refine (eq_ind _ (fun x => is_derive _ t0 x) (is_derive_plus _ _ t0 _ _ X1 X2) _ _). rewrite (HG 0%nat 0%nat HM HN).
  destruct (G 0%nat 0%nat) as [a b], (d 0%nat 0%nat) as [x y]. unfold plus, mult; cbn. unfold Re, Im, Cmult, Cconj, RtoC; cbn. ring.
Qed.
(** C67, refuted for the three gates: the probability of finding no photon in the squeezed vacuum is 1/cosh r; jax receives -2 tanh r / cosh r, not its derivative *)
Theorem C67_jax_refuted : forall junk r phi M N, (0 < M <= 317)%nat -> (0 < N <= 317)%nat -> r <> 0%R ->
  let g := fun m n => if (Nat.eqb m 0 && Nat.eqb n 0)%bool then RtoC 2 * Cconj (math_squeezer r phi M N 0%nat 0%nat) else RtoC 0 in
  has_gradient2 M N prob00 (math_squeezer r phi M N) g /\
  (forall x, prob00 (math_squeezer x phi M N) = 1 / cosh x)%R /\ is_derive (fun x => 1 / cosh x)%R r (- tanhr r / cosh r)%R /\
  fst (squeezer_jax_bwd junk M N (math_squeezer r phi M N) g r phi) = (2 * (- tanhr r / cosh r))%R /\
  (2 * (- tanhr r / cosh r) <> - tanhr r / cosh r)%R.
Proof.
  intros junk r phi M N HM HN Nr g. assert (HL := prob00_gradient M N (math_squeezer r phi M N) ltac:(lia) ltac:(lia)). fold g in HL.
  assert (P0 : forall x, (prob00 (math_squeezer x phi M N) = 1 / cosh x)%R).
  { intros x. unfold prob00. assert (E : math_squeezer x phi M N 0%nat 0%nat = RtoC (sqrt (1 / cosh x))).
    { etransitivity; [exact (squeezer_right (K := CF) _ _ _ _ M N 0 0 ltac:(lia) ltac:(lia))|]. unfold sq_amp. exact (amp_zero (K := CF) 2 _ _ (RtoC (sqrt (1 / cosh x)))). }
    rewrite E. unfold Re, Im, RtoC; cbn. rewrite sqrt_sqrt; [ring|]. pose proof (cosh_pos x). apply Rlt_le. apply Rdiv_lt_0_compat; lra. }
  split; [exact HL|]. split; [exact P0|]. split; [apply der_sech|]. split.
  - pose proof (C67_jax_squeezer junk r phi M N prob00 g HM HN HL) as X. destruct (squeezer_jax_bwd junk M N (math_squeezer r phi M N) g r phi) as [dr dphi]. destruct X as [X _].
    apply (is_derive_ext _ (fun x => 1 / cosh x)%R) in X; [|exact P0]. pose proof (is_derive_unique _ _ _ X) as U1. pose proof (is_derive_unique _ _ _ (der_sech r)) as U2.
    assert (E : (dr / 2 = - tanhr r / cosh r)%R) by (etransitivity; [symmetry; exact U1|exact U2]). cbn [fst]. rewrite <- E. field.
  - pose proof (cosh_pos r) as P. intros E. assert (Z : (tanhr r / cosh r = 0)%R) by (unfold Rdiv in *; nra). apply Nr. unfold tanhr in Z.
    assert (S0 : sinh r = 0%R). { apply (Rmult_eq_reg_r (/ cosh r * / cosh r)); [unfold Rdiv in Z; rewrite Rmult_0_l, <- Rmult_assoc; exact Z|]. apply Rgt_not_eq. apply Rmult_gt_0_compat; apply Rinv_0_lt_compat; exact P. }
    unfold sinh in S0. assert (EE : exp r = exp (- r)) by lra. apply exp_inv in EE. lra.
Qed.
(** the table of square roots ends at 99999 = sqrt of a product of two indices: with a cutoff above 317 the last index reads behind it *)
Theorem C67_table_refuted : forall junk (G : list nat -> C) dA,
  step_grad junk 2 G [317; 317]%nat dA 0%nat 1%nat = junk * G [316; 316]%nat /\ step_grad junk 2 G [316; 316]%nat dA 0%nat 1%nat = RtoC 316 * G [315; 315]%nat.
Proof.
  intros junk G dA. unfold step_grad. cbn [Nat.ltb Nat.leb andb Nat.eqb]. split.
  - unfold table, at'. cbn [nth]. rewrite (proj2 (Nat.ltb_ge (317 * 317) 100000)); [reflexivity|]. apply Nat.leb_le. vm_compute. reflexivity.
  - unfold table, at'. cbn [nth]. rewrite (proj2 (Nat.ltb_lt (316 * 316) 100000)) by (apply Nat.ltb_lt; vm_compute; reflexivity). rewrite csq_mul.
    unfold behind. change (at' 0 [316; 316]%nat) with 316%nat. change (at' 1 (dec 0 [316; 316]%nat)) with 316%nat. cbn [Nat.eqb orb]. change (dec 1 (dec 0 [316; 316]%nat)) with [315; 315]%nat. f_equal.
    unfold csq. rewrite <- RtoC_mult, sqrt_sqrt by apply pos_INR. f_equal. rewrite INR_IZR_INZ. reflexivity.
Qed.
Print Assumptions C67_jax_squeezer.
Print Assumptions C67_jax_beamsplitter.
Print Assumptions C67_jax_displacement.
Print Assumptions C67_grad_displacement.
Print Assumptions C67_jax_refuted.
