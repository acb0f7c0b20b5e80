(** mrmustard/math/lattice/strategies/beamsplitter.py.  A rank-4 array is a function of four indices; an index -1 wraps to the
    last entry of its axis (numpy).  The numbers ct = cos(theta), st = sin(theta) exp(i phi), stc = conj(st) are arbitrary elements. *)
From Coq Require Import List Arith Bool Lia Field Ring.
From Verif Require Import Base RootField Tensor Series.
Import ListNotations.
Open Scope nat_scope.

(** index x-1 on an axis of length d, as numpy reads it *)
Definition prev (d x : nat) : nat := match x with 0 => d - 1 | S y => y end.

Section BS.
  Context {K : rootfield}.
  Open Scope rf_scope.
  Definition arr4 := nat -> nat -> nat -> nat -> K.
  Definition set4 (G : arr4) (m n p q : nat) (v : K) : arr4 := fun m' n' p' q' =>
    if (Nat.eqb m' m && Nat.eqb n' n && Nat.eqb p' p && Nat.eqb q' q)%bool then v else G m' n' p' q'.
  Variables ct st stc : K.
  Variables M N P Q : nat.
  Definition init4 : arr4 := set4 (fun _ _ _ _ => k0) 0 0 0 0 k1.
  Definition loop (lo hi : nat) (body : arr4 -> nat -> arr4) (G : arr4) : arr4 := fold_left body (seq lo (hi - lo)) G.

  (** beamsplitter.py:36-89 beamsplitter *)
  Definition bs_rank3 (G : arr4) : arr4 :=
    loop 0 M (fun G m => loop 0 (N - m) (fun G n =>
      let p := (m + n)%nat in
      if (Nat.ltb 0 p && Nat.ltb p P)%bool then
        set4 G m n p 0 (ct * sq m / sq p * G (prev M m) n (prev P p) 0%nat + st * sq n / sq p * G m (prev N n) (prev P p) 0%nat)
      else G) G) G.
  Definition bs_rank4 (G : arr4) : arr4 :=
    loop 0 M (fun G m => loop 0 N (fun G n => loop 0 P (fun G p =>
      let q := (m + n - p)%nat in
      if (Nat.ltb 0 q && Nat.ltb q Q)%bool then
        set4 G m n p q (- stc * sq m / sq q * G (prev M m) n p (prev Q q) + ct * sq n / sq q * G m (prev N n) p (prev Q q))
      else G) G) G) G.
  Definition beamsplitter : arr4 := bs_rank4 (bs_rank3 init4).

  (** beamsplitter.py:92-172 stable_beamsplitter; [avg] is the accumulation of val and pivots *)
  Definition avg (l : list (nat * K)) : K :=
    let '(v, n) := fold_left (fun '(v, n) '(x, t) => if Nat.ltb 0 x then (v + t, S n) else (v, n)) l (k0, 0%nat) in v / knat n.
  Definition st_rank3 (G : arr4) : arr4 :=
    loop 0 M (fun G m => loop 0 (Nat.min N (P - m)) (fun G n =>
      let p := (m + n)%nat in
      if (Nat.ltb 0 m || Nat.ltb 0 n || Nat.ltb 0 p)%bool then
        set4 G m n p 0 (avg
          [(m, ct * sq p / sq m * G (prev M m) n (prev P p) 0%nat); (n, st * sq p / sq n * G m (prev N n) (prev P p) 0%nat);
           (p, ct * sq m / sq p * G (prev M m) n (prev P p) 0%nat + st * sq n / sq p * G m (prev N n) (prev P p) 0%nat)])
      else G) G) G.
  Definition st_rank4 (G : arr4) : arr4 :=
    loop 0 M (fun G m => loop 0 N (fun G n => loop (m + n - Q)%nat (Nat.min P (m + n)) (fun G p =>
      let q := (m + n - p)%nat in
      if (Nat.ltb 0 q && Nat.ltb q Q)%bool then
        if (Nat.ltb 0 m || Nat.ltb 0 n || Nat.ltb 0 p || Nat.ltb 0 q)%bool then
          set4 G m n p q (avg
            [(m, ct * sq p / sq m * G (prev M m) n (prev P p) q - stc * sq q / sq m * G (prev M m) n p (prev Q q));
             (n, st * sq p / sq n * G m (prev N n) (prev P p) q + ct * sq q / sq n * G m (prev N n) p (prev Q q));
             (p, ct * sq m / sq p * G (prev M m) n (prev P p) q + st * sq n / sq p * G m (prev N n) (prev P p) q);
             (q, - stc * sq m / sq q * G (prev M m) n p (prev Q q) + ct * sq n / sq q * G m (prev N n) p (prev Q q))])
        else G
      else G) G) G) G.
  Definition stable_beamsplitter : arr4 := st_rank4 (st_rank3 init4).
  (** the Bargmann matrix of the gate: triples.py beamsplitter_gate_Abc; indices 0,1 are the outputs and 2,3 the inputs *)
  Definition A_bs (i j : nat) : K :=
    match i, j with
    | 0, 2 | 2, 0 => ct | 0, 3 | 3, 0 => - stc | 1, 2 | 2, 1 => st | 1, 3 | 3, 1 => ct
    | _, _ => k0
    end.
End BS.

(** ** proofs *)
Section Proofs.
  Context {K : rootfield}.
  Add Field Kfield : (kft K).
  Open Scope rf_scope.
  Variables ct st stc : K.
  Notation A := (A_bs ct st stc).
  Definition bs_amp (m n p q : nat) : K := amp 4 A (fun _ => k0) k1 [m; n; p; q].
  Lemma A_bs_sym : forall i j, (i < 4)%nat -> (j < 4)%nat -> A i j = A j i.
  Proof. intros i j Hi Hj. do 4 (try destruct i as [|i]); do 4 (try destruct j as [|j]); try lia; reflexivity. Qed.
  (** photon-number conservation *)
  Lemma bs_zero : forall w m n p q, (m + n + p + q <= w)%nat -> (m + n <> p + q)%nat -> bs_amp m n p q = k0.
  Proof.
    induction w as [w IH] using lt_wf_ind. intros m n p q Hw Hc.
    assert (X : forall m n p q, (m + n + p + q < w)%nat -> (m + n <> p + q)%nat -> amp 4 A (fun _ => k0) k1 [m; n; p; q] = k0)
      by (intros m' n' p' q' H1 H2; exact (IH (m' + n' + p' + q')%nat H1 m' n' p' q' (le_n _) H2)).
    assert (Y : forall m n p q i, (i < 4)%nat -> (at' i [m; n; p; q] <> 0)%nat ->
      sumn 4 (fun j => A i j * (sq (at' j (dec i [m; n; p; q])) * amp 4 A (fun _ => k0) k1 (dec j (dec i [m; n; p; q])))) = k0 -> bs_amp m n p q = k0).
    { intros m' n' p' q' i Hi Ni E. unfold bs_amp. rewrite (amp_step 4 A (fun _ => k0) A_bs_sym k1 i) by (simpl; auto). rewrite E.
      assert (sq (at' i [m'; n'; p'; q']) <> k0 :> K) by (now apply sq_neq). field. assumption. }
    destruct m as [|m]; [destruct n as [|n]; [destruct p as [|p]; [destruct q as [|q]; [lia|]|]|]|].
    - apply (Y 0 0 0 (S q) 3)%nat; [lia|unfold at'; simpl; lia|]. unfold dec, at'. cbn [upd nth pred sumn A_bs]. rewrite !sq_0. ring.
    - apply (Y 0 0 (S p) q 2)%nat; [lia|unfold at'; simpl; lia|]. unfold dec, at'. cbn [upd nth pred sumn A_bs]. rewrite !sq_0. ring.
    - apply (Y 0 (S n) p q 1)%nat; [lia|unfold at'; simpl; lia|]. unfold dec, at'. cbn [upd nth pred sumn A_bs].
      assert (E1 : sq p * amp 4 A (fun _ => k0) k1 [0; n; pred p; q]%nat = k0).
      { destruct p as [|p]; [rewrite sq_0; ring|]. rewrite X by (simpl; lia). ring. }
      assert (E2 : sq q * amp 4 A (fun _ => k0) k1 [0; n; p; pred q]%nat = k0).
      { destruct q as [|q]; [rewrite sq_0; ring|]. rewrite X by (simpl; lia). ring. }
      cbn [pred] in E1, E2. rewrite E1, E2. ring.
    - apply (Y (S m) n p q 0)%nat; [lia|unfold at'; simpl; lia|]. unfold dec, at'. cbn [upd nth pred sumn A_bs].
      assert (E1 : sq p * amp 4 A (fun _ => k0) k1 [m; n; pred p; q]%nat = k0).
      { destruct p as [|p]; [rewrite sq_0; ring|]. rewrite X by (simpl; lia). ring. }
      assert (E2 : sq q * amp 4 A (fun _ => k0) k1 [m; n; p; pred q]%nat = k0).
      { destruct q as [|q]; [rewrite sq_0; ring|]. rewrite X by (simpl; lia). ring. }
      rewrite E1, E2. ring.
  Qed.
  (** the four recurrences *)
  Lemma bs_rec : forall i m n p q, (i < 4)%nat -> (at' i [m; n; p; q] <> 0)%nat ->
     bs_amp m n p q = (sumn 4 (fun j => A i j * (sq (at' j (dec i [m; n; p; q])) * amp 4 A (fun _ => k0) k1 (dec j (dec i [m; n; p; q]))))) / sq (at' i [m; n; p; q]).
  Proof.
    intros i m n p q Hi Ni. unfold bs_amp. rewrite (amp_step 4 A (fun _ => k0) A_bs_sym k1 i) by (simpl; auto).
    assert (sq (at' i [m; n; p; q]) <> k0 :> K) by (now apply sq_neq). field. assumption.
  Qed.
  Ltac rec_tac i := rewrite (bs_rec i) by (try lia; unfold at'; simpl; lia); unfold dec, at', bs_amp; cbn [upd nth pred sumn A_bs].
  Lemma bs_rec_m : forall m n p q, bs_amp (S m) n p q = (ct * sq p * bs_amp m n (pred p) q - stc * sq q * bs_amp m n p (pred q)) / sq (S m).
  Proof. intros. rec_tac 0. field. apply sq_neq. lia. Qed.
  Lemma bs_rec_n : forall m n p q, bs_amp m (S n) p q = (st * sq p * bs_amp m n (pred p) q + ct * sq q * bs_amp m n p (pred q)) / sq (S n).
  Proof. intros. rec_tac 1. field. apply sq_neq. lia. Qed.
  Lemma bs_rec_p : forall m n p q, bs_amp m n (S p) q = (ct * sq m * bs_amp (pred m) n p q + st * sq n * bs_amp m (pred n) p q) / sq (S p).
  Proof. intros. rec_tac 2. field. apply sq_neq. lia. Qed.
  Lemma bs_rec_q : forall m n p q, bs_amp m n p (S q) = (- stc * sq m * bs_amp (pred m) n p q + ct * sq n * bs_amp m (pred n) p q) / sq (S q).
  Proof. intros. rec_tac 3. field. apply sq_neq. lia. Qed.

  Lemma loop_inv : forall (I : nat -> @arr4 K -> Prop) lo hi body G, lo <= hi -> I lo G -> (forall i G, lo <= i < hi -> I i G -> I (S i) (body G i)) -> I hi (loop lo hi body G).
  Proof.
    intros I lo hi body G L H0 HS. unfold loop. assert (X : forall c lo' G, lo <= lo' -> (lo' + c <= hi)%nat -> I lo' G -> I (lo' + c)%nat (fold_left body (seq lo' c) G)).
    { induction c as [|c IH]; intros lo' G' L1 L2 H; [now rewrite Nat.add_0_r|]. cbn [seq fold_left]. rewrite Nat.add_succ_r, <- Nat.add_succ_l.
      apply IH; [lia|lia|]. apply HS; [lia|exact H]. }
    replace hi with (lo + (hi - lo))%nat at 1 by lia. apply X; [lia|lia|exact H0].
  Qed.
  Lemma loop_empty : forall lo hi body (G : @arr4 K), hi <= lo -> loop lo hi body G = G.
  Proof. intros lo hi body G H. unfold loop. now replace (hi - lo)%nat with 0%nat by lia. Qed.
  Lemma set4_same : forall (G : @arr4 K) m n p q v, set4 G m n p q v m n p q = v.
  Proof. intros. unfold set4. now rewrite !Nat.eqb_refl. Qed.
  Lemma set4_other : forall (G : @arr4 K) m n p q v m' n' p' q', (m' <> m \/ n' <> n \/ p' <> p \/ q' <> q) -> set4 G m n p q v m' n' p' q' = G m' n' p' q'.
  Proof.
    intros G m n p q v m' n' p' q' H. unfold set4.
    destruct (Nat.eqb_spec m' m), (Nat.eqb_spec n' n), (Nat.eqb_spec p' p), (Nat.eqb_spec q' q); simpl; try reflexivity. lia.
  Qed.

  Variables M N P Q : nat.
  Definition in4 m n p q := m < M /\ n < N /\ p < P /\ q < Q.
  (** the entries of R are correct *)
  Definition right_on (R : nat -> nat -> nat -> nat -> Prop) (G : @arr4 K) : Prop :=
    forall m n p q, in4 m n p q -> R m n p q -> G m n p q = bs_amp m n p q.
  Lemma right_set : forall (R R' : nat -> nat -> nat -> nat -> Prop) G m n p q v, right_on R G -> v = bs_amp m n p q ->
    (forall m' n' p' q', in4 m' n' p' q' -> R' m' n' p' q' -> R m' n' p' q' \/ (m' = m /\ n' = n /\ p' = p /\ q' = q)) -> right_on R' (set4 G m n p q v).
  Proof.
    intros R R' G m n p q v H -> HR m' n' p' q' B HR'. destruct (HR _ _ _ _ B HR') as [X|[-> [-> [-> ->]]]]; [|apply set4_same].
    destruct (Nat.eq_dec m' m) as [->|]; [destruct (Nat.eq_dec n' n) as [->|]; [destruct (Nat.eq_dec p' p) as [->|]; [destruct (Nat.eq_dec q' q) as [->|]|]|]|];
      [apply set4_same| | | |]; rewrite set4_other by lia; now apply H.
  Qed.
  Lemma right_sub : forall (R R' : nat -> nat -> nat -> nat -> Prop) G, right_on R G ->
    (forall m n p q, in4 m n p q -> R' m n p q -> R m n p q) -> right_on R' G.
  Proof. intros R R' G H S m n p q B X. apply H; auto. Qed.
  (** not conserving, or before (m,n,p) in the loop order / in the q = 0 plane *)
  Definition R3 (m n : nat) (m' n' p' q' : nat) : Prop :=
    (m' + n' <> p' + q')%nat \/ (m' + n' = 0)%nat \/ (q' = 0 /\ (m' < m \/ (m' = m /\ n' < n))).
  Definition R4 (m n p : nat) (m' n' p' q' : nat) : Prop :=
    (m' + n' <> p' + q')%nat \/ q' = 0 \/ m' < m \/ (m' = m /\ (n' < n \/ (n' = n /\ p' < p))).
  Lemma init_right : right_on (fun m n p q => (m + n <> p + q)%nat \/ (m + n = 0)%nat) init4.
  Proof.
    intros m n p q B H. unfold init4. destruct (Nat.eq_dec (m + n + p + q) 0) as [E|E].
    - replace m with 0 by lia. replace n with 0 by lia. replace p with 0 by lia. replace q with 0 by lia. rewrite set4_same.
      unfold bs_amp. symmetry. exact (amp_zero 4 A (fun _ => k0) k1).
    - rewrite set4_other by lia. symmetry. apply (bs_zero (m + n + p + q)); [lia|]. lia.
  Qed.
  Lemma prev_S : forall d x, prev d (S x) = x. Proof. reflexivity. Qed.

  (** the neighbours (one output and one input photon less) are correct *)
  Definition deps (G : @arr4 K) m n p q : Prop := forall m' n' p' q', in4 m' n' p' q' -> S (m' + n') = (m + n)%nat -> S (p' + q') = (p + q)%nat ->
    m' <= m -> n' <= n -> p' <= p -> q' <= q -> G m' n' p' q' = bs_amp m' n' p' q'.
  Ltac nb H := rewrite ?prev_S; cbn [pred]; rewrite H; [reflexivity|repeat split; lia|lia|lia|lia|lia|lia|lia].
  Ltac nbr x H := let y := fresh in destruct x as [|y]; [rewrite sq_0; ring|]; nb H.
  Lemma val_p : forall G m n p q, deps G m n p q -> in4 m n p q -> p <> 0 ->
    ct * sq m / sq p * G (prev M m) n (prev P p) q + st * sq n / sq p * G m (prev N n) (prev P p) q = bs_amp m n p q.
  Proof.
    intros G m n p q H [B1 [B2 [B3 B4]]] Np. destruct p as [|p]; [lia|]. rewrite bs_rec_p, !prev_S. assert (Nq : sq (S p) <> k0 :> K) by (apply sq_neq; lia).
    assert (E1 : sq m * G (prev M m) n p q = sq m * bs_amp (pred m) n p q) by (nbr m H).
    assert (E2 : sq n * G m (prev N n) p q = sq n * bs_amp m (pred n) p q) by (nbr n H).
    transitivity ((ct * (sq m * G (prev M m) n p q) + st * (sq n * G m (prev N n) p q)) / sq (S p)); [field; exact Nq|]. rewrite E1, E2. field. exact Nq.
  Qed.
  Lemma val_q : forall G m n p q, deps G m n p q -> in4 m n p q -> q <> 0 ->
    - stc * sq m / sq q * G (prev M m) n p (prev Q q) + ct * sq n / sq q * G m (prev N n) p (prev Q q) = bs_amp m n p q.
  Proof.
    intros G m n p q H [B1 [B2 [B3 B4]]] Np. destruct q as [|q]; [lia|]. rewrite bs_rec_q, !prev_S. assert (Nq : sq (S q) <> k0 :> K) by (apply sq_neq; lia).
    assert (E1 : sq m * G (prev M m) n p q = sq m * bs_amp (pred m) n p q) by (nbr m H).
    assert (E2 : sq n * G m (prev N n) p q = sq n * bs_amp m (pred n) p q) by (nbr n H).
    transitivity ((- stc * (sq m * G (prev M m) n p q) + ct * (sq n * G m (prev N n) p q)) / sq (S q)); [field; exact Nq|]. rewrite E1, E2. field. exact Nq.
  Qed.
  Lemma val_m : forall G m n p q, deps G m n p q -> in4 m n p q -> m <> 0 ->
    ct * sq p / sq m * G (prev M m) n (prev P p) q - stc * sq q / sq m * G (prev M m) n p (prev Q q) = bs_amp m n p q.
  Proof.
    intros G m n p q H [B1 [B2 [B3 B4]]] Np. destruct m as [|m]; [lia|]. rewrite bs_rec_m, !prev_S. assert (Nq : sq (S m) <> k0 :> K) by (apply sq_neq; lia).
    assert (E1 : sq p * G m n (prev P p) q = sq p * bs_amp m n (pred p) q) by (nbr p H).
    assert (E2 : sq q * G m n p (prev Q q) = sq q * bs_amp m n p (pred q)) by (nbr q H).
    transitivity ((ct * (sq p * G m n (prev P p) q) - stc * (sq q * G m n p (prev Q q))) / sq (S m)); [field; exact Nq|]. rewrite E1, E2. field. exact Nq.
  Qed.
  Lemma val_n : forall G m n p q, deps G m n p q -> in4 m n p q -> n <> 0 ->
    st * sq p / sq n * G m (prev N n) (prev P p) q + ct * sq q / sq n * G m (prev N n) p (prev Q q) = bs_amp m n p q.
  Proof.
    intros G m n p q H [B1 [B2 [B3 B4]]] Np. destruct n as [|n]; [lia|]. rewrite bs_rec_n, !prev_S. assert (Nq : sq (S n) <> k0 :> K) by (apply sq_neq; lia).
    assert (E1 : sq p * G m n (prev P p) q = sq p * bs_amp m n (pred p) q) by (nbr p H).
    assert (E2 : sq q * G m n p (prev Q q) = sq q * bs_amp m n p (pred q)) by (nbr q H).
    transitivity ((st * (sq p * G m n (prev P p) q) + ct * (sq q * G m n p (prev Q q))) / sq (S n)); [field; exact Nq|]. rewrite E1, E2. field. exact Nq.
  Qed.
  (** averaging equal values *)
  Lemma avg_ok : forall l (a : K), (forall x t, In (x, t) l -> x <> 0 -> t = a) -> (exists x t, In (x, t) l /\ x <> 0) -> avg l = a.
  Proof using.
    clear. intros l a H E. unfold avg.
    set (f := fun '(v, n) '(x, t) => if Nat.ltb 0 x then (v + t, S n) else (v, n) : K * nat).
    assert (X : forall l v n, (forall x t, In (x, t) l -> x <> 0 -> t = a) -> v = knat n * a ->
       (n <> 0%nat \/ exists x t, In (x, t) l /\ x <> 0%nat) ->
       let '(v', n') := fold_left f l (v, n) in v' = knat n' * a /\ n' <> 0%nat).
    { clear. intros l. induction l as [|[x t] l IH]; intros v n H Hv HE.
      - simpl. split; [exact Hv|]. destruct HE as [HE|[x [t [[] _]]]]. exact HE.
      - cbn [fold_left f]. destruct (Nat.ltb_spec 0 x) as [Lx|Lx].
        + apply IH; [intros x1 t1 I1 N1; apply (H x1 t1); [now right|exact N1]| |left; lia]. rewrite (H x t) by (try lia; now left). rewrite Hv, knat_S. ring.
        + apply IH; [intros x1 t1 I1 N1; apply (H x1 t1); [now right|exact N1]|exact Hv|]. destruct HE as [HE|[x' [t' [[E|HE] N]]]]; [now left| |right; eauto].
          injection E as -> ->. lia. }
    specialize (X l k0 0%nat H ltac:(rewrite knat_0; ring) (or_intror E)). destruct (fold_left f l (k0, 0%nat)) as [v n]. destruct X as [-> N].
    field. now apply knat_neq.
  Qed.
  (** rank 4 of both strategies *)
  Lemma bs_rank4_right : forall G, right_on (R4 0 0 0) G -> right_on (fun _ _ _ _ => True) (bs_rank4 ct stc M N P Q G).
  Proof.
    intros G H. unfold bs_rank4.
    apply (right_sub (R4 M 0 0)); [|intros m n p q [B _] _; right; right; left; exact B].
    apply (loop_inv (fun m => right_on (R4 m 0 0))); [lia|exact H|]. clear G H. intros m G Hm H.
    apply (right_sub (R4 m N 0)); [|unfold in4, R4; intros; lia].
    apply (loop_inv (fun n => right_on (R4 m n 0))); [lia|exact H|]. clear G H. intros n G Hn H.
    apply (right_sub (R4 m n P)); [|unfold in4, R4; intros; lia].
    apply (loop_inv (fun p => right_on (R4 m n p))); [lia|exact H|]. clear G H. intros p G Hp H. cbv zeta.
    destruct (Nat.ltb_spec 0 (m + n - p)) as [L1|L1]; [destruct (Nat.ltb_spec (m + n - p) Q) as [L2|L2]|]; cbn [andb].
    - eapply right_set; [exact H| |unfold in4, R4; intros; lia]. apply val_q; [|repeat split; lia|lia].
      intros m' n' p' q' B' D1 D2 D3 D4 D5 D6. apply H; [exact B'|]. unfold R4. lia.
    - apply (right_sub (R4 m n p)); [exact H|]. unfold in4, R4. intros; lia.
    - apply (right_sub (R4 m n p)); [exact H|]. unfold in4, R4. intros; lia.
  Qed.
  Lemma st_rank4_right : forall G, right_on (R4 0 0 0) G -> right_on (fun _ _ _ _ => True) (st_rank4 ct st stc M N P Q G).
  Proof.
    intros G H. unfold st_rank4.
    apply (right_sub (R4 M 0 0)); [|intros m n p q [B _] _; right; right; left; exact B].
    apply (loop_inv (fun m => right_on (R4 m 0 0))); [lia|exact H|]. clear G H. intros m G Hm H.
    apply (right_sub (R4 m N 0)); [|unfold in4, R4; intros; lia].
    apply (loop_inv (fun n => right_on (R4 m n 0))); [lia|exact H|]. clear G H. intros n G Hn H.
    destruct (Nat.le_gt_cases (m + n - Q) (Nat.min P (m + n))) as [LE|GT].
    2:{ rewrite loop_empty by lia. apply (right_sub (R4 m n 0)); [exact H|]. unfold in4, R4. intros; lia. }
    apply (right_sub (R4 m n (Nat.min P (m + n)))); [|unfold in4, R4; intros; lia].
    apply (loop_inv (fun p => right_on (R4 m n p))); [exact LE|apply (right_sub (R4 m n 0)); [exact H|unfold in4, R4; intros; lia]|].
    clear G H. intros p G Hp H. cbv zeta.
    destruct (Nat.ltb_spec 0 (m + n - p)) as [L1|L1]; [destruct (Nat.ltb_spec (m + n - p) Q) as [L2|L2]|]; cbn [andb].
    - rewrite orb_true_r.
      assert (B : in4 m n p (m + n - p)) by (repeat split; lia).
      assert (Dp : deps G m n p (m + n - p)).
      { intros m' n' p' q' B' D1 D2 D3 D4 D5 D6. apply H; [exact B'|]. unfold R4. lia. }
      eapply right_set; [exact H| |unfold in4, R4; intros; lia]. apply avg_ok.
      + intros x t [E|[E|[E|[E|[]]]]] Nx; injection E as <- <-; [now apply val_m|now apply val_n|now apply val_p|now apply val_q].
      + exists (m + n - p)%nat. eexists. split; [right; right; right; left; reflexivity|lia].
    - apply (right_sub (R4 m n p)); [exact H|]. unfold in4, R4. intros; lia.
    - apply (right_sub (R4 m n p)); [exact H|]. unfold in4, R4. intros; lia.
  Qed.
  (** rank 3 *)
  Lemma bs_rank3_right : (P <= N \/ M <= 1) -> 0 < Q -> right_on (R4 0 0 0) (bs_rank3 ct st M N P init4).
  Proof.
    intros HP HQ. unfold bs_rank3.
    apply (right_sub (R3 M 0)); [|unfold in4, R4, R3; intros; lia].
    apply (loop_inv (fun m => right_on (R3 m 0))); [lia|apply (right_sub _ _ _ init_right); unfold in4, R3; intros; lia|]. intros m G Hm H.
    apply (right_sub (R3 m (N - m))); [|unfold in4, R3; intros; lia].
    apply (loop_inv (fun n => right_on (R3 m n))); [lia|exact H|]. clear G H. intros n G Hn H. cbv zeta.
    destruct (Nat.ltb_spec 0 (m + n)) as [L1|L1]; [destruct (Nat.ltb_spec (m + n) P) as [L2|L2]|]; cbn [andb].
    - eapply right_set; [exact H| |unfold in4, R3; intros; lia]. apply val_p; [|repeat split; lia|lia].
      intros m' n' p' q' B' D1 D2 D3 D4 D5 D6. apply H; [exact B'|]. unfold R3. lia.
    - apply (right_sub (R3 m n)); [exact H|]. unfold in4, R3. intros; lia.
    - apply (right_sub (R3 m n)); [exact H|]. unfold in4, R3. intros; lia.
  Qed.
  Lemma st_rank3_right : 0 < Q -> right_on (R4 0 0 0) (st_rank3 ct st M N P init4).
  Proof.
    intros HQ. unfold st_rank3.
    apply (right_sub (R3 M 0)); [|unfold in4, R4, R3; intros; lia].
    apply (loop_inv (fun m => right_on (R3 m 0))); [lia|apply (right_sub _ _ _ init_right); unfold in4, R3; intros; lia|]. intros m G Hm H.
    apply (right_sub (R3 m (Nat.min N (P - m)))); [|unfold in4, R3; intros; lia].
    apply (loop_inv (fun n => right_on (R3 m n))); [lia|exact H|]. clear G H. intros n G Hn H. cbv zeta.
    destruct ((Nat.ltb 0 m || Nat.ltb 0 n || Nat.ltb 0 (m + n))%bool) eqn:Z.
    - assert (B : in4 m n (m + n) 0) by (repeat split; lia).
      assert (Dp : deps G m n (m + n) 0).
      { intros m' n' p' q' B' D1 D2 D3 D4 D5 D6. apply H; [exact B'|]. unfold R3. lia. }
      eapply right_set; [exact H| |unfold in4, R3; intros; lia]. apply avg_ok.
      + intros x t [E|[E|[E|[]]]] Nx; injection E as <- <-; [| |now apply val_p].
        * rewrite <- (val_m G m n (m + n) 0) by auto. rewrite sq_0. field. now apply sq_neq.
        * rewrite <- (val_n G m n (m + n) 0) by auto. rewrite sq_0. field. now apply sq_neq.
      + exists (m + n)%nat. eexists. split; [right; right; left; reflexivity|].
        destruct m, n; simpl in Z; try discriminate; lia.
    - apply (right_sub (R3 m n)); [exact H|]. destruct m, n; simpl in Z; try discriminate. unfold in4, R3. intros; lia.
  Qed.
  Lemma beamsplitter_right : (P <= N \/ M <= 1) -> forall m n p q, in4 m n p q -> beamsplitter ct st stc M N P Q m n p q = bs_amp m n p q.
  Proof.
    intros HP m n p q B. unfold beamsplitter. apply bs_rank4_right; [|exact B|exact I]. apply bs_rank3_right; [exact HP|]. destruct B. lia.
  Qed.
  Lemma stable_beamsplitter_right : forall m n p q, in4 m n p q -> stable_beamsplitter ct st stc M N P Q m n p q = bs_amp m n p q.
  Proof.
    intros m n p q B. unfold stable_beamsplitter. apply st_rank4_right; [|exact B|exact I]. apply st_rank3_right. destruct B. lia.
  Qed.
  (** the first strategy never writes (m,n,m+n,0) when m+n >= N *)
  Lemma bs_untouched : forall m n, 0 < m + n -> N <= m + n -> beamsplitter ct st stc M N P Q m n (m + n)%nat 0%nat = k0.
  Proof using.
    clear. intros m n H0 HN. unfold beamsplitter.
    assert (E4 : forall G, bs_rank4 ct stc M N P Q G m n (m + n)%nat 0%nat = G m n (m + n)%nat 0%nat).
    { intros G. unfold bs_rank4. apply (loop_inv (fun _ G' => G' m n (m + n)%nat 0%nat = G m n (m + n)%nat 0%nat)); [lia|reflexivity|]. intros m1 G1 _ <-.
      apply (loop_inv (fun _ G' => G' m n (m + n)%nat 0%nat = G1 m n (m + n)%nat 0%nat)); [lia|reflexivity|]. intros n1 G2 _ <-.
      apply (loop_inv (fun _ G' => G' m n (m + n)%nat 0%nat = G2 m n (m + n)%nat 0%nat)); [lia|reflexivity|]. intros p1 G3 _ <-. cbv zeta.
      destruct (Nat.ltb_spec 0 (m1 + n1 - p1)) as [L1|L1]; cbn [andb]; [|reflexivity]. destruct (Nat.ltb (m1 + n1 - p1) Q); [|reflexivity]. rewrite set4_other; [reflexivity|lia]. }
    rewrite E4. unfold bs_rank3.
    assert (E3 : forall G, G m n (m + n)%nat 0%nat = k0 -> loop 0 M (fun G m => loop 0 (N - m) (fun G n =>
      let p := (m + n)%nat in
      if (Nat.ltb 0 p && Nat.ltb p P)%bool then
        set4 G m n p 0 (ct * sq m / sq p * G (prev M m) n (prev P p) 0%nat + st * sq n / sq p * G m (prev N n) (prev P p) 0%nat)
      else G) G) G m n (m + n)%nat 0%nat = k0).
    { intros G HG. apply (loop_inv (fun _ G' => G' m n (m + n)%nat 0%nat = k0)); [lia|exact HG|]. intros m1 G1 _ H1.
      apply (loop_inv (fun _ G' => G' m n (m + n)%nat 0%nat = k0)); [lia|exact H1|]. intros n1 G2 Hn H2. cbv zeta.
      destruct (_ && _)%bool; [|exact H2]. rewrite set4_other by lia. exact H2. }
    apply E3. unfold init4. rewrite set4_other by lia. reflexivity.
  Qed.
End Proofs.
