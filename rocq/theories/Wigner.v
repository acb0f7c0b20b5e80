(** C62: the discretized Wigner function (mrmustard/physics/wigner.py), at one point (q, p) of the grid; numpy evaluates the same formulas entry by entry.
    Numbers are exact reals and complex numbers; x ** -0.5 is 1 / sqrt x. *)
From Coq Require Import List Arith Lia Reals Lra.
From Coquelicot Require Import Complex.
From Verif Require Import Base RootField Tensor Series Vanilla VanillaProps ComplexRF CExp.
Import ListNotations.
Local Open Scope C_scope.

Section Model.
  Variables (q p hbar : R).
  (** wigner.py:30-38 make_grid *)
  Definition grid : C := (q / sqrt (2 * hbar), p / sqrt (2 * hbar))%R.
  Definition upd1 (f : nat -> C) (n : nat) (v : C) : nat -> C := fun i => if Nat.eqb i n then v else f i.
  Definition rt (n : nat) : C := RtoC (sqrt (INR n)).

  (** wigner.py:144-173: state (Wmat[0], Wmat[1], W) *)
  Definition first_row (rho : nat -> nat -> C) (cutoff : nat) : (nat -> C) * R :=
    let w00 := RtoC (exp (- 2 * (Cmod grid * Cmod grid)) / PI) in
    fold_left (fun '(r0, W) n =>
        let v := RtoC 2 * grid * r0 (n - 1)%nat / rt n in (upd1 r0 n v, (W + 2 * Re (rho 0%nat n * v)%C)%R))
      (seq 1 (cutoff - 1)) (upd1 (fun _ => RtoC 0) 0 w00, (Re (rho 0%nat 0%nat) * Re w00)%R).
  Definition next_row (rho : nat -> nat -> C) (cutoff : nat) (st : (nat -> C) * (nat -> C) * R) (m : nat) : (nat -> C) * (nat -> C) * R :=
    let '(r0, r1, W) := st in
    let v := (RtoC 2 * Cconj grid * r0 m - rt m * r0 (m - 1)%nat) / rt m in
    let '(r1, W) := fold_left (fun '(r1, W) n =>
        let v := (RtoC 2 * grid * r1 (n - 1)%nat - rt m * r0 (n - 1)%nat) / rt n in (upd1 r1 n v, (W + 2 * Re (rho m n * v)%C)%R))
      (seq (S m) (cutoff - S m)) (upd1 r1 m v, (W + Re (rho m m * v)%C)%R) in
    (r1, r1, W).
  Definition iterative (rho : nat -> nat -> C) (cutoff : nat) : result R :=
    if Nat.eqb cutoff 0 then Err IndexError else
    let '(r0, W) := first_row rho cutoff in
    let '(_, _, W) := fold_left (next_row rho cutoff) (seq 1 (cutoff - 1)) (r0, fun _ => RtoC 0, W) in Ok (W / hbar)%R.

  (** wigner.py:41-59 _wig_laguerre_val: the entries of diag from the last one backwards *)
  Definition clen_step (L : nat) (x : R) (st : C * C * nat) (d : C) : C * C * nat :=
    let '(y0, y1, k) := st in let k := (k - 1)%nat in
    (d - y1 * RtoC (sqrt (INR ((k - 1) * (L + k - 1)) / INR ((L + k) * k))),
     y0 - y1 * RtoC (INR (L + 2 * k - 1) - x) * RtoC (/ sqrt (INR ((L + k) * k))), k).
  Definition laguerre_val (L : nat) (x : R) (diag : list C) : result C :=
    match rev diag with
    | y1 :: y0 :: rest => let '(y0, y1, _) := fold_left (clen_step L x) rest (y0, y1, length diag) in
                          Ok (y0 - y1 * RtoC (INR (L + 1) - x) * RtoC (/ sqrt (INR (L + 1))))
    | _ => Err IndexError
    end.
  (** np.diag(rho2, L) for a square matrix *)
  Definition diagonal (cutoff L : nat) (rho : nat -> nat -> C) : list C := map (fun n => rho n (n + L)%nat) (seq 0 (cutoff - L)).
  (** wigner.py:113-141 *)
  Definition clenshaw (rho : nat -> nat -> C) (cutoff : nat) : result R :=
    if Nat.eqb cutoff 0 then Err IndexError else
    let A := RtoC 2 * grid in let B := (Cmod A * Cmod A)%R in
    let rho2 m n := rho m n * (if Nat.eqb m n then RtoC 1 else RtoC 2) in
    let L := (cutoff - 1)%nat in
    bind (fold_left (fun w0 j => bind w0 (fun w0 => bind (laguerre_val (L - j) B (diagonal cutoff (L - j) rho2)) (fun cL =>
            Ok (cL + w0 * A * RtoC (/ sqrt (INR (L - j + 1)))))))
          (seq 1 (cutoff - 1)) (Ok (RtoC 2 * rho 0%nat L)))
      (fun w0 => Ok (Re w0 * exp (- B * / 2) / PI / hbar)%R).

  (** ** Specification.  W_mn is pi^-1 exp(-2|a|^2) sqrt(m! n!) times the coefficient of s^m t^n in exp(- s t + 2 a* s + 2 a t), the Wigner function of |m><n| at
      a = (q + i p)/sqrt(2 hbar); the Wigner function of rho is the sum of rho_mn W_mn / hbar *)
  Definition parity (i j : nat) : CF := if Nat.eqb (i + j) 1 then RtoC (-1) else RtoC 0.
  Definition Wmn (m n : nat) : C :=
    amp (K := CF) 2 parity (fun i => if Nat.eqb i 0 then RtoC 2 * Cconj grid else RtoC 2 * grid) (RtoC (exp (- 2 * (Cmod grid * Cmod grid)) / PI)) [m; n].
  Definition wigner_of (rho : nat -> nat -> C) (cutoff : nat) : C := sumn (K := CF) cutoff (fun m => sumn (K := CF) cutoff (fun n => rho m n * Wmn m n)) / RtoC hbar.
  Definition hermitian (rho : nat -> nat -> C) (cutoff : nat) : Prop := forall m n, (m < cutoff)%nat -> (n < cutoff)%nat -> rho n m = Cconj (rho m n).

  Let a := grid.
  Let c0 : C := RtoC (exp (- 2 * (Cmod grid * Cmod grid)) / PI).
  Lemma par_sym : symmetric (K := CF) 2 parity.
  Proof. intros i j _ _. unfold parity. now rewrite Nat.add_comm. Qed.
  Lemma rt_neq : forall n, n <> 0%nat -> rt n <> RtoC 0.
  Proof. intros n H E. apply RtoC_inj in E. apply sqrt_eq_0 in E; [|apply pos_INR]. apply (INR_eq n 0) in E; auto. Qed.
  Lemma rt_sq : forall n, rt n * rt n = RtoC (INR n).
  Proof. intros n. unfold rt. rewrite <- RtoC_mult, sqrt_sqrt; [reflexivity|apply pos_INR]. Qed.
  Lemma rt0 : rt 0 = RtoC 0.
  Proof. unfold rt. simpl. now rewrite sqrt_0. Qed.
  Lemma W00 : Wmn 0 0 = c0.
  Proof. apply (amp_zero (K := CF) 2). Qed.
  Lemma ring1 : forall g u v w r s : C, g * u + (RtoC 0 + - RtoC 1 * (r * v) + RtoC 0 * (s * w)) = g * u - r * v. Proof. intros. ring. Qed.
  Lemma ring0 : forall g u v w r s : C, g * u + (RtoC 0 + RtoC 0 * (s * w) + - RtoC 1 * (r * v)) = g * u - r * v. Proof. intros. ring. Qed.
  (** the recurrences along n and along m *)
  Lemma Wn : forall m n, rt (S n) * Wmn m (S n) = RtoC 2 * a * Wmn m n - rt m * Wmn (m - 1) n.
  Proof.
    intros m n. unfold Wmn, a. set (b := fun i : nat => if Nat.eqb i 0 then RtoC 2 * Cconj grid else RtoC 2 * grid).
    pose proof (amp_rec (K := CF) 2 parity b par_sym (RtoC (exp (- 2 * (Cmod grid * Cmod grid)) / PI)) 1 [m; S n]) as H.
    specialize (H ltac:(lia) eq_refl ltac:(unfold at'; simpl; lia)). cbn [dec upd nth pred sumn at'] in H. rewrite Nat.sub_1_r.
    change (sq (S n)) with (rt (S n)) in H. change (sq m) with (rt m) in H. change (parity 1 0) with (RtoC (-1)) in H. change (parity 1 1) with (RtoC 0) in H. change (b 1%nat) with (RtoC 2 * grid) in H.
    etransitivity; [exact H|]. cbn [kadd kmul k0 CF]. replace (RtoC (-1)) with (Copp (RtoC 1)) by (unfold RtoC, Copp; cbn; f_equal; ring).
    apply ring1.
  Qed.
  Lemma Wm : forall m n, rt (S m) * Wmn (S m) n = RtoC 2 * Cconj a * Wmn m n - rt n * Wmn m (n - 1).
  Proof.
    intros m n. unfold Wmn, a. set (b := fun i : nat => if Nat.eqb i 0 then RtoC 2 * Cconj grid else RtoC 2 * grid).
    pose proof (amp_rec (K := CF) 2 parity b par_sym (RtoC (exp (- 2 * (Cmod grid * Cmod grid)) / PI)) 0 [S m; n]) as H.
    specialize (H ltac:(lia) eq_refl ltac:(unfold at'; simpl; lia)). cbn [dec upd nth pred sumn at'] in H. rewrite Nat.sub_1_r.
    change (sq (S m)) with (rt (S m)) in H. change (sq n) with (rt n) in H. change (parity 0 1) with (RtoC (-1)) in H. change (parity 0 0) with (RtoC 0) in H. change (b 0%nat) with (RtoC 2 * Cconj grid) in H.
    etransitivity; [exact H|]. cbn [kadd kmul k0 CF]. replace (RtoC (-1)) with (Copp (RtoC 1)) by (unfold RtoC, Copp; cbn; f_equal; ring).
    apply ring0.
  Qed.
  Lemma Wn' : forall m n, Wmn m (S n) = (RtoC 2 * a * Wmn m n - rt m * Wmn (m - 1) n) / rt (S n).
  Proof. intros m n. rewrite <- Wn. field. now apply rt_neq. Qed.
  Lemma Wm' : forall m n, Wmn (S m) n = (RtoC 2 * Cconj a * Wmn m n - rt n * Wmn m (n - 1)) / rt (S m).
  Proof. intros m n. rewrite <- Wm. field. now apply rt_neq. Qed.
  Lemma cj_add : forall x y, Cconj (x + y) = Cconj x + Cconj y. Proof. intros [? ?] [? ?]. unfold Cconj, Cplus. cbn. f_equal; ring. Qed.
  Lemma cj_sub : forall x y, Cconj (x - y) = Cconj x - Cconj y. Proof. intros [? ?] [? ?]. unfold Cconj, Cminus, Cplus, Copp. cbn. f_equal; ring. Qed.
  Lemma cj_mul : forall x y, Cconj (x * y) = Cconj x * Cconj y. Proof. intros [? ?] [? ?]. unfold Cconj, Cmult. cbn. f_equal; ring. Qed.
  Lemma cj_R : forall r, Cconj (RtoC r) = RtoC r. Proof. intros r. unfold Cconj, RtoC. cbn. f_equal. ring. Qed.
  Lemma cj_cj : forall x, Cconj (Cconj x) = x. Proof. intros [? ?]. unfold Cconj. cbn. f_equal. ring. Qed.
  Lemma cj_div : forall x n, n <> 0%nat -> Cconj (x / rt n) = Cconj x / rt n.
  Proof. intros x n H. unfold Cdiv. rewrite cj_mul. f_equal. unfold rt. rewrite <- RtoC_inv; [apply cj_R|]. intros E. apply (rt_neq n H). unfold rt. now rewrite E. Qed.
  (** W_nm is the conjugate of W_mn *)
  Lemma W_conj : forall m n, Wmn n m = Cconj (Wmn m n).
  Proof.
    assert (R1 : forall k, Cconj (rt k) = rt k) by (intros; apply cj_R).
    assert (G : forall s m n, (m + n <= s)%nat -> Wmn n m = Cconj (Wmn m n)).
    { induction s as [|s IH]; intros m n H.
      - assert (m = 0%nat) by lia. assert (n = 0%nat) by lia. subst. rewrite W00. unfold c0. now rewrite cj_R.
      - destruct n as [|n].
        + destruct m as [|m]; [rewrite W00; unfold c0; now rewrite cj_R|].
          rewrite Wn', Wm', cj_div by discriminate. rewrite cj_sub, !cj_mul, !R1, cj_cj, cj_R, <- !IH by lia. reflexivity.
        + rewrite Wm', Wn', cj_div by discriminate. rewrite cj_sub, !cj_mul, !R1, cj_R, <- !IH by lia. reflexivity. }
    intros m n. apply (G (m + n)%nat). lia.
  Qed.

  (** the sum over the upper triangle with weights 1 on the diagonal and 2 above it *)
  Definition wt (m n : nat) : C := if Nat.ltb n m then RtoC 0 else if Nat.eqb m n then RtoC 1 else RtoC 2.
  Definition upper (rho : nat -> nat -> C) (cutoff : nat) : C := sumn (K := CF) cutoff (fun m => sumn (K := CF) cutoff (fun n => wt m n * (rho m n * Wmn m n))).
  Lemma sumC_conj : forall n (f : nat -> C), Cconj (sumn (K := CF) n f) = sumn (K := CF) n (fun i => Cconj (f i)).
  Proof. induction n as [|n IH]; intros f; cbn [sumn]; [apply cj_R|]. cbn [kadd CF]. rewrite cj_add, IH. reflexivity. Qed.
  Lemma RtoC_Re : forall z, RtoC (Re z) = (z + Cconj z) / RtoC 2.
  Proof. intros [x y]. unfold Cdiv. rewrite <- RtoC_inv by lra. unfold RtoC, Cconj, Cplus, Cmult, Re. cbn. f_equal; field. Qed.
  Lemma half2 : forall x y z : C, RtoC 2 <> RtoC 0 -> (RtoC 0 * x + RtoC 2 * z) * / RtoC 2 = z /\ (RtoC 2 * z + RtoC 0 * y) * / RtoC 2 = z /\ (RtoC 1 * z + RtoC 1 * z) * / RtoC 2 = z.
  Proof. intros x y z N. repeat split; (field; exact N) || idtac. transitivity (RtoC 2 * z * / RtoC 2); [f_equal; rewrite <- Cmult_plus_distr_r, <- RtoC_plus; reflexivity|field; exact N]. Qed.
  Lemma upper_hermitian : forall rho cutoff, hermitian rho cutoff -> hbar <> 0%R -> RtoC (Re (upper rho cutoff) / hbar) = wigner_of rho cutoff.
  Proof.
    intros rho N H Hh. unfold wigner_of. rewrite RtoC_div by exact Hh. f_equal. rewrite RtoC_Re. unfold upper. rewrite sumC_conj.
    rewrite (sumn_ext (K := CF) N (fun i => Cconj _) (fun m => sumn (K := CF) N (fun n => Cconj (wt m n * (rho m n * Wmn m n))))) by (intros; apply sumC_conj).
    rewrite (sumn_swap (K := CF) N N (fun m n => Cconj (wt m n * (rho m n * Wmn m n)))).
    pose proof (sumn_add (K := CF) N (fun m => sumn (K := CF) N (fun n => wt m n * (rho m n * Wmn m n))) (fun j => sumn (K := CF) N (fun i => Cconj (wt i j * (rho i j * Wmn i j))))) as E.
    cbn [kadd CF] in E. etransitivity; [apply (f_equal (fun x => x / RtoC 2)); symmetry; exact E|]. clear E.
    pose proof (sumn_scal_r (K := CF) N (/ RtoC 2) (fun i => sumn (K := CF) N (fun n => wt i n * (rho i n * Wmn i n)) + sumn (K := CF) N (fun m => Cconj (wt m i * (rho m i * Wmn m i))))) as E.
    cbn [kmul CF] in E. etransitivity; [symmetry; exact E|]. clear E. apply (sumn_ext (K := CF)). intros m Hm.
    pose proof (sumn_add (K := CF) N (fun n => wt m n * (rho m n * Wmn m n)) (fun i => Cconj (wt i m * (rho i m * Wmn i m)))) as E. cbn [kadd CF] in E. rewrite <- E. clear E.
    pose proof (sumn_scal_r (K := CF) N (/ RtoC 2) (fun n => wt m n * (rho m n * Wmn m n) + Cconj (wt n m * (rho n m * Wmn n m)))) as E. cbn [kmul CF] in E. rewrite <- E. apply (sumn_ext (K := CF)). intros n Hn.
    rewrite !cj_mul, <- (H n m Hn Hm), <- (W_conj n m). assert (N2 : RtoC 2 <> RtoC 0) by (intros X; apply RtoC_inj in X; lra).
    unfold wt. destruct (Nat.ltb_spec n m), (Nat.ltb_spec m n), (Nat.eqb_spec m n), (Nat.eqb_spec n m); try lia; try subst n; rewrite cj_R; try subst m; match goal with |- ?x = ?y => change (@eq C x y); pose proof (half2 y y y N2) as (h1 & h2 & h3) end; assumption.
  Qed.

  (** ** the iterative method *)
  Lemma Re_add : forall x y, Re (x + y) = (Re x + Re y)%R. Proof. intros [? ?] [? ?]. reflexivity. Qed.
  Lemma Re_2 : forall x, Re (RtoC 2 * x) = (2 * Re x)%R. Proof. intros [? ?]. unfold Re, RtoC, Cmult. cbn. ring. Qed.
  Lemma upd1_same : forall f n v, upd1 f n v n = v. Proof. intros. unfold upd1. now rewrite Nat.eqb_refl. Qed.
  Lemma upd1_other : forall f n v i, i <> n -> upd1 f n v i = f i. Proof. intros f n v i H. unfold upd1. destruct (Nat.eqb_spec i n); [contradiction|reflexivity]. Qed.
  Definition row (rho : nat -> nat -> C) (m k : nat) : C := sumn (K := CF) k (fun n => wt m n * (rho m n * Wmn m n)).
  Lemma row_S : forall rho m k, row rho m (S k) = row rho m k + wt m k * (rho m k * Wmn m k). Proof. reflexivity. Qed.
  Lemma first_row_ok : forall rho k, exists r0,
    fold_left (fun '(r0, W) n => let v := RtoC 2 * grid * r0 (n - 1)%nat / rt n in (upd1 r0 n v, (W + 2 * Re (rho 0%nat n * v)%C)%R)) (seq 1 k)
      (upd1 (fun _ => RtoC 0) 0 c0, (Re (rho 0%nat 0%nat) * Re c0)%R) = (r0, Re (row rho 0 (S k))) /\ forall n, (n <= k)%nat -> r0 n = Wmn 0 n.
  Proof.
    intros rho. induction k as [|k (r0 & IH1 & IH2)].
    - exists (upd1 (fun _ => RtoC 0) 0 c0). split; [cbn [seq fold_left]; f_equal|].
      + change (row rho 0 1) with (RtoC 0 + RtoC 1 * (rho 0%nat 0%nat * Wmn 0 0)). rewrite W00. unfold c0, RtoC, Re. destruct (rho 0%nat 0%nat). cbn. ring.
      + intros n Hn. replace n with 0%nat by lia. rewrite upd1_same. now rewrite W00.
    - rewrite seq_S, fold_left_app. rewrite IH1. cbn [fold_left Nat.add]. eexists. split.
      + f_equal. rewrite (row_S rho 0 (S k)). unfold wt at 1. cbn [Nat.ltb Nat.leb Nat.eqb]. rewrite Re_add. f_equal. rewrite Re_2. do 3 f_equal.
        rewrite IH2 by lia. rewrite Wn', rt0. replace (S k - 1)%nat with k by lia. unfold a. f_equal. ring.
      + intros n Hn. destruct (Nat.eq_dec n (S k)) as [->|N]; [|rewrite upd1_other by exact N; apply IH2; lia]. rewrite upd1_same. rewrite IH2 by lia.
        rewrite Wn', rt0. replace (S k - 1)%nat with k by lia. unfold a. f_equal. ring.
  Qed.
  Lemma inner_ok : forall rho m r0 r1 W N, (forall n, (m <= n < N)%nat -> r0 n = Wmn m n) -> forall k, (S m + k < N)%nat \/ (S m + k = N)%nat -> (m < N)%nat ->
    r1 (S m) = Wmn (S m) (S m) -> exists r,
    fold_left (fun '(r1, W) n => let v := (RtoC 2 * grid * r1 (n - 1)%nat - rt (S m) * r0 (n - 1)%nat) / rt n in (upd1 r1 n v, (W + 2 * Re (rho (S m) n * v)%C)%R)) (seq (S (S m)) k)
      (r1, (W + Re (row rho (S m) (S (S m))))%R) = (r, (W + Re (row rho (S m) (S (S m) + k)))%R) /\ forall n, (S m <= n <= S m + k)%nat -> r n = Wmn (S m) n.
  Proof.
    intros rho m r0 r1 W N H0 k Hk Hm H1. induction k as [|k IH].
    - exists r1. split; [now rewrite Nat.add_0_r|]. intros n Hn. now replace n with (S m) by lia.
    - destruct IH as (r & IH1 & IH2); [lia|]. rewrite seq_S, fold_left_app, IH1. cbn [fold_left].
      replace (S (S m) + k - 1)%nat with (S m + k)%nat by lia.
      assert (V : (RtoC 2 * grid * r (S m + k)%nat - rt (S m) * r0 (S m + k)%nat) / rt (S (S m) + k) = Wmn (S m) (S (S m) + k)).
      { rewrite IH2, H0 by lia. change (S (S m) + k)%nat with (S (S m + k))%nat. rewrite (Wn' (S m) (S m + k)). replace (S m - 1)%nat with m by lia. reflexivity. }
      rewrite V. eexists. split.
      + f_equal. replace (S (S m) + S k)%nat with (S (S (S m) + k)) by lia. rewrite row_S, Re_add. rewrite Rplus_assoc. f_equal. f_equal. unfold wt.
        destruct (Nat.ltb_spec (S (S m) + k) (S m)); [lia|]. destruct (Nat.eqb_spec (S m) (S (S m) + k)); [lia|]. now rewrite Re_2.
      + intros n Hn. destruct (Nat.eq_dec n (S (S m) + k)) as [->|D]; [apply upd1_same|rewrite upd1_other by exact D; apply IH2; lia].
  Qed.
  Lemma row_below : forall rho m k, (k <= m)%nat -> row rho m k = RtoC 0.
  Proof. intros rho m k H. apply (sumn_0 (K := CF)). intros n Hn. unfold wt. destruct (Nat.ltb_spec n m); [|lia]. match goal with |- ?x = ?y => change (@eq C x y) end. apply Cmult_0_l. Qed.
  Lemma next_ok : forall rho N k, (S k <= N)%nat -> exists r0 r1,
    fold_left (next_row rho N) (seq 1 k) (fst (first_row rho N), fun _ => RtoC 0, snd (first_row rho N)) = (r0, r1, Re (sumn (K := CF) (S k) (fun m => row rho m N))) /\
    forall n, (k <= n < N)%nat -> r0 n = Wmn k n.
  Proof.
    intros rho N. induction k as [|k IH]; intros Hk.
    - destruct (first_row_ok rho (N - 1)) as (r0 & E1 & E2). assert (EF : first_row rho N = (r0, Re (row rho 0 (S (N - 1))))) by exact E1. rewrite EF. exists r0, (fun _ => RtoC 0). split.
      + cbn [seq fold_left fst snd]. f_equal. replace (S (N - 1)) with N by lia. cbn [sumn kadd CF k0]. f_equal. match goal with |- ?x = ?y => change (@eq C x y) end. ring.
      + intros n Hn. apply E2. lia.
    - destruct IH as (r0 & r1 & E1 & E2); [lia|]. rewrite seq_S, fold_left_app, E1. cbn [fold_left Nat.add]. unfold next_row. cbv zeta.
      assert (V : (RtoC 2 * Cconj grid * r0 (S k) - rt (S k) * r0 (S k - 1)%nat) / rt (S k) = Wmn (S k) (S k)).
      { rewrite !E2 by lia. rewrite Wm'. reflexivity. }
      rewrite V.
      destruct (inner_ok rho k r0 (upd1 r1 (S k) (Wmn (S k) (S k))) (Re (sumn (K := CF) (S k) (fun m => row rho m N))) N E2 (N - S (S k)) ltac:(lia) ltac:(lia) (upd1_same _ _ _)) as (r & F1 & F2).
      assert (W1 : Re (row rho (S k) (S (S k))) = Re (rho (S k) (S k) * Wmn (S k) (S k))%C).
      { rewrite row_S, row_below by lia. unfold wt. rewrite Nat.ltb_irrefl, Nat.eqb_refl. f_equal. ring. }
      rewrite W1 in F1. cbv zeta in F1. rewrite F1. exists r, r. split.
      + f_equal. replace (S (S k) + (N - S (S k)))%nat with N by lia. symmetry. apply Re_add.
      + intros n Hn. apply F2. lia.
  Qed.
  (** C62, iterative method, any matrix: only the upper triangle is used *)
  Lemma iterative_upper : forall rho N, (0 < N)%nat -> iterative rho N = Ok (Re (upper rho N) / hbar)%R.
  Proof.
    intros rho N H. destruct (next_ok rho N (N - 1)) as (r0 & r1 & E & _); [lia|]. unfold iterative. destruct (Nat.eqb_spec N 0); [lia|].
    destruct (first_row rho N) as [f W] eqn:EF. cbn [fst snd] in E. rewrite E. replace (S (N - 1)) with N by lia. reflexivity.
  Qed.

  (** ** Clenshaw summation *)
  Section Clenshaw.
    Variables (L : nat) (x : R).
    (** coefficients of the reduction Z_k = - al k Z_(k-1) - be k Z_(k-2) *)
    Definition al (k : nat) : C := RtoC (INR (L + 2 * k - 1) - x) * RtoC (/ sqrt (INR ((L + k) * k))).
    Definition be (k : nat) : C := RtoC (sqrt (INR ((k - 1) * (L + k - 1)) / INR ((L + k) * k))).
    Fixpoint ZZ (n : nat) : C * C := match n with 0 => (RtoC 0, RtoC 1) | S n' => let '(u, v) := ZZ n' in (v, - (al n * v) - be n * u) end.
    Definition Z (n : nat) : C := snd (ZZ n).
    Lemma ZZ_fst : forall n, fst (ZZ (S n)) = Z n. Proof. intros n. unfold Z. cbn [ZZ]. destruct (ZZ n). reflexivity. Qed.
    Lemma Z_1 : Z 1 = - (al 1). Proof. unfold Z. cbn [ZZ snd]. ring. Qed.
    Lemma Z_SS : forall n, Z (S (S n)) = - (al (S (S n)) * Z (S n)) - be (S (S n)) * Z n.
    Proof. intros n. rewrite <- (ZZ_fst n). unfold Z at 1. cbn [ZZ]. unfold Z. cbn [ZZ]. destruct (ZZ n) as [u v]. cbn [fst snd]. reflexivity. Qed.
    Lemma loop_ok : forall rest y0 y1, exists u v,
      fold_left (clen_step L x) rest (y0, y1, S (S (length rest))) = (u, v, 2%nat) /\
      u * Z 0 + v * Z 1 = sumn (K := CF) (length rest) (fun n => nth n (rev rest) (RtoC 0) * Z n) + y0 * Z (length rest) + y1 * Z (S (length rest)).
    Proof.
      induction rest as [|d rest IH]; intros y0 y1; cbn [length].
      - exists y0, y1. split; [reflexivity|]. cbn [sumn k0 CF]. ring.
      - cbn [fold_left]. unfold clen_step at 2. replace (S (S (S (length rest))) - 1)%nat with (S (S (length rest))) by lia.
        set (k := S (S (length rest))). edestruct (IH (d - y1 * be k) (y0 - y1 * al k)) as (u & v & E1 & E2). exists u, v. split.
        + rewrite <- E1. f_equal. f_equal. f_equal. unfold al. ring.
        + rewrite E2. cbn [rev sumn kadd CF]. rewrite (sumn_ext (K := CF) (length rest) (fun n => nth n (rev rest ++ [d]) (RtoC 0) * Z n) (fun n => nth n (rev rest) (RtoC 0) * Z n)).
          2:{ intros i Hi. rewrite app_nth1 by (rewrite rev_length; exact Hi). reflexivity. }
          rewrite app_nth2 by (rewrite rev_length; lia). rewrite rev_length, Nat.sub_diag. cbn [nth]. pose proof (Z_SS (length rest)) as ZS. fold k in ZS. rewrite ZS.
          set (X := sumn _ _). change (X : C) with (X : C). generalize (X : C). clear. intros X. ring.
    Qed.
    Lemma laguerre_ok : forall diag, (2 <= length diag)%nat -> laguerre_val L x diag = Ok (sumn (K := CF) (length diag) (fun n => nth n diag (RtoC 0) * Z n)).
    Proof.
      intros diag H. unfold laguerre_val. pose proof (rev_involutive diag) as RI. pose proof (rev_length diag) as RL. destruct (rev diag) as [|y1 [|y0 rest]]; cbn [length] in RL; try lia.
      rewrite <- RL. destruct (loop_ok rest y0 y1) as (u & v & E1 & E2). rewrite E1. apply (f_equal (@Ok C)). rewrite Z_1 in E2. unfold Z in E2 at 1. cbn [ZZ snd] in E2. unfold al in E2.
      replace (L + 2 * 1 - 1)%nat with (L + 1)%nat in E2 by lia. rewrite Nat.mul_1_r in E2.
      transitivity (u * RtoC 1 + v * - (RtoC (INR (L + 1) - x) * RtoC (/ sqrt (INR (L + 1))))); [ring|]. rewrite E2. subst diag. cbn [rev sumn kadd CF]. rewrite <- app_assoc. cbn [app].
      rewrite (sumn_ext (K := CF) (length rest) (fun n => nth n (rev rest ++ [y0; y1]) (RtoC 0) * Z n) (fun n => nth n (rev rest) (RtoC 0) * Z n)).
      2:{ intros i Hi. rewrite app_nth1 by (rewrite rev_length; exact Hi). reflexivity. }
      rewrite !app_nth2 by (rewrite rev_length; lia). rewrite rev_length, Nat.sub_diag. replace (S (length rest) - length rest)%nat with 1%nat by lia. reflexivity.
    Qed.
  End Clenshaw.

  (** the diagonal of W is W_0L times Z *)
  Let A : C := RtoC 2 * grid.
  Let B : R := (Cmod A * Cmod A)%R.
  Lemma B_ok : A * Cconj A = RtoC B.
  Proof. unfold B. destruct A as [u v]. pose proof (Cmod2 (u, v)) as H. cbn in H. rewrite H. unfold Cconj, Cmult, RtoC. cbn. f_equal; ring. Qed.
  Lemma rt_mul : forall m n, RtoC (sqrt (INR (m * n))) = rt m * rt n.
  Proof. intros m n. unfold rt. rewrite mult_INR, sqrt_mult by apply pos_INR. apply RtoC_mult. Qed.
  Lemma inv_rt : forall m n, m <> 0%nat -> n <> 0%nat -> RtoC (/ sqrt (INR (m * n))) = / (rt m * rt n).
  Proof. intros m n Hm Hn. rewrite RtoC_inv, rt_mul; [reflexivity|]. apply Rgt_not_eq, sqrt_lt_R0, lt_0_INR. nia. Qed.
  Lemma diag_rec : forall L m, rt (S m) * rt (S m + L) * Wmn (S m) (S m + L) =
    (RtoC B - RtoC (INR (2 * m + L + 1))) * Wmn m (m + L) - rt m * rt (m + L) * Wmn (m - 1) (m + L - 1).
  Proof.
    intros L m. cbn [Nat.add]. pose proof (Wm m (S (m + L))) as H1. pose proof (Wn m (m + L)) as H2. replace (S (m + L) - 1)%nat with (m + L)%nat in H1 by lia.
    pose proof (rt_sq m) as Q1. pose proof (rt_sq (S (m + L))) as Q2.
    assert (H3 : rt m * (RtoC 2 * Cconj a * Wmn (m - 1) (m + L)) = RtoC (INR m) * Wmn m (m + L) + rt m * rt (m + L) * Wmn (m - 1) (m + L - 1)).
    { destruct m as [|m]; [rewrite rt0; cbn [INR]; ring|]. replace (S m - 1)%nat with m by lia. pose proof (Wm m (S m + L)) as H. rewrite <- Q1.
      transitivity (rt (S m) * (rt (S m) * Wmn (S m) (S m + L) + rt (S m + L) * Wmn m (S m + L - 1))); [rewrite H; ring|ring]. }
    assert (I1 : RtoC (INR (2 * m + L + 1)) = RtoC (INR m) + RtoC (INR (S (m + L)))) by (rewrite <- RtoC_plus, <- plus_INR; do 2 f_equal; lia).
    rewrite I1. transitivity (rt (S (m + L)) * (rt (S m) * Wmn (S m) (S (m + L)))); [ring|]. rewrite H1.
    transitivity (RtoC 2 * Cconj a * (rt (S (m + L)) * Wmn m (S (m + L))) - rt (S (m + L)) * rt (S (m + L)) * Wmn m (m + L)); [ring|]. rewrite H2, Q2.
    transitivity (A * Cconj A * Wmn m (m + L) - rt m * (RtoC 2 * Cconj a * Wmn (m - 1) (m + L)) - RtoC (INR (S (m + L))) * Wmn m (m + L)).
    - unfold A, a. rewrite cj_mul, cj_R. ring.
    - rewrite H3, B_ok. ring.
  Qed.
  Lemma W_Z : forall L m, Wmn m (m + L) = Wmn 0 L * Z L B m.
  Proof.
    intros L. assert (St : forall m, Wmn (S m) (S m + L) = - (al L B (S m) * Wmn m (m + L)) - (if Nat.eqb m 0 then RtoC 0 else be L (S m)) * Wmn (m - 1) (m + L - 1)).
    { intros m. pose proof (diag_rec L m) as H. assert (N1 : rt (S m) <> RtoC 0) by now apply rt_neq. assert (N2 : rt (S m + L) <> RtoC 0) by now apply rt_neq.
      transitivity ((rt (S m) * rt (S m + L) * Wmn (S m) (S m + L)) / (rt (S m) * rt (S m + L))); [field; split; assumption|]. rewrite H. unfold al. rewrite Nat.add_comm with (n := L) (m := S m).
      rewrite inv_rt by lia. rewrite (RtoC_minus _ B). replace (L + 2 * S m - 1)%nat with (2 * m + L + 1)%nat by lia.
      assert (E : (if Nat.eqb m 0 then RtoC 0 else be L (S m)) = rt m * rt (m + L) / (rt (S m) * rt (S m + L))).
      { destruct (Nat.eqb_spec m 0) as [->|N]; [rewrite rt0; field; split; assumption|]. unfold be. replace (S m - 1)%nat with m by lia. replace (L + S m - 1)%nat with (m + L)%nat by lia. rewrite (Nat.add_comm L (S m)).
        rewrite sqrt_div_alt by (apply lt_0_INR; lia). unfold Rdiv. rewrite RtoC_mult, rt_mul, inv_rt by lia. rewrite (Cmult_comm (rt (S m)) (rt (S m + L))). reflexivity. }
      rewrite E. field. split; assumption. }
    assert (G : forall m, Wmn m (m + L) = Wmn 0 L * Z L B m /\ Wmn (S m) (S m + L) = Wmn 0 L * Z L B (S m)).
    { induction m as [|m [IH1 IH2]].
      - split; [unfold Z; cbn; ring|]. rewrite (St 0%nat). cbn [Nat.eqb]. rewrite Z_1. cbn [Nat.add]. ring.
      - split; [exact IH2|]. rewrite (St (S m)). cbn [Nat.eqb]. replace (S m - 1)%nat with m by lia. replace (S m + L - 1)%nat with (m + L)%nat by lia. rewrite IH1, IH2, Z_SS. ring. }
    intros m. apply G.
  Qed.

  (** ** the Horner sum over the diagonals *)
  Definition rho2 (rho : nat -> nat -> C) (m n : nat) : C := rho m n * (if Nat.eqb m n then RtoC 1 else RtoC 2).
  Definition dsum (rho : nat -> nat -> C) (N L : nat) : C := sumn (K := CF) (N - L) (fun n => rho2 rho n (n + L) * Wmn n (n + L)).
  Lemma W0_step : forall L, Wmn 0 (S L) = A * RtoC (/ sqrt (INR (S L))) * Wmn 0 L.
  Proof. intros L. rewrite Wn', rt0. rewrite RtoC_inv by (apply Rgt_not_eq, sqrt_lt_R0, lt_0_INR; lia). fold (rt (S L)). unfold A, a. field. now apply rt_neq. Qed.
  Lemma diag_len : forall N L f, length (diagonal N L f) = (N - L)%nat. Proof. intros. unfold diagonal. now rewrite map_length, seq_length. Qed.
  Lemma diag_nth : forall N L f n, (n < N - L)%nat -> nth n (diagonal N L f) (RtoC 0) = f n (n + L)%nat.
  Proof. intros N L f n H. unfold diagonal. rewrite (nth_indep _ (RtoC 0) ((fun n => f n (n + L)%nat) 0%nat)) by (now rewrite map_length, seq_length). rewrite (map_nth (fun n => f n (n + L)%nat)), seq_nth by exact H. reflexivity. Qed.
  Lemma lag_dsum : forall rho N L, (S L < N)%nat -> exists c, laguerre_val L B (diagonal N L (rho2 rho)) = Ok c /\ c * Wmn 0 L = dsum rho N L.
  Proof.
    intros rho N L H. eexists. split; [apply laguerre_ok; rewrite diag_len; lia|]. rewrite diag_len. unfold dsum.
    pose proof (sumn_scal_r (K := CF) (N - L) (Wmn 0 L) (fun n => nth n (diagonal N L (rho2 rho)) (RtoC 0) * Z L B n)) as E. cbn [kmul CF] in E. etransitivity; [symmetry; exact E|]. clear E.
    apply (sumn_ext (K := CF)). intros n Hn. rewrite diag_nth by exact Hn. rewrite (W_Z L n). match goal with |- ?x = ?y => change (@eq C x y) end. ring.
  Qed.
  Lemma horner_ok : forall rho N, (2 <= N)%nat -> forall j, (j < N)%nat -> exists w,
    fold_left (fun w0 j => bind w0 (fun w0 => bind (laguerre_val (N - 1 - j) B (diagonal N (N - 1 - j) (rho2 rho))) (fun cL =>
            Ok (cL + w0 * A * RtoC (/ sqrt (INR (N - 1 - j + 1))))))) (seq 1 j) (Ok (RtoC 2 * rho 0%nat (N - 1)%nat)) = Ok w /\
    w * Wmn 0 (N - 1 - j) = sumn (K := CF) (S j) (fun i => dsum rho N (N - 1 - i)).
  Proof.
    intros rho N HN. induction j as [|j IH]; intros Hj.
    - eexists. split; [reflexivity|]. cbn [sumn kadd k0 CF]. unfold dsum. replace (N - (N - 1 - 0))%nat with 1%nat by lia. cbn [sumn kadd k0 CF Nat.add]. unfold rho2. destruct (Nat.eqb_spec 0 (N - 1 - 0)); [lia|]. rewrite Nat.sub_0_r.
      match goal with |- ?x = ?y => change (@eq C x y) end. ring.
    - destruct IH as (w & E1 & E2); [lia|]. destruct (lag_dsum rho N (N - 1 - S j)) as (c & F1 & F2); [lia|]. rewrite seq_S, fold_left_app, E1. cbn [fold_left bind Nat.add]. change (1 + j)%nat with (S j). rewrite F1. cbn [bind].
      eexists. split; [reflexivity|]. change (sumn (K := CF) (S (S j)) (fun i => dsum rho N (N - 1 - i))) with (sumn (K := CF) (S j) (fun i => dsum rho N (N - 1 - i)) + dsum rho N (N - 1 - S j)). rewrite <- E2, <- F2.
      pose proof (W0_step (N - 1 - S j)) as WS. replace (S (N - 1 - S j)) with (N - 1 - j)%nat in WS by lia. rewrite WS. replace (N - 1 - S j + 1)%nat with (N - 1 - j)%nat by lia. match goal with |- ?x = ?y => change (@eq C x y) end. ring.
  Qed.
  Lemma pad_sum : forall N k (f : nat -> C), (k <= N)%nat -> sumn (K := CF) k f = sumn (K := CF) N (fun i => if Nat.ltb i k then f i else RtoC 0).
  Proof.
    intros N k f H. replace N with (k + (N - k))%nat by lia. rewrite (sumn_plus (K := CF)). rewrite (sumn_0 (K := CF) (N - k)).
    - rewrite (sumn_ext (K := CF) k f (fun i => if Nat.ltb i k then f i else RtoC 0)) by (intros i Hi; destruct (Nat.ltb_spec i k); [reflexivity|lia]). symmetry. apply Cplus_0_r.
    - intros i Hi. destruct (Nat.ltb_spec (k + i) k); [lia|reflexivity].
  Qed.
  Lemma rev_sum : forall N (f : nat -> C), sumn (K := CF) N (fun i => f (N - 1 - i)%nat) = sumn (K := CF) N f.
  Proof.
    induction N as [|N IH]; intros f; [reflexivity|]. rewrite (sumn_S_l (K := CF)). cbn [sumn]. rewrite <- (IH f). replace (S N - 1 - 0)%nat with N by lia. 
    rewrite (sumn_ext (K := CF) N (fun i => f (S N - 1 - S i)%nat) (fun i => f (N - 1 - i)%nat)) by (intros i Hi; f_equal; lia). apply Cplus_comm.
  Qed.
  Lemma dsum_upper : forall rho N, sumn (K := CF) N (fun L => dsum rho N L) = upper rho N.
  Proof.
    intros rho N. unfold upper.
    transitivity (sumn (K := CF) N (fun L => sumn (K := CF) N (fun n => if Nat.ltb n (N - L) then rho2 rho n (n + L) * Wmn n (n + L) else RtoC 0))).
    { apply (sumn_ext (K := CF)). intros L HL. unfold dsum. apply pad_sum. lia. }
    rewrite (sumn_swap (K := CF) N N). apply (sumn_ext (K := CF)). intros m Hm.
    replace (sumn (K := CF) N (fun n => wt m n * (rho m n * Wmn m n))) with (sumn (K := CF) (m + (N - m)) (fun n => wt m n * (rho m n * Wmn m n))) by (f_equal; lia).
    rewrite (sumn_plus (K := CF)). rewrite (sumn_0 (K := CF) m).
    2:{ intros i Hi. unfold wt. destruct (Nat.ltb_spec i m); [|lia]. match goal with |- ?x = ?y => change (@eq C x y) end. apply Cmult_0_l. }
    rewrite (pad_sum N (N - m)) by lia.
    match goal with |- ?x = ?y => change (@eq C x (RtoC 0 + sumn (K := CF) N (fun i => if Nat.ltb i (N - m) then wt m (m + i) * (rho m (m + i)%nat * Wmn m (m + i)) else RtoC 0))) end.
    rewrite Cplus_0_l. apply (sumn_ext (K := CF)). intros L HL.
    destruct (Nat.ltb_spec m (N - L)), (Nat.ltb_spec L (N - m)); try lia; [|reflexivity]. unfold rho2, wt. destruct (Nat.ltb_spec (m + L) m); [lia|]. destruct (Nat.eqb m (m + L)); match goal with |- ?x = ?y => change (@eq C x y) end; ring.
  Qed.
  Lemma c0_B : c0 = RtoC (exp (- B * / 2) / PI).
  Proof.
    unfold c0. do 3 f_equal. unfold B, A. rewrite Cmod_mult, Cmod_R, Rabs_pos_eq by lra. field.
  Qed.
  Lemma clenshaw_upper : forall rho N, (2 <= N)%nat -> clenshaw rho N = Ok (Re (upper rho N) / hbar)%R.
  Proof.
    intros rho N H. destruct (horner_ok rho N H (N - 1)) as (w & E1 & E2); [lia|]. unfold clenshaw. destruct (Nat.eqb_spec N 0); [lia|]. cbv zeta. fold A. fold B.
    change (fun m n => rho m n * (if Nat.eqb m n then RtoC 1 else RtoC 2)) with (rho2 rho). rewrite E1. cbn [bind]. apply (f_equal (@Ok R)). unfold Rdiv. f_equal.
    replace (S (N - 1)) with N in E2 by lia. rewrite (rev_sum N (fun L => dsum rho N L)), dsum_upper in E2. rewrite <- E2, Nat.sub_diag, W00, c0_B. unfold Rdiv. rewrite Rmult_assoc. generalize (exp (- B * / 2) * / PI)%R as t. intros t. destruct w. unfold Re, RtoC, Cmult. cbn. ring.
  Qed.

End Model.

(** C62, iterative: for a Hermitian matrix the computed real number is the Wigner function *)
Theorem C62_iterative : forall q p hbar rho cutoff, (0 < cutoff)%nat -> hbar <> 0%R -> hermitian rho cutoff ->
  exists r, iterative q p hbar rho cutoff = Ok r /\ RtoC r = wigner_of q p hbar rho cutoff.
Proof. intros q p h rho N HN Hh H. eexists. split; [apply iterative_upper, HN|]. now apply upper_hermitian. Qed.
(** C62, Clenshaw: the same from cutoff 2 on *)
Theorem C62_clenshaw : forall q p hbar rho cutoff, (2 <= cutoff)%nat -> hbar <> 0%R -> hermitian rho cutoff ->
  exists r, clenshaw q p hbar rho cutoff = Ok r /\ RtoC r = wigner_of q p hbar rho cutoff.
Proof. intros q p h rho N HN Hh H. eexists. split; [apply clenshaw_upper, HN|]. now apply upper_hermitian. Qed.
(** C62: the two methods agree for every matrix of at least two rows, Hermitian or not *)
Theorem C62_methods_agree : forall q p hbar rho cutoff, (2 <= cutoff)%nat -> clenshaw q p hbar rho cutoff = iterative q p hbar rho cutoff.
Proof. intros q p h rho N HN. rewrite clenshaw_upper by exact HN. rewrite iterative_upper by lia. reflexivity. Qed.
(** an empty matrix is rejected by both *)
Theorem C62_empty : forall q p hbar rho, iterative q p hbar rho 0 = Err IndexError /\ clenshaw q p hbar rho 0 = Err IndexError.
Proof. split; reflexivity. Qed.
(** C62 is false for the Clenshaw method at cutoff 1: it returns twice the Wigner function, for every matrix (rho[0, -1] is then the diagonal entry, yet it is doubled) *)
Theorem C62_refuted : forall q p hbar rho, exists r, iterative q p hbar rho 1 = Ok r /\ clenshaw q p hbar rho 1 = Ok (2 * r)%R.
Proof.
  intros q p h rho. eexists. split; [reflexivity|]. unfold clenshaw. cbn [Nat.eqb Nat.sub seq fold_left bind first_row]. apply (f_equal (@Ok R)).
  pose proof (RtoC_inj _ _ (c0_B q p h)) as E. rewrite Re_2. unfold Rdiv in *. rewrite E. match goal with |- context [Re (RtoC ?x)] => change (Re (RtoC x)) with x end. ring.
Qed.

(** ** Examples *)
Definition number_state (k : nat) (m n : nat) : C := if (Nat.eqb m k && Nat.eqb n k)%bool then RtoC 1 else RtoC 0.
Lemma number_hermitian : forall k N, hermitian (number_state k) N.
Proof. intros k N m n _ _. unfold number_state. rewrite Bool.andb_comm. destruct (Nat.eqb m k && Nat.eqb n k)%bool; rewrite cj_R; reflexivity. Qed.
Lemma number_wigner : forall q p h k N, (k < N)%nat -> wigner_of q p h (number_state k) N = Wmn q p h k k / RtoC h.
Proof.
  intros q p h k N H. unfold wigner_of. f_equal.
  rewrite (sumn_ext (K := CF) N _ (fun m => if Nat.eqb m k then Wmn q p h m m else k0 (r := CF))).
  - apply (sumn_delta_mul (K := CF) N k (fun m => Wmn q p h m m) H).
  - intros m Hm. unfold number_state. destruct (Nat.eqb_spec m k) as [->|D]; cbn [andb].
    + rewrite (sumn_ext (K := CF) N _ (fun n => if Nat.eqb n k then Wmn q p h k n else k0 (r := CF))).
      * apply (sumn_delta_mul (K := CF) N k (fun n => Wmn q p h k n) H).
      * intros n Hn. destruct (Nat.eqb n k); [apply Cmult_1_l|apply Cmult_0_l].
    + apply (sumn_0 (K := CF)). intros n Hn. apply Cmult_0_l.
Qed.
Lemma number_value : forall q p h k N, (k < N)%nat -> h <> 0%R -> iterative q p h (number_state k) N = Ok (Re (Wmn q p h k k) / h)%R.
Proof.
  intros q p h k N H Hh. destruct (C62_iterative q p h (number_state k) N ltac:(lia) Hh (number_hermitian k N)) as (r & E & V). rewrite E. apply (f_equal (@Ok R)).
  rewrite number_wigner in V by exact H. apply (f_equal Re) in V. cbn [RtoC Re fst] in V. unfold Re at 1 in V. cbn [fst RtoC] in V. rewrite V. unfold Cdiv. rewrite <- RtoC_inv by exact Hh. destruct (Wmn q p h k k). unfold Re, Cmult, RtoC. cbn. field. exact Hh.
Qed.
(** the vacuum is a Gaussian *)
Theorem C62_vacuum : forall q p hbar cutoff, (0 < cutoff)%nat -> (0 < hbar)%R ->
  iterative q p hbar (number_state 0) cutoff = Ok (exp (- (q * q + p * p) / hbar) / (PI * hbar))%R.
Proof.
  intros q p h N HN Hh. rewrite number_value by (try exact HN; lra). apply (f_equal (@Ok R)). rewrite W00. unfold Re, RtoC. cbn [fst].
  assert (E : (Cmod (grid q p h) * Cmod (grid q p h) = (q * q + p * p) / (2 * h))%R).
  { unfold Cmod, grid. cbn [fst snd]. rewrite sqrt_sqrt by nra. assert (S2 : (sqrt (2 * h) * sqrt (2 * h) = 2 * h)%R) by (apply sqrt_sqrt; lra). assert (NZ : sqrt (2 * h) <> 0%R) by (apply Rgt_not_eq, sqrt_lt_R0; lra).
    transitivity ((q * q + p * p) / (sqrt (2 * h) * sqrt (2 * h)))%R; [field; exact NZ|now rewrite S2]. }
  rewrite E. replace (- 2 * ((q * q + p * p) / (2 * h)))%R with (- (q * q + p * p) / h)%R by (field; lra). field. split; [lra|apply PI_neq0].
Qed.
(** the single photon is negative at the origin, with both methods *)
Theorem C62_single_photon : forall hbar, (0 < hbar)%R -> clenshaw 0 0 hbar (number_state 1) 2 = Ok (- / (PI * hbar))%R.
Proof.
  intros h Hh. rewrite C62_methods_agree by lia. rewrite number_value by (try lia; lra). apply (f_equal (@Ok R)).
  assert (G : grid 0 0 h = RtoC 0) by (unfold grid, RtoC, Rdiv; now rewrite !Rmult_0_l).
  assert (R1 : rt 1 = RtoC 1) by (unfold rt; cbn; now rewrite sqrt_1).
  rewrite (Wm' 0 0 h 0 1), R1, G. cbn [Nat.sub]. rewrite W00, G, Cmod_0. replace (- 2 * (0 * 0))%R with 0%R by ring. rewrite exp_0.
  generalize (Wmn 0 0 h 0 1). intros [u v]. unfold Cconj, RtoC, Cdiv, Cminus, Cmult, Cinv, Copp, Cplus, Re. cbn. field. split; [lra|apply PI_neq0].
Qed.
