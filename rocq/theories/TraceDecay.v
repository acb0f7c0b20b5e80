(** Support for claim C72: Fock amplitudes of a Gaussian decay geometrically along a pair of axes, and sums of such sequences. *)
From Coq Require Import Reals Lra Lia Psatz Arith.
From Coquelicot Require Import Coquelicot.
From Verif Require Import RootField ComplexRF.
Open Scope R_scope.

(** the square root of a natural number, as a complex number *)
Notation rt n := (RtoC (sqrt (INR n))).

Lemma rt_mod : forall n, Cmod (rt n) = sqrt (INR n).
Proof. intros n. rewrite Cmod_R. apply Rabs_pos_eq, sqrt_pos. Qed.
Lemma rt_sq : forall n, Cmult (rt n) (rt n) = RtoC (INR n).
Proof. intros n. rewrite <- RtoC_mult, sqrt_sqrt; [reflexivity|apply pos_INR]. Qed.

(** ** finite bounds *)
Lemma fin_bound1 : forall (f : nat -> R) M, exists K, 0 <= K /\ forall n, (n < M)%nat -> f n <= K.
Proof.
  intros f. induction M as [|M [K [K0 H]]]; [exists 0; split; [lra|intros; lia]|].
  exists (Rmax K (f M)). split; [apply Rle_trans with K; [exact K0|apply Rmax_l]|]. intros n Hn.
  destruct (Nat.eq_dec n M) as [->|E]; [apply Rmax_r|]. apply Rle_trans with K; [apply H; lia|apply Rmax_l].
Qed.
Lemma fin_bound2 : forall (f : nat -> nat -> R) M, exists K, 0 <= K /\ forall n m, (n < M)%nat -> (m < M)%nat -> f n m <= K.
Proof.
  intros f M. assert (Q : forall N, exists K, 0 <= K /\ forall n m, (n < N)%nat -> (m < M)%nat -> f n m <= K).
  { induction N as [|N [K [K0 H]]]; [exists 0; split; [lra|intros; lia]|].
    destruct (fin_bound1 (f N) M) as [K' [K0' H']]. exists (Rmax K K').
    split; [apply Rle_trans with K; [exact K0|apply Rmax_l]|]. intros n m Hn Hm.
    destruct (Nat.eq_dec n N) as [->|E]; [apply Rle_trans with K'; [now apply H'|apply Rmax_r]|].
    apply Rle_trans with K; [apply H; lia|apply Rmax_l]. }
  apply Q.
Qed.

(** ** decay *)
Section Decay.
  Variables b1 b2 a11 a12 a22 : C.
  Variables G F1 F2 : nat -> nat -> C.
  Hypothesis H1 : forall n m, Cmult (rt (S n)) (G (S n) m) =
    Cplus (Cplus (Cplus (Cmult b1 (G n m)) (Cmult a11 (Cmult (rt n) (G (pred n) m)))) (Cmult a12 (Cmult (rt m) (G n (pred m))))) (F1 n m).
  Hypothesis H2 : forall n m, Cmult (rt (S m)) (G n (S m)) =
    Cplus (Cplus (Cplus (Cmult b2 (G n m)) (Cmult a12 (Cmult (rt n) (G (pred n) m)))) (Cmult a22 (Cmult (rt m) (G n (pred m))))) (F2 n m).
  Variable q : R.
  Hypothesis Hq : 0 < q < 1.
  Hypothesis Q1 : Cmod a11 + Cmod a12 < q * q.
  Hypothesis Q2 : Cmod a22 + Cmod a12 < q * q.
  Variable KF : R.
  Hypothesis KF0 : 0 <= KF.
  Hypothesis HF1 : forall n m, Cmod (F1 n m) <= KF * q ^ (n + m).
  Hypothesis HF2 : forall n m, Cmod (F2 n m) <= KF * q ^ (n + m).

  Lemma step_bound : forall (b a c g0 g1 g2 f g : C) (n m N : nat) (K P : R), 1 <= K -> 0 < P -> (0 < N)%nat -> (n <= N)%nat -> (m <= N)%nat ->
    Cmult (rt N) g = Cplus (Cplus (Cplus (Cmult b g0) (Cmult a (Cmult (rt n) g1))) (Cmult c (Cmult (rt m) g2))) f ->
    Cmod g0 <= K * P -> sqrt (INR n) * Cmod g1 * q <= sqrt (INR n) * (K * P) -> sqrt (INR m) * Cmod g2 * q <= sqrt (INR m) * (K * P) -> Cmod f <= KF * P ->
    Cmod b + KF <= (q * q - (Cmod a + Cmod c)) * sqrt (INR N) -> Cmod g <= K * (P * q).
  Proof.
    intros b a c g0 g1 g2 f g n m N K P HK HP HN Hn Hm E B0 B1 B2 Bf HB.
    assert (R0 : 0 < sqrt (INR N)) by (apply sqrt_lt_R0, lt_0_INR; exact HN).
    assert (Rn : sqrt (INR n) <= sqrt (INR N)) by (apply sqrt_le_1_alt, le_INR; exact Hn).
    assert (Rm : sqrt (INR m) <= sqrt (INR N)) by (apply sqrt_le_1_alt, le_INR; exact Hm).
    assert (T : sqrt (INR N) * Cmod g <= Cmod b * Cmod g0 + Cmod a * (sqrt (INR n) * Cmod g1) + Cmod c * (sqrt (INR m) * Cmod g2) + Cmod f).
    { rewrite <- (rt_mod N), <- Cmod_mult, E. eapply Rle_trans; [apply Cmod_triangle|]. apply Rplus_le_compat_r.
      eapply Rle_trans; [apply Cmod_triangle|]. apply Rplus_le_compat; [eapply Rle_trans; [apply Cmod_triangle|]; apply Rplus_le_compat|];
        rewrite !Cmod_mult, ?rt_mod; apply Rle_refl. }
    pose proof (Cmod_ge_0 b) as Nb. pose proof (Cmod_ge_0 a) as Na. pose proof (Cmod_ge_0 c) as Nc. pose proof (Cmod_ge_0 g) as Ng.
    set (X := K * P) in *. assert (X0 : 0 < X) by (unfold X; nra).
    assert (T2 : sqrt (INR N) * Cmod g * q <= X * ((Cmod b + KF) * q + (Cmod a + Cmod c) * sqrt (INR N))).
    { apply Rle_trans with ((Cmod b * Cmod g0 + Cmod a * (sqrt (INR n) * Cmod g1) + Cmod c * (sqrt (INR m) * Cmod g2) + Cmod f) * q).
      - apply Rmult_le_compat_r; [lra|exact T].
      - assert (U1 : Cmod b * Cmod g0 * q <= X * (Cmod b * q)) by (apply Rle_trans with (Cmod b * X * q); [apply Rmult_le_compat_r; [lra|]; apply Rmult_le_compat_l; assumption|lra]).
        assert (U2 : Cmod a * (sqrt (INR n) * Cmod g1 * q) <= Cmod a * (sqrt (INR N) * X)).
        { apply Rmult_le_compat_l; [exact Na|]. eapply Rle_trans; [exact B1|]. apply Rmult_le_compat_r; lra. }
        assert (U3 : Cmod c * (sqrt (INR m) * Cmod g2 * q) <= Cmod c * (sqrt (INR N) * X)).
        { apply Rmult_le_compat_l; [exact Nc|]. eapply Rle_trans; [exact B2|]. apply Rmult_le_compat_r; lra. }
        assert (U4 : Cmod f * q <= KF * X * q). { apply Rmult_le_compat_r; [lra|]. eapply Rle_trans; [exact Bf|]. apply Rmult_le_compat_l; [exact KF0|]. unfold X. nra. }
        lra. }
    assert (T3 : X * ((Cmod b + KF) * q + (Cmod a + Cmod c) * sqrt (INR N)) <= X * (q * q * sqrt (INR N))).
    { apply Rmult_le_compat_l; [lra|]. assert ((Cmod b + KF) * q <= Cmod b + KF) by nra. lra. }
    apply Rmult_le_reg_l with (sqrt (INR N) * q); [apply Rmult_lt_0_compat; lra|]. unfold X in *. nra.
  Qed.

  Lemma big_index : forall a c b : C, Cmod a + Cmod c < q * q -> exists N0, forall N, (N0 <= N)%nat -> Cmod b + KF <= (q * q - (Cmod a + Cmod c)) * sqrt (INR N).
  Proof.
    intros a c b H. set (d := q * q - (Cmod a + Cmod c)). assert (D0 : 0 < d) by (unfold d; lra).
    set (x := (Cmod b + KF) / d). assert (X0 : 0 <= x) by (unfold x; apply Rle_div_r; [exact D0|]; pose proof (Cmod_ge_0 b); lra).
    destruct (archimed (x * x)) as [Ha _]. exists (Z.to_nat (up (x * x))). intros N HN.
    assert (HI : x * x <= INR N).
    { apply Rle_trans with (INR (Z.to_nat (up (x * x)))); [|now apply le_INR]. rewrite INR_IZR_INZ, Z2Nat.id; [lra|].
      apply le_IZR. nra. }
    assert (x <= sqrt (INR N)) by (rewrite <- (sqrt_square x X0); apply sqrt_le_1_alt; exact HI).
    replace (Cmod b + KF) with (d * x) by (unfold x; field; lra). apply Rmult_le_compat_l; lra.
  Qed.

  Lemma decay : exists K, 0 <= K /\ forall n m, Cmod (G n m) <= K * q ^ (n + m).
  Proof.
    destruct (big_index a11 a12 b1 Q1) as [N1 B1]. destruct (big_index a12 a22 b2) as [N2 B2]; [lra|].
    set (N0 := S (N1 + N2)). destruct (fin_bound2 (fun n m => Cmod (G n m) / q ^ (n + m)) (2 * N0)) as [K0 [K00 HK0]].
    exists (K0 + 1). split; [lra|].
    assert (P : forall s n m, (n + m < s)%nat -> Cmod (G n m) <= (K0 + 1) * q ^ (n + m)).
    { induction s as [|s IH]; intros n m Hs; [lia|].
      assert (Small : (n < 2 * N0)%nat -> (m < 2 * N0)%nat -> Cmod (G n m) <= (K0 + 1) * q ^ (n + m)).
      { intros Hn Hm. pose proof (HK0 n m Hn Hm) as H. assert (0 < q ^ (n + m)) by (apply pow_lt; lra). apply Rle_div_l in H; [|lra]. nra. }
      assert (Prev : forall x y, (x + y < s)%nat -> sqrt (INR x) * Cmod (G (pred x) y) * q <= sqrt (INR x) * ((K0 + 1) * q ^ (x + y))).
      { intros x y Hx. destruct x as [|x]; [change (INR 0) with 0; rewrite sqrt_0; lra|]. cbn [pred]. pose proof (IH x y ltac:(lia)) as H.
        rewrite Rmult_assoc. apply Rmult_le_compat_l; [apply sqrt_pos|]. change (S x + y)%nat with (S (x + y)). rewrite <- tech_pow_Rmult. nra. }
      assert (Prev2 : forall x y, (x + y < s)%nat -> sqrt (INR y) * Cmod (G x (pred y)) * q <= sqrt (INR y) * ((K0 + 1) * q ^ (x + y))).
      { intros x y Hx. destruct y as [|y]; [change (INR 0) with 0; rewrite sqrt_0; lra|]. cbn [pred]. pose proof (IH x y ltac:(lia)) as H.
        rewrite Rmult_assoc. apply Rmult_le_compat_l; [apply sqrt_pos|]. rewrite <- plus_n_Sm. rewrite <- tech_pow_Rmult. nra. }
      destruct (le_lt_dec m n) as [L|L].
      - destruct n as [|n]; [apply Small; lia|]. destruct (le_lt_dec N0 (S n)) as [Hn|Hn]; [|apply Small; lia].
        pose proof (step_bound b1 a11 a12 (G n m) (G (pred n) m) (G n (pred m)) (F1 n m) (G (S n) m) n m (S n) (K0 + 1) (q ^ (n + m))) as S0.
        rewrite Nat.add_succ_l, <- tech_pow_Rmult, (Rmult_comm q). apply S0; try lia; try lra; try (apply pow_lt; lra).
        + apply H1. + apply IH; lia. + apply Prev; lia. + apply Prev2; lia. + apply HF1. + apply B1; unfold N0 in Hn; lia.
      - destruct m as [|m]; [lia|]. destruct (le_lt_dec N0 (S m)) as [Hm|Hm]; [|apply Small; lia].
        pose proof (step_bound b2 a12 a22 (G n m) (G (pred n) m) (G n (pred m)) (F2 n m) (G n (S m)) n m (S m) (K0 + 1) (q ^ (n + m))) as S0.
        rewrite <- plus_n_Sm, <- tech_pow_Rmult, (Rmult_comm q). apply S0; try lia; try lra; try (apply pow_lt; lra).
        + apply H2. + apply IH; lia. + apply Prev; lia. + apply Prev2; lia. + apply HF2. + apply B2; unfold N0 in Hm; lia. }
    intros n m. apply (P (S (n + m))). lia.
  Qed.
End Decay.

(** ** sequences dominated by a geometric one *)
Definition geo (x : nat -> C) : Prop := exists K r, 0 <= K /\ 0 < r < 1 /\ forall n, Cmod (x n) <= K * r ^ n.
(** the complex series with terms x n converges to l *)
Definition sums (x : nat -> C) (l : C) : Prop := is_series (fun n => Re (x n)) (Re l) /\ is_series (fun n => Im (x n)) (Im l).

Lemma bernoulli : forall d n, 0 <= d -> 1 + INR n * d <= (1 + d) ^ n.
Proof.
  intros d n Hd. induction n as [|n IH]; [simpl; lra|]. rewrite S_INR, <- tech_pow_Rmult. pose proof (pos_INR n). nra.
Qed.
(** a linear factor does not matter *)
Lemma geo_lin : forall x K r, 0 <= K -> 0 < r < 1 -> (forall n, Cmod (x n) <= K * (INR n + 1) * r ^ n) -> geo x.
Proof.
  intros x K r HK Hr H. set (d := (1 - r) / 2). assert (D0 : 0 < d < 1) by (unfold d; lra).
  exists (K * (1 + / d)), (r * (1 + d)). assert (I0 : 0 < / d) by (apply Rinv_0_lt_compat; lra). repeat split; [nra|nra|unfold d; nra|].
  intros n. eapply Rle_trans; [apply H|]. rewrite Rpow_mult_distr. assert (P0 : 0 < r ^ n) by (apply pow_lt; lra).
  pose proof (bernoulli d n ltac:(lra)) as B. pose proof (pos_INR n) as N0.
  assert (INR n + 1 <= (1 + / d) * (1 + d) ^ n).
  { apply Rle_trans with ((1 + / d) * (1 + INR n * d)); [|apply Rmult_le_compat_l; lra].
    replace ((1 + / d) * (1 + INR n * d)) with (1 + INR n + INR n * d + / d) by (field; lra). nra. }
  replace (K * (1 + / d) * (r ^ n * (1 + d) ^ n)) with (K * ((1 + / d) * (1 + d) ^ n) * r ^ n) by ring.
  apply Rmult_le_compat_r; [lra|]. apply Rmult_le_compat_l; lra.
Qed.
Lemma Re_le : forall z, Rabs (Re z) <= Cmod z.
Proof. intros z. exact (Rle_trans _ _ _ (Rmax_l _ _) (Rmax_Cmod z)). Qed.
Lemma Im_le : forall z, Rabs (Im z) <= Cmod z.
Proof. intros z. exact (Rle_trans _ _ _ (Rmax_r _ _) (Rmax_Cmod z)). Qed.
Lemma geo_series : forall (f : nat -> R) K r, 0 < r < 1 -> (forall n, Rabs (f n) <= K * r ^ n) -> ex_series f.
Proof.
  intros f K r Hr H. apply (ex_series_le (V := R_CompleteNormedModule) f (fun n => scal K (r ^ n))); [exact H|].
  apply (ex_series_scal (V := R_NormedModule)). apply ex_series_geom. rewrite Rabs_pos_eq; lra.
Qed.
Lemma geo_sums : forall x, geo x -> exists l, sums x l.
Proof.
  intros x [K [r [HK [Hr H]]]]. exists (Series (fun n => Re (x n)), Series (fun n => Im (x n))). split; cbn; apply Series_correct.
  - apply geo_series with K r; [exact Hr|]. intros n. eapply Rle_trans; [apply Re_le|apply H].
  - apply geo_series with K r; [exact Hr|]. intros n. eapply Rle_trans; [apply Im_le|apply H].
Qed.
Lemma C_eq : forall x y : C, Re x = Re y -> Im x = Im y -> x = y.
Proof. intros [a b] [c d]. cbn. now intros -> ->. Qed.
Lemma sums_unique : forall x l l', sums x l -> sums x l' -> l = l'.
Proof.
  intros x l l' [A1 A2] [B1 B2]. apply C_eq.
  - rewrite <- (is_series_unique _ _ A1), <- (is_series_unique _ _ B1). reflexivity.
  - rewrite <- (is_series_unique _ _ A2), <- (is_series_unique _ _ B2). reflexivity.
Qed.
Lemma sums_ext : forall x y l, (forall n, x n = y n) -> sums x l -> sums y l.
Proof. intros x y l E [A1 A2]. split; (eapply is_series_ext; [|eassumption]); intros n; cbn; now rewrite E. Qed.
Lemma sums_add : forall x y k l, sums x k -> sums y l -> sums (fun n => Cplus (x n) (y n)) (Cplus k l).
Proof. intros x y k l [A1 A2] [B1 B2]. split; cbn; [exact (is_series_plus _ _ _ _ A1 B1)|exact (is_series_plus _ _ _ _ A2 B2)]. Qed.
Lemma sums_scal : forall a x l, sums x l -> sums (fun n => Cmult a (x n)) (Cmult a l).
Proof.
  intros a x l [A1 A2]. split; cbn.
  - exact (is_series_minus _ _ _ _ (is_series_scal (Re a) _ _ A1) (is_series_scal (Im a) _ _ A2)).
  - exact (is_series_plus _ _ _ _ (is_series_scal (Re a) _ _ A2) (is_series_scal (Im a) _ _ A1)).
Qed.
Definition shift (x : nat -> C) (n : nat) : C := match n with 0 => RtoC 0 | S m => x m end.
Lemma sums_shift : forall x l, sums x l -> sums (shift x) l.
Proof.
  intros x l [A1 A2]. split; [apply (is_series_decr_1 (fun n => Re (shift x n)))|apply (is_series_decr_1 (fun n => Im (shift x n)))]; cbn.
  - rewrite Ropp_0, Rplus_0_r. exact A1.
  - rewrite Ropp_0, Rplus_0_r. exact A2.
Qed.
Lemma sums_zero : sums (fun _ => RtoC 0) (RtoC 0).
Proof. pose proof (sums_scal (RtoC 0) (fun n => RtoC 0)) as H. destruct (geo_sums (fun _ => RtoC 0)) as [l Hl].
  - exists 0, (1 / 2). repeat split; try lra. intros n. rewrite Cmod_0. lra.
  - eapply sums_ext; [|replace (RtoC 0) with (Cmult (RtoC 0) l) by ring; apply sums_scal; exact Hl]. intros n. cbn. ring.
Qed.
