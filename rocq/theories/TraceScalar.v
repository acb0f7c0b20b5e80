(** Support for claim C72: the sum of the diagonal amplitudes of a two-variable Gaussian is its Gaussian integral. *)
From Coq Require Import Reals Ranalysis5 Lra Lia Psatz Arith.
From Coquelicot Require Import Coquelicot.
From Verif Require Import RootField ComplexRF Gradients RealDer CExp TraceDecay.
Open Scope C_scope.
Local Arguments INR : simpl never.

Ltac ceq := match goal with |- ?a = ?b => change (@eq C a b) end.
Ltac req := match goal with |- ?a = ?b => change (@eq R a b) end.
(** ** derivatives *)
Lemma rder_eq : forall t f d e, d = e -> rder t f d -> rder t f e.
Proof. now intros t f d e ->. Qed.
Lemma rder_const : forall t (x : C), rder t (fun _ => x) (RtoC 0).
Proof. intros t x. exact (der_const (K := CF) t (rder t) (rder_rules t) x). Qed.
Lemma rder_add : forall t f g d e, rder t f d -> rder t g e -> rder t (fun x => f x + g x) (d + e).
Proof. intros t f g d e. exact (der_add (K := CF) t (rder t) (rder_rules t) f g d e). Qed.
Lemma rder_mul : forall t f g d e, rder t f d -> rder t g e -> rder t (fun x => f x * g x) (d * g t + f t * e).
Proof. intros t f g d e. exact (der_mul (K := CF) t (rder t) (rder_rules t) f g d e). Qed.
Lemma rder_scal : forall t (a : C) f d, rder t f d -> rder t (fun x => a * f x) (a * d).
Proof. intros t a f d H. eapply rder_eq; [|apply (rder_mul t (fun _ => a) f (RtoC 0) d); [apply rder_const|exact H]]. ceq. ring. Qed.
Lemma rder_id : forall t, rder t (fun x => RtoC x) (RtoC 1).
Proof. intros t. split; cbn; [exact (is_derive_id t)|exact (is_derive_const (K := R_AbsRing) 0%R t)]. Qed.
Lemma rder_opp : forall t f d, rder t f d -> rder t (fun x => - f x) (- d).
Proof. intros t f d [A B]. split; cbn; [exact (is_derive_opp _ _ _ A)|exact (is_derive_opp _ _ _ B)]. Qed.
Lemma rder_fext : forall t f g d, (forall x, f x = g x) -> rder t f d -> rder t g d.
Proof. intros t f g d. exact (der_ext (K := CF) t (rder t) (rder_rules t) f g d). Qed.
Lemma rder_exp : forall t f d, rder t f d -> rder t (fun x => Cexp (f x)) (d * Cexp (f t)).
Proof.
  intros t f d [A B]. unfold Re, Im in *. split; unfold Cexp, Cmult, Re, Im; cbn.
  - eapply is_derive_ext; [intros; reflexivity|].
    pose proof (is_derive_comp exp (fun x => fst (f x)) t _ _ (is_derive_exp _) A) as P.
    pose proof (is_derive_comp cos (fun x => snd (f x)) t _ _ (is_derive_cos _) B) as Q.
    refine (eq_ind _ (fun y => is_derive _ t y) (is_derive_mult (K := R_AbsRing) _ _ t _ _ P Q Rmult_comm) _ _).
    unfold plus, mult, scal; cbn. unfold mult; cbn. req. ring.
  - eapply is_derive_ext; [intros; reflexivity|].
    pose proof (is_derive_comp exp (fun x => fst (f x)) t _ _ (is_derive_exp _) A) as P.
    pose proof (is_derive_comp sin (fun x => snd (f x)) t _ _ (is_derive_sin _) B) as Q.
    refine (eq_ind _ (fun y => is_derive _ t y) (is_derive_mult (K := R_AbsRing) _ _ t _ _ P Q Rmult_comm) _ _).
    unfold plus, mult, scal; cbn. unfold mult; cbn. req. ring.
Qed.
Lemma norm2_nz : forall z : C, z <> RtoC 0 -> (fst z ^ 2 + snd z ^ 2 <> 0)%R.
Proof. intros [x y] H E. cbn in E. apply H. assert (x = 0 /\ y = 0)%R as [-> ->] by (split; nra). reflexivity. Qed.
Lemma rder_inv : forall t f d, f t <> RtoC 0 -> rder t f d -> rder t (fun x => / f x) (- (d / (f t * f t))).
Proof.
  intros t f d Hn [A B]. pose proof (norm2_nz _ Hn) as N. unfold Re, Im in *.
  assert (N' : is_derive (fun x => (fst (f x) ^ 2 + snd (f x) ^ 2)%R) t (2 * fst (f t) * fst d + 2 * snd (f t) * snd d)%R).
  { refine (eq_ind _ (fun y => is_derive _ t y) (is_derive_plus (K := R_AbsRing) _ _ t _ _ (is_derive_pow (fun x => fst (f x)) 2 t _ A) (is_derive_pow (fun x => snd (f x)) 2 t _ B)) _ _).
    unfold plus; cbn. req. change (INR 2) with (IZR 2). ring. }
  split; unfold Cinv, Cmult, Copp, Cdiv, Re, Im; cbn -[pow].
  - refine (eq_ind _ (fun y => is_derive _ t y) (is_derive_div _ _ t _ _ A N' N) _ _).
    destruct (f t) as [x y], d as [dx dy]. cbn [fst snd] in *. req. field. repeat split; try exact N.
    intros E. apply N. assert (x = 0 /\ y = 0)%R as [-> ->] by (split; nra). ring.
  - refine (eq_ind _ (fun y => is_derive _ t y) (is_derive_div _ _ t _ _ (is_derive_opp _ _ _ B) N' N) _ _).
    destruct (f t) as [x y], d as [dx dy]. unfold opp. cbn -[pow] in *. req. field. repeat split; try exact N.
    intros E. apply N. assert (x = 0 /\ y = 0)%R as [-> ->] by (split; nra). ring.
Qed.
(** a function with zero derivative is constant *)
Lemma rder_zero : forall f, (forall t, (0 <= t <= 1)%R -> rder t f (RtoC 0)) -> f 0%R = f 1%R.
Proof.
  intros f H. apply C_eq.
  - apply (eq_is_derive (fun x => Re (f x)) 0 1); [intros t Ht; exact (proj1 (H t Ht))|lra].
  - apply (eq_is_derive (fun x => Im (f x)) 0 1); [intros t Ht; exact (proj2 (H t Ht))|lra].
Qed.
Lemma rder_zero_at : forall f, (forall t, (0 <= t <= 1)%R -> rder t f (RtoC 0)) -> forall t, (0 <= t <= 1)%R -> f t = f 0%R.
Proof.
  intros f H t Ht. destruct (Rle_lt_or_eq_dec 0 t (proj1 Ht)) as [L|<-]; [|reflexivity]. symmetry. apply C_eq.
  - apply (eq_is_derive (fun x => Re (f x)) 0 t); [intros x Hx; refine (proj1 (H x _)); lra|lra].
  - apply (eq_is_derive (fun x => Im (f x)) 0 t); [intros x Hx; refine (proj2 (H x _)); lra|lra].
Qed.

(** ** power series *)
Definition PS (x : nat -> C) (t : R) : C := (PSeries (fun n => Re (x n)) t, PSeries (fun n => Im (x n)) t).
Lemma geo_radius : forall (f : nat -> R) K r, (0 < r < 1)%R -> (forall n, Rabs (f n) <= K * r ^ n)%R -> Rbar_lt 1%R (CV_radius f).
Proof.
  intros f K r Hr H. apply Rbar_lt_le_trans with (Finite (/ r)); [cbn; rewrite <- Rinv_1; apply Rinv_lt_contravar; lra|].
  apply (proj1 (CV_radius_bounded f)). exists K. intros n. rewrite Rabs_mult. rewrite <- RPow_abs.
  rewrite (Rabs_pos_eq (/ r)) by (left; apply Rinv_0_lt_compat; lra). specialize (H n).
  assert (P : (0 < r ^ n)%R) by (apply pow_lt; lra). rewrite pow_inv. apply Rmult_le_reg_r with (r ^ n)%R; [exact P|].
  rewrite Rmult_assoc, Rinv_l, Rmult_1_r by lra. exact H.
Qed.
Lemma radius_lt : forall (f : nat -> R) t, Rbar_lt 1%R (CV_radius f) -> (0 <= t <= 1)%R -> Rbar_lt (Rabs t) (CV_radius f).
Proof. intros f t H Ht. eapply Rbar_le_lt_trans; [|exact H]. cbn. rewrite Rabs_pos_eq; lra. Qed.
Lemma geo_re : forall x, geo x -> Rbar_lt 1%R (CV_radius (fun n => Re (x n))).
Proof. intros x [K [r [K0 [Hr H]]]]. apply geo_radius with K r; [exact Hr|]. intros n. eapply Rle_trans; [apply Re_le|apply H]. Qed.
Lemma geo_im : forall x, geo x -> Rbar_lt 1%R (CV_radius (fun n => Im (x n))).
Proof. intros x [K [r [K0 [Hr H]]]]. apply geo_radius with K r; [exact Hr|]. intros n. eapply Rle_trans; [apply Im_le|apply H]. Qed.
Lemma PS_real : forall f t, Rbar_lt 1%R (CV_radius f) -> (0 <= t <= 1)%R -> is_series (fun n => (f n * t ^ n)%R) (PSeries f t).
Proof.
  intros f t H Ht. apply is_pseries_R. apply PSeries_correct. apply CV_radius_inside. now apply radius_lt.
Qed.
Lemma PS_sums : forall x t, geo x -> (0 <= t <= 1)%R -> sums (fun n => RtoC (t ^ n) * x n) (PS x t).
Proof.
  intros x t H Ht. split; cbn [PS Re Im fst snd].
  - eapply is_series_ext; [|exact (PS_real _ t (geo_re x H) Ht)]. intros n. unfold Re, Im, Cmult, RtoC. cbn [fst snd]. req. ring.
  - eapply is_series_ext; [|exact (PS_real _ t (geo_im x H) Ht)]. intros n. unfold Re, Im, Cmult, RtoC. cbn [fst snd]. req. ring.
Qed.
Lemma PS_der : forall x t, geo x -> (0 <= t <= 1)%R -> rder t (PS x) (PS (fun n => RtoC (INR (S n)) * x (S n)) t).
Proof.
  intros x t H Ht. split; cbn [PS Re Im fst snd].
  - refine (eq_ind _ (fun y => is_derive _ t y) (is_derive_PSeries _ t (radius_lt _ t (geo_re x H) Ht)) _ _).
    apply PSeries_ext. intros n. unfold PS_derive, Re, Im, Cmult, RtoC. cbn [fst snd]. req. ring.
  - refine (eq_ind _ (fun y => is_derive _ t y) (is_derive_PSeries _ t (radius_lt _ t (geo_im x H) Ht)) _ _).
    apply PSeries_ext. intros n. unfold PS_derive, Re, Im, Cmult, RtoC. cbn [fst snd]. req. ring.
Qed.
Lemma PS_shift : forall x t, geo x -> (0 <= t <= 1)%R -> sums (fun n => RtoC (t ^ n) * shift x n) (RtoC t * PS x t).
Proof.
  intros x t H Ht. apply sums_ext with (shift (fun n => RtoC t * (RtoC (t ^ n) * x n))).
  - intros [|n]; cbn [shift pow]; [ring|]. rewrite RtoC_mult. ring.
  - apply sums_shift, sums_scal, PS_sums; assumption.
Qed.
Lemma PS_0 : forall x, PS x 0 = x 0%nat.
Proof. intros x. unfold PS. rewrite !PSeries_0. now destruct (x 0%nat). Qed.

Lemma Creg : forall a x y : C, a <> RtoC 0 -> a * x = a * y -> x = y.
Proof. intros a x y N E. transitivity (/ a * (a * x)); [field; exact N|]. rewrite E. field. exact N. Qed.
Lemma two : RtoC 2 = RtoC 1 + RtoC 1.
Proof. rewrite <- RtoC_plus. reflexivity. Qed.
Lemma two_nz : RtoC 1 + RtoC 1 <> RtoC 0.
Proof. rewrite <- two. intros X. apply RtoC_inj in X. lra. Qed.
(** ** the diagonal sum *)
Section Diagonal.
  Variables b1 b2 a11 a12 a22 : C.
  Variable G : nat -> nat -> C.
  Hypothesis H1 : forall n m, rt (S n) * G (S n) m = b1 * G n m + a11 * (rt n * G (pred n) m) + a12 * (rt m * G n (pred m)).
  Hypothesis H2 : forall n m, rt (S m) * G n (S m) = b2 * G n m + a12 * (rt n * G (pred n) m) + a22 * (rt m * G n (pred m)).
  Hypothesis G0 : G 0%nat 0%nat = RtoC 1.
  Hypothesis Q1 : (Cmod a11 + Cmod a12 < 1)%R.
  Hypothesis Q2 : (Cmod a22 + Cmod a12 < 1)%R.

  Lemma rate : exists q, (0 < q < 1)%R /\ (Cmod a11 + Cmod a12 < q * q)%R /\ (Cmod a22 + Cmod a12 < q * q)%R.
  Proof.
    set (x := Rmax (Cmod a11 + Cmod a12) (Cmod a22 + Cmod a12)). assert (X1 : (x < 1)%R) by (apply Rmax_lub_lt; assumption).
    assert (X0 : (0 <= x)%R) by (apply Rle_trans with (Cmod a11 + Cmod a12)%R; [pose proof (Cmod_ge_0 a11); pose proof (Cmod_ge_0 a12); lra|apply Rmax_l]).
    pose proof (Rmax_l (Cmod a11 + Cmod a12) (Cmod a22 + Cmod a12)) as L. pose proof (Rmax_r (Cmod a11 + Cmod a12) (Cmod a22 + Cmod a12)) as R. fold x in L, R.
    exists (sqrt ((1 + x) / 2)). rewrite sqrt_sqrt by lra. repeat split; try lra; [apply sqrt_lt_R0; lra|].
    apply Rlt_le_trans with (sqrt 1); [apply sqrt_lt_1_alt; lra|rewrite sqrt_1; lra].
  Qed.
  Lemma decay0 : exists K r, (0 <= K)%R /\ (0 < r < 1)%R /\ forall n m, (Cmod (G n m) <= K * r ^ (n + m))%R.
  Proof.
    destruct rate as [q [Hq [R1 R2]]]. destruct (decay b1 b2 a11 a12 a22 G (fun _ _ => RtoC 0) (fun _ _ => RtoC 0)) with (q := q) (KF := 0%R) as [K [K0 HK]]; try assumption.
    - intros n m. rewrite H1. ring. - intros n m. rewrite H2. ring. - lra. - intros n m. rewrite Cmod_0. lra. - intros n m. rewrite Cmod_0. lra.
    - exists K, q. auto.
  Qed.
  Definition ss (n : nat) : C := G n n.
  Definition uu (n : nat) : C := rt (S n) * G (S n) n.
  Definition vv (n : nat) : C := rt (S n) * G n (S n).
  Definition ww (n : nat) : C := rt n * (rt (S n) * G (pred n) (S n)).
  Definition dd (n : nat) : C := RtoC (INR (S n)) * ss n.
  Definition sd (n : nat) : C := RtoC (INR (S n)) * ss (S n).
  Lemma uu_rec : forall n, uu n = b1 * ss n + a11 * shift vv n + a12 * shift uu n.
  Proof. intros n. unfold uu at 1. rewrite H1. destruct n as [|n]; cbn [shift pred]; unfold ss, uu, vv; [change (INR 0) with 0%R; rewrite sqrt_0; ring|ring]. Qed.
  Lemma vv_rec : forall n, vv n = b2 * ss n + a12 * shift vv n + a22 * shift uu n.
  Proof. intros n. unfold vv at 1. rewrite H2. destruct n as [|n]; cbn [shift pred]; unfold ss, uu, vv; [change (INR 0) with 0%R; rewrite sqrt_0; ring|ring]. Qed.
  Lemma sd_rec : forall n, sd n = b1 * vv n + a11 * ww n + a12 * dd n.
  Proof.
    intros n. unfold sd, vv, ww, dd, ss. rewrite <- rt_sq, <- Cmult_assoc, H1. cbn [pred]. ring.
  Qed.
  Lemma ww_rec : forall n, ww n = b2 * shift vv n + a12 * shift ww n + a22 * shift dd n.
  Proof.
    intros [|n]; unfold ww at 1; cbn [shift pred]; [change (INR 0) with 0%R; rewrite sqrt_0; ring|]. rewrite H2. unfold vv, ww, dd, ss.
    cbn [pred]. rewrite <- (rt_sq (S n)). ring.
  Qed.
  Lemma dd_rec : forall n, dd n = ss n + shift sd n.
  Proof.
    intros [|n]; cbn [shift]; unfold dd, sd; [change (INR 1) with 1%R; ring|]. rewrite (S_INR (S n)), RtoC_plus. ring.
  Qed.
  Lemma sqrt_S : forall n, (sqrt (INR (S n)) <= INR n + 1)%R.
  Proof.
    intros n. rewrite S_INR. pose proof (pos_INR n). rewrite <- (sqrt_square (INR n + 1)) at 2 by lra. apply sqrt_le_1_alt. nra.
  Qed.
  Lemma geo_all : geo ss /\ geo uu /\ geo vv /\ geo ww /\ geo dd /\ geo sd.
  Proof.
    destruct decay0 as [K [r [K0 [Hr H]]]]. assert (R2 : (0 < r * r < 1)%R) by nra.
    assert (Gn : forall n m, (Cmod (G n m) <= K)%R).
    { intros n m. eapply Rle_trans; [apply H|]. rewrite <- (Rmult_1_r K) at 2. apply Rmult_le_compat_l; [exact K0|].
      rewrite <- (pow1 (n + m)). apply pow_incr. lra. }
    assert (P : forall n, (0 < (r * r) ^ n)%R) by (intros n; apply pow_lt; lra).
    assert (E : forall n, (r ^ (n + n) = (r * r) ^ n)%R) by (intros n; rewrite Rpow_mult_distr, pow_add; reflexivity).
    assert (E1 : forall n, (r ^ (S n + n) <= (r * r) ^ n)%R) by (intros n; rewrite Nat.add_succ_l, <- tech_pow_Rmult, E; specialize (P n); nra).
    assert (E2 : forall n, (r ^ (n + S n) <= (r * r) ^ n)%R) by (intros n; rewrite Nat.add_comm; apply E1).
    assert (N : forall n, (0 <= INR n)%R) by apply pos_INR.
    assert (M : forall c g n, (0 <= c <= INR n + 1)%R -> (g <= K * (r * r) ^ n)%R -> (0 <= g)%R -> (c * g <= K * (INR n + 1) * (r * r) ^ n)%R).
    { intros c g n Hc Hg Hg0. apply Rle_trans with ((INR n + 1) * g)%R; [apply Rmult_le_compat_r; lra|].
      replace (K * (INR n + 1) * (r * r) ^ n)%R with ((INR n + 1) * (K * (r * r) ^ n))%R by ring. apply Rmult_le_compat_l; [|exact Hg]. specialize (N n). lra. }
    repeat split.
    - exists K, (r * r)%R. repeat split; try lra. intros n. unfold ss. rewrite <- E. apply H.
    - apply geo_lin with K (r * r)%R; try assumption. intros n. unfold uu. rewrite Cmod_mult, rt_mod. apply M; [split; [apply sqrt_pos|apply sqrt_S]| |apply Cmod_ge_0].
      eapply Rle_trans; [apply H|]. apply Rmult_le_compat_l; [exact K0|apply E1].
    - apply geo_lin with K (r * r)%R; try assumption. intros n. unfold vv. rewrite Cmod_mult, rt_mod. apply M; [split; [apply sqrt_pos|apply sqrt_S]| |apply Cmod_ge_0].
      eapply Rle_trans; [apply H|]. apply Rmult_le_compat_l; [exact K0|apply E2].
    - apply geo_lin with K (r * r)%R; try assumption. intros [|n]; unfold ww.
      + change (INR 0) with 0%R. rewrite sqrt_0, Cmult_0_l, Cmod_0. cbn. lra.
      + rewrite Cmult_assoc, Cmod_mult, Cmod_mult, !rt_mod. apply M; [|cbn [pred]; replace (n + S (S n))%nat with (S n + S n)%nat in * by lia|apply Cmod_ge_0].
        * split; [apply Rmult_le_pos; apply sqrt_pos|]. rewrite <- (sqrt_square (INR (S n) + 1)) by (specialize (N (S n)); lra). rewrite <- sqrt_mult_alt by apply N.
          apply sqrt_le_1_alt. rewrite !S_INR. specialize (N n). nra.
        * eapply Rle_trans; [apply H|]. replace (n + S (S n))%nat with (S n + S n)%nat by lia. rewrite E. apply Rle_refl.
    - apply geo_lin with K (r * r)%R; try assumption. intros n. unfold dd, ss. rewrite Cmod_mult, Cmod_R, Rabs_pos_eq by apply N. rewrite S_INR.
      apply M; [specialize (N n); lra| |apply Cmod_ge_0]. eapply Rle_trans; [apply H|]. rewrite E. apply Rle_refl.
    - apply geo_lin with K (r * r)%R; try assumption. intros n. unfold sd, ss. rewrite Cmod_mult, Cmod_R, Rabs_pos_eq by apply N. rewrite S_INR.
      apply M; [specialize (N n); lra| |apply Cmod_ge_0]. eapply Rle_trans; [apply H|]. rewrite E. apply Rmult_le_compat_l; [exact K0|]. rewrite <- tech_pow_Rmult. specialize (P n). nra.
  Qed.

  (** the determinant with the weight t, and the exponent *)
  Definition den (t : R) : C := (RtoC 1 - a12 * RtoC t) * (RtoC 1 - a12 * RtoC t) - a11 * a22 * (RtoC t * RtoC t).
  Definition dden (t : R) : C := - (RtoC 2 * (a12 * (RtoC 1 - a12 * RtoC t) + a11 * a22 * RtoC t)).
  Definition N1 (t : R) : C := (RtoC 1 - a12 * RtoC t) * b1 + a11 * RtoC t * b2.
  Definition N2 (t : R) : C := (RtoC 1 - a12 * RtoC t) * b2 + a22 * RtoC t * b1.
  Definition num (t : R) : C := a22 * b1 * b1 * (RtoC t * RtoC t) + RtoC 2 * b1 * b2 * (RtoC t * (RtoC 1 - a12 * RtoC t)) + a11 * b2 * b2 * (RtoC t * RtoC t).
  Definition ex (t : R) : C := / RtoC 2 * (num t * / den t).

  Lemma at_t : forall t, (0 <= t <= 1)%R ->
    den t * PS vv t = N2 t * PS ss t /\ den t * PS sd t = (a12 * (RtoC 1 - a12 * RtoC t) + a11 * a22 * RtoC t) * PS ss t + N1 t * PS vv t.
  Proof.
    intros t Ht. destruct geo_all as [Gs [Gu [Gv [Gw [Gd Gsd]]]]].
    assert (E1 : PS uu t = b1 * PS ss t + a11 * (RtoC t * PS vv t) + a12 * (RtoC t * PS uu t)).
    { eapply sums_unique; [apply (PS_sums uu t Gu Ht)|]. eapply sums_ext; [|apply sums_add; [apply sums_add|]; apply sums_scal; [apply (PS_sums ss)|apply (PS_shift vv)|apply (PS_shift uu)]; eassumption].
      intros n. cbn beta. rewrite (uu_rec n). ring. }
    assert (E2 : PS vv t = b2 * PS ss t + a12 * (RtoC t * PS vv t) + a22 * (RtoC t * PS uu t)).
    { eapply sums_unique; [apply (PS_sums vv t Gv Ht)|]. eapply sums_ext; [|apply sums_add; [apply sums_add|]; apply sums_scal; [apply (PS_sums ss)|apply (PS_shift vv)|apply (PS_shift uu)]; eassumption].
      intros n. cbn beta. rewrite (vv_rec n). ring. }
    assert (E3 : PS sd t = b1 * PS vv t + a11 * PS ww t + a12 * PS dd t).
    { eapply sums_unique; [apply (PS_sums sd t Gsd Ht)|]. eapply sums_ext; [|apply sums_add; [apply sums_add|]; apply sums_scal; [apply (PS_sums vv)|apply (PS_sums ww)|apply (PS_sums dd)]; eassumption].
      intros n. cbn beta. rewrite (sd_rec n). ring. }
    assert (E4 : PS ww t = b2 * (RtoC t * PS vv t) + a12 * (RtoC t * PS ww t) + a22 * (RtoC t * PS dd t)).
    { eapply sums_unique; [apply (PS_sums ww t Gw Ht)|]. eapply sums_ext; [|apply sums_add; [apply sums_add|]; apply sums_scal; [apply (PS_shift vv)|apply (PS_shift ww)|apply (PS_shift dd)]; eassumption].
      intros n. cbn beta. rewrite (ww_rec n). ring. }
    assert (E5 : PS dd t = PS ss t + RtoC t * PS sd t).
    { eapply sums_unique; [apply (PS_sums dd t Gd Ht)|]. eapply sums_ext; [|apply sums_add; [apply (PS_sums ss)|apply (PS_shift sd)]; eassumption].
      intros n. cbn beta. rewrite (dd_rec n). ring. }
    set (T := RtoC t) in *. set (U := PS uu t) in *. set (V := PS vv t) in *. set (S0 := PS ss t) in *. set (SD := PS sd t) in *. set (W := PS ww t) in *. set (D := PS dd t) in *.
    assert (X1 : (RtoC 1 - a12 * T) * U = b1 * S0 + a11 * T * V) by (transitivity (U - a12 * (T * U)); [ring|rewrite E1 at 1; ring]).
    assert (X2 : (RtoC 1 - a12 * T) * V = b2 * S0 + a22 * T * U) by (transitivity (V - a12 * (T * V)); [ring|rewrite E2 at 1; ring]).
    assert (X3 : (RtoC 1 - a12 * T) * SD = b1 * V + a11 * W + a12 * S0) by (transitivity (SD - a12 * (T * SD)); [ring|rewrite E3 at 1; rewrite E5; ring]).
    assert (X4 : (RtoC 1 - a12 * T) * W = b2 * T * V + a22 * T * (S0 + T * SD)) by (transitivity (W - a12 * (T * W)); [ring|rewrite E4 at 1; rewrite E5; ring]).
    unfold den, N1, N2. fold T. set (u := RtoC 1 - a12 * T) in *. split.
    - transitivity (u * (u * V) - a11 * a22 * (T * T) * V); [ring|]. rewrite X2. transitivity (u * b2 * S0 + a22 * T * (u * U) - a11 * a22 * (T * T) * V); [ring|]. rewrite X1. ring.
    - transitivity (u * (u * SD) - a11 * a22 * (T * T) * SD); [ring|]. rewrite X3. transitivity (u * b1 * V + a11 * (u * W) + u * a12 * S0 - a11 * a22 * (T * T) * SD); [ring|]. rewrite X4. ring.
  Qed.

  (** the determinant stays off the negative real axis *)
  Lemma den_off : forall t x, (0 <= t <= 1)%R -> (0 <= x)%R -> den t <> RtoC (- x).
  Proof.
    intros t x Ht Hx E. set (u := RtoC 1 - a12 * RtoC t).
    assert (E' : (u + Ci * RtoC (sqrt x)) * (u - Ci * RtoC (sqrt x)) = a11 * a22 * (RtoC t * RtoC t)).
    { transitivity (den t + RtoC x + a11 * a22 * (RtoC t * RtoC t)); [|rewrite E, RtoC_opp; ring]. unfold den. fold u.
      transitivity (u * u - (Ci * Ci) * (RtoC (sqrt x) * RtoC (sqrt x))); [ring|]. rewrite <- RtoC_mult, sqrt_sqrt by exact Hx.
      replace (Ci * Ci) with (- RtoC 1) by (unfold Ci, Cmult, Copp, RtoC; cbn; f_equal; ring). ring. }
    apply (f_equal Cmod) in E'. rewrite !Cmod_mult, !Cmod_R, (Rabs_pos_eq t) in E' by lra.
    pose proof (Cmod_ge_0 a11) as A1. pose proof (Cmod_ge_0 a22) as A2. pose proof (Cmod_ge_0 a12) as A3.
    assert (P : (1 - Cmod a12 <= fst u)%R).
    { unfold u. pose proof (CExp.Cmod_re (a12 * RtoC t)) as H. rewrite Cmod_mult, Cmod_R, (Rabs_pos_eq t) in H by lra.
      apply Rcomplements.Rabs_le_between in H. destruct H as [_ H]. unfold Cminus, Cplus, Copp. change (fst (RtoC 1)) with 1%R. cbn [fst]. nra. }
    assert (L1 : (fst u <= Cmod (Cplus u (Ci * RtoC (sqrt x))%C))%R).
    { pose proof (CExp.Cmod_re (u + Ci * RtoC (sqrt x))) as H. eapply Rle_trans; [|exact H]. eapply Rle_trans; [|apply Rle_abs]. right. unfold Cplus, Cmult, Ci, RtoC; cbn. ring. }
    assert (L2 : (fst u <= Cmod (Cminus u (Ci * RtoC (sqrt x))%C))%R).
    { pose proof (CExp.Cmod_re (u - Ci * RtoC (sqrt x))) as H. eapply Rle_trans; [|exact H]. eapply Rle_trans; [|apply Rle_abs]. right. unfold Cminus, Cplus, Copp, Cmult, Ci, RtoC; cbn. ring. }
    set (p := fst u) in *. assert (Lp : (p * p <= Cmod a11 * Cmod a22 * (t * t))%R) by (rewrite <- E'; apply Rmult_le_compat; lra).
    assert ((Cmod a11 * Cmod a22 * (t * t) <= Cmod a11 * Cmod a22)%R) by (rewrite <- (Rmult_1_r (Cmod a11 * Cmod a22)) at 2; apply Rmult_le_compat_l; [apply Rmult_le_pos; assumption|nra]).
    assert ((Cmod a11 * Cmod a22 < p * p)%R); [|lra]. apply Rmult_le_0_lt_compat; lra.
  Qed.
  Lemma den_nz : forall t, (0 <= t <= 1)%R -> den t <> RtoC 0.
  Proof. intros t Ht. pose proof (den_off t 0 Ht (Rle_refl 0)) as H. now rewrite Ropp_0 in H. Qed.

  Lemma rder_den : forall t, rder t den (dden t).
  Proof.
    intros t. assert (U : rder t (fun x => RtoC 1 - a12 * RtoC x) (- a12)).
    { eapply rder_eq; [|apply rder_add; [apply rder_const|apply rder_opp, rder_scal, rder_id]]. ceq. ring. }
    eapply rder_eq; [|apply rder_add; [apply rder_mul; exact U|apply rder_opp, rder_scal, rder_mul; apply rder_id]]. unfold dden. ceq. rewrite two. ring.
  Qed.
  Lemma rder_ex : forall t, (0 <= t <= 1)%R -> rder t ex (N1 t * N2 t * / (den t * den t)).
  Proof.
    intros t Ht. pose proof (den_nz t Ht) as Nz. assert (U : rder t (fun x => RtoC 1 - a12 * RtoC x) (- a12)).
    { eapply rder_eq; [|apply rder_add; [apply rder_const|apply rder_opp, rder_scal, rder_id]]. ceq. ring. }
    eapply rder_eq; [|apply rder_scal, rder_mul; [apply rder_add; [apply rder_add|]; apply rder_scal, rder_mul; [apply rder_id|apply rder_id|apply rder_id|exact U|apply rder_id|apply rder_id]|apply rder_inv; [exact Nz|apply rder_den]]].
    pose proof two_nz as T2.
    ceq. unfold num, dden, N1, N2. rewrite two. set (d := den t) in *. set (T := RtoC t).
    assert (Ed : d = (RtoC 1 - a12 * T) * (RtoC 1 - a12 * T) - a11 * a22 * (T * T)) by reflexivity. 
    apply Creg with (d * d); [now apply Cmult_neq_0|].
    match goal with |- ?l = ?r => transitivity (/ (RtoC 1 + RtoC 1) * ((a22 * b1 * b1 * (RtoC 1 * T + T * RtoC 1) + (RtoC 1 + RtoC 1) * b1 * b2 * (RtoC 1 * (RtoC 1 - a12 * T) + T * - a12) + a11 * b2 * b2 * (RtoC 1 * T + T * RtoC 1)) * d
      + (a22 * b1 * b1 * (T * T) + (RtoC 1 + RtoC 1) * b1 * b2 * (T * (RtoC 1 - a12 * T)) + a11 * b2 * b2 * (T * T)) * ((RtoC 1 + RtoC 1) * (a12 * (RtoC 1 - a12 * T) + a11 * a22 * T)))); [field; split; assumption|] end.
    transitivity (((RtoC 1 - a12 * T) * b1 + a11 * T * b2) * ((RtoC 1 - a12 * T) * b2 + a22 * T * b1)); [|field; exact Nz]. rewrite Ed. field. exact T2.
  Qed.

  Definition rr (t : R) : C := PS ss t * Cexp (- ex t).
  Lemma rr_sq : forall t, (0 <= t <= 1)%R -> rr t * rr t * den t = RtoC 1.
  Proof.
    assert (Z : forall t, (0 <= t <= 1)%R -> rder t (fun x => rr x * rr x * den x) (RtoC 0)).
    { intros t Ht. pose proof (den_nz t Ht) as Nz. destruct geo_all as [Gs _]. destruct (at_t t Ht) as [A1 A2].
      assert (Dr : rder t rr (PS sd t * Cexp (- ex t) + PS ss t * (- (N1 t * N2 t * / (den t * den t)) * Cexp (- ex t)))).
      { apply rder_mul; [exact (PS_der ss t Gs Ht)|]. apply (rder_exp t (fun x => - ex x)), rder_opp, rder_ex, Ht. }
      eapply rder_eq; [|apply rder_mul; [apply rder_mul; exact Dr|apply rder_den]]. ceq. unfold rr, dden. rewrite two.
      set (e := Cexp (- ex t)). set (d := den t) in *. set (S0 := PS ss t) in *. set (SD := PS sd t) in *. set (V := PS vv t) in *. set (T := RtoC t) in *.
      set (k := a12 * (RtoC 1 - a12 * T) + a11 * a22 * T) in *.
      assert (A3 : d * d * SD = d * k * S0 + N1 t * N2 t * S0) by (transitivity (d * (d * SD)); [ring|]; rewrite A2; transitivity (d * k * S0 + N1 t * (d * V)); [ring|]; rewrite A1; ring).
      apply Creg with d; [exact Nz|]. rewrite Cmult_0_r.
      transitivity ((RtoC 1 + RtoC 1) * (S0 * (e * e)) * (d * d * SD) - (RtoC 1 + RtoC 1) * (S0 * S0 * (e * e)) * (N1 t * N2 t) - (RtoC 1 + RtoC 1) * (d * k) * (S0 * S0 * (e * e))); [field; exact Nz|].
      rewrite A3. ring. }
    intros t Ht. rewrite (rder_zero_at (fun x => rr x * rr x * den x) Z t Ht). unfold rr, ex, num, den. rewrite PS_0. unfold ss. rewrite G0.
    match goal with |- context [Cexp ?x] => replace x with (RtoC 0) by ring end. rewrite Cexp_0. ring.
  Qed.
  Lemma rr_cont : forall t, (0 <= t <= 1)%R -> continuity_pt (fun x => Re (rr x)) t.
  Proof.
    intros t Ht. destruct geo_all as [Gs _].
    assert (Dr : rder t rr (PS sd t * Cexp (- ex t) + PS ss t * (- (N1 t * N2 t * / (den t * den t)) * Cexp (- ex t)))).
    { apply rder_mul; [exact (PS_der ss t Gs Ht)|]. apply (rder_exp t (fun x => - ex x)), rder_opp, rder_ex, Ht. }
    apply derivable_continuous_pt. exists (Re (PS sd t * Cexp (- ex t) + PS ss t * (- (N1 t * N2 t * / (den t * den t)) * Cexp (- ex t)))).
    apply is_derive_Reals. exact (proj1 Dr).
  Qed.
  (** the square of a complex number without real part is a negative real *)
  Lemma rr_re : forall t, (0 <= t <= 1)%R -> Re (rr t) <> 0%R.
  Proof.
    intros t Ht E. pose proof (rr_sq t Ht) as H. set (y := Im (rr t)).
    assert (X : rr t * rr t = RtoC (- (y * y))).
    { unfold y. destruct (rr t) as [a b]. unfold Re in E. cbn in E. subst a. unfold Cmult, RtoC, Im. cbn. f_equal; ring. }
    rewrite X in H. destruct (Req_dec y 0) as [Y|Y].
    - rewrite Y in H. replace (- (0 * 0))%R with 0%R in H by ring. rewrite Cmult_0_l in H. apply RtoC_inj in H. lra.
    - apply (den_off t (/ (y * y)) Ht); [left; apply Rinv_0_lt_compat; nra|].
      apply Creg with (RtoC (- (y * y))); [intros Z; apply RtoC_inj in Z; nra|]. rewrite H, <- RtoC_mult. f_equal. field. exact Y.
  Qed.
  Lemma rr_pos : (0 < Re (rr 1))%R.
  Proof.
    assert (R0 : rr 0 = RtoC 1).
    { unfold rr, ex, num. rewrite PS_0. unfold ss. rewrite G0. match goal with |- context [Cexp ?x] => replace x with (RtoC 0) by ring end. rewrite Cexp_0. ring. }
    destruct (Rlt_le_dec 0 (Re (rr 1))) as [L|L]; [exact L|]. exfalso.
    destruct (Rle_lt_or_eq_dec _ _ L) as [L'|L']; [|now apply (rr_re 1 ltac:(lra))].
    destruct (IVT_interv (fun x => - Re (rr x))%R 0 1) as [z [Hz Ez]].
    - intros t Ht. apply continuity_pt_opp. now apply rr_cont.
    - lra. - rewrite R0. cbn. lra. - lra.
    - apply (rr_re z Hz). lra.
  Qed.
  Lemma diagonal_one : sums ss (csqrt (/ den 1) * Cexp (ex 1)).
  Proof.
    destruct geo_all as [Gs _]. assert (I : (0 <= 1 <= 1)%R) by lra. pose proof (den_nz 1 I) as Nz. pose proof (rr_sq 1 I) as Sq.
    assert (E : rr 1 = csqrt (/ den 1)).
    { destruct (sq_pm (rr 1) (csqrt (/ den 1))) as [X|X]; [|exact X|].
      - rewrite csqrt_sq. apply Creg with (den 1); [exact Nz|]. rewrite Cmult_comm, Sq. field. exact Nz.
      - exfalso. pose proof rr_pos as P. rewrite X in P. pose proof (csqrt_re (/ den 1)) as Q. change (0 < - fst (csqrt (Cinv (den 1))))%R in P. lra. }
    rewrite <- E. unfold rr. replace (PS ss 1 * Cexp (- ex 1) * Cexp (ex 1)) with (PS ss 1 * (Cexp (- ex 1) * Cexp (ex 1))) by ring.
    rewrite <- Cexp_add. replace (- ex 1 + ex 1) with (RtoC 0) by ring. rewrite Cexp_0, Cmult_1_r.
    eapply sums_ext; [|apply (PS_sums ss 1 Gs I)]. intros n. cbn beta. rewrite pow1. ring.
  Qed.
End Diagonal.
