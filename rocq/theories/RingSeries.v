(** Power series needed for the ring of coherent states of Sauron.v (C79): the real and imaginary parts of exp(t e^{i phi}), and when cos is 1. *)
From Coq Require Import Reals Lra Psatz Lia.
From Coquelicot Require Import Coquelicot.
Open Scope R_scope.
Section Ring.
Variable phi : R.
Definition fa (k : nat) : R := / INR (fact k).
Definition ua (k : nat) : R := cos (INR k * phi) / INR (fact k).
Definition va (k : nat) : R := sin (INR k * phi) / INR (fact k).
Lemma fa_pos k : 0 < fa k. Proof. apply Rinv_0_lt_compat, INR_fact_lt_0. Qed.
Lemma CV_fa : CV_radius fa = p_infty.
Proof.
  apply CV_radius_infinite_DAlembert.
  - intros k. pose proof (fa_pos k). lra.
  - apply is_lim_seq_ext with (fun k => / INR (S k)).
    + intros k. unfold fa. rewrite fact_simpl, mult_INR. pose proof (INR_fact_lt_0 k). pose proof (lt_0_INR (S k) ltac:(lia)).
      replace (/ (INR (S k) * INR (fact k)) / / INR (fact k)) with (/ INR (S k)) by (field; lra).
      rewrite Rabs_pos_eq; [reflexivity|]. apply Rlt_le, Rinv_0_lt_compat; assumption.
    + replace (Finite 0) with (Rbar_inv p_infty) by reflexivity. apply is_lim_seq_inv; [|discriminate].
      apply (is_lim_seq_incr_1 INR). apply is_lim_seq_INR.
Qed.
Lemma CV_le (a : nat -> R) : (forall k, Rabs (a k) <= fa k) -> CV_radius a = p_infty.
Proof.
  intros H. assert (L : Rbar_le (CV_radius fa) (CV_radius a)).
  { destruct (CV_radius_bounded a) as [ub _]. destruct (CV_radius_bounded fa) as [_ lub]. apply lub. intros r [M HM]. apply ub. exists M. intros k.
    apply Rle_trans with (Rabs (fa k * r ^ k)); [|apply HM]. rewrite !Rabs_mult. apply Rmult_le_compat_r; [apply Rabs_pos|].
    rewrite (Rabs_pos_eq (fa k)); [apply H|]. apply Rlt_le, fa_pos. }
  rewrite CV_fa in L. destruct (CV_radius a); simpl in L; tauto.
Qed.
Lemma bound (x : R) k : Rabs x <= 1 -> Rabs (x / INR (fact k)) <= fa k.
Proof.
  intros H. unfold Rdiv. rewrite Rabs_mult. pose proof (fa_pos k). unfold fa in *. rewrite (Rabs_pos_eq (/ _)); [|lra]. 
  pose proof (Rmult_le_compat_r (/ INR (fact k)) _ _ ltac:(lra) H). lra.
Qed.
Lemma CV_ua : CV_radius ua = p_infty.
Proof. apply CV_le. intros k. apply bound. apply Rabs_le. pose proof (COS_bound (INR k * phi)). lra. Qed.
Lemma CV_va : CV_radius va = p_infty.
Proof. apply CV_le. intros k. apply bound. apply Rabs_le. pose proof (SIN_bound (INR k * phi)). lra. Qed.
Lemma ex_all a t : CV_radius a = p_infty -> ex_pseries a t.
Proof. intros H. apply CV_radius_inside. rewrite H. exact I. Qed.
Definition u := PSeries ua.
Definition v := PSeries va.
Lemma du t : is_derive u t (cos phi * u t - sin phi * v t).
Proof.
  assert (D : is_derive u t (PSeries (PS_derive ua) t)) by (apply is_derive_PSeries; rewrite CV_ua; exact I).
  replace (cos phi * u t - sin phi * v t) with (PSeries (PS_derive ua) t); [exact D|].
  unfold u, v. rewrite <- !PSeries_scal, <- PSeries_minus.
  - apply PSeries_ext. intros k. unfold PS_derive, PS_minus, PS_plus, PS_opp, PS_scal, ua, va. unfold plus, opp, scal; simpl. unfold mult; simpl.
    change (fact k + k * fact k)%nat with (fact (S k)). rewrite fact_simpl, mult_INR.
    change (match k with 0%nat => 1 | S _ => INR k + 1 end) with (INR (S k)).
    pose proof (INR_fact_lt_0 k). pose proof (lt_0_INR (S k) ltac:(lia)).
    replace (INR (S k) * phi) with (INR k * phi + phi) by (rewrite S_INR; ring). rewrite cos_plus. field. lra.
  - apply ex_pseries_scal; [apply Rmult_comm|]. apply ex_all, CV_ua.
  - apply ex_pseries_scal; [apply Rmult_comm|]. apply ex_all, CV_va.
Qed.
Lemma dv t : is_derive v t (sin phi * u t + cos phi * v t).
Proof.
  assert (D : is_derive v t (PSeries (PS_derive va) t)) by (apply is_derive_PSeries; rewrite CV_va; exact I).
  replace (sin phi * u t + cos phi * v t) with (PSeries (PS_derive va) t); [exact D|].
  unfold u, v. rewrite <- !PSeries_scal, <- PSeries_plus.
  - apply PSeries_ext. intros k. unfold PS_derive, PS_plus, PS_scal, ua, va. unfold plus, scal; simpl. unfold mult; simpl.
    change (fact k + k * fact k)%nat with (fact (S k)). rewrite fact_simpl, mult_INR.
    change (match k with 0%nat => 1 | S _ => INR k + 1 end) with (INR (S k)).
    pose proof (INR_fact_lt_0 k). pose proof (lt_0_INR (S k) ltac:(lia)).
    replace (INR (S k) * phi) with (INR k * phi + phi) by (rewrite S_INR; ring). rewrite sin_plus. field. lra.
  - apply ex_pseries_scal; [apply Rmult_comm|]. apply ex_all, CV_ua.
  - apply ex_pseries_scal; [apply Rmult_comm|]. apply ex_all, CV_va.
Qed.
Lemma Du t : Derive (fun x : R => u x) t = cos phi * u t - sin phi * v t.
Proof. exact (is_derive_unique _ _ _ (du t)). Qed.
Lemma Dv t : Derive (fun x : R => v x) t = sin phi * u t + cos phi * v t.
Proof. exact (is_derive_unique _ _ _ (dv t)). Qed.
Definition P t := exp (- (t * cos phi)) * (u t * cos (t * sin phi) + v t * sin (t * sin phi)).
Definition Q t := exp (- (t * cos phi)) * (v t * cos (t * sin phi) - u t * sin (t * sin phi)).
Lemma dP t : is_derive P t 0.
Proof.
  unfold P. auto_derive.
  - repeat split; try (exists (cos phi * u t - sin phi * v t); apply du); try (exists (sin phi * u t + cos phi * v t); apply dv).
  - rewrite (Du t), (Dv t). ring.
Qed.
Lemma dQ t : is_derive Q t 0.
Proof.
  unfold Q. auto_derive.
  - repeat split; try (exists (cos phi * u t - sin phi * v t); apply du); try (exists (sin phi * u t + cos phi * v t); apply dv).
  - rewrite (Du t), (Dv t). ring.
Qed.
Lemma const f : (forall t, is_derive f t 0) -> forall t, f t = f 0.
Proof.
  intros H t. destruct (MVT_gen f 0 t (fun _ => 0)) as [c [_ E]].
  - intros x _. apply H.
  - intros x _. apply derivable_continuous_pt. exists 0. apply is_derive_Reals, H.
  - lra.
Qed.
Lemma u0 : u 0 = 1.
Proof. unfold u. rewrite PSeries_0. unfold ua. simpl. rewrite Rmult_0_l, cos_0. field. Qed.
Lemma v0 : v 0 = 0.
Proof. unfold v. rewrite PSeries_0. unfold va. simpl. rewrite Rmult_0_l, sin_0. field. Qed.
Lemma uv t : u t = exp (t * cos phi) * cos (t * sin phi) /\ v t = exp (t * cos phi) * sin (t * sin phi).
Proof.
  pose proof (const P dP t) as HP. pose proof (const Q dQ t) as HQ. unfold P in HP. unfold Q in HQ.
  rewrite u0, v0, !Rmult_0_l, Ropp_0, exp_0 in HP, HQ. rewrite cos_0 in HP. rewrite sin_0 in HQ.
  pose proof (exp_plus (- (t * cos phi)) (t * cos phi)) as E. rewrite Rplus_opp_l, exp_0 in E.
  set (e := exp (t * cos phi)) in *. set (e' := exp (- (t * cos phi))) in *. set (C := cos (t * sin phi)) in *. set (S := sin (t * sin phi)) in *.
  assert (CS : C * C + S * S = 1) by (pose proof (sin2_cos2 (t * sin phi)) as K; unfold Rsqr in K; fold S C in K; lra).
  assert (A : u t * C + v t * S = e). { replace (u t * C + v t * S) with (e * (e' * (u t * C + v t * S))) by (transitivity ((e' * e) * (u t * C + v t * S)); [ring|rewrite <- E; ring]). rewrite HP. ring. }
  assert (B : v t * C - u t * S = 0). { replace (v t * C - u t * S) with (e * (e' * (v t * C - u t * S))) by (transitivity ((e' * e) * (v t * C - u t * S)); [ring|rewrite <- E; ring]). rewrite HQ. ring. }
  split.
  - replace (u t) with (C * (u t * C + v t * S) - S * (v t * C - u t * S)) by (transitivity (u t * (C * C + S * S)); [ring|rewrite CS; ring]). rewrite A, B. ring.
  - replace (v t) with (S * (u t * C + v t * S) + C * (v t * C - u t * S)) by (transitivity (v t * (C * C + S * S)); [ring|rewrite CS; ring]). rewrite A, B. ring.
Qed.
(** the real part of e^{i phi} exp(t e^{i phi}) *)
Lemma ring_series t : is_series (fun k => t ^ k / INR (fact k) * cos (INR (S k) * phi)) (exp (t * cos phi) * cos (phi + t * sin phi)).
Proof.
  destruct (uv t) as [Eu Ev].
  assert (Hu : is_series (fun k => t ^ k * ua k) (u t)).
  { pose proof (PSeries_correct ua t (ex_all _ _ CV_ua)) as H. unfold is_pseries in H. eapply is_series_ext; [|exact H]. intros k. rewrite pow_n_pow. reflexivity. }
  assert (Hv : is_series (fun k => t ^ k * va k) (v t)).
  { pose proof (PSeries_correct va t (ex_all _ _ CV_va)) as H. unfold is_pseries in H. eapply is_series_ext; [|exact H]. intros k. rewrite pow_n_pow. reflexivity. }
  replace (exp (t * cos phi) * cos (phi + t * sin phi)) with (minus (scal (cos phi) (u t)) (scal (sin phi) (v t))).
  - eapply is_series_ext; [|exact (is_series_minus _ _ _ _ (is_series_scal (cos phi) _ _ Hu) (is_series_scal (sin phi) _ _ Hv))].
    intros k. unfold minus, plus, opp, scal; simpl. unfold mult; simpl. unfold ua, va.
    change (match k with 0%nat => 1 | S _ => INR k + 1 end) with (INR (S k)).
    replace (INR (S k) * phi) with (phi + INR k * phi) by (rewrite S_INR; ring). rewrite cos_plus. field. apply INR_fact_neq_0.
  - unfold minus, plus, opp, scal; simpl. unfold mult; simpl. rewrite Eu, Ev, cos_plus. ring.
Qed.
End Ring.
(** cos x = 1 only at the multiples of 2 pi *)
Lemma cos_1 x : cos x = 1 -> exists z : Z, x = 2 * IZR z * PI.
Proof.
  intros H. replace x with (2 * (x / 2)) in H by field. rewrite cos_2a_sin in H.
  assert (S0 : sin (x / 2) = 0) by nra. destruct (sin_eq_0_0 _ S0) as [z E]. exists z. lra.
Qed.
