(** Samplers: mrmustard/lab/samplers.py. C39. *)
From Coq Require Import ZArith List Bool Lia Permutation Sorted Arith Reals Lra.
From Verif Require Import Base.
Import ListNotations.
Open Scope nat_scope.

Definition sumR (l : list R) : R := fold_right Rplus 0%R l.
Definition Rleb (x y : R) : bool := if Rle_dec x y then true else false.
(** samplers.py:165-185 `_validate_probs` and backend allclose (rtol = 1e-5): ValueError unless |sum - 1| <= tol, with tol = atol + rtol; then divide by the sum *)
Definition validate (tol : R) (probs : list R) : result (list R) :=
  let ps := map Rabs probs in if Rleb (Rabs (sumR ps - 1)) tol then Ok (map (fun p => p / sumR ps)%R ps) else Err ValueError.

Section Sampler.
(** [G]: states of a numpy Generator; [choice g p n]: Generator.choice with probabilities p: n indices and the new generator state *)
Context {G St : Type}.
Variable default_rng : Z -> G.
Variable choice : G -> list R -> nat -> list nat * G.
(** the measurement outcomes (numbers; only their order matters), samplers.py:50-56 *)
Variable outs : list Z.
(** [dist1 st]: self.probabilities of the reduced state of the first mode (of the whole state when it has one mode), already validated;
    [cond st u p]: (state >> povm(u).dual) / norm, with p the probability of u: samplers.py:108-112 and, for homodyne, 241-248 *)
Variable dist1 : St -> result (list R).
Variable cond : St -> Z -> R -> St.

Fixpoint index (u : Z) (l : list Z) : nat := match l with [] => 0 | v :: r => if (u =? v)%Z then 0 else S (index u r) end.
Definition prob_of (ps : list R) (u : Z) : R := nth (index u outs) ps 0%R.
(** samplers.py:136 `default_rng(seed) if seed else settings.rng`: seed 0 counts as no seed *)
Definition seeded (seed : option Z) : option Z := match seed with Some z => if (z =? 0)%Z then None else Some z | None => None end.
(** samplers.py:118-146 `sample_prob_dist` for a one-mode state: the sampled outcomes, the probabilities, the state of settings.rng afterwards.
    numpy raises ValueError when outcomes and probabilities differ in number *)
Definition sample_prob_dist (st : St) (n : nat) (seed : option Z) (g : G) : result (list Z * list R * G) :=
  bind (dist1 st) (fun ps =>
  if negb (length ps =? length outs) then Err ValueError else
  match seeded seed with
  | Some z => let (idx, _) := choice (default_rng z) ps n in Ok (map (fun i => nth i outs 0%Z) idx, ps, g)
  | None => let (idx, g') := choice g ps n in Ok (map (fun i => nth i outs 0%Z) idx, ps, g')
  end).
(** np.unique: sorted distinct values with their counts (samplers.py:101-105; the returned index only serves to look up the probability of the value) *)
Definition uniques (l : list Z) : list (Z * nat) := map (fun u => (u, count_occ Z.eq_dec l u)) (isort (fun z => z) (nodup Z.eq_dec l)).
(** samplers.py:107-115: for each distinct outcome, sample the rest of the modes as often as the outcome came up (without passing the seed on) *)
Fixpoint groups (rec : St -> nat -> G -> result (list (list Z) * G)) (st : St) (ps : list R) (us : list (Z * nat)) (g : G) : result (list (list Z) * G) :=
  match us with
  | [] => Ok ([], g)
  | (u, cnt) :: r => bind (rec (cond st u (prob_of ps u)) cnt g) (fun '(rows, g1) => bind (groups rec st ps r g1) (fun '(rows', g2) => Ok (map (cons u) rows ++ rows', g2)))
  end.
(** samplers.py:82-116 `Sampler.sample` (and 227-251, the same loop with another [cond]); [m] is the number of modes of the state *)
Fixpoint sample (m : nat) (st : St) (n : nat) (seed : option Z) (g : G) : result (list (list Z) * G) :=
  match m with
  | 0 => Err IndexError
  | 1 => bind (sample_prob_dist st n seed g) (fun '(xs, _, g1) => Ok (map (fun x => [x]) xs, g1))
  | S m' => bind (sample_prob_dist st n seed g) (fun '(xs, ps, g1) => groups (fun st' cnt g' => sample m' st' cnt None g') st ps (uniques xs) g1)
  end.

(** ** Specification *)
Definition distribution (ps : list R) : Prop := Forall (fun p => 0 <= p)%R ps /\ sumR ps = 1%R.
(** numpy's contract for Generator.choice: n indices of entries with positive probability *)
Definition choice_spec : Prop := forall g ps n, distribution ps -> let (idx, _) := choice g ps n in length idx = n /\ Forall (fun i => i < length ps /\ (0 < nth i ps 0)%R) idx.
(** the probability with which the procedure produces a row: the product of the probabilities it samples with on the way *)
Fixpoint chain (m : nat) (st : St) (row : list Z) : R :=
  match m, row with
  | 1, [u] => match dist1 st with Ok ps => prob_of ps u | Err _ => 0%R end
  | S m', u :: r => match dist1 st with Ok ps => (prob_of ps u * chain m' (cond st u (prob_of ps u)) r)%R | Err _ => 0%R end
  | _, _ => 0%R
  end.

Lemma index_nth : forall l i, NoDup l -> i < length l -> index (nth i l 0%Z) l = i.
Proof using.
  induction l as [|v l IH]; intros i ND H; simpl in H; [lia|]. inversion ND as [|? ? H1 H2]; subst. destruct i as [|i]; simpl; [now rewrite Z.eqb_refl|].
  destruct (Z.eqb_spec (nth i l 0%Z) v) as [E|_]; [exfalso; apply H1; rewrite <- E; apply nth_In; lia|]. rewrite IH; auto; lia.
Qed.
(** what self.probabilities returns is a distribution (C39_normalised below) *)
Definition dist_spec : Prop := forall st ps, dist1 st = Ok ps -> distribution ps.
Lemma spd : choice_spec -> dist_spec -> NoDup outs -> forall st n seed g xs ps g1, sample_prob_dist st n seed g = Ok (xs, ps, g1) ->
  dist1 st = Ok ps /\ length xs = n /\ Forall (fun u => In u outs /\ (0 < prob_of ps u)%R) xs.
Proof using.
  intros CS DS ND st n seed g xs ps g1. unfold sample_prob_dist. specialize (DS st). destruct (dist1 st) as [ps'|]; simpl; [|discriminate]. specialize (DS _ eq_refl). destruct (Nat.eqb_spec (length ps') (length outs)) as [L|]; simpl; [|discriminate].
  assert (X : forall idx, length idx = n /\ Forall (fun i => i < length ps' /\ (0 < nth i ps' 0)%R) idx -> length (map (fun i => nth i outs 0%Z) idx) = n /\ Forall (fun u => In u outs /\ (0 < prob_of ps' u)%R) (map (fun i => nth i outs 0%Z) idx)).
  { intros idx [L1 F]. split; [now rewrite map_length|]. apply Forall_map. eapply Forall_impl; [|exact F]. intros i [H1 H2]. split; [apply nth_In; lia|]. unfold prob_of. rewrite index_nth; [exact H2|exact ND|lia]. }
  destruct (seeded seed) as [z|].
  - specialize (CS (default_rng z) ps' n DS). destruct (choice (default_rng z) ps' n) as [idx g']. intros H. injection H as <- <- <-. split; [reflexivity|now apply X].
  - specialize (CS g ps' n DS). destruct (choice g ps' n) as [idx g']. intros H. injection H as <- <- <-. split; [reflexivity|now apply X].
Qed.
Lemma uniques_total : forall xs, fold_right plus 0 (map snd (uniques xs)) = length xs.
Proof using.
  intros xs. unfold uniques. rewrite map_map. simpl.
  assert (Y : forall l l' f, Permutation l l' -> fold_right plus 0 (map (f : Z -> nat) l) = fold_right plus 0 (map f l')). { clear. intros l l' f P. induction P; simpl; lia. }
  rewrite (Y _ _ _ (isort_perm _ _)). clear Y.
  assert (Z0 : forall ys us, NoDup us -> (forall y, In y ys -> In y us) -> fold_right plus 0 (map (fun u => count_occ Z.eq_dec ys u) us) = length ys).
  { clear. induction ys as [|y ys IH]; intros us ND H; [simpl; clear; induction us as [|u us IHu]; [reflexivity|exact IHu]|]. specialize (IH us ND (fun z Hz => H z (or_intror Hz))). cbn [length].
    assert (Hy : In y us) by (apply H; now left). rewrite <- IH. clear IH H. induction us as [|u us IH]; [destruct Hy|]. inversion ND as [|? ? H1 H2]; subst. cbn [map fold_right]. simpl count_occ.
    destruct (Z.eq_dec y u) as [->|N].
    - assert (E : map (fun u0 => count_occ Z.eq_dec (u :: ys) u0) us = map (fun u0 => count_occ Z.eq_dec ys u0) us). { apply map_ext_in. intros v Hv. apply count_occ_cons_neq. congruence. } simpl in E. rewrite E. lia.
    - destruct Hy as [Hy|Hy]; [congruence|]. specialize (IH H2 Hy). simpl in IH. lia. }
  apply Z0; [apply NoDup_nodup|]. intros y Hy. now apply nodup_In.
Qed.
(** C39: for every state with m >= 1 modes, every number of samples, seed and generator state: if sampling succeeds there are n rows, each with one outcome of
    the sampler per mode, and no row of probability zero is produced. *)
Theorem C39_rows : choice_spec -> dist_spec -> NoDup outs -> forall m st n seed g rows g', sample m st n seed g = Ok (rows, g') ->
  length rows = n /\ Forall (fun row => length row = m /\ (forall u, In u row -> In u outs) /\ (0 < chain m st row)%R) rows.
Proof using.
  intros CS DS ND. induction m as [|m IH]; intros st n seed g rows g' E; [discriminate|]. destruct m as [|m].
  - simpl in E. destruct (sample_prob_dist st n seed g) as [[[xs ps] g1]|] eqn:SP; simpl in E; [|discriminate]. injection E as <- <-. destruct (spd CS DS ND _ _ _ _ _ _ _ SP) as [D [L F]].
    split; [now rewrite map_length|]. apply Forall_map. eapply Forall_impl; [|exact F]. intros u [H1 H2]. simpl. split; [reflexivity|]. split; [intros v [<-|[]]; exact H1|]. now rewrite D.
  - remember (S m) as m1. cbn [sample] in E. rewrite Heqm1 in E at 1. destruct (sample_prob_dist st n seed g) as [[[xs ps] g1]|] eqn:SP; cbn [bind] in E; [|discriminate].
    destruct (spd CS DS ND _ _ _ _ _ _ _ SP) as [D [L F]]. rewrite <- L, <- uniques_total.
    assert (FU : Forall (fun p => In (fst p) outs /\ (0 < prob_of ps (fst p))%R) (uniques xs)).
    { unfold uniques. apply Forall_map. apply Forall_forall. intros u Hu. apply isort_in, nodup_In in Hu. rewrite Forall_forall in F. now apply F. }
    revert g1 rows g' E SP FU. generalize (uniques xs). clear L F. intros us g1 rows g' E _ FU. revert g1 rows g' E. induction us as [|[u cnt] us IHu]; intros g1 rows g' E; cbn [groups] in E.
    + injection E as <- <-. split; [reflexivity|constructor].
    + destruct (sample m1 (cond st u (prob_of ps u)) cnt None g1) as [[rows1 g2]|] eqn:S1; cbn [bind] in E; [|discriminate]. destruct (groups _ st ps us g2) as [[rows2 g3]|] eqn:S2; cbn [bind] in E; [|discriminate]. injection E as <- <-.
      inversion FU as [|? ? [U1 U2] FU']; subst x l. destruct (IH _ _ _ _ _ _ S1) as [L1 F1]. destruct (IHu FU' _ _ _ S2) as [L2 F2]. split; [simpl; rewrite app_length, map_length; lia|].
      apply Forall_app. split; [|exact F2]. apply Forall_map. eapply Forall_impl; [|exact F1]. intros r [R1 [R2 R3]]. split; [simpl; lia|]. split; [intros v [<-|Hv]; auto|].
      cbn [chain]. rewrite Heqm1 at 1. rewrite Heqm1 in R3 |- *. rewrite D. now apply Rmult_lt_0_compat.
Qed.
(** a nonzero seed makes the sample of a one-mode state a function of its arguments: neither the result nor the global generator depends on, or is changed by, the call *)
Theorem C39_seed_one_mode : forall st n z g g', z <> 0%Z ->
  match sample 1 st n (Some z) g, sample 1 st n (Some z) g' with Ok (r, h), Ok (r', h') => r = r' /\ h = g /\ h' = g' | Err e, Err e' => e = e' | _, _ => False end.
Proof using.
  intros st n z g g' Hz. simpl. unfold sample_prob_dist, seeded. destruct (dist1 st) as [ps|]; simpl; [|reflexivity]. destruct (length ps =? length outs); simpl; [|reflexivity].
  destruct (Z.eqb_spec z 0); [contradiction|]. destruct (choice (default_rng z) ps n). simpl. auto.
Qed.
End Sampler.

(** C39: the validated probabilities are a probability distribution *)
Lemma sumR_map_div : forall l c, sumR (map (fun p => p / c)%R l) = (sumR l / c)%R.
Proof. induction l as [|x l IH]; intros c; simpl; [unfold Rdiv; ring|]. rewrite IH. unfold Rdiv. ring. Qed.
Lemma sumR_abs_nonneg : forall l, (0 <= sumR (map Rabs l))%R.
Proof. induction l as [|x l IH]; simpl; [lra|]. pose proof (Rabs_pos x). lra. Qed.
Theorem C39_normalised : forall tol probs ps, (tol < 1)%R -> validate tol probs = Ok ps ->
  sumR ps = 1%R /\ length ps = length probs /\ Forall (fun p => 0 <= p)%R ps /\ (forall i, i < length probs -> nth i ps 0%R = (Rabs (nth i probs 0) / sumR (map Rabs probs))%R).
Proof.
  intros tol probs ps T. unfold validate, Rleb. destruct (Rle_dec _ tol) as [H|]; [|discriminate]. intros E. injection E as <-.
  assert (P : (0 < sumR (map Rabs probs))%R). { pose proof (sumR_abs_nonneg probs). destruct (Rle_lt_or_eq_dec _ _ H0) as [|Z]; [assumption|]. rewrite <- Z in H. replace (0 - 1)%R with (-1)%R in H by ring. rewrite Rabs_left in H by lra. lra. }
  split; [rewrite sumR_map_div; field; lra|]. split; [now rewrite !map_length|]. split.
  - apply Forall_map, Forall_map, Forall_forall. intros x _. unfold Rdiv. apply Rmult_le_pos; [apply Rabs_pos|]. apply Rlt_le, Rinv_0_lt_compat, P.
  - intros i Hi. rewrite (nth_indep _ 0%R (0 / sumR (map Rabs probs))%R) by (now rewrite !map_length). rewrite (map_nth (fun p => p / sumR (map Rabs probs))%R). f_equal.
    rewrite (nth_indep _ 0%R (Rabs 0)) by (now rewrite map_length). apply map_nth.
Qed.

(** ** The distribution of the rows *)
(** A state seen by the sampler: the number of modes and the joint probabilities of the outcomes of all modes (in mode order).
    Simplification: outcomes outside the sampler's list are not represented (cutoff or range wide enough). *)
Fixpoint tuples (outs : list Z) (m : nat) : list (list Z) := match m with 0 => [[]] | S k => flat_map (fun u => map (cons u) (tuples outs k)) outs end.
Definition jstate := (nat * (list Z -> R))%type.
(** state[mode] keeps the first mode: its distribution sums over the other modes *)
Definition jdist (outs : list Z) (tol : R) (st : jstate) : result (list R) := validate tol (map (fun u => sumR (map (fun xs => snd st (u :: xs)) (tuples outs (pred (fst st))))) outs).
(** (state >> povm(u).dual) / p: probabilities of the remaining modes together with u, divided by p *)
Definition jcond (st : jstate) (u : Z) (p : R) : jstate := (pred (fst st), fun xs => (snd st (u :: xs) / p)%R).

Lemma sumR_app : forall l1 l2, sumR (l1 ++ l2) = (sumR l1 + sumR l2)%R.
Proof. induction l1 as [|x l1 IH]; intros l2; simpl; [ring|]. rewrite IH. ring. Qed.
Lemma sumR_tuples : forall outs m (P : list Z -> R), sumR (map P (tuples outs (S m))) = sumR (map (fun u => sumR (map (fun xs => P (u :: xs)) (tuples outs m))) outs).
Proof.
  intros outs m P. cbn [tuples]. generalize (tuples outs m) as T. intros T. induction outs as [|u l IH]; simpl; [reflexivity|]. rewrite map_app, sumR_app, IH, map_map. reflexivity.
Qed.
Lemma sumR_nonneg : forall l, Forall (fun x => 0 <= x)%R l -> (0 <= sumR l)%R.
Proof. induction 1; simpl; lra. Qed.
Lemma sumR_In : forall l x, Forall (fun x => 0 <= x)%R l -> In x l -> (x <= sumR l)%R.
Proof. induction l as [|a l IH]; intros x F H; [destruct H|]. inversion F as [|? ? F1 F2]; subst. simpl. pose proof (sumR_nonneg _ F2). destruct H as [->|H]; [lra|]. specialize (IH x F2 H). lra. Qed.
Lemma tuples_cons : forall outs m u xs, In (u :: xs) (tuples outs (S m)) <-> In u outs /\ In xs (tuples outs m).
Proof.
  intros outs m u xs. cbn [tuples]. rewrite in_flat_map. split.
  - intros [v [H1 H2]]. apply in_map_iff in H2. destruct H2 as [ys [E H2]]. injection E as -> ->. auto.
  - intros [H1 H2]. exists u. split; [exact H1|]. now apply in_map.
Qed.
Lemma nth_index : forall u l, In u l -> nth (index u l) l 0%Z = u /\ index u l < length l.
Proof. induction l as [|v l IH]; intros H; [destruct H|]. simpl. destruct (Z.eqb_spec u v) as [->|N]; [split; [reflexivity|lia]|]. destruct H as [->|H]; [contradiction|]. destruct (IH H). split; [assumption|lia]. Qed.
(** C39: for every joint distribution P of the outcomes of m modes with total mass T accepted by the validation, the procedure produces the row x with
    probability P(x)/T, in particular P(x) when P is normalised. *)
Theorem C39_distribution : forall outs tol m (P : list Z -> R) row,
  (0 <= tol < 1)%R -> 1 <= m -> (forall x, In x (tuples outs m) -> (0 <= P x)%R) ->
  let T := sumR (map P (tuples outs m)) in (Rabs (T - 1) <= tol)%R ->
  In row (tuples outs m) -> (0 < P row)%R ->
  chain outs (jdist outs tol) jcond m (m, P) row = (P row / T)%R.
Proof.
  intros outs tol m P row Ht Hm. revert P row. induction m as [|m IH]; intros P row PP T HT Hr Pr; [lia|]. destruct row as [|u xs].
  { cbn [tuples] in Hr. apply in_flat_map in Hr. destruct Hr as [v [_ Hr]]. apply in_map_iff in Hr. destruct Hr as [? [? _]]. discriminate. }
  pose proof (proj1 (tuples_cons _ _ _ _) Hr) as [Hu Hxs].
  set (M := fun u => sumR (map (fun xs => P (u :: xs)) (tuples outs m))).
  assert (NF : forall v, In v outs -> Forall (fun x => 0 <= x)%R (map (fun ys => P (v :: ys)) (tuples outs m))). { intros v Hv. apply Forall_map, Forall_forall. intros ys Hy. apply PP. now apply tuples_cons. }
  assert (MN : forall v, In v outs -> (0 <= M v)%R) by (intros v Hv; apply sumR_nonneg, NF, Hv).
  assert (TM : T = sumR (map M outs)) by apply sumR_tuples.
  assert (AM : map Rabs (map M outs) = map M outs). { rewrite map_map. apply map_ext_in. intros v Hv. now apply Rabs_pos_eq, MN. }
  assert (Mu : (0 < M u)%R). { apply Rlt_le_trans with (P (u :: xs)); [exact Pr|]. apply sumR_In; [now apply NF|]. apply in_map_iff. exists xs. auto. }
  assert (TP : (0 < T)%R). { apply Rlt_le_trans with (M u); [exact Mu|]. rewrite TM. apply sumR_In; [apply Forall_map, Forall_forall, MN|]. now apply in_map. }
  assert (D : jdist outs tol (S m, P) = Ok (map (fun p => p / T)%R (map M outs))).
  { unfold jdist, validate. cbn [fst snd pred]. fold M. change (fun u => sumR (map (fun xs => P (u :: xs)) (tuples outs m))) with M. rewrite AM, <- TM. unfold Rleb. destruct (Rle_dec _ tol); [reflexivity|contradiction]. }
  destruct (nth_index u outs Hu) as [I1 I2].
  assert (PO : prob_of outs (map (fun p => p / T)%R (map M outs)) u = (M u / T)%R).
  { unfold prob_of. rewrite map_map. rewrite (nth_indep _ 0%R (M 0%Z / T)%R) by (now rewrite map_length). rewrite (map_nth (fun x => M x / T)%R), I1. reflexivity. }
  destruct m as [|m].
  - destruct Hxs as [<-|[]]. cbn [chain]. rewrite D, PO. f_equal. unfold M. simpl. ring.
  - remember (S m) as m1. cbn [chain]. rewrite Heqm1 at 1. rewrite D. rewrite PO. unfold jcond at 2. cbn [fst snd pred].
    set (P' := fun ys => (P (u :: ys) / (M u / T))%R). assert (MT : (0 < M u / T)%R) by (apply Rdiv_lt_0_compat; assumption).
    assert (T' : sumR (map P' (tuples outs m1)) = T). { unfold P'. transitivity (sumR (map (fun p => p / (M u / T))%R (map (fun ys => P (u :: ys)) (tuples outs m1)))); [now rewrite map_map|]. rewrite sumR_map_div. fold (M u). field. lra. }
    assert (Q : chain outs (jdist outs tol) jcond m1 (m1, P') xs = (P' xs / T)%R).
    { transitivity (P' xs / sumR (map P' (tuples outs m1)))%R; [|now rewrite T']. apply IH; [lia| |rewrite T'; exact HT|exact Hxs|].
      - intros ys Hy. unfold P', Rdiv. apply Rmult_le_pos; [apply PP; now apply tuples_cons|]. apply Rlt_le, Rinv_0_lt_compat, MT.
      - unfold P'. now apply Rdiv_lt_0_compat. }
    transitivity (M u / T * (P' xs / T))%R; [|unfold P'; field; lra]. destruct xs as [|x xs']; [exfalso; rewrite Heqm1 in Hxs; cbn [tuples] in Hxs; apply in_flat_map in Hxs; destruct Hxs as [v [_ Hr']]; apply in_map_iff in Hr'; destruct Hr' as [? [? _]]; discriminate|].
    f_equal. exact Q.
Qed.

(** ** The literal claim about seeds is false of the code *)
(** a generator whose state is a number of draws; the only state with outcomes 0 and 1, both possible; [pick] turns the generator state into outcomes *)
Definition pick (g : nat) (ps : list R) (n : nat) : list nat * nat := (map (fun i => (g + i) mod 2) (seq 0 n), g + n).
Definition half : result (list R) := Ok [1/2; 1/2]%R.
Definition s_sample m := sample (G := nat) (fun z => Z.to_nat z) pick [0%Z; 1%Z] (fun _ : unit => half) (fun st _ _ => st) m tt.
(** two modes: the same nonzero seed gives different samples when the global generator has been used in between *)
Theorem C39_refuted_seed_two_modes : s_sample 2 1 (Some 5%Z) 0 = Ok ([[1; 0]%Z], 1) /\ s_sample 2 1 (Some 5%Z) 1 = Ok ([[1; 1]%Z], 2).
Proof. split; reflexivity. Qed.
(** one mode: seed 0 is ignored *)
Theorem C39_refuted_seed_zero : s_sample 1 1 (Some 0%Z) 0 = Ok ([[0]%Z], 1) /\ s_sample 1 1 (Some 0%Z) 1 = Ok ([[1]%Z], 2).
Proof. split; reflexivity. Qed.
(** the hypotheses of C39_rows hold of a sampler that always takes the first possible outcome, and of the jointly distributed states above *)
Fixpoint first_pos (ps : list R) : nat := match ps with [] => 0 | p :: r => if Rleb p 0 then S (first_pos r) else 0 end.
Definition pick1 (g : nat) (ps : list R) (n : nat) : list nat * nat := (repeat (first_pos ps) n, g + n).
Lemma first_pos_ok : forall ps, Forall (fun p => 0 <= p)%R ps -> (0 < sumR ps)%R -> first_pos ps < length ps /\ (0 < nth (first_pos ps) ps 0)%R.
Proof.
  induction ps as [|p ps IH]; intros F S0; simpl in *; [lra|]. inversion F as [|? ? F1 F2]; subst. unfold Rleb. destruct (Rle_dec p 0); [|split; [lia|lra]]. destruct (IH F2 ltac:(lra)). split; [lia|assumption].
Qed.
Theorem C39_example : choice_spec pick1 /\ dist_spec (jdist [0; 1; 2]%Z (1/10)) /\ NoDup [0; 1; 2]%Z /\
  sample (fun z => Z.to_nat z) pick [0; 1; 2]%Z (fun _ : unit => Ok [1/2; 1/2; 0]%R) (fun st _ _ => st) 2 tt 3 None 0 = Ok ([[0; 1]; [0; 0]; [1; 1]]%Z, 6).
Proof.
  split; [|split; [|split]].
  - intros g ps n [F S1]. unfold pick1. split; [apply repeat_length|]. apply Forall_forall. intros i Hi. apply repeat_spec in Hi. subst i. apply first_pos_ok; [exact F|lra].
  - intros st ps H. assert (L : (1/10 < 1)%R) by lra. destruct (C39_normalised _ _ _ L H) as [H1 [_ [H2 _]]]. split; assumption.
  - repeat constructor; simpl; lia.
  - reflexivity.
Qed.
