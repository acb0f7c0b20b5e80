(** mrmustard/math/lattice/strategies/binomial.py and steps.py:209-266: filling a Fock array (or dictionary) by total photon number.
    Simplifications: exact numbers (RootField); the squared modulus is an arbitrary function [abs2] and the test `norm > max_l2`
    an arbitrary predicate [exceeds] (never true when max_l2 is None), so the theorems hold for every max_l2. *)
From Coq Require Import List Arith Bool Lia Field Ring ZArith Permutation.
From Verif Require Import Base RootField Tensor Series Vanilla VanillaProps Steps.
Import ListNotations.
Open Scope nat_scope.

(** numpy indexing by a tuple: a component -1 is the last entry of its axis *)
Fixpoint wrap (shape : list nat) (z : list Z) : list nat :=
  match shape, z with
  | d :: t, x :: z' => Z.to_nat (if (x <? 0)%Z then x + Z.of_nat d else x)%Z :: wrap t z'
  | _, _ => []
  end.

Section Binomial.
  Context {K : rootfield}.
  Open Scope rf_scope.
  Variable A : nat -> nat -> K.
  Variable b : nat -> K.
  Variable abs2 : K -> K.
  Variable exceeds : K -> bool.
  (** the order in which the iterations of `prange` (steps.py:235, 261) run *)
  Variable sched : list (list nat) -> list (list nat).
  (** the path caches: paths.BINOMIAL_PATHS_PYTHON (paths.py:20) and the argument FP of binomial_numba, keyed by cutoffs and weight *)
  Definition pcache := list nat -> nat -> option (list (list nat)).
  Definition path_of (cutoffs : list nat) (w : nat) (ch : pcache) : list (list nat) * pcache :=
    match ch cutoffs w with
    | Some l => (l, ch)
    | None => let l := binomial_subspace_basis cutoffs w in
              (l, fun c' w' => if list_eq_dec Nat.eq_dec c' cutoffs then if Nat.eqb w' w then Some l else ch c' w' else ch c' w')
    end.

  Section Store.
    Context {St : Type}.
    Variable val : St -> list nat -> option K.
    Variable put : St -> list nat -> K -> St.
    (** steps.py:209-239 binomial_step / 242-266 binomial_step_dict *)
    Fixpoint step_loop (l : list (list nat)) (G : St) (norm : K) : option (St * K) :=
      match l with
      | [] => Some (G, norm)
      | k :: t => match val G k with Some v => step_loop t (put G k v) (norm + abs2 v) | None => None end
      end.
    Definition binomial_step (G : St) (indices : list (list nat)) : option (St * K) := step_loop (sched indices) G k0.
    (** binomial.py:57-70, 108-120, 147-159: for photons in range(1, global_cutoff), with the break *)
    Fixpoint weights (cutoffs : list nat) (ws : list nat) (G : St) (norm : K) (ch : pcache) : option (St * K * pcache) :=
      match ws with
      | [] => Some (G, norm, ch)
      | w :: t => let '(l, ch') := path_of cutoffs w ch in
                  match binomial_step G l with
                  | Some (G', sn) => if exceeds (norm + sn) then Some (G', norm + sn, ch') else weights cutoffs t G' (norm + sn) ch'
                  | None => None
                  end
      end.
    Definition fill (cutoffs : list nat) (gc : nat) (G0 : St) (c : K) (ch : pcache) :=
      weights cutoffs (seq 1 (gc - 1)) G0 (abs2 c) ch.
  End Store.

  (** arrays: G[index] read with wrap-around, steps.py:62, 236 *)
  Definition geta (shape : list nat) (G : list K) (z : list Z) : K := nth (ravel shape (wrap shape z)) G k0.
  Definition val_array (shape : list nat) (G : list K) (k : list nat) : option K := vanilla_step A b (geta shape G) k.
  Definition put_array (shape : list nat) (G : list K) (k : list nat) (v : K) : list K := wr (ravel shape k) v G.
  (** binomial.py:30-71 binomial and 126-160 binomial_numba *)
  Definition binomial (shape : list nat) (c : K) (gc : nat) (ch : pcache) :=
    fill (val_array shape) (put_array shape) shape gc (wr 0 c (repeat k0 (prod shape))) c ch.
  Definition numba_default_cutoff (shape : list nat) : nat := list_sum shape - length shape.
  Definition binomial_numba (shape : list nat) (c : K) (gc : option nat) (ch : pcache) :=
    binomial shape c (match gc with None => numba_default_cutoff shape | Some g => g end) ch.
  (** backend_numpy.py:405-421 hermite_renormalized_binomial: `global_cutoff or sum(shape) - len(shape) + 1` *)
  Definition hermite_renormalized_binomial (shape : list nat) (c : K) (gc : option nat) (ch : pcache) :=
    binomial shape c (match gc with None | Some 0 => (list_sum shape - length shape + 1)%nat | Some g => g end) ch.

  (** dictionaries *)
  Definition dict := list Z -> option K.
  Definition get (G : dict) (z : list Z) : K := match G z with Some v => v | None => k0 end.
  (** data[pivot] raises KeyError when the pivot is missing (steps.py:199) *)
  Definition val_dict (G : dict) (k : list nat) : option K :=
    match first_available_pivot k with
    | Some (_, p) => match G (toZ p) with Some _ => vanilla_step_dict A b (get G) k | None => None end
    | None => None
    end.
  Definition put_dict (G : dict) (k : list nat) (v : K) : dict := fun z => if list_eq_dec Z.eq_dec z (toZ k) then Some v else G z.
  (** binomial.py:74-123 binomial_dict *)
  Definition binomial_dict (cutoffs : list nat) (c : K) (gc : option nat) (ch : pcache) :=
    fill val_dict put_dict cutoffs (match gc with None => (list_sum cutoffs - length cutoffs)%nat | Some g => g end)
      (put_dict (fun _ => None) (zeros (length cutoffs)) c) c ch.
End Binomial.

(** ** specification *)
Section Spec.
  Context {K : rootfield}.
  Open Scope rf_scope.
  Definition lsum {X} (f : X -> K) (l : list X) : K := fold_right (fun x acc => f x + acc) k0 l.
  (** squared norm of the amplitudes with at most W photons that fit the cutoffs *)
  Definition norm_upto (shape : list nat) (abs2 : K -> K) (a : list nat -> K) (W : nat) : K :=
    lsum (fun k => abs2 (a k)) (filter (fun k => Nat.leb (list_sum k) W) (box shape)).
  (** W is the last total photon number computed: the first one (from 1) at which the norm exceeds, else the last below the cutoff *)
  Definition last_weight (shape : list nat) (abs2 : K -> K) (exceeds : K -> bool) (a : list nat -> K) (gc W : nat) : Prop :=
    W < Nat.max gc 1
    /\ (forall w, 1 <= w < W -> exceeds (norm_upto shape abs2 a w) = false)
    /\ (S W < gc -> 1 <= W /\ exceeds (norm_upto shape abs2 a W) = true).
  Definition valid_cache (ch : pcache) : Prop := forall cu w l, ch cu w = Some l -> l = binomial_subspace_basis cu w.
End Spec.

(** ** proofs *)
Section Proofs.
  Context {K : rootfield}.
  Add Field Kfield : (kft K).
  Open Scope rf_scope.
  Lemma lsum_app : forall {X} (f : X -> K) l m, lsum f (l ++ m) = lsum f l + lsum f m.
  Proof. intros X f l m. induction l as [|x l IH]; simpl; [ring|]. rewrite IH. ring. Qed.
  Lemma lsum_perm : forall {X} (f : X -> K) l m, Permutation l m -> lsum f l = lsum f m.
  Proof. intros X f l m P. induction P; simpl; [reflexivity|now rewrite IHP|ring|congruence]. Qed.
  Lemma box_NoDup : forall shape, NoDup (box shape).
  Proof.
    intros shape. apply (NoDup_nth (box shape) []). intros i j Hi Hj E. rewrite box_length in *.
    rewrite <- (proj1 (ravel_nth shape i Hi)), <- (proj1 (ravel_nth shape j Hj)). now rewrite E.
  Qed.
  Lemma weight_perm : forall shape w, Permutation (binomial_subspace_basis shape w) (filter (fun k => Nat.eqb (list_sum k) w) (box shape)).
  Proof.
    intros shape w. destruct (C24_enumeration shape w) as [H1 H2]. apply NoDup_Permutation; [exact H2|apply NoDup_filter, box_NoDup|].
    intros k. rewrite H1, filter_In, in_box, Nat.eqb_eq. reflexivity.
  Qed.
  Lemma norm_upto_S : forall shape (abs2 : K -> K) a W,
    norm_upto shape abs2 a (S W) = norm_upto shape abs2 a W + lsum (fun k => abs2 (a k)) (binomial_subspace_basis shape (S W)).
  Proof.
    intros shape abs2 a W. rewrite (lsum_perm _ _ _ (weight_perm shape (S W))). unfold norm_upto. generalize (box shape).
    induction l as [|k l IH]; [simpl; ring|]. cbn [filter].
    destruct (Nat.leb_spec (list_sum k) (S W)) as [H|H]; destruct (Nat.leb_spec (list_sum k) W) as [H'|H'];
      destruct (Nat.eqb_spec (list_sum k) (S W)) as [H''|H'']; try lia; unfold lsum in *; cbn [fold_right]; rewrite IH; ring.
  Qed.
  Lemma norm_upto_0 : forall shape (abs2 : K -> K) a, Forall (fun d => 0 < d) shape -> norm_upto shape abs2 a 0 = abs2 (a (zeros (length shape))).
  Proof.
    intros shape abs2 a P. unfold norm_upto.
    assert (E : Permutation (filter (fun k => Nat.leb (list_sum k) 0) (box shape)) [zeros (length shape)]).
    { apply NoDup_Permutation; [apply NoDup_filter, box_NoDup|repeat constructor; intros []|]. intros k. rewrite filter_In, in_box. split.
      - intros [F H]. apply Nat.leb_le in H. left. rewrite (sum_zero_iff k) by lia. now rewrite (Forall2_lt_len _ _ F).
      - intros [<-|[]]. split; [|rewrite sum_zeros; reflexivity]. clear -P. unfold zeros. induction P; simpl; constructor; auto. }
    rewrite (lsum_perm _ _ _ E). simpl. ring.
  Qed.

  Variable A : nat -> nat -> K.
  Variable b : nat -> K.
  Variable c : K.
  Variable abs2 : K -> K.
  Variable exceeds : K -> bool.
  Variable sched : list (list nat) -> list (list nat).
  Hypothesis sched_perm : forall l, Permutation (sched l) l.
  Variable shape : list nat.
  Notation D := (length shape).
  Notation amp := (amp D A b c).
  Hypothesis Asym : symmetric D A.

  Section Generic.
    Context {St : Type}.
    Variable val : St -> list nat -> option K.
    Variable put : St -> list nat -> K -> St.
    (** the store holds the amplitudes of the patterns in P and nothing else *)
    Variable ok : St -> (list nat -> bool) -> Prop.
    Hypothesis ok_ext : forall G P Q, (forall k, Forall2 lt k shape -> P k = Q k) -> ok G P -> ok G Q.
    Hypothesis ok_val : forall G P k, ok G P -> Forall2 lt k shape -> list_sum k <> 0 ->
      (forall l, Forall2 lt l shape -> list_sum l < list_sum k -> P l = true) -> val G k = Some (amp k).
    Hypothesis ok_put : forall G P k, ok G P -> Forall2 lt k shape ->
      ok (put G k (amp k)) (fun l => P l || if list_eq_dec Nat.eq_dec l k then true else false).

    Lemma step_loop_ok : forall w l G P n, 0 < w -> ok G P -> (forall k, In k l -> Forall2 lt k shape /\ list_sum k = w) ->
      (forall k, Forall2 lt k shape -> list_sum k < w -> P k = true) ->
      exists G', step_loop abs2 val put l G n = Some (G', n + lsum (fun k => abs2 (amp k)) l)
        /\ ok G' (fun k => P k || if in_dec (list_eq_dec Nat.eq_dec) k l then true else false).
    Proof.
      intros w. induction l as [|k l IH]; intros G P n Hw HG Hl HP.
      - exists G. split; [simpl; f_equal; f_equal; ring|]. apply (ok_ext G P); [|exact HG]. intros. simpl. now rewrite orb_false_r.
      - destruct (Hl k (or_introl eq_refl)) as [Bk Sk]. cbn [step_loop].
        rewrite (ok_val G P k HG Bk) by (try lia; rewrite Sk; exact HP).
        destruct (IH (put G k (amp k)) _ (n + abs2 (amp k)) Hw (ok_put G P k HG Bk)) as [G' [E H]].
        + intros; apply Hl; now right.
        + intros k' B' S'. now rewrite HP.
        + exists G'. split; [rewrite E; f_equal; f_equal; unfold lsum; cbn [fold_right]; ring|]. apply (ok_ext _ _ _) with (2 := H). intros k' _.
          rewrite <- orb_assoc. f_equal.
          destruct (in_dec _ k' l) as [I|I], (list_eq_dec _ k' k) as [J|J], (in_dec _ k' (k :: l)) as [M|M]; simpl; auto; exfalso;
            first [destruct M as [M|M]; [apply J; now symmetry|contradiction] | apply M; simpl; auto].
    Qed.
    Lemma path_of_ok : forall w ch, valid_cache ch -> exists ch', path_of shape w ch = (binomial_subspace_basis shape w, ch') /\ valid_cache ch'.
    Proof using.
      intros w ch V. unfold path_of. destruct (ch shape w) as [l|] eqn:E.
      - exists ch. split; [now rewrite (V _ _ _ E)|exact V].
      - eexists. split; [reflexivity|]. intros cu w' l H. destruct (list_eq_dec Nat.eq_dec cu shape) as [->|]; [|now apply V].
        destruct (Nat.eqb_spec w' w) as [->|]; [congruence|now apply V].
    Qed.
    Lemma weights_ok : forall n w G ch, ok G (fun k => Nat.leb (list_sum k) w) -> valid_cache ch ->
      exists G' W ch', weights abs2 exceeds sched val put shape (seq (S w) n) G (norm_upto shape abs2 amp w) ch = Some (G', norm_upto shape abs2 amp W, ch')
        /\ ok G' (fun k => Nat.leb (list_sum k) W) /\ valid_cache ch' /\ w <= W <= w + n
        /\ (forall v, w < v < W -> exceeds (norm_upto shape abs2 amp v) = false)
        /\ (W < w + n -> w < W /\ exceeds (norm_upto shape abs2 amp W) = true).
    Proof.
      induction n as [|n IH]; intros w G ch HG V.
      - exists G, w, ch. cbn [seq weights]. repeat split; auto; lia.
      - cbn [seq weights]. destruct (path_of_ok (S w) ch V) as [ch' [E V']]. rewrite E. unfold binomial_step.
        pose proof (C24_enumeration shape (S w)) as [EN _].
        assert (Pm := sched_perm (binomial_subspace_basis shape (S w))).
        destruct (step_loop_ok (S w) (sched (binomial_subspace_basis shape (S w))) G _ k0 ltac:(lia) HG) as [G' [E1 H1]].
        + intros k Hk. apply EN. eapply Permutation_in; eassumption.
        + intros k _ Hk. apply Nat.leb_le. lia.
        + rewrite E1. rewrite (lsum_perm _ _ _ Pm).
          replace (norm_upto shape abs2 amp w + (k0 + lsum (fun k => abs2 (amp k)) (binomial_subspace_basis shape (S w)))) with (norm_upto shape abs2 amp (S w))
            by (rewrite norm_upto_S; ring).
          assert (H2 : ok G' (fun k => Nat.leb (list_sum k) (S w))).
          { apply (ok_ext _ _ _) with (2 := H1). intros k Bk. destruct (in_dec _ k _) as [I|I].
            - pose proof (Permutation_in _ Pm I) as I'. apply EN in I'. rewrite orb_true_r. symmetry. apply Nat.leb_le. lia.
            - rewrite orb_false_r. destruct (Nat.leb_spec (list_sum k) w) as [L|L]; destruct (Nat.leb_spec (list_sum k) (S w)) as [L'|L']; auto; try lia.
              exfalso. apply I. apply (Permutation_in _ (Permutation_sym Pm)). apply EN. split; [exact Bk|lia]. }
          destruct (exceeds (norm_upto shape abs2 amp (S w))) eqn:X.
          * exists G', (S w), ch'. repeat split; auto; try lia.
          * destruct (IH (S w) G' ch' H2 V') as [G2 [W [ch2 [J1 [J2 [J3 [J4 [J5 J6]]]]]]]]. exists G2, W, ch2. split; [exact J1|].
            split; [exact J2|]. split; [exact J3|]. split; [lia|]. split.
            -- intros v Hv. destruct (Nat.eq_dec v (S w)) as [->|]; [exact X|]. apply J5. lia.
            -- intros HW. destruct J6 as [J6 J7]; [lia|]. split; [lia|exact J7].
    Qed.
    Lemma fill_ok : forall gc G0 ch, ok G0 (fun k => Nat.leb (list_sum k) 0) -> valid_cache ch -> Forall (fun d => 0 < d) shape ->
      exists G W ch', fill abs2 exceeds sched val put shape gc G0 c ch = Some (G, norm_upto shape abs2 amp W, ch')
        /\ ok G (fun k => Nat.leb (list_sum k) W) /\ valid_cache ch' /\ last_weight shape abs2 exceeds amp gc W.
    Proof.
      intros gc G0 ch HG V P. unfold fill. replace (abs2 c) with (norm_upto shape abs2 amp 0) by (rewrite norm_upto_0 by exact P; now rewrite amp_zero).
      destruct (weights_ok (gc - 1) 0 G0 ch HG V) as [G [W [ch' [J1 [J2 [J3 [J4 [J5 J6]]]]]]]]. exists G, W, ch'. split; [exact J1|].
      split; [exact J2|]. split; [exact J3|]. split; [lia|]. split; [intros; apply J5; lia|]. intros H. apply J6. lia.
    Qed.
  End Generic.

  (** arrays *)
  Hypothesis Spos : Forall (fun d => 0 < d) shape.
  Definition ok_array (G : list K) (P : list nat -> bool) : Prop :=
    length G = prod shape /\ forall k, Forall2 lt k shape -> entry shape G k = if P k then amp k else k0.
  Lemma wrap_toZ : forall sh k, length k = length sh -> wrap sh (toZ k) = k.
  Proof using.
    induction sh as [|d sh IH]; intros [|x k] L; simpl in *; try lia; auto. rewrite IH by lia.
    destruct (Z.ltb_spec (Z.of_nat x) 0); [lia|]. now rewrite Nat2Z.id.
  Qed.
  Lemma ravel_inj : forall sh k l, Forall2 lt k sh -> Forall2 lt l sh -> ravel sh k = ravel sh l -> k = l.
  Proof using. intros sh k l Hk Hl E. rewrite <- (nth_box sh k Hk), <- (nth_box sh l Hl). now rewrite E. Qed.
  Lemma array_val : forall G P k, ok_array G P -> Forall2 lt k shape -> list_sum k <> 0 ->
      (forall l, Forall2 lt l shape -> list_sum l < list_sum k -> P l = true) -> val_array A b shape G k = Some (amp k).
  Proof.
    intros G P k [L H] Bk Nk HP. pose proof (Forall2_lt_len _ _ Bk) as Lk.
    assert (R : forall l, Forall2 lt l shape -> list_sum l < list_sum k -> geta shape G (toZ l) = amp l).
    { intros l Bl Sl. unfold geta. rewrite wrap_toZ by (now apply Forall2_lt_len). fold (entry shape G l). rewrite H by exact Bl. now rewrite HP. }
    unfold val_array. apply (vanilla_step_ok D A b c Asym); [exact Lk|exact Nk| |].
    - intros i Hi Ni. apply R; [now apply dec_box|]. pose proof (sum_dec i k ltac:(lia) Ni). lia.
    - intros i j Hi Hj Ni Nj. apply R; [now apply dec_box, dec_box|]. pose proof (sum_dec i k ltac:(lia) Ni).
      pose proof (sum_dec j (dec i k) ltac:(rewrite dec_length; lia) Nj). lia.
  Qed.
  Lemma array_put : forall G P k, ok_array G P -> Forall2 lt k shape ->
      ok_array (put_array shape G k (amp k)) (fun l => P l || if list_eq_dec Nat.eq_dec l k then true else false).
  Proof using.
    intros G P k [L H] Bk. split; [unfold put_array; now rewrite wr_length|]. intros l Bl. unfold entry, put_array.
    rewrite nth_wr by (rewrite L; now apply ravel_lt). destruct (list_eq_dec Nat.eq_dec l k) as [->|N].
    - rewrite Nat.eqb_refl, orb_true_r. reflexivity.
    - rewrite orb_false_r. rewrite (proj2 (Nat.eqb_neq _ _)); [now apply H|]. intros E. apply N. eapply ravel_inj; eassumption.
  Qed.
  Lemma array_init : ok_array (wr 0 c (repeat k0 (prod shape))) (fun k => Nat.leb (list_sum k) 0).
  Proof using Spos.
    split; [now rewrite wr_length, repeat_length|]. intros k Bk. unfold entry. pose proof (ravel_lt shape k Bk) as R.
    rewrite nth_wr by (rewrite repeat_length; now apply prod_pos).
    assert (E0 : ravel shape (zeros D) = 0) by (clear; unfold zeros; induction shape; simpl; auto).
    assert (B0 : Forall2 lt (zeros D) shape) by (clear -Spos; unfold zeros; induction Spos; simpl; constructor; auto).
    destruct (Nat.eqb_spec (ravel shape k) 0) as [E|E].
    - rewrite <- E0 in E. apply (ravel_inj shape) in E; auto. subst k. rewrite sum_zeros. simpl. now rewrite amp_zero.
    - rewrite (proj2 (Nat.leb_gt _ _)).
      + now rewrite nth_repeat.
      + destruct (list_sum k) as [|m] eqn:S0; [|lia]. exfalso. apply E. rewrite (sum_zero_iff k S0), (Forall2_lt_len _ _ Bk). exact E0.
  Qed.
  Lemma ok_array_ext : forall G P Q, (forall k, Forall2 lt k shape -> P k = Q k) -> ok_array G P -> ok_array G Q.
  Proof using. intros G P Q E [L H]. split; [exact L|]. intros k Bk. now rewrite <- E, H. Qed.

  (** dictionaries: the keys are exactly the patterns in P *)
  Definition ok_dict (G : @dict K) (P : list nat -> bool) : Prop :=
    (forall k, Forall2 lt k shape -> G (toZ k) = if P k then Some (amp k) else None)
    /\ forall z, (forall k, Forall2 lt k shape -> z <> toZ k) -> G z = None.
  Lemma dict_val : forall G P k, ok_dict G P -> Forall2 lt k shape -> list_sum k <> 0 ->
      (forall l, Forall2 lt l shape -> list_sum l < list_sum k -> P l = true) -> val_dict A b G k = Some (amp k).
  Proof.
    intros G P k [H _] Bk Nk HP. pose proof (Forall2_lt_len _ _ Bk) as Lk.
    assert (R : forall l, Forall2 lt l shape -> list_sum l < list_sum k -> G (toZ l) = Some (amp l)).
    { intros l Bl Sl. rewrite H by exact Bl. now rewrite HP. }
    unfold val_dict. pose proof (C28_first_available_pivot k) as Pv. destruct (first_available_pivot k) as [[i p]|] eqn:E; [|contradiction].
    destruct Pv as [Hi [Ni [_ ->]]]. rewrite R; [|now apply dec_box|pose proof (sum_dec i k Hi Ni); lia].
    apply (vanilla_step_ok D A b c Asym); [exact Lk|exact Nk| |]; unfold get.
    - intros i' Hi' Ni'. rewrite R; [reflexivity|now apply dec_box|]. pose proof (sum_dec i' k ltac:(lia) Ni'). lia.
    - intros i' j Hi' Hj Ni' Nj. rewrite R; [reflexivity|now apply dec_box, dec_box|]. pose proof (sum_dec i' k ltac:(lia) Ni').
      pose proof (sum_dec j (dec i' k) ltac:(rewrite dec_length; lia) Nj). lia.
  Qed.
  Lemma dict_put : forall G P k, ok_dict G P -> Forall2 lt k shape ->
      ok_dict (put_dict G k (amp k)) (fun l => P l || if list_eq_dec Nat.eq_dec l k then true else false).
  Proof using.
    intros G P k [H H'] Bk. unfold put_dict. split.
    - intros l Bl. destruct (list_eq_dec Nat.eq_dec l k) as [->|N]; destruct (list_eq_dec Z.eq_dec _ _) as [E|E].
      + now rewrite orb_true_r.
      + congruence.
      + apply toZ_inj in E. contradiction.
      + rewrite orb_false_r. now apply H.
    - intros z Hz. destruct (list_eq_dec Z.eq_dec z (toZ k)) as [E|E]; [now apply Hz in E|]. now apply H'.
  Qed.
  Lemma dict_init : ok_dict (put_dict (fun _ => None) (zeros D) c) (fun k => Nat.leb (list_sum k) 0).
  Proof using Spos.
    unfold put_dict. split.
    - intros k Bk. destruct (list_eq_dec Z.eq_dec _ _) as [E|E].
      + apply toZ_inj in E. subst k. rewrite sum_zeros. simpl. now rewrite amp_zero.
      + rewrite (proj2 (Nat.leb_gt _ _)); [reflexivity|]. destruct (list_sum k) as [|m] eqn:S0; [|lia]. exfalso. apply E.
        rewrite (sum_zero_iff k S0), (Forall2_lt_len _ _ Bk). reflexivity.
    - intros z Hz. destruct (list_eq_dec Z.eq_dec _ _) as [E|E]; [|reflexivity]. exfalso. apply (Hz (zeros D)); [|exact E].
      clear -Spos. unfold zeros. induction Spos; simpl; constructor; auto.
  Qed.
  Lemma ok_dict_ext : forall G P Q, (forall k, Forall2 lt k shape -> P k = Q k) -> ok_dict G P -> ok_dict G Q.
  Proof using. intros G P Q E [H H']. split; [|exact H']. intros k Bk. now rewrite <- E, H. Qed.

  Lemma binomial_ok : forall gc ch, valid_cache ch -> exists G W ch',
    binomial A b abs2 exceeds sched shape c gc ch = Some (G, norm_upto shape abs2 amp W, ch')
    /\ ok_array G (fun k => Nat.leb (list_sum k) W) /\ valid_cache ch' /\ last_weight shape abs2 exceeds amp gc W.
  Proof.
    intros gc ch V. exact (fill_ok _ _ ok_array ok_array_ext array_val array_put gc _ ch array_init V Spos).
  Qed.
  Lemma binomial_dict_ok : forall gc ch, valid_cache ch -> exists G W ch',
    binomial_dict A b abs2 exceeds sched shape c (Some gc) ch = Some (G, norm_upto shape abs2 amp W, ch')
    /\ ok_dict G (fun k => Nat.leb (list_sum k) W) /\ valid_cache ch' /\ last_weight shape abs2 exceeds amp gc W.
  Proof.
    intros gc ch V. exact (fill_ok _ _ ok_dict ok_dict_ext dict_val dict_put gc _ ch dict_init V Spos).
  Qed.
End Proofs.
