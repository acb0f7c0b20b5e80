(** Constructors of transformations (C13), phase noise (C14), photon-number distributions (C16), two-mode gates (C17), random
    density matrices (C18). *)
From Coq Require Import List Bool Arith Lia Permutation Sorted ZArith Reals Lra.
From Coquelicot Require Import Complex.
Require Import Verif.Base Verif.Tensor Verif.ArrayOps Verif.Wires Verif.WiresSpec Verif.WiresLemmas Verif.WiresProps Verif.LabMisc.
Import ListNotations.
Open Scope nat_scope.

(** ** C13: constructors of transformations *)
Section Constructors.
  Context {An : Type}.
  Inductive kind := KOperation | KUnitary | KMap | KChannel.
  Record transformation := mkT { tkind : kind; twires : wires; tansatz : An }.
  (** Python's [sorted(modes) != list(modes)] *)
  Definition is_sorted (l : list Z) : bool := if list_eq_dec Z.eq_dec (zsort l) l then true else false.
  (** Wires(set(..), ..): a set keeps one copy of each mode *)
  Definition as_set (l : list Z) : list Z := nodup Z.eq_dec l.
  (** transformations/base.py:199-215, 232-248 (ket side only) and 349-365, 477-493 (both sides) *)
  Definition from_ansatz (k : kind) (f : nat -> nat) (modes_out modes_in : list Z) (a : An) : result transformation :=
    if negb (is_sorted modes_out) then Err ValueError
    else if negb (is_sorted modes_in) then Err ValueError
    else Ok (mkT k (match k with
                    | KOperation | KUnitary => make f [] [] (as_set modes_out) (as_set modes_in) [] []
                    | KMap | KChannel => make f (as_set modes_out) (as_set modes_in) (as_set modes_out) (as_set modes_in) [] []
                    end) a).
  (** transformations/base.py:69-82 *)
  Definition from_bargmann (k : kind) (f : nat -> nat) (modes_out modes_in : list Z) (a : An) := from_ansatz k f modes_out modes_in a.
  (** transformations/base.py:84-106: line 106 passes (modes_in, modes_out) to from_ansatz(modes_out, modes_in, ...) *)
  Definition from_fock (k : kind) (f : nat -> nat) (modes_out modes_in : list Z) (a : An) := from_ansatz k f modes_in modes_out a.

  (** specification: on the sides the kind has, the output wires are on [outs] and the input wires on [ins] *)
  Definition sides (k : kind) : list side := match k with KOperation | KUnitary => [Ket] | KMap | KChannel => [Bra; Ket] end.
  Definition wires_on (t : transformation) (outs ins : list Z) : Prop :=
    forall m o s, In (m, o, s) (descs (twires t)) <-> In s (sides (tkind t)) /\ In m (if o then outs else ins).

  Lemma is_sorted_iff : forall l, is_sorted l = true <-> zsort l = l.
  Proof using. intros l. unfold is_sorted. destruct (list_eq_dec Z.eq_dec (zsort l) l); split; congruence. Qed.
  Theorem C13_from_ansatz : forall k f outs ins a, is_sorted outs = true -> is_sorted ins = true ->
    exists t, from_ansatz k f outs ins a = Ok t /\ tkind t = k /\ tansatz t = a /\ wires_on t outs ins.
  Proof using.
    intros k f outs ins a So Si. unfold from_ansatz. rewrite So, Si. cbn [negb]. eexists. split; [reflexivity|]. split; [reflexivity|]. split; [reflexivity|].
    intros m o s. cbn [tkind twires].
    assert (ZI : forall l, In m (zsort l) <-> In m l) by (intros l; unfold zsort; apply isort_in).
    destruct k; rewrite make_descs; unfold std_list, as_set; rewrite !in_app_iff, !in_map_iff; cbn [sides In map zsort isort nodup];
      (split; [intros H; repeat (destruct H as [H|H]; [destruct H as [x [E H]]; injection E as <- <- <-; try (destruct H; fail); apply isort_in in H; rewrite nodup_In in H; tauto|]); destruct H as [x [E H]]; destruct H
              |intros [Hs Hm]; destruct o; repeat (destruct Hs as [<-|Hs]; [| ]); try (destruct Hs; fail)]).
    all: assert (Hm' : In m (nodup Z.eq_dec outs) \/ In m (nodup Z.eq_dec ins)) by (rewrite !nodup_In; tauto).
    all: match goal with
         | |- context [(_, true, Ket)] => idtac end.
    all: try (right; right; left; exists m; split; [reflexivity|]; apply isort_in; now rewrite nodup_In).
    all: try (right; right; right; left; exists m; split; [reflexivity|]; apply isort_in; now rewrite nodup_In).
    all: try (left; exists m; split; [reflexivity|]; apply isort_in; now rewrite nodup_In).
    all: try (right; left; exists m; split; [reflexivity|]; apply isort_in; now rewrite nodup_In).
  Qed.

  (** C13 for from_bargmann; from_fock satisfies it only with the two arguments exchanged *)
  Theorem C13_from_bargmann : forall k f outs ins a, is_sorted outs = true -> is_sorted ins = true ->
    exists t, from_bargmann k f outs ins a = Ok t /\ tkind t = k /\ tansatz t = a /\ wires_on t outs ins.
  Proof using. exact C13_from_ansatz. Qed.
  Theorem C13_from_fock_actual : forall k f outs ins a, is_sorted outs = true -> is_sorted ins = true ->
    exists t, from_fock k f outs ins a = Ok t /\ tkind t = k /\ tansatz t = a /\ wires_on t ins outs.
  Proof using. intros. now apply C13_from_ansatz. Qed.
  Theorem C13_from_fock_same_modes : forall k f modes a, is_sorted modes = true ->
    exists t, from_fock k f modes modes a = Ok t /\ tkind t = k /\ tansatz t = a /\ wires_on t modes modes.
  Proof using. intros. now apply C13_from_ansatz. Qed.
  Theorem C13_refuted_from_fock : forall k f outs ins a m, is_sorted outs = true -> is_sorted ins = true -> In m outs -> ~ In m ins ->
    exists t, from_fock k f outs ins a = Ok t /\ ~ wires_on t outs ins.
  Proof using.
    intros k f outs ins a m So Si H1 H2. destruct (C13_from_fock_actual k f outs ins a So Si) as [t [E [K [_ W]]]]. exists t. split; auto.
    intros W'. assert (S : In Ket (sides (tkind t))) by (rewrite K; destruct k; simpl; auto).
    apply H2. apply (W m true Ket). apply W'. auto.
  Qed.
  Theorem C13_unsorted : forall k f outs ins a, is_sorted outs = false \/ is_sorted ins = false -> from_ansatz k f outs ins a = Err ValueError.
  Proof using. intros k f outs ins a H. unfold from_ansatz. destruct (is_sorted outs), (is_sorted ins); auto; destruct H; discriminate. Qed.
End Constructors.
Example C13_example : exists t, from_bargmann KChannel (fun n => n) [0; 2]%Z [1]%Z tt = Ok t /\ length (twires t) = 6 /\
  exists t', from_fock KUnitary (fun n => n) [0]%Z [1]%Z tt = Ok t' /\ descs (twires t') = [(1%Z, true, Ket); (0%Z, false, Ket)].
Proof. eexists. split; [reflexivity|]. split; [reflexivity|]. eexists. split; reflexivity. Qed.

(** ** C14: phase noise *)
Section PhaseNoise.
  Context {R : Type} (rmul : R -> R -> R) (w : nat -> nat -> R).
  (** phasenoise.py:99-106: [mode_indices[mode]] and [mode_indices[other.n_modes + mode]] are the indices along the axes number
      [mode] and [n_modes + mode]; too large numbers raise IndexError; [*=] multiplies the array in place *)
  Fixpoint pn_loop (B C n : nat) (targets : list nat) (A : @array R) : result (@array R) :=
    match targets with
    | [] => Ok A
    | m :: t => if (m <? C) && (n + m <? C)
                then pn_loop B C n t (mkArray (shape A) (fun k => rmul (at_ A k) (w (nth m (skipn B k) 0) (nth (n + m) (skipn B k) 0))))
                else Err IndexError
    end.
  (** phasenoise.py:85-110 applied to a density matrix in the Fock representation. to_fock() and fock_array() hand out the array of
      the state itself (array_ansatz.py:254-255, circuit_components.py:532), so after the call the state holds the multiplied
      array. Returns the result and the state after the call *)
  Definition phase_noise (targets : list nat) (d : @dm R) : result (@dm R * @dm R) :=
    bind (pn_loop (bdims (an d)) (length (core_shape (an d))) (length (ms d)) targets (arr (an d))) (fun A =>
    Ok (mkDM (ms d) (mkA A (bdims (an d))), mkDM (ms d) (mkA A (bdims (an d))))).

  (** specification *)
  Definition damped (targets : list nat) (beta kappa : nat -> nat) (x : R) : R := fold_left (fun acc m => rmul acc (w (beta m) (kappa m))) targets x.

  Lemma pn_loop_ok : forall B n targets A, (forall m, In m targets -> m < n) ->
    exists A', pn_loop B (2 * n) n targets A = Ok A' /\ shape A' = shape A /\
      forall k, at_ A' k = fold_left (fun acc m => rmul acc (w (nth m (skipn B k) 0) (nth (n + m) (skipn B k) 0))) targets (at_ A k).
  Proof using.
    intros B n. induction targets as [|m t IH]; intros A H; cbn [pn_loop]; [eauto|].
    assert (m < n) by (apply H; now left). replace ((m <? 2 * n) && (n + m <? 2 * n)) with true by (symmetry; apply andb_true_iff; rewrite !Nat.ltb_lt; lia).
    match goal with |- context [pn_loop B (2 * n) n t ?X] => destruct (IH X) as [A' [E [Sh V]]]; [intros; apply H; now right|] end.
    exists A'. split; [exact E|]. split; [exact Sh|]. intros k. rewrite V. reflexivity.
  Qed.
  (** what it does: the argument m of PhaseNoise selects the m-th mode of the state, not the mode labelled m *)
  Theorem C14_actual : forall d targets, wf d -> (forall m, In m targets -> m < length (ms d)) ->
    exists r d', phase_noise targets d = Ok (r, d') /\ ms r = ms d /\ shape (arr (an r)) = shape (arr (an d)) /\
      forall kb beta kappa, length kb = bdims (an d) -> entry r kb beta kappa = damped (map (fun m => nth m (ms d) 0) targets) beta kappa (entry d kb beta kappa).
  Proof using.
    intros d targets [S [P L]] H. unfold phase_noise. rewrite L. destruct (pn_loop_ok (bdims (an d)) (length (ms d)) targets (arr (an d)) H) as [A' [E [Sh V]]].
    rewrite E. cbn [bind]. eexists. eexists. split; [reflexivity|]. split; [reflexivity|]. split; [exact Sh|]. intros kb beta kappa Lb.
    unfold entry. cbn [an arr ms]. rewrite V. rewrite skipn_len_app by auto. unfold damped.
    generalize (at_ (arr (an d)) (kb ++ map beta (ms d) ++ map kappa (ms d))). revert H. clear - L. induction targets as [|m t IH]; intros H x; simpl; auto.
    rewrite IH by (intros; apply H; now right). f_equal. f_equal. assert (Hm : m < length (ms d)) by (apply H; now left). f_equal.
    - rewrite app_nth1 by (now rewrite map_length). now apply nth_map_in.
    - rewrite app_nth2; rewrite map_length; [|lia]. replace (length (ms d) + m - length (ms d)) with m by lia. now apply nth_map_in.
  Qed.
  (** C14 when the modes of the state are 0..n-1 *)
  Theorem C14_labelled_0_to_n : forall d targets, wf d -> ms d = seq 0 (length (ms d)) -> incl targets (ms d) ->
    exists r d', phase_noise targets d = Ok (r, d') /\ ms r = ms d /\ shape (arr (an r)) = shape (arr (an d)) /\
      forall kb beta kappa, length kb = bdims (an d) -> entry r kb beta kappa = damped targets beta kappa (entry d kb beta kappa).
  Proof using.
    intros d targets W M I. assert (H : forall m, In m targets -> m < length (ms d)) by (intros m Hm; apply I in Hm; rewrite M in Hm; apply in_seq in Hm; lia).
    destruct (C14_actual d targets W H) as [r [d' [E [Mr [Sr V]]]]]. exists r, d'. split; auto. split; auto. split; auto. intros kb beta kappa Lb. rewrite V by assumption.
    f_equal. rewrite <- (map_id targets) at 2. apply map_ext_in. intros m Hm. rewrite M. rewrite seq_nth; auto.
  Qed.
  (** it raises for a state whose modes are labelled otherwise *)
  Theorem C14_refuted_index : forall d m, wf d -> length (ms d) <= m -> phase_noise [m] d = Err IndexError.
  Proof using.
    intros d m [S [P L]] H. unfold phase_noise. cbn [pn_loop]. rewrite L.
    replace ((m <? 2 * length (ms d)) && (length (ms d) + m <? 2 * length (ms d))) with false; [reflexivity|]. symmetry. apply andb_false_iff. right. apply Nat.ltb_ge. lia.
  Qed.
  (** and the state given as input is changed: afterwards it is the output *)
  Theorem C14_refuted_input_changed : forall d targets r d', phase_noise targets d = Ok (r, d') -> d' = r.
  Proof using. intros d targets r d' H. unfold phase_noise in H. destruct (pn_loop _ _ _ _ _); simpl in H; [|discriminate]. now injection H as <- <-. Qed.
End PhaseNoise.
(** the factors of phasenoise.py:101-105 *)
Definition pn_weight (s : R) (n k : nat) : C := RtoC (exp (- (1 / 2) * (INR n - INR k) ^ 2 * s ^ 2)).
(** modes (1, 2), PhaseNoise(1): the damping depends on mode 2 instead of mode 1 *)
Theorem C14_refuted_wrong_mode : forall s : R, s <> 0%R ->
  let d := mkDM [1; 2] (mkA (mkArray [2; 2; 2; 2] (fun _ => RtoC 1)) 0) in
  wf d /\ exists r d', phase_noise Cmult (pn_weight s) [1] d = Ok (r, d') /\
    entry r [] (fun m => if m =? 1 then 1 else 0) (fun _ => 0) <> damped Cmult (pn_weight s) [1] (fun m => if m =? 1 then 1 else 0) (fun _ => 0) (RtoC 1).
Proof.
  intros s Hs d. split; [split; [repeat constructor|split; [unfold proper; simpl; lia|reflexivity]]|].
  eexists. eexists. split; [reflexivity|]. unfold damped, entry, d. cbn.
  unfold pn_weight. rewrite <- !RtoC_mult. intros H. injection H as H. rewrite !Rmult_1_l in H. apply exp_inv in H. cbn in H.
  assert (s * s = 0)%R by lra. apply Hs. nra.
Qed.
Example C14_example : forall s : R, let d := mkDM [0; 1] (mkA (mkArray [2; 2; 2; 2] (fun _ => RtoC 1)) 0) in
  exists r d', phase_noise Cmult (pn_weight s) [1] d = Ok (r, d') /\ entry r [] (fun m => m) (fun _ => 0) = (RtoC 1 * RtoC (exp (- (1 / 2) * (1 - 0) ^ 2 * s ^ 2)))%C.
Proof. intros s d. eexists. eexists. split; [reflexivity|]. reflexivity. Qed.

(** ** C16: photon-number distributions *)
Section Fock.
  Context {R : Type} (absq abs : R -> R).
  (** base.py:458-460, ket: |.|^2 of the array reshaped to (batch, -1) *)
  Definition dist_ket (A : @array R) (B : nat) (kb : list nat) (i : nat) : R :=
    absq (at_ A (unravel (shape A) (ravel (firstn B (shape A) ++ [prod (skipn B (shape A))]) (kb ++ [i])))).
  (** numpy.diagonal(a, axis1, axis2) with axis1 < axis2 counted from the front: both axes are removed and the diagonal appended *)
  Definition diagonal (ax1 ax2 : nat) (A : @array R) : @array R :=
    let sh := shape A in
    mkArray (firstn ax1 sh ++ firstn (ax2 - ax1 - 1) (skipn (S ax1) sh) ++ skipn (S ax2) sh ++ [Nat.min (nth ax1 sh 0) (nth ax2 sh 0)])
      (fun k => let i := last k 0 in let k' := removelast k in
                at_ A (firstn ax1 k' ++ [i] ++ firstn (ax2 - ax1 - 1) (skipn ax1 k') ++ [i] ++ skipn (ax2 - 1) k')).
  (** base.py:462-464: for i in range(n): diagonal(axis1 = -n-1, axis2 = -(1+i)) *)
  Fixpoint diag_loop (n i steps : nat) (A : @array R) : @array R :=
    match steps with
    | 0 => A
    | S s => diag_loop n (S i) s (diagonal (length (shape A) - n - 1) (length (shape A) - (1 + i)) A)
    end.
  (** base.py:465 *)
  Definition dist_separable (A : @array R) (B n : nat) (kb : list nat) (i : nat) : R :=
    let D := diag_loop n 0 n A in
    abs (at_ D (unravel (shape D) (ravel (firstn B (shape A) ++ [prod (skipn B (shape D))]) (kb ++ [i])))).
  (** base.py:466-467: itertools.product(range(cutoff), repeat = n) is the list of all indices in lexicographic order *)
  Definition dist_general (A : @array R) (cutoff n : nat) (kb : list nat) (i : nat) : R :=
    let ns := nth i (box (repeat cutoff n)) [] in at_ A (kb ++ ns ++ ns).

  (** C16, ket branch: position ravel(ns) holds |psi(ns)|^2 *)
  Theorem C16_ket : forall A B kb ns, length kb = B -> In (kb ++ ns) (box (shape A)) ->
    dist_ket A B kb (ravel (skipn B (shape A)) ns) = absq (at_ A (kb ++ ns)).
  Proof using.
    intros A B kb ns Lb H. apply inb_box in H. unfold dist_ket. f_equal. f_equal. pose proof (inb_length _ _ H) as L. rewrite app_length in L.
    transitivity (unravel (shape A) (ravel (shape A) (kb ++ ns))); [|now apply unravel_ravel]. f_equal.
    transitivity (ravel (firstn B (shape A) ++ skipn B (shape A)) (kb ++ ns)); [|now rewrite firstn_skipn].
    rewrite !ravel_app by (rewrite firstn_length; lia). f_equal; [|cbn; lia]. f_equal. cbn. lia.
  Qed.
  Lemma nth_box_ravel : forall sh k, In k (box sh) -> nth (ravel sh k) (box sh) [] = k.
  Proof using.
    intros sh k H. destruct (In_nth _ _ [] H) as [j [Hj1 Hj2]].
    assert (E : nth j (map (ravel sh) (box sh)) 0 = ravel sh k) by (rewrite (nth_indep _ 0 (ravel sh [])) by (now rewrite map_length); rewrite map_nth; now rewrite Hj2).
    rewrite ravel_box in E. assert (LB : length (box sh) = prod sh) by (rewrite <- (map_length (ravel sh)), ravel_box; apply seq_length).
    rewrite seq_nth in E by lia. cbn in E. now rewrite <- E.
  Qed.
  (** C16, general density matrices: position ravel(ns) holds rho(ns, ns) *)
  Theorem C16_general : forall A cutoff n kb ns, In ns (box (repeat cutoff n)) ->
    dist_general A cutoff n kb (ravel (repeat cutoff n) ns) = at_ A (kb ++ ns ++ ns).
  Proof using. intros A cutoff n kb ns H. unfold dist_general. now rewrite nth_box_ravel. Qed.

  Lemma diagonal_at : forall A p q r i, length (shape A) = length p + length q + length r + 2 ->
    at_ (diagonal (length p) (length p + length q + 1) A) (p ++ q ++ r ++ [i]) = at_ A (p ++ [i] ++ q ++ [i] ++ r).
  Proof using.
    intros A p q r i L. unfold diagonal. cbn [at_]. replace (p ++ q ++ r ++ [i]) with ((p ++ q ++ r) ++ [i]) by (now rewrite <- !app_assoc).
    rewrite last_last, removelast_last. f_equal. rewrite firstn_len_app by reflexivity. f_equal. f_equal. rewrite skipn_len_app by reflexivity.
    rewrite firstn_len_app by lia. f_equal. f_equal. replace (p ++ q ++ r) with ((p ++ q) ++ r) by (now rewrite <- app_assoc). apply skipn_len_app. rewrite app_length. lia.
  Qed.
  Lemma diagonal_shape : forall A p q r d, shape A = p ++ [d] ++ q ++ [d] ++ r -> shape (diagonal (length p) (length p + length q + 1) A) = p ++ q ++ r ++ [d].
  Proof using.
    intros A p q r d H. unfold diagonal. cbn [shape]. rewrite H. rewrite firstn_len_app by reflexivity. f_equal.
    replace (p ++ [d] ++ q ++ [d] ++ r) with ((p ++ [d]) ++ q ++ [d] ++ r) by (now rewrite <- app_assoc). rewrite skipn_len_app by (rewrite app_length; simpl; lia).
    rewrite firstn_len_app by lia. f_equal.
    replace ((p ++ [d]) ++ q ++ [d] ++ r) with ((p ++ [d] ++ q ++ [d]) ++ r) by (rewrite <- !app_assoc; reflexivity).
    rewrite skipn_len_app by (rewrite ?app_length; cbn [length app]; rewrite ?app_length; cbn [length app]; lia). f_equal. f_equal.
    rewrite <- !app_assoc. cbn [app]. rewrite app_nth2, Nat.sub_diag by lia. cbn [nth].
    rewrite app_nth2 by lia. replace (length p + length q + 1 - length p) with (S (length q)) by lia. cbn [nth]. rewrite app_nth2, Nat.sub_diag by lia. cbn [nth]. apply Nat.min_id.
  Qed.
  Lemma diag_loop_at : forall s n i A bs c, shape A = bs ++ repeat c s ++ repeat c s ++ repeat c i -> s + i = n ->
    shape (diag_loop n i s A) = bs ++ repeat c n /\
    forall kb b ds, length kb = length bs -> length b = s -> length ds = i -> at_ (diag_loop n i s A) (kb ++ ds ++ rev b) = at_ A (kb ++ b ++ b ++ ds).
  Proof using.
    induction s as [|s IH]; intros n i A bs c SH Sn.
    - cbn [diag_loop repeat app] in *. split; [rewrite SH; now replace i with n by lia|]. intros kb b ds Lk Lb Ld. destruct b; [|discriminate]. cbn. now rewrite app_nil_r.
    - cbn [diag_loop]. assert (LS : length (shape A) = length bs + S s + S s + i) by (rewrite SH, !app_length, !repeat_length; lia).
      assert (A1 : length (shape A) - n - 1 = length (bs ++ repeat c s)) by (rewrite app_length, repeat_length; lia).
      assert (A2 : length (shape A) - (1 + i) = length (bs ++ repeat c s) + length (repeat c s) + 1) by (rewrite app_length, !repeat_length; lia).
      rewrite A1, A2.
      assert (RS : forall m, repeat c (S m) = repeat c m ++ [c]) by (intros m; induction m; simpl in *; congruence).
      assert (SH' : shape A = (bs ++ repeat c s) ++ [c] ++ repeat c s ++ [c] ++ repeat c i). { rewrite SH, !RS, <- !app_assoc. reflexivity. }
      pose proof (diagonal_shape A _ _ _ _ SH') as DS.
      set (D := diagonal (length (bs ++ repeat c s)) (length (bs ++ repeat c s) + length (repeat c s) + 1) A) in *.
      assert (DS' : shape D = bs ++ repeat c s ++ repeat c s ++ repeat c (S i)). { rewrite DS, RS, <- !app_assoc. reflexivity. }
      destruct (IH n (S i) D bs c DS' ltac:(lia)) as [Q1 Q2]. split; auto.
      intros kb b ds Lk Lb Ld. destruct (exists_last (l := b)) as [b' [x ->]]; [destruct b; [discriminate|congruence]|].
      rewrite app_length in Lb. cbn in Lb. rewrite rev_unit. cbn [app].
      replace (kb ++ ds ++ x :: rev b') with (kb ++ (ds ++ [x]) ++ rev b') by (now rewrite <- app_assoc).
      rewrite Q2 by (auto; rewrite ?app_length; simpl; lia).
      assert (P1 : length (bs ++ repeat c s) = length (kb ++ b')) by (rewrite !app_length, repeat_length; lia).
      assert (P2 : length (repeat c s) = length b') by (rewrite repeat_length; lia).
      unfold D. rewrite P1, P2. replace (kb ++ b' ++ b' ++ ds ++ [x]) with ((kb ++ b') ++ b' ++ ds ++ [x]) by (now rewrite <- app_assoc).
      rewrite diagonal_at by (rewrite app_length; lia). f_equal. rewrite <- !app_assoc. reflexivity.
  Qed.
  (** C16, separable density matrices: position ravel(ns) holds |rho(ns', ns')| where ns' is ns REVERSED: the photon numbers are
      listed in decreasing mode order *)
  Theorem C16_separable_actual : forall A bs cutoff n kb ns, shape A = bs ++ repeat cutoff n ++ repeat cutoff n -> In kb (box bs) -> In ns (box (repeat cutoff n)) ->
    dist_separable A (length bs) n kb (ravel (repeat cutoff n) ns) = abs (at_ A (kb ++ rev ns ++ rev ns)).
  Proof using.
    intros A bs c n kb ns SH Hb Hn. apply inb_box in Hb, Hn. pose proof (inb_length _ _ Hb) as Lb. pose proof (inb_length _ _ Hn) as Ln. rewrite repeat_length in Ln.
    assert (SH' : shape A = bs ++ repeat c n ++ repeat c n ++ repeat c 0) by (cbn [repeat]; now rewrite app_nil_r).
    destruct (diag_loop_at n n 0 A bs c SH' (Nat.add_0_r n)) as [DS DA]. unfold dist_separable. rewrite DS. f_equal.
    rewrite SH. rewrite firstn_len_app by reflexivity. rewrite skipn_len_app by reflexivity.
    assert (RV : ravel (bs ++ [prod (repeat c n)]) (kb ++ [ravel (repeat c n) ns]) = ravel (bs ++ repeat c n) (kb ++ ns)) by (rewrite !ravel_app by assumption; cbn; lia).
    rewrite RV, unravel_ravel by (rewrite inb_app by assumption; now rewrite Hb, Hn).
    specialize (DA kb (rev ns) [] Lb). rewrite rev_length, rev_involutive in DA. cbn [app] in DA. rewrite DA by auto. now rewrite app_nil_r.
  Qed.
  (** so C16 holds for one mode *)
  Theorem C16_separable_one_mode : forall A bs cutoff kb k, shape A = bs ++ [cutoff] ++ [cutoff] -> In kb (box bs) -> k < cutoff ->
    dist_separable A (length bs) 1 kb k = abs (at_ A (kb ++ [k] ++ [k])).
  Proof using.
    intros A bs c kb k SH Hb Hk. pose proof (C16_separable_actual A bs c 1 kb [k] SH Hb) as H. cbn [repeat ravel rev app] in H |- *.
    rewrite <- H; [f_equal; cbn; lia|]. apply in_box. repeat constructor. exact Hk.
  Qed.
End Fock.
(** the product state |1,0><1,0| with cutoff 2: the probability 1 of (1, 0), position 2, is listed at position 1, that of (0, 1) *)
Theorem C16_refuted_separable : let A := mkArray [2; 2; 2; 2] (fun k => if list_eqb k [1; 0; 1; 0] then 1%Z else 0%Z) in
  map (dist_general A 2 2 []) (seq 0 4) = [0; 0; 1; 0]%Z /\ map (dist_separable (fun x => x) A 0 2 []) (seq 0 4) = [0; 1; 0; 0]%Z.
Proof. split; reflexivity. Qed.

(** ** C17: the order of the modes of two-mode gates *)
(** triples.py:511-517 (the matrix V of beamsplitter_gate_Abc) *)
Definition bs_matrix (theta phi : R) (i j : nat) : C :=
  match i, j with
  | 0, 0 | 1, 1 => RtoC (cos theta)
  | 0, 1 => (- ((cos phi, - sin phi)%R) * RtoC (sin theta))%C
  | 1, 0 => ((cos phi, sin phi)%R * RtoC (sin theta))%C
  | _, _ => RtoC 0
  end.
(** bsgate.py:106-111: the wires are Wires(set(modes)), whose k-th output (input) is the k-th mode in increasing order; the triple does
    not depend on the modes. [bsgate modes theta phi m m'] is the coefficient of output mode m and input mode m' *)
Definition sorted_set (modes : list nat) : list nat := nodup Nat.eq_dec (isort Z.of_nat modes).
Definition bsgate (modes : list nat) (theta phi : R) (m m' : nat) : C :=
  match look Nat.eqb (sorted_set modes) (seq 0 (length (sorted_set modes))) m, look Nat.eqb (sorted_set modes) (seq 0 (length (sorted_set modes))) m' with
  | Some i, Some j => bs_matrix theta phi i j
  | _, _ => RtoC 0
  end.
Lemma sorted_set_pair : forall m1 m2, m1 < m2 -> sorted_set [m1; m2] = [m1; m2] /\ sorted_set [m2; m1] = [m1; m2].
Proof.
  intros m1 m2 H. unfold sorted_set. cbn [isort insert].
  assert (E1 : (Z.of_nat m1 <=? Z.of_nat m2)%Z = true) by (apply Z.leb_le; lia). assert (E2 : (Z.of_nat m2 <=? Z.of_nat m1)%Z = false) by (apply Z.leb_gt; lia).
  rewrite ?E1, ?E2. cbn [nodup in_dec]. split; cbn; destruct (Nat.eq_dec m2 m1); try lia; reflexivity.
Qed.
(** C17 for increasing pairs *)
Theorem C17_increasing : forall m1 m2 theta phi i j, m1 < m2 -> i < 2 -> j < 2 ->
  bsgate [m1; m2] theta phi (nth i [m1; m2] 0) (nth j [m1; m2] 0) = bs_matrix theta phi i j.
Proof.
  intros m1 m2 theta phi i j H Hi Hj. unfold bsgate. rewrite (proj1 (sorted_set_pair m1 m2 H)). cbn [length seq].
  assert (ND : NoDup [m1; m2]) by (constructor; [simpl; lia|constructor; [simpl; lia|constructor]]).
  assert (LK : forall k, k < 2 -> look Nat.eqb [m1; m2] [0; 1] (nth k [m1; m2] 0) = Some (nth k [0; 1] 0)) by (intros k Hk; apply (look_nth Nat.eqb Nat.eqb_eq); auto).
  rewrite !LK by assumption. destruct i as [|[|i]]; [| |lia]; destruct j as [|[|j]]; try lia; reflexivity.
Qed.
(** exchanging the modes does nothing *)
Theorem C17_actual : forall m1 m2 theta phi m m', bsgate [m2; m1] theta phi m m' = bsgate [m1; m2] theta phi m m'.
Proof.
  intros m1 m2 theta phi m m'. destruct (Nat.lt_trichotomy m1 m2) as [H|[->|H]]; auto.
  - destruct (sorted_set_pair m1 m2 H) as [E1 E2]. unfold bsgate. now rewrite E1, E2.
  - destruct (sorted_set_pair m2 m1 H) as [E1 E2]. unfold bsgate. now rewrite E1, E2.
Qed.
(** C17 is false of every decreasing pair as soon as the gate mixes the modes *)
Theorem C17_refuted : forall m1 m2 theta phi, m2 < m1 -> sin theta <> 0%R -> cos phi <> 0%R ->
  bsgate [m1; m2] theta phi m1 m2 <> bs_matrix theta phi 0 1.
Proof.
  intros m1 m2 theta phi H S Cp. rewrite C17_actual. pose proof (C17_increasing m2 m1 theta phi 1 0 H ltac:(lia) ltac:(lia)) as E. cbn [nth] in E. rewrite E.
  unfold bs_matrix. intros Q. injection Q as Q1 Q2. cbn in Q1, Q2. apply Cp. assert (cos phi * sin theta = 0)%R by lra. apply Rmult_integral in H0. destruct H0; [assumption|contradiction].
Qed.
(** cxgate.py:77-83, base.py:250-275: the pair is rejected when the triple is first needed *)
Definition cxgate_triple {X} (modes : list Z) (x : X) : result (@transformation X) := from_bargmann KUnitary (fun n => n) modes modes x.
Theorem C17_cxgate_rejects : forall X m1 m2 (x : X), (m2 < m1)%Z -> cxgate_triple [m1; m2] x = Err ValueError.
Proof.
  intros X m1 m2 x H. unfold cxgate_triple, from_bargmann. apply C13_unsorted. left. apply not_true_iff_false. rewrite is_sorted_iff. unfold zsort. cbn [isort insert].
  destruct (m1 <=? m2)%Z eqn:E; [apply Z.leb_le in E; lia|]. intros Q. injection Q as Q _. lia.
Qed.

(** ** C18: random density matrices *)
(** dm.py:193-233: the number of variables left after integrating positions range(len(modes)) of both factors (gaussian_integrals.py:465-468,
    545-557), and the check in DM.from_ansatz (dm.py:133-141). [m = None] is the default *)
Definition kept_variables (n full : nat) : list nat := filter (fun i => negb (nmem i (seq 0 n ++ map (fun j => j + full) (seq 0 n)))) (seq 0 (2 * full)).
Definition dm_random (modes : list Z) (m : option nat) : result (list Z * list nat) :=
  match modes with
  | [] => Err ValueError
  | _ => let k := match m with Some k => k | None => length modes end in
         let vars := kept_variables (length modes) (length modes + k) in
         if negb (is_sorted modes) then Err ValueError
         else if negb (length vars =? 2 * length (as_set modes)) then Err ValueError
         else Ok (as_set modes, vars)
  end.
Lemma kept_length : forall n k, kept_variables n (n + k) = map (fun i => n + i) (seq 0 k) ++ map (fun i => n + k + n + i) (seq 0 k).
Proof.
  intros n k. unfold kept_variables. assert (SEQ : forall a b, map (fun i => a + i) (seq 0 b) = seq a b).
  { intros a b. assert (Z : forall y, map (fun x => a + x) (seq y b) = seq (a + y) b) by (induction b as [|b IH]; intros y; simpl; auto; f_equal; now rewrite IH, <- plus_n_Sm). rewrite Z. now rewrite Nat.add_0_r. }
  rewrite !SEQ. replace (2 * (n + k)) with (n + (k + (n + k))) by lia. rewrite !seq_app, !filter_app. cbn [Nat.add].
  assert (NONE : forall (p : nat -> bool) l, (forall x, In x l -> p x = false) -> filter p l = []) by (intros p; induction l as [|x l IH]; simpl; intros H; auto; rewrite H by auto; auto).
  assert (ALL : forall (p : nat -> bool) l, (forall x, In x l -> p x = true) -> filter p l = l) by (intros p; induction l as [|x l IH]; simpl; intros H; auto; rewrite H by auto; f_equal; auto).
  set (L := seq 0 n ++ map (fun j => j + (n + k)) (seq 0 n)).
  assert (IL : forall x, In x L <-> x < n \/ n + k <= x < n + k + n).
  { intros x. unfold L. rewrite in_app_iff, in_map_iff, in_seq. split; [intros [H|[y [<- H]]]; [lia|apply in_seq in H; lia]|]. intros [H|H]; [lia|right]. exists (x - (n + k)). rewrite in_seq. lia. }
  rewrite (NONE _ (seq 0 n)), (ALL _ (seq n k)), (NONE _ (seq (n + k) n)), (ALL _ (seq (n + k + n) k)); auto;
    intros x Hx; apply in_seq in Hx; destruct (nmem x L) eqn:EM; auto; exfalso;
    [apply nmem_In, IL in EM; lia| |apply nmem_In, IL in EM; lia|]; apply not_true_iff_false in EM; apply EM; apply nmem_In, IL; lia.
Qed.
(** C18 for the default number of ancillas. The variables that are kept are those of the ancillas *)
Theorem C18_default : forall modes, modes <> [] -> NoDup modes -> is_sorted modes = true -> exists vars,
  dm_random modes None = Ok (modes, vars) /\ dm_random modes (Some (length modes)) = Ok (modes, vars) /\
  vars = map (fun i => length modes + i) (seq 0 (length modes)) ++ map (fun i => 3 * length modes + i) (seq 0 (length modes)).
Proof.
  intros modes NE ND S. unfold dm_random. destruct modes as [|m0 t] eqn:E; [congruence|]. rewrite <- E in *. rewrite S. cbn [negb].
  rewrite kept_length, app_length, !map_length, seq_length. unfold as_set. rewrite nodup_fixed_point by assumption.
  replace (length modes + length modes =? 2 * length modes) with true by (symmetry; apply Nat.eqb_eq; lia). cbn [negb]. eexists. split; [reflexivity|]. split; [reflexivity|].
  f_equal. apply map_ext. intros; lia.
Qed.
Theorem C18_refuted : forall modes k, NoDup modes -> k <> length modes -> dm_random modes (Some k) = Err ValueError.
Proof.
  intros modes k ND NEQ. unfold dm_random. destruct modes as [|m0 t] eqn:E; auto. rewrite <- E in *. destruct (is_sorted modes); auto. cbn [negb].
  rewrite kept_length, app_length, !map_length, seq_length. unfold as_set. rewrite nodup_fixed_point by assumption.
  replace (k + k =? 2 * length modes) with false by (symmetry; apply Nat.eqb_neq; lia). reflexivity.
Qed.
Example C18_example : dm_random [0; 2]%Z None = Ok ([0; 2]%Z, [2; 3; 6; 7]) /\ dm_random [0; 2]%Z (Some 1) = Err ValueError.
Proof. split; reflexivity. Qed.
