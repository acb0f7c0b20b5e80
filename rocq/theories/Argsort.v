(** mrmustard/utils/argsort.py *)
From Coq Require Import List Arith Bool Lia Sorted Permutation ZArith.
From Verif Require Import Base.
Import ListNotations.

Section Model.
  (** finite numbers, with the strict total order used by [sorted]; None is +infinity *)
  Variable V : Type.
  Variable cmp : V -> V -> comparison.
  Definition ocmp (x y : option V) : comparison :=
    match x, y with None, None => Eq | None, Some _ => Gt | Some _, None => Lt | Some a, Some b => cmp a b end.
  Definition oeqb (x y : option V) : bool := match ocmp x y with Eq => true | _ => false end.
  (** argsort.py:39-44 next(gen), or infinity when the generator is exhausted *)
  Definition first (r : list (option V)) : option V := match r with [] => None | x :: _ => x end.
  (** argsort.py:50-52 the keys of the dictionary, in order of first occurrence *)
  Fixpoint keys (vals seen : list (option V)) : list (option V) :=
    match vals with
    | [] => []
    | x :: t => if existsb (oeqb x) seen then keys t seen else x :: keys t (x :: seen)
    end.
  (** argsort.py:55 sorted(vals_dict) *)
  Fixpoint ins (x : option V) (l : list (option V)) : list (option V) :=
    match l with [] => [x] | y :: t => match ocmp x y with Gt => y :: ins x t | _ => x :: y :: t end end.
  Definition sorted (l : list (option V)) : list (option V) := fold_right ins [] l.
  Definition mapcat {X} (f : X -> option (list nat)) : list X -> option (list nat) :=
    fold_right (fun x r => match f x, r with Some a, Some b => Some (a ++ b) | _, _ => None end) (Some []).
  (** argsort.py:23-65.  A generator is the list of the values it has still to yield.  The recursion of the code is on
      generators that have been advanced; the fuel makes it structural and the model returns None if it runs out. *)
  Fixpoint argsort_go (fuel : nat) (rows : list (list (option V))) : option (list nat) :=
    match fuel with
    | 0 => None
    | S f =>
        let vals := map first rows in
        if forallb (fun v => oeqb v None) vals then Some (seq 0 (length rows))
        else mapcat (fun key =>
               let pool := filter (fun i => oeqb (nth i vals None) key) (seq 0 (length rows)) in
               if Nat.ltb 1 (length pool)
               then option_map (map (fun i => nth i pool 0)) (argsort_go f (map (fun i => tl (nth i rows [])) pool))
               else Some pool) (sorted (keys vals []))
    end.
  Definition argsort_gen (rows : list (list (option V))) : option (list nat) := argsort_go (S (list_max (map (@length _) rows))) rows.

  (** * Specification: rows padded with infinity, compared entry by entry *)
  Definition entry (r : list (option V)) (j : nat) : option V := nth j r None.
  Definition row_eq (r s : list (option V)) : Prop := forall j, entry r j = entry s j.
  Definition row_lt (r s : list (option V)) : Prop := exists k, (forall j, j < k -> entry r j = entry s j) /\ ocmp (entry r k) (entry s k) = Lt.
  Definition before (rows : list (list (option V))) (i j : nat) : Prop :=
    row_lt (nth i rows []) (nth j rows []) \/ (row_eq (nth i rows []) (nth j rows []) /\ i < j).
  Definition finite (r : list (option V)) : Prop := forall x, In x r -> x <> None.

  Hypothesis cmp_eq : forall x y, cmp x y = Eq <-> x = y.
  Hypothesis cmp_flip : forall x y, cmp x y = CompOpp (cmp y x).
  Hypothesis cmp_trans : forall x y z, cmp x y = Lt -> cmp y z = Lt -> cmp x z = Lt.
  Lemma oeqb_eq : forall x y, oeqb x y = true <-> x = y.
  Proof using cmp_eq.
    intros [a|] [b|]; unfold oeqb, ocmp; try (split; congruence). pose proof (cmp_eq a b) as H. destruct (cmp a b); split; intro E; try discriminate; try (f_equal; now apply H); [reflexivity| |]; exfalso; assert (a = b) by congruence; apply H in H0; discriminate.
  Qed.
  Lemma ocmp_flip : forall x y, ocmp x y = CompOpp (ocmp y x).
  Proof using cmp_flip. intros [a|] [b|]; simpl; auto. Qed.
  Lemma ocmp_trans : forall x y z, ocmp x y = Lt -> ocmp y z = Lt -> ocmp x z = Lt.
  Proof using cmp_trans. intros [a|] [b|] [c|]; simpl; try congruence. apply cmp_trans. Qed.
  Definition olt x y := ocmp x y = Lt.

  Lemma keys_spec : forall vals seen, NoDup (keys vals seen) /\ (forall x, In x (keys vals seen) <-> In x vals /\ ~ In x seen).
  Proof using cmp_eq.
    induction vals as [|v t IH]; intros seen; cbn [keys]; [split; [constructor|]; intros x; simpl; tauto|].
    destruct (existsb (oeqb v) seen) eqn:E.
    - apply existsb_exists in E. destruct E as [y [Hy E]]. apply oeqb_eq in E. subst y. destruct (IH seen) as [N M]. split; [exact N|].
      intros x. rewrite M. simpl. split; [tauto|]. intros [[->|H] H2]; tauto.
    - assert (Nv : ~ In v seen). { intros H. assert (X : existsb (oeqb v) seen = true) by (apply existsb_exists; exists v; split; [exact H|now apply oeqb_eq]). congruence. }
      destruct (IH (v :: seen)) as [N M]. split.
      + constructor; [|exact N]. rewrite M. simpl. tauto.
      + intros x. simpl. rewrite M. simpl. split.
        * intros [<-|[H1 H2]]; [tauto|]. split; [tauto|]. intros H. apply H2. now right.
        * intros [[<-|H1] H2]; [tauto|]. destruct (oeqb v x) eqn:Ex; [apply oeqb_eq in Ex; tauto|]. right. split; [exact H1|]. intros [->|H]; [|tauto].
          assert (oeqb x x = true) by now apply oeqb_eq. congruence.
  Qed.
  Lemma ins_perm : forall x l, Permutation (ins x l) (x :: l).
  Proof using. induction l as [|y t IH]; cbn [ins]; [apply Permutation_refl|]. destruct (ocmp x y); try apply Permutation_refl. rewrite IH. apply perm_swap. Qed.
  Lemma sorted_perm : forall l, Permutation (sorted l) l.
  Proof using. induction l as [|x l IH]; [apply Permutation_refl|]. cbn [sorted fold_right]. fold (sorted l). rewrite ins_perm. now constructor. Qed.
  Lemma ins_sorted : forall x l, ~ In x l -> StronglySorted olt l -> StronglySorted olt (ins x l).
  Proof using cmp_eq cmp_flip cmp_trans.
    induction l as [|y t IH]; intros N Ss; cbn [ins]; [constructor; constructor|]. inversion Ss as [|? ? S1 S2]; subst.
    destruct (ocmp x y) eqn:E.
    - exfalso. apply N. left. symmetry. apply oeqb_eq. unfold oeqb. now rewrite E.
    - constructor; [exact Ss|]. constructor; [exact E|]. rewrite Forall_forall in S2 |- *. intros z Hz. exact (ocmp_trans x y z E (S2 z Hz)).
    - constructor; [apply IH; [intros H; apply N; now right|exact S1]|]. rewrite Forall_forall in S2 |- *. intros z Hz.
      apply (Permutation_in _ (ins_perm x t)) in Hz. destruct Hz as [<-|Hz]; [|now apply S2]. unfold olt. rewrite ocmp_flip, E. reflexivity.
  Qed.
  Lemma sorted_sorted : forall l, NoDup l -> StronglySorted olt (sorted l).
  Proof using cmp_eq cmp_flip cmp_trans.
    induction l as [|x l IH]; intros N; [constructor|]. inversion N; subst. cbn [sorted fold_right]. fold (sorted l). apply ins_sorted; [|now apply IH].
    intros H. apply H1. apply (Permutation_in _ (sorted_perm l) H).
  Qed.
  Lemma SS_app : forall (R : nat -> nat -> Prop) l l', StronglySorted R l -> StronglySorted R l' -> (forall x y, In x l -> In y l' -> R x y) -> StronglySorted R (l ++ l').
  Proof using.
    clear. induction l as [|x l IH]; intros l' H1 H2 H; [exact H2|]. inversion H1; subst. simpl. constructor; [apply IH; auto; intros a b Ha Hb; apply H; [now right|exact Hb]|].
    rewrite Forall_app. split; [assumption|]. apply Forall_forall. intros y Hy. apply H; [now left|exact Hy].
  Qed.
  Lemma SS_map : forall (R Q : nat -> nat -> Prop) f l, StronglySorted R l -> (forall x y, In x l -> In y l -> R x y -> Q (f x) (f y)) -> StronglySorted Q (map f l).
  Proof using.
    clear. intros R Q f. induction l as [|x l IH]; intros H1 H; [constructor|]. inversion H1 as [|? ? S1 S2]; subst. simpl. constructor; [apply IH; auto; intros a b Ha Hb; apply H; now right|].
    apply Forall_forall. intros y Hy. apply in_map_iff in Hy. destruct Hy as [z [<- Hz]]. rewrite Forall_forall in S2. apply H; [now left|now right|now apply S2].
  Qed.
  Lemma SS_seq : forall n s, StronglySorted lt (seq s n).
  Proof using. clear. induction n as [|n IH]; intros s; [constructor|]. simpl. constructor; [apply IH|]. apply Forall_forall. intros y Hy. apply in_seq in Hy. lia. Qed.
  Lemma SS_filter : forall (R : nat -> nat -> Prop) f l, StronglySorted R l -> StronglySorted R (filter f l).
  Proof using.
    clear. intros R f. induction l as [|x l IH]; intros H; [constructor|]. inversion H as [|? ? S1 S2]; subst. simpl. destruct (f x); [|now apply IH]. constructor; [now apply IH|].
    rewrite Forall_forall in S2 |- *. intros y Hy. apply filter_In in Hy. now apply S2.
  Qed.
  Lemma SS_nth_lt : forall l, StronglySorted lt l -> forall i j, i < j < length l -> nth i l 0 < nth j l 0.
  Proof using.
    clear. induction l as [|x l IH]; intros H i j Hij; [simpl in Hij; lia|]. inversion H as [|? ? S1 S2]; subst. simpl in Hij. destruct j as [|j]; [lia|]. destruct i as [|i].
    - simpl. rewrite Forall_forall in S2. apply S2, nth_In. lia.
    - simpl. apply IH; [exact S1|lia].
  Qed.
  Lemma SS_weaken_NoDup : forall (R : nat -> nat -> Prop) l, StronglySorted R l -> (forall x, In x l -> ~ R x x) -> NoDup l.
  Proof using.
    clear. induction l as [|x l IH]; intros H N; [constructor|]. inversion H as [|? ? S1 S2]; subst. constructor; [|apply IH; [exact S1|intros; apply N; now right]].
    intros Hx. rewrite Forall_forall in S2. exact (N x (or_introl eq_refl) (S2 x Hx)).
  Qed.
  Lemma entry_0 : forall r, entry r 0 = first r. Proof using. now destruct r. Qed.
  Lemma entry_S : forall r j, entry r (S j) = entry (tl r) j. Proof using. intros [|x r] j; unfold entry; simpl; [now destruct j|reflexivity]. Qed.
  Lemma row_lt_tl : forall r s, first r = first s -> row_lt (tl r) (tl s) -> row_lt r s.
  Proof using.
    intros r s E [k [H1 H2]]. exists (S k). split.
    - intros [|j] Hj; [now rewrite !entry_0|]. rewrite !entry_S. apply H1. lia.
    - now rewrite !entry_S.
  Qed.
  Lemma row_eq_tl : forall r s, first r = first s -> row_eq (tl r) (tl s) -> row_eq r s.
  Proof using. intros r s E H [|j]; [now rewrite !entry_0|]. rewrite !entry_S. apply H. Qed.
  Lemma before_irrefl : forall rows i, ~ before rows i i.
  Proof using cmp_eq.
    intros rows i [[k [_ H]]|[_ H]]; [|lia]. assert (X : oeqb (entry (nth i rows []) k) (entry (nth i rows []) k) = true) by now apply oeqb_eq. unfold oeqb in X. now rewrite H in X.
  Qed.

  Lemma nth_vals : forall rows i, nth i (map first rows) None = first (nth i rows []).
  Proof using. intros rows i. exact (map_nth first rows [] i). Qed.
  Lemma mapcat_spec : forall rows (f : option V -> option (list nat)) ks, StronglySorted olt ks ->
    (forall v, In v ks -> exists p, f v = Some p /\ (forall i, In i p <-> i < length rows /\ first (nth i rows []) = v) /\ StronglySorted (before rows) p) ->
    exists out, mapcat f ks = Some out /\ (forall i, In i out <-> i < length rows /\ In (first (nth i rows [])) ks) /\ StronglySorted (before rows) out.
  Proof using.
    clear. intros rows f ks. induction ks as [|k ks IH]; intros Hs H.
    - exists []. split; [reflexivity|]. split; [simpl; tauto|constructor].
    - inversion Hs as [|? ? S1 S2]; subst. destruct (IH S1 (fun v Hv => H v (or_intror Hv))) as [o [E1 [E2 E3]]].
      destruct (H k (or_introl eq_refl)) as [p [F1 [F2 F3]]]. exists (p ++ o). split; [cbn [mapcat fold_right]; fold (mapcat f ks); now rewrite F1, E1|]. split.
      + intros i. rewrite in_app_iff, F2, E2. simpl. split; [intros [[? ?]|[? ?]]; split; auto|intros [? [?|?]]; auto].
      + apply SS_app; auto. intros x y Hx Hy. apply F2 in Hx. apply E2 in Hy. left. exists 0. split; [lia|]. rewrite !entry_0. destruct Hx as [_ ->].
        rewrite Forall_forall in S2. now apply S2.
  Qed.
  Lemma all_none : forall rows, (forall r, In r rows -> r = []) -> StronglySorted (before rows) (seq 0 (length rows)).
  Proof using.
    clear. intros rows H. rewrite <- (map_id (seq 0 (length rows))). apply (SS_map lt); [apply SS_seq|]. intros x y Hx Hy L. right. split; [|exact L].
    apply in_seq in Hx, Hy. rewrite (H (nth x rows [])), (H (nth y rows [])) by (apply nth_In; lia). intros j. reflexivity.
  Qed.
  Lemma argsort_go_spec : forall fuel rows, (forall r, In r rows -> length r <= fuel) -> (forall r, In r rows -> finite r) ->
    exists out, argsort_go (S fuel) rows = Some out /\ (forall i, In i out <-> i < length rows) /\ StronglySorted (before rows) out.
  Proof using cmp_eq cmp_flip cmp_trans.
    induction fuel as [|f IH]; intros rows HL HF; [|remember (S f) as f1 eqn:Ef1]; cbn [argsort_go].
    - assert (E : forall r, In r rows -> r = []) by (intros r Hr; apply HL in Hr; now destruct r; simpl in Hr; [|lia]).
      assert (T : forallb (fun v => oeqb v None) (map first rows) = true).
      { apply forallb_forall. intros v Hv. apply in_map_iff in Hv. destruct Hv as [r [<- Hr]]. now rewrite (E r Hr). }
      rewrite T. exists (seq 0 (length rows)). split; [reflexivity|]. split; [intros i; rewrite in_seq; lia|]. now apply all_none.
    - destruct (forallb (fun v => oeqb v None) (map first rows)) eqn:T.
      + rewrite forallb_forall in T. assert (E : forall r, In r rows -> r = []).
        { intros r Hr. pose proof (T (first r) (in_map _ _ _ Hr)) as X. apply oeqb_eq in X. destruct r as [|x r]; [reflexivity|]. exfalso. exact (HF _ Hr x (or_introl eq_refl) X). }
        exists (seq 0 (length rows)). split; [reflexivity|]. split; [intros i; rewrite in_seq; lia|]. now apply all_none.
      + destruct (keys_spec (map first rows) []) as [KN KI]. pose proof (sorted_sorted _ KN) as KS.
        assert (KS' : forall v, In v (sorted (keys (map first rows) [])) <-> In v (map first rows)).
        { intros v. split; intros H.
          - apply (Permutation_in _ (sorted_perm _)) in H. now apply KI in H.
          - apply (Permutation_in _ (Permutation_sym (sorted_perm _))). apply KI. simpl. tauto. }
        match goal with |- exists out, mapcat ?g ?ks = _ /\ _ => destruct (mapcat_spec rows g ks KS) as [out [E1 [E2 E3]]] end.
        * intros v Hv. cbv beta zeta. set (pool := filter _ _).
          assert (PI : forall i, In i pool <-> i < length rows /\ first (nth i rows []) = v).
          { intros i. unfold pool. rewrite filter_In, in_seq, nth_vals, oeqb_eq. split; intros [? ?]; split; auto; lia. }
          assert (PS : StronglySorted lt pool) by (apply SS_filter, SS_seq). clearbody pool.
          destruct (Nat.ltb 1 (length pool)) eqn:LP.
          -- destruct (IH (map (fun i => tl (nth i rows [])) pool)) as [sub [F1 [F2 F3]]].
             { intros r Hr. apply in_map_iff in Hr. destruct Hr as [i [<- Hi]]. apply PI in Hi. specialize (HL (nth i rows []) (nth_In _ _ (proj1 Hi))). destruct (nth i rows []); simpl in *; lia. }
             { intros r Hr. apply in_map_iff in Hr. destruct Hr as [i [<- Hi]]. apply PI in Hi. specialize (HF (nth i rows []) (nth_In _ _ (proj1 Hi))). intros x Hx. apply HF. destruct (nth i rows []); [destruct Hx|now right]. }
             subst f1. rewrite F1. rewrite map_length in F2. cbn [option_map]. eexists. split; [reflexivity|]. split.
             ++ intros i. rewrite in_map_iff. split.
                ** intros [j [<- Hj]]. apply F2 in Hj. apply PI. now apply nth_In.
                ** intros Hi. apply PI in Hi. destruct (In_nth _ _ 0 Hi) as [j [Hj Ej]]. exists j. split; [exact Ej|now apply F2].
             ++ apply (SS_map _ _ _ _ F3). intros x y Hx Hy B. apply F2 in Hx, Hy. assert (TL : forall z, z < length pool -> nth z (map (fun i => tl (nth i rows [])) pool) [] = tl (nth (nth z pool 0) rows [])).
                { intros z Hz. rewrite (nth_indep _ [] (tl (nth 0 rows []))) by (rewrite map_length; exact Hz). exact (map_nth (fun i => tl (nth i rows [])) pool 0 z). }
                unfold before in B. rewrite !TL in B by assumption. assert (Ex := proj1 (PI _) (nth_In _ 0 Hx)). assert (Ey := proj1 (PI _) (nth_In _ 0 Hy)).
                destruct B as [B|[B L]]; [left; apply row_lt_tl; [destruct Ex, Ey; congruence|exact B]|right]. split; [apply row_eq_tl; [destruct Ex, Ey; congruence|exact B]|]. apply SS_nth_lt; auto.
          -- exists pool. split; [reflexivity|]. split; [exact PI|]. apply Nat.ltb_ge in LP. destruct pool as [|a [|a' l]]; simpl in LP; try lia; repeat constructor.
        * exists out. split; [exact E1|]. split; [|exact E3]. intros i. rewrite E2. split; [tauto|]. intros Hi. split; [exact Hi|]. apply KS'. apply in_map. now apply nth_In.
  Qed.
  (** C29: for rows of finite values (of any lengths), argsort_gen terminates and returns a permutation of the indices that sorts the
      rows lexicographically, stably *)
  Theorem C29_argsort : forall rows, (forall r, In r rows -> finite r) ->
    exists out, argsort_gen rows = Some out /\ Permutation out (seq 0 (length rows)) /\ StronglySorted (before rows) out.
  Proof using cmp_eq cmp_flip cmp_trans.
    intros rows HF. unfold argsort_gen. destruct (argsort_go_spec (list_max (map (@length _) rows)) rows) as [out [E1 [E2 E3]]]; [|exact HF|].
    - intros r Hr. pose proof (proj1 (list_max_le (map (@length _) rows) _) (le_n _)) as H. rewrite Forall_forall in H. apply H. now apply in_map.
    - exists out. split; [exact E1|]. split; [|exact E3]. apply NoDup_Permutation; [|apply seq_NoDup|intros i; rewrite E2, in_seq; lia].
      apply (SS_weaken_NoDup _ _ E3). intros x _. apply before_irrefl.
  Qed.
  (** the order is total, so the result is the only list with these two properties *)
  Lemma row_cmp : forall r s, row_eq r s \/ row_lt r s \/ row_lt s r.
  Proof using cmp_eq cmp_flip.
    induction r as [|x r IHr]; intros s.
    - induction s as [|y s IHs]; [left; intros j; reflexivity|]. destruct y as [v|]; [right; right; exists 0; split; [lia|reflexivity]|].
      destruct IHs as [H|[H|H]]; [left; now apply row_eq_tl|right; left; now apply row_lt_tl|right; right; now apply row_lt_tl].
    - destruct (ocmp x (first s)) eqn:E.
      + assert (X : x = first s) by (apply oeqb_eq; unfold oeqb; now rewrite E). destruct (IHr (tl s)) as [H|[H|H]]; [left; apply row_eq_tl; auto|right; left; apply row_lt_tl; auto|right; right; apply row_lt_tl; auto].
      + right; left; exists 0; split; [lia|]. now rewrite !entry_0.
      + right; right; exists 0; split; [lia|]. rewrite !entry_0. rewrite ocmp_flip. cbn [first]. now rewrite E.
  Qed.
  Theorem before_total : forall rows i j, i <> j -> before rows i j \/ before rows j i.
  Proof using cmp_eq cmp_flip.
    intros rows i j N. unfold before. destruct (row_cmp (nth i rows []) (nth j rows [])) as [H|[H|H]]; auto.
    destruct (Nat.lt_total i j) as [L|[L|L]]; [auto|lia|right; right; split; [intros k; symmetry; apply H|exact L]].
  Qed.
End Model.
(** rows that contain infinity: the recursion stops as soon as every value of a pool is infinite, so the rest is not sorted *)
Definition zrow := list (option Z).
Theorem C29_refuted_infinity : let rows := [[None; Some 1%Z]; [None; Some 0%Z]] in
  argsort_gen Z Z.compare rows = Some [0; 1] /\ row_lt Z Z.compare (nth 1 rows []) (nth 0 rows []).
Proof. split; [reflexivity|]. exists 1. split; [|reflexivity]. intros [|j] H; [reflexivity|lia]. Qed.
Theorem C29_example : argsort_gen Z Z.compare [[Some 2%Z; Some 1%Z]; [Some 1%Z; Some 5%Z; Some 6%Z]; [Some 2%Z; Some 0%Z]; [Some 1%Z; Some 5%Z]; []; [Some 2%Z; Some 1%Z]] = Some [1; 3; 2; 0; 5; 4].
Proof. reflexivity. Qed.
(** the integers are an instance of the order used above *)
Theorem C29_integers : forall rows : list zrow, (forall r, In r rows -> finite Z r) ->
  exists out, argsort_gen Z Z.compare rows = Some out /\ Permutation out (seq 0 (length rows)) /\ StronglySorted (before Z Z.compare rows) out.
Proof.
  apply (C29_argsort Z Z.compare); [apply Z.compare_eq_iff|intros x y; apply Z.compare_antisym|intros x y z; rewrite !Z.compare_lt_iff; lia].
Qed.
