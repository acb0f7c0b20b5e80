(** mrmustard/physics/ansatz/polyexp_ansatz.py: _order_batch, simplify, _find_unique_terms_sorted, __eq__ *)
From Coq Require Import List Arith Bool Lia Sorted Permutation ZArith.
From Verif Require Import Base Argsort.
Import ListNotations.

Section Model.
  Variable V : Type.
  Variable cmp : V -> V -> comparison.
  (** a term of the superposition: [T]; [row t] lists the entries of b, A and c (flattened, in this order) *)
  Variable T : Type.
  Variable row : T -> list V.
  (** polyexp_ansatz.py:719-748 _order_batch: gather the terms in the order found by argsort_gen *)
  Definition order_batch (d : T) (terms : list T) : option (list T) :=
    option_map (map (fun i => nth i terms d)) (argsort_gen V cmp (map (fun t => map Some (row t)) terms)).

  (** polyexp_ansatz.py:975-984 __eq__, with [close] for the entrywise comparison of two terms.  numpy.allclose broadcasts the batch axis:
      equal lengths are compared term by term, a batch of length one (or no batch) is compared with every term of the other,
      other lengths raise ValueError. *)
  Variable close : T -> T -> bool.
  Fixpoint zipclose (l l' : list T) : bool := match l, l' with x :: t, y :: t' => close x y && zipclose t t' | _, _ => true end.
  Definition ansatz_eq (d : T) (a b : list T) : result bool :=
    match order_batch d a, order_batch d b with
    | Some x, Some y => if Nat.eqb (length x) (length y) then Ok (zipclose x y)
                        else match x, y with
                             | [t], _ => Ok (forallb (close t) y)
                             | _, [t] => Ok (forallb (fun u => close u t) x)
                             | _, _ => Err ValueError
                             end
    | _, _ => Err RuntimeError
    end.
  Hypothesis cmp_eq : forall x y, cmp x y = Eq <-> x = y.
  Hypothesis cmp_flip : forall x y, cmp x y = CompOpp (cmp y x).
  Hypothesis cmp_trans : forall x y z, cmp x y = Lt -> cmp y z = Lt -> cmp x z = Lt.
  Definition orow (t : T) : list (option V) := map Some (row t).
  Notation rlt := (row_lt V cmp).
  Notation req := (row_eq V).
  Definition le_row (r s : list (option V)) : Prop := rlt r s \/ req r s.
  Lemma req_finite : forall r s : list V, req (map Some r) (map Some s) -> r = s.
  Proof using.
    induction r as [|x r IH]; intros [|y s] H; [reflexivity| | |]; pose proof (H 0) as H0; try discriminate H0. simpl in H0. injection H0 as ->. f_equal. apply IH. intros j. exact (H (S j)).
  Qed.
  Lemma ocmp_eq : forall x, ocmp V cmp x x = Eq.
  Proof using cmp_eq. intros [x|]; [now apply cmp_eq|reflexivity]. Qed.
  Lemma rlt_irrefl : forall r, ~ rlt r r.
  Proof using cmp_eq. intros r [k [_ H]]. rewrite ocmp_eq in H. discriminate. Qed.
  Lemma rlt_trans : forall r s t, rlt r s -> rlt s t -> rlt r t.
  Proof using cmp_trans.
    clear cmp_flip. intros r s t [k [A1 A2]] [l [B1 B2]]. destruct (lt_eq_lt_dec k l) as [[L|L]|L].
    - exists k. split; [intros j Hj; rewrite A1, B1 by lia; reflexivity|]. rewrite <- B1 by exact L. exact A2.
    - subst l. exists k. split; [intros j Hj; rewrite A1, B1 by lia; reflexivity|]. exact (ocmp_trans V cmp cmp_trans _ _ _ A2 B2).
    - exists l. split; [intros j Hj; rewrite A1, B1 by lia; reflexivity|]. rewrite A1 by exact L. exact B2.
  Qed.
  Lemma req_lt : forall r r' s, req r r' -> rlt r' s -> rlt r s.
  Proof using. clear. intros r r' s E [k [H1 H2]]. exists k. split; [intros j Hj; rewrite E; now apply H1|now rewrite E]. Qed.
  Lemma req_lt_r : forall r s s', req s s' -> rlt r s -> rlt r s'.
  Proof using. clear. intros r s s' E [k [H1 H2]]. exists k. split; [intros j Hj; rewrite <- E; now apply H1|now rewrite <- E]. Qed.
  Lemma le_antisym : forall r s, le_row r s -> le_row s r -> req r s.
  Proof using cmp_eq cmp_trans.
    intros r s [H|H] [K|K]; auto; [exfalso; exact (rlt_irrefl r (rlt_trans _ _ _ H K))|]. intros j. symmetry. apply K.
  Qed.
  Lemma le_trans' : forall r s t, le_row r s -> le_row s t -> le_row r t.
  Proof using cmp_trans.
    intros r s t [H|H] [K|K]; [left; exact (rlt_trans _ _ _ H K)|left; exact (req_lt_r _ _ _ K H)|left; exact (req_lt _ _ _ H K)|right; intros j; rewrite H; apply K].
  Qed.
  Definition le_term (t u : T) : Prop := le_row (orow t) (orow u).
  Lemma order_batch_spec : forall d terms, exists l, order_batch d terms = Some l /\ Permutation l terms /\ StronglySorted le_term l.
  Proof using cmp_eq cmp_flip cmp_trans.
    intros d terms. unfold order_batch.
    destruct (C29_argsort V cmp cmp_eq cmp_flip cmp_trans (map (fun t => map Some (row t)) terms)) as [out [E1 [E2 E3]]].
    { intros r Hr x Hx. apply in_map_iff in Hr. destruct Hr as [t [<- _]]. apply in_map_iff in Hx. destruct Hx as [v [<- _]]. discriminate. }
    rewrite E1. cbn [option_map]. eexists. split; [reflexivity|]. rewrite map_length in E2. split.
    - transitivity (map (fun i => nth i terms d) (seq 0 (length terms))); [now apply Permutation_map|].
      replace (map (fun i => nth i terms d) (seq 0 (length terms))) with terms; [apply Permutation_refl|]. apply (nth_ext _ _ d d); [now rewrite map_length, seq_length|].
      intros n Hn. symmetry. rewrite (nth_indep _ d (nth 0 terms d)) by (rewrite map_length, seq_length; exact Hn).
      rewrite (map_nth (fun i => nth i terms d) (seq 0 (length terms)) 0 n). now rewrite seq_nth.
    - assert (B : forall i, In i out -> i < length terms). { intros i Hi. apply (Permutation_in _ E2) in Hi. apply in_seq in Hi. lia. }
      clear E1 E2. induction out as [|i out IH]; [constructor|]. inversion E3 as [|? ? S1 S2]; subst. cbn [map]. constructor; [apply IH; [exact S1|intros; apply B; now right]|].
      apply Forall_forall. intros u Hu. apply in_map_iff in Hu. destruct Hu as [j [<- Hj]]. rewrite Forall_forall in S2. specialize (S2 j Hj).
      assert (R : forall i, i < length terms -> nth i (map (fun t => map Some (row t)) terms) [] = orow (nth i terms d)).
      { intros k Hk. rewrite (nth_indep _ [] (orow d)) by (rewrite map_length; exact Hk). exact (map_nth orow terms d k). }
      unfold before in S2. rewrite !R in S2 by (apply B; simpl; auto). destruct S2 as [H|[H _]]; [now left|now right].
  Qed.
  Hypothesis row_inj : forall t u, row t = row u -> t = u.
  Lemma sorted_perm_eq : forall l l', StronglySorted le_term l -> StronglySorted le_term l' -> Permutation l l' -> l = l'.
  Proof using cmp_eq cmp_trans row_inj.
    clear cmp_flip. induction l as [|x l IH]; intros l' H1 H2 P; [symmetry; now apply Permutation_nil|]. destruct l' as [|y l']; [apply Permutation_sym, Permutation_nil in P; discriminate|].
    assert (E : x = y).
    { inversion H1 as [|? ? _ F1]; inversion H2 as [|? ? _ F2]; subst. rewrite Forall_forall in F1, F2.
      assert (Ix : In x (y :: l')) by (apply (Permutation_in _ P); now left). assert (Iy : In y (x :: l)) by (apply (Permutation_in _ (Permutation_sym P)); now left).
      destruct Ix as [->|Ix]; [reflexivity|]. destruct Iy as [->|Iy]; [reflexivity|]. apply row_inj, req_finite. apply le_antisym; [apply (F1 y Iy)|apply (F2 x Ix)]. }
    subst y. f_equal. inversion H1; inversion H2; subst. apply IH; auto. now apply Permutation_cons_inv in P.
  Qed.
  (** C51: with exact comparison, two superpositions with the same number of terms are equal iff they have the same terms in any order *)
  Theorem C51_equality : (forall t u, close t u = true <-> t = u) -> forall d a b, length a = length b ->
    exists r, ansatz_eq d a b = Ok r /\ (r = true <-> Permutation a b).
  Proof using cmp_eq cmp_flip cmp_trans row_inj.
    intros Hc d a b L. unfold ansatz_eq. destruct (order_batch_spec d a) as [x [E1 [P1 S1]]]. destruct (order_batch_spec d b) as [y [E2 [P2 S2]]]. rewrite E1, E2.
    assert (Lxy : length x = length y) by (rewrite (Permutation_length P1), (Permutation_length P2); exact L). rewrite (proj2 (Nat.eqb_eq _ _) Lxy).
    exists (zipclose x y). split; [reflexivity|]. assert (Z : zipclose x y = true <-> x = y).
    { clear - Hc Lxy. revert y Lxy. induction x as [|u x IH]; intros [|v y] L; try discriminate; [simpl; tauto|]. cbn [zipclose]. rewrite andb_true_iff, Hc, IH by (simpl in L; congruence). split; [intros [-> ->]; reflexivity|intros H; injection H; auto]. }
    rewrite Z. split.
    - intros ->. now rewrite <- P1.
    - intros P. apply sorted_perm_eq; auto. now rewrite P1, P, P2.
  Qed.
End Model.
(** false in general: numpy broadcasts, so a superposition of two equal terms compares equal to the single term *)
Theorem C51_refuted_broadcast : exists a b : list Z, ansatz_eq Z Z.compare Z (fun z => [z]) Z.eqb 0%Z a b = Ok true /\ ~ Permutation a b
  /\ fold_right Z.add 0%Z a <> fold_right Z.add 0%Z b.
Proof. exists [3%Z], [3%Z; 3%Z]. split; [reflexivity|]. split; [intros H; apply Permutation_length in H; discriminate|discriminate]. Qed.
Theorem C51_example : ansatz_eq Z Z.compare Z (fun z => [z]) Z.eqb 0%Z [3; 1; 2]%Z [2; 3; 1]%Z = Ok true.
Proof. reflexivity. Qed.

Lemma SS_nth : forall (A : Type) (R : A -> A -> Prop) d l, StronglySorted R l -> forall i j, i < j -> j < length l -> R (nth i l d) (nth j l d).
Proof.
  induction l as [|t l IH]; intros Ss i j Lt B; [simpl in B; lia|]. inversion Ss as [|? ? S1 F1]; subst. destruct j as [|j]; [lia|]. simpl in B. destruct i as [|i]; simpl.
  - rewrite Forall_forall in F1. apply F1, nth_In. lia.
  - apply IH; auto; lia.
Qed.
Section Simplify.
  Variable V : Type.
  Variable cmp : V -> V -> comparison.
  (** the exponential part (b and A) and the coefficient of a term *)
  Variables Key Cf : Type.
  Variable krow : Key -> list V.
  Variable crow : Cf -> list V.
  Variable cadd : Cf -> Cf -> Cf.
  (** math.allclose on A and b *)
  Variable close : Key -> Key -> bool.
  Definition upd (c : nat -> Cf) (i : nat) (x : Cf) : nat -> Cf := fun j => if Nat.eqb j i then x else c j.
  (** polyexp_ansatz.py:678-692: the loop over d; returns the indices to keep and the updated coefficients *)
  Fixpoint scan (key : nat -> Key) (ds : list nat) (d0 : nat) (c : nat -> Cf) (keep : list nat) : list nat * (nat -> Cf) :=
    match ds with
    | [] => (keep, c)
    | d :: t => if close (key d0) (key d) then scan key t d0 (upd c d0 (cadd (c d0) (c d))) keep
                else scan key t d c (keep ++ [d])
    end.
  (** polyexp_ansatz.py:554-580 simplify, for a linear superposition with one batch dimension and at least one term *)
  Definition simplify (dflt : Key * Cf) (terms : list (Key * Cf)) : option (list (Key * Cf)) :=
    match order_batch V cmp (Key * Cf) (fun t => krow (fst t) ++ crow (snd t)) dflt terms with
    | None => None
    | Some l => let key d := fst (nth d l dflt) in
                let '(keep, c) := scan key (seq 1 (length l - 1)) 0 (fun d => snd (nth d l dflt)) [0] in
                Some (map (fun d => (key d, c d)) keep)
    end.
  (** * the function represented: any sum of terms additive in the coefficient, with values in a commutative monoid *)
  Variable W : Type.
  Variable w0 : W.
  Variable wadd : W -> W -> W.
  Hypothesis wcomm : forall x y, wadd x y = wadd y x.
  Hypothesis wassoc : forall x y z, wadd x (wadd y z) = wadd (wadd x y) z.
  Hypothesis wunit : forall x, wadd w0 x = x.
  Variable F : Key -> Cf -> W.
  Hypothesis F_add : forall k a b, F k (cadd a b) = wadd (F k a) (F k b).
  Definition value (l : list (Key * Cf)) : W := fold_right (fun t s => wadd (F (fst t) (snd t)) s) w0 l.
  Hypothesis close_eq : forall k k', close k k' = true <-> k = k'.
  Hypothesis cmp_eq : forall x y, cmp x y = Eq <-> x = y.
  Hypothesis cmp_flip : forall x y, cmp x y = CompOpp (cmp y x).
  Hypothesis cmp_trans : forall x y z, cmp x y = Lt -> cmp y z = Lt -> cmp x z = Lt.
  (** all A and b have the same shape *)
  Variable n : nat.
  Hypothesis krow_len : forall k, length (krow k) = n.
  Hypothesis krow_inj : forall k k', krow k = krow k' -> k = k'.
  Lemma value_app : forall l l', value (l ++ l') = wadd (value l) (value l').
  Proof using wassoc wunit. clear - wassoc wunit. induction l as [|t l IH]; intros l'; simpl; [now rewrite wunit|]. now rewrite IH, wassoc. Qed.
  Lemma value_perm : forall l l', Permutation l l' -> value l = value l'.
  Proof using wcomm wassoc.
    clear - wcomm wassoc. induction 1; simpl; auto; [now rewrite IHPermutation| |congruence]. now rewrite !wassoc, (wcomm (F (fst y) (snd y))).
  Qed.
  Definition at_ (key : nat -> Key) (c : nat -> Cf) (l : list nat) := map (fun d => (key d, c d)) l.
  Lemma at_ext : forall key c c' l, (forall d, In d l -> c d = c' d) -> at_ key c l = at_ key c' l.
  Proof using. clear. intros key c c' l H. apply map_ext_in. intros d Hd. now rewrite H. Qed.
  Lemma at_app : forall key c l l', at_ key c (l ++ l') = at_ key c l ++ at_ key c l'.
  Proof using. clear. intros. apply map_app. Qed.
  Lemma value_cons : forall key c d l, value (at_ key c (d :: l)) = wadd (F (key d) (c d)) (value (at_ key c l)).
  Proof using. reflexivity. Qed.
  Lemma scan_value : forall key ds d0 c keep, NoDup (keep ++ d0 :: ds) ->
    let '(keep', c') := scan key ds d0 c (keep ++ [d0]) in value (at_ key c' keep') = value (at_ key c (keep ++ d0 :: ds)).
  Proof using wcomm wassoc wunit F_add close_eq.
    clear - wcomm wassoc wunit F_add close_eq. intros key ds. induction ds as [|d ds IH]; intros d0 c keep ND; cbn [scan]; [reflexivity|].
    destruct (close (key d0) (key d)) eqn:E.
    - apply close_eq in E. assert (ND' : NoDup (keep ++ d0 :: ds)).
      { replace (keep ++ d0 :: d :: ds) with ((keep ++ [d0]) ++ d :: ds) in ND by (now rewrite <- app_assoc). apply NoDup_remove_1 in ND. now rewrite <- app_assoc in ND. }
      specialize (IH d0 (upd c d0 (cadd (c d0) (c d))) keep ND'). destruct (scan key ds d0 _ _) as [keep' c']. rewrite IH.
      assert (N0 : ~ In d0 (keep ++ ds)) by (now apply NoDup_remove_2 in ND').
      assert (X : forall j, In j (keep ++ ds) -> upd c d0 (cadd (c d0) (c d)) j = c j). { intros j Hj. unfold upd. destruct (Nat.eqb j d0) eqn:Ej; [apply Nat.eqb_eq in Ej; subst; tauto|reflexivity]. }
      rewrite !at_app. rewrite (at_ext key _ c keep) by (intros j Hj; apply X, in_or_app; auto). rewrite !value_app. f_equal. rewrite !value_cons. rewrite (at_ext key _ c ds) by (intros j Hj; apply X, in_or_app; auto).
      unfold upd at 1. rewrite Nat.eqb_refl, F_add, <- E. now rewrite wassoc.
    - specialize (IH d c (keep ++ [d0])). rewrite <- !app_assoc in *. simpl in *. exact (IH ND).
  Qed.
  Definition klt (k k' : Key) : Prop := row_lt V cmp (map Some (krow k)) (map Some (krow k')).
  Lemma entry_app : forall (r s : list V) j, j < length r -> entry V (map Some (r ++ s)) j = entry V (map Some r) j.
  Proof using. clear. intros r s j H. unfold entry. rewrite map_app, app_nth1 by (now rewrite map_length). reflexivity. Qed.
  Lemma le_key : forall t u : Key * Cf, le_term V cmp _ (fun t => krow (fst t) ++ crow (snd t)) t u -> klt (fst t) (fst u) \/ fst t = fst u.
  Proof using krow_len krow_inj.
    clear - krow_len krow_inj. intros [k c] [k' c'] H. unfold le_term, orow in H. cbn [fst snd] in *.
    assert (A : (forall j, j < n -> entry V (map Some (krow k)) j = entry V (map Some (krow k')) j) -> k = k').
    { intros E. apply krow_inj. apply req_finite. intros j. destruct (Nat.lt_ge_cases j n) as [L|L]; [now apply E|]. unfold entry. rewrite !nth_overflow by (rewrite map_length, krow_len; exact L). reflexivity. }
    destruct H as [[i [H1 H2]]|H].
    - destruct (Nat.lt_ge_cases i n) as [L|L].
      + left. exists i. split; [intros j Hj; specialize (H1 j Hj); rewrite !entry_app in H1 by (rewrite krow_len; lia); exact H1|]. rewrite !entry_app in H2 by (rewrite krow_len; lia). exact H2.
      + right. apply A. intros j Hj. specialize (H1 j ltac:(lia)). rewrite !entry_app in H1 by (rewrite krow_len; lia). exact H1.
    - right. apply A. intros j Hj. specialize (H j). rewrite !entry_app in H by (rewrite krow_len; lia). exact H.
  Qed.
  Lemma scan_keep : forall key c ds d0 keep, StronglySorted (fun i j => klt (key i) (key j) \/ key i = key j) (d0 :: ds) ->
    StronglySorted (fun i j => klt (key i) (key j)) (keep ++ [d0]) ->
    (forall i d, In i keep -> In d ds -> klt (key i) (key d)) ->
    StronglySorted (fun i j => klt (key i) (key j)) (fst (scan key ds d0 c (keep ++ [d0]))).
  Proof using close_eq cmp_trans.
    clear - close_eq cmp_trans. intros key c ds. revert c. induction ds as [|d ds IH]; intros c d0 keep H1 H2 H3; cbn [scan]; [exact H2|].
    inversion H1 as [|? ? S1 F1]; subst. inversion S1 as [|? ? S2 F2]; subst. rewrite Forall_forall in F1, F2. destruct (close (key d0) (key d)) eqn:E.
    - apply IH; [constructor; [exact S2|rewrite Forall_forall; intros j Hj; apply F1; now right]|exact H2|]. intros i j Hi Hj. apply H3; [exact Hi|now right].
    - assert (L : klt (key d0) (key d)). { destruct (F1 d (or_introl eq_refl)) as [L|L]; [exact L|]. apply close_eq in L. congruence. }
      apply IH; [exact S1| |].
      + apply (SS_app (fun i j => klt (key i) (key j))); [exact H2|constructor; constructor|]. intros x y Hx [<-|[]]. apply in_app_or in Hx. destruct Hx as [Hx|[<-|[]]]; [apply H3; [exact Hx|now left]|exact L].
      + intros i j Hi Hj. apply in_app_or in Hi. destruct Hi as [Hi|[<-|[]]]; [apply H3; [exact Hi|now right]|].
        destruct (F2 j Hj) as [K|K]; [|rewrite <- K; exact L]. exact (rlt_trans V cmp cmp_trans _ _ _ L K).
  Qed.
  (** C30: for every superposition with at least one term, simplify represents the same function, keeps only exponentials that were there, and leaves no two terms with equal (A, b) *)
  Theorem C30_simplify : forall dflt terms, terms <> [] -> exists l, simplify dflt terms = Some l /\ value l = value terms /\ NoDup (map fst l)
    /\ (forall k, In k (map fst l) -> In k (map fst terms)).
  Proof using wcomm wassoc wunit F_add close_eq cmp_eq cmp_flip cmp_trans n krow_len krow_inj.
    intros dflt terms NE. unfold simplify.
    destruct (order_batch_spec V cmp (Key * Cf) (fun t => krow (fst t) ++ crow (snd t)) cmp_eq cmp_flip cmp_trans dflt terms) as [l [E [P Ss]]]. rewrite E.
    assert (Ll : length l <> 0). { rewrite (Permutation_length P). destruct terms; [tauto|discriminate]. }
    set (key := fun d => fst (nth d l dflt)). set (c := fun d => snd (nth d l dflt)).
    assert (Eq : seq 0 (length l) = 0 :: seq 1 (length l - 1)) by (destruct (length l); [lia|simpl; now rewrite Nat.sub_0_r]).
    assert (A : at_ key c (seq 0 (length l)) = l).
    { unfold at_, key, c. apply (nth_ext _ _ dflt dflt); [now rewrite map_length, seq_length|]. intros m Hm. rewrite map_length, seq_length in Hm.
      rewrite (nth_indep _ dflt (fst (nth 0 l dflt), snd (nth 0 l dflt))) by (now rewrite map_length, seq_length).
      rewrite (map_nth (fun d => (fst (nth d l dflt), snd (nth d l dflt))) (seq 0 (length l)) 0 m), seq_nth by exact Hm. simpl. now destruct (nth m l dflt). }
    pose proof (scan_value key (seq 1 (length l - 1)) 0 c []) as SV. cbn [app] in SV. rewrite <- Eq in SV. specialize (SV (seq_NoDup _ _)).
    assert (SK : StronglySorted (fun i j => klt (key i) (key j)) (fst (scan key (seq 1 (length l - 1)) 0 c [0]))).
    { apply (scan_keep key c _ 0 []); [|constructor; constructor|simpl; tauto]. rewrite <- Eq.
      assert (SSn : forall L s, (forall d, In d L -> d < length l) -> StronglySorted lt L -> s = 0 -> StronglySorted (fun i j => klt (key i) (key j) \/ key i = key j) L).
      { intros L s B SL _. rewrite <- (map_id L). apply (SS_map lt); [exact SL|]. intros i j Hi Hj Lt. unfold key. apply le_key.
        apply (SS_nth _ _ dflt _ Ss); auto. }
      apply (SSn _ 0); [intros d Hd; apply in_seq in Hd; lia|apply SS_seq|reflexivity]. }
    destruct (scan key (seq 1 (length l - 1)) 0 c [0]) as [keep c'] eqn:ES. eexists. split; [reflexivity|]. fold (at_ key c' keep). split.
    { transitivity (value (at_ key c (seq 0 (length l)))); [exact SV|]. rewrite A. now apply value_perm. }
    cbn [fst] in SK. assert (MF : map fst (at_ key c' keep) = map key keep) by (unfold at_; rewrite map_map; reflexivity). change (NoDup (map fst (at_ key c' keep)) /\ (forall k, In k (map fst (at_ key c' keep)) -> In k (map fst terms))); rewrite MF. split.
    - clear - SK cmp_eq. induction keep as [|i keep IH]; [constructor|]. inversion SK as [|? ? S1 F1]; subst. cbn [map]. constructor; [|now apply IH]. intros H. apply in_map_iff in H. destruct H as [j [Ej Hj]].
      rewrite Forall_forall in F1. specialize (F1 j Hj). rewrite Ej in F1. exact (rlt_irrefl V cmp cmp_eq _ F1).
    - intros k Hk. assert (Kb : forall ds d0 c0 kp, (forall d, In d (kp ++ d0 :: ds) -> d < length l) -> forall d, In d (fst (scan key ds d0 c0 kp)) -> d < length l).
      { clear. induction ds as [|d ds IH]; intros d0 c0 kp B j Hj; cbn [scan] in Hj; [apply B, in_or_app; now left|]. destruct (close _ _).
        - refine (IH _ _ _ _ _ Hj). intros i Hi. apply B. apply in_app_or in Hi. apply in_or_app. simpl in *. tauto.
        - refine (IH _ _ _ _ _ Hj). intros i Hi. apply B. rewrite <- app_assoc in Hi. apply in_app_or in Hi. apply in_or_app. simpl in *. tauto. }
      apply in_map_iff in Hk. destruct Hk as [d [<- Hd]]. assert (Bd : d < length l).
      { specialize (Kb (seq 1 (length l - 1)) 0 c [0]). rewrite ES in Kb. apply Kb; [|exact Hd]. intros i [<-|[<-|Hi]]; [lia|lia|]. apply in_seq in Hi. lia. }
      unfold key. apply in_map. apply (Permutation_in _ P). now apply nth_In.
  Qed.
End Simplify.
Definition zclose (tol : Z) (k k' : list Z) : bool := forallb (fun '(x, y) => Z.leb (Z.abs (x - y)) tol) (combine k k').
(** with a positive tolerance two terms that are close need not be neighbours in the sorted order, so they are both kept *)
Theorem C30_refuted_tolerance : let t k := (k, 1%Z) in
  simplify Z Z.compare (list Z) Z (fun k => k) (fun c => [c]) Z.add (zclose 1) ([], 0%Z) [t [0; 0]%Z; t [1; 0]%Z; t [0; 5]%Z] = Some [t [0; 0]%Z; t [0; 5]%Z; t [1; 0]%Z]
  /\ zclose 1 [0; 0]%Z [1; 0]%Z = true.
Proof. split; reflexivity. Qed.
Theorem C30_example : simplify Z Z.compare (list Z) Z (fun k => k) (fun c => [c]) Z.add (zclose 0) ([], 0%Z) [([2; 0]%Z, 3%Z); ([1; 0]%Z, 1%Z); ([2; 0]%Z, 4%Z); ([0; 5]%Z, 7%Z); ([2; 0]%Z, 1%Z)]
  = Some [([0; 5]%Z, 7%Z); ([1; 0]%Z, 1%Z); ([2; 0]%Z, 8%Z)].
Proof. reflexivity. Qed.
