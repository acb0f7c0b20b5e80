(** Claim C11: optimize_fock_shapes. Model of mrmustard/path/branch_and_bound.py:226-273.
    The shapes of the components are a list indexed by the node; the edges of the graph are replaced by the list of connected
    index pairs ((A,i),(B,j)) that the two nested loops visit (238-240; they depend on the wires only). The test "hash unchanged"
    is modelled as "shapes unchanged" (nodes, edges and solution do not change here; hash collisions are ignored). *)
From Coq Require Import List Bool Lia Arith.
Require Import Verif.Base.
Import ListNotations.

Definition shapes := list (list nat).
Definition get (s : shapes) (k i : nat) : nat := nth i (nth k s []) 0.
Fixpoint upd {A} (i : nat) (v : A) (l : list A) : list A :=
  match l, i with [], _ => [] | _ :: t, O => v :: t | x :: t, S i => x :: upd i v t end.
Definition set (s : shapes) (k i v : nat) : shapes := upd k (upd i v (nth k s [])) s.
Definition link := ((nat * nat) * (nat * nat))%type.

(** 241-247 *)
Definition join1 (s : shapes) (l : link) : shapes :=
  let '((A, i), (B, j)) := l in
  let v := Nat.min (get s A i) (get s B j) in set (set s A i v) B j v.
(** 249-262: [bs] tells which components are BSgates *)
Definition bs_shape (sh : list nat) : list nat :=
  match sh with
  | [a; b; c; d] =>
    let cd := negb (c =? 0) && negb (d =? 0) in
    let a := if cd && ((a =? 0) || (c + d <? a)) then c + d else a in
    let b := if cd && ((b =? 0) || (c + d <? b)) then c + d else b in
    let ab := negb (a =? 0) && negb (b =? 0) in
    let c := if ab && ((c =? 0) || (a + b <? c)) then a + b else c in
    let d := if ab && ((d =? 0) || (a + b <? d)) then a + b else d in
    [a; b; c; d]
  | _ => sh (* ValueError in the code: excluded by the hypothesis below *)
  end.
Fixpoint bs_all (bs : list bool) (s : shapes) : shapes :=
  match bs, s with
  | b :: bt, sh :: t => (if b then bs_shape sh else sh) :: bs_all bt t
  | _, _ => s
  end.
Definition pass (links : list link) (bs : list bool) (s : shapes) : shapes := bs_all bs (fold_left join1 links s).
Definition shapes_dec : forall s t : shapes, {s = t} + {s <> t} := list_eq_dec (list_eq_dec Nat.eq_dec).
(** 264-273; None: fuel exhausted *)
Fixpoint optimize (fuel : nat) (links : list link) (bs : list bool) (s : shapes) : option shapes :=
  match fuel with O => None | S f =>
    let s' := pass links bs s in if shapes_dec s' s then Some s' else optimize f links bs s' end.

(** ** specification *)
Definition same_layout (s t : shapes) : Prop := map (@length nat) s = map (@length nat) t.
Definition le (t s : shapes) : Prop := same_layout t s /\ forall k i, get t k i <= get s k i.
Definition in_range (s : shapes) (k i : nat) : Prop := k < length s /\ i < length (nth k s []).
Definition positive (s : shapes) : Prop := forall k i, in_range s k i -> 0 < get s k i.
Definition links_ok (links : list link) (s : shapes) : Prop :=
  forall A i B j, In ((A, i), (B, j)) links -> in_range s A i /\ in_range s B j.
Definition bs_ok (bs : list bool) (s : shapes) : Prop := forall k, nth k bs false = true -> k < length s -> length (nth k s []) = 4.
(** connected wires have equal shapes; at a beam splitter (output 0,1, inputs 2,3) photon number is conserved *)
Definition consistent (links : list link) (bs : list bool) (s : shapes) : Prop :=
  (forall A i B j, In ((A, i), (B, j)) links -> get s A i = get s B j)
  /\ (forall k, nth k bs false = true -> k < length s ->
        get s k 0 <= get s k 2 + get s k 3 /\ get s k 1 <= get s k 2 + get s k 3
        /\ get s k 2 <= get s k 0 + get s k 1 /\ get s k 3 <= get s k 0 + get s k 1).

Lemma upd_length : forall {A} i (v : A) l, length (upd i v l) = length l.
Proof. intros A i v l. revert i. induction l as [|x t IH]; intros [|i]; simpl; auto. Qed.
Lemma upd_nth : forall {A} i (v : A) l j d, nth j (upd i v l) d = if (j =? i) && (i <? length l) then v else nth j l d.
Proof.
  intros A i v l. revert i. induction l as [|x t IH]; intros i j d.
  - assert (X : upd i v (@nil A) = []) by now destruct i. rewrite X. simpl. rewrite andb_false_r. reflexivity.
  - destruct i as [|i], j as [|j]; try reflexivity. simpl upd. cbn [nth]. rewrite IH. reflexivity.
Qed.
Lemma set_layout : forall s k i v, same_layout (set s k i v) s.
Proof.
  intros s k i v. unfold same_layout, set. revert k. induction s as [|x t IH]; intros [|k]; simpl; try reflexivity.
  - now rewrite upd_length.
  - f_equal. apply IH.
Qed.
Lemma layout_length : forall s t, same_layout s t -> length s = length t.
Proof. intros s t H. apply (f_equal (@length _)) in H. now rewrite !map_length in H. Qed.
Lemma layout_nth : forall s t k, same_layout s t -> length (nth k s []) = length (nth k t []).
Proof.
  intros s t k H. change 0 with (@length nat []) . rewrite <- (map_nth (@length nat) s [] k), <- (map_nth (@length nat) t [] k). now rewrite H.
Qed.
Lemma get_out : forall s k i, ~ in_range s k i -> get s k i = 0.
Proof.
  intros s k i H. unfold get, in_range in *. destruct (Nat.ltb_spec k (length s)).
  - apply nth_overflow. lia.
  - rewrite (nth_overflow s) by assumption. now destruct i.
Qed.
Lemma set_get : forall s k i v k' i', in_range s k i -> get (set s k i v) k' i' = if (k' =? k) && (i' =? i) then v else get s k' i'.
Proof.
  intros s k i v k' i' [H1 H2]. unfold get, set. rewrite upd_nth. destruct (Nat.eqb_spec k' k) as [->|]; simpl; [|reflexivity].
  apply Nat.ltb_lt in H1. rewrite H1. rewrite upd_nth. apply Nat.ltb_lt in H2. rewrite H2, andb_true_r. reflexivity.
Qed.
Lemma layout_range : forall s t k i, same_layout s t -> in_range s k i -> in_range t k i.
Proof. intros s t k i H [H1 H2]. split; [rewrite <- (layout_length s t H)|rewrite <- (layout_nth s t k H)]; assumption. Qed.
Lemma join1_get : forall s A i B j k x, in_range s A i -> in_range s B j ->
  get (join1 s ((A, i), (B, j))) k x =
  if ((k =? B) && (x =? j)) || ((k =? A) && (x =? i)) then Nat.min (get s A i) (get s B j) else get s k x.
Proof.
  intros s A i B j k x H1 H2. unfold join1. rewrite set_get.
  - destruct ((k =? B) && (x =? j)); simpl; [reflexivity|]. now rewrite set_get.
  - eapply layout_range; [|exact H2]. symmetry. apply set_layout.
Qed.
Lemma layout_trans : forall s t u, same_layout s t -> same_layout t u -> same_layout s u.
Proof. unfold same_layout. congruence. Qed.
Lemma join1_layout : forall s l, same_layout (join1 s l) s.
Proof. intros s [[A i] [B j]]. unfold join1. eapply layout_trans; apply set_layout. Qed.
Lemma le_refl : forall s, le s s. Proof. intros s. split; [reflexivity|auto]. Qed.
Lemma le_trans : forall s t u, le s t -> le t u -> le s u.
Proof. intros s t u [L1 H1] [L2 H2]. split; [congruence|]. intros. etransitivity; eauto. Qed.

Lemma eqb_pair : forall k x B j, (k =? B) && (x =? j) = true -> k = B /\ x = j.
Proof. intros k x B j H. apply andb_prop in H. rewrite !Nat.eqb_eq in H. exact H. Qed.
Lemma join1_le : forall s l, links_ok [l] s -> le (join1 s l) s.
Proof.
  intros s [[A i] [B j]] H. destruct (H A i B j (or_introl eq_refl)) as [H1 H2]. split; [apply join1_layout|]. intros k x. rewrite join1_get by assumption.
  destruct ((k =? B) && (x =? j)) eqn:E1; [apply eqb_pair in E1; destruct E1; subst; simpl; lia|].
  destruct ((k =? A) && (x =? i)) eqn:E2; [apply eqb_pair in E2; destruct E2; subst; simpl; lia|]. reflexivity.
Qed.
Lemma join1_pos : forall s l, links_ok [l] s -> positive s -> positive (join1 s l).
Proof.
  intros s [[A i] [B j]] H P k x R. destruct (H A i B j (or_introl eq_refl)) as [H1 H2]. rewrite join1_get by assumption.
  assert (R' : in_range s k x) by (eapply layout_range; [apply join1_layout|exact R]).
  pose proof (P A i H1). pose proof (P B j H2). pose proof (P k x R'). destruct (_ || _); lia.
Qed.
(** a solution below s stays below after the update *)
Lemma join1_greatest : forall s l t, links_ok [l] s -> le t s ->
  (forall A i B j, l = ((A, i), (B, j)) -> get t A i = get t B j) -> le t (join1 s l).
Proof.
  intros s [[A i] [B j]] t H [L Ht] E. destruct (H A i B j (or_introl eq_refl)) as [H1 H2]. split.
  - eapply layout_trans; [exact L|]. symmetry. apply join1_layout.
  - intros k x. rewrite join1_get by assumption. specialize (E A i B j eq_refl). pose proof (Ht A i). pose proof (Ht B j). pose proof (Ht k x).
    destruct ((k =? B) && (x =? j)) eqn:E1; [apply eqb_pair in E1; destruct E1; subst; simpl; lia|].
    destruct ((k =? A) && (x =? i)) eqn:E2; [apply eqb_pair in E2; destruct E2; subst; simpl; lia|]. simpl. lia.
Qed.
Lemma links_ok_layout : forall links s t, same_layout s t -> links_ok links s -> links_ok links t.
Proof. intros links s t L H A i B j I. destruct (H A i B j I). split; eapply layout_range; eauto. Qed.

Lemma joins_spec : forall links s, links_ok links s ->
  le (fold_left join1 links s) s /\ (positive s -> positive (fold_left join1 links s))
  /\ (forall t, le t s -> (forall A i B j, In ((A, i), (B, j)) links -> get t A i = get t B j) -> le t (fold_left join1 links s))
  /\ (fold_left join1 links s = s -> forall A i B j, In ((A, i), (B, j)) links -> get s A i = get s B j).
Proof.
  induction links as [|l links IH]; intros s H; simpl.
  - split; [apply le_refl|]. split; [auto|]. split; [auto|]. intros _ A i B j [].
  - assert (H1 : links_ok [l] s) by (intros A i B j [E|[]]; apply H; now left).
    assert (H2 : links_ok links (join1 s l)).
    { apply (links_ok_layout links s); [symmetry; apply join1_layout|]. intros A i B j I. apply H. now right. }
    destruct (IH (join1 s l) H2) as [L [P [G F]]]. pose proof (join1_le s l H1) as L1.
    split; [eapply le_trans; eauto|]. split; [intros Ps; apply P; now apply join1_pos|]. split.
    + intros t Ht E. apply G; [|intros; apply E; now right]. apply join1_greatest; [exact H1|exact Ht|]. intros A i B j ->. apply E. now left.
    + intros Eq. assert (LL : le s (join1 s l)) by (rewrite <- Eq at 1; exact L).
      assert (GE : forall k x, get (join1 s l) k x = get s k x).
      { intros k x. pose proof (proj2 LL k x). pose proof (proj2 L1 k x). lia. }
      assert (ES : join1 s l = s).
      { clear - GE L1. destruct L1 as [L _]. revert GE L. generalize (join1 s l). induction s as [|x t IH]; intros u G L; destruct u as [|y u]; try discriminate; [reflexivity|].
        unfold same_layout in L. simpl in L. injection L as L0 L1. f_equal.
        - apply (nth_ext _ _ 0 0 L0). intros n _. apply (G 0 n).
        - apply IH; [|exact L1]. intros k i. apply (G (S k) i). }
      intros A i B j [->|I].
      * destruct (H A i B j (or_introl eq_refl)) as [R1 R2]. pose proof (GE A i) as Q1. pose proof (GE B j) as Q2.
        rewrite join1_get in Q1, Q2 by assumption. rewrite !Nat.eqb_refl, orb_true_r in Q1. rewrite !Nat.eqb_refl in Q2. simpl in Q1, Q2. lia.
      * rewrite ES in F, Eq. now apply (F Eq).
Qed.

(** beam splitters *)
Lemma bs_shape_spec : forall sh, length sh = 4 -> (forall i, i < 4 -> 0 < nth i sh 0) ->
  exists a b c d a' b' c' d', sh = [a; b; c; d] /\ bs_shape sh = [a'; b'; c'; d']
   /\ a' = Nat.min a (c + d) /\ b' = Nat.min b (c + d) /\ c' = Nat.min c (a' + b') /\ d' = Nat.min d (a' + b')
   /\ 0 < a' /\ 0 < b' /\ 0 < c' /\ 0 < d'.
Proof.
  intros sh L P. destruct sh as [|a [|b [|c [|d [|]]]]]; try discriminate.
  pose proof (P 0). pose proof (P 1). pose proof (P 2). pose proof (P 3). simpl in *.
  exists a, b, c, d.
  set (a' := Nat.min a (c + d)). set (b' := Nat.min b (c + d)). exists a', b', (Nat.min c (a' + b')), (Nat.min d (a' + b')).
  assert (Xa : (if (negb (c =? 0) && negb (d =? 0)) && ((a =? 0) || (c + d <? a)) then c + d else a) = a').
  { unfold a'. destruct (Nat.eqb_spec c 0), (Nat.eqb_spec d 0), (Nat.eqb_spec a 0), (Nat.ltb_spec (c + d) a); simpl; lia. }
  assert (Xb : (if (negb (c =? 0) && negb (d =? 0)) && ((b =? 0) || (c + d <? b)) then c + d else b) = b').
  { unfold b'. destruct (Nat.eqb_spec c 0), (Nat.eqb_spec d 0), (Nat.eqb_spec b 0), (Nat.ltb_spec (c + d) b); simpl; lia. }
  assert (Pa : 0 < a') by (unfold a'; lia). assert (Pb : 0 < b') by (unfold b'; lia).
  assert (Xc : (if (negb (a' =? 0) && negb (b' =? 0)) && ((c =? 0) || (a' + b' <? c)) then a' + b' else c) = Nat.min c (a' + b')).
  { destruct (Nat.eqb_spec a' 0), (Nat.eqb_spec b' 0), (Nat.eqb_spec c 0), (Nat.ltb_spec (a' + b') c); simpl; lia. }
  assert (Xd : (if (negb (a' =? 0) && negb (b' =? 0)) && ((d =? 0) || (a' + b' <? d)) then a' + b' else d) = Nat.min d (a' + b')).
  { destruct (Nat.eqb_spec a' 0), (Nat.eqb_spec b' 0), (Nat.eqb_spec d 0), (Nat.ltb_spec (a' + b') d); simpl; lia. }
  split; [reflexivity|]. split; [unfold bs_shape; rewrite Xa, Xb; cbv zeta; rewrite Xc, Xd; reflexivity|].
  repeat split; lia.
Qed.

Lemma bs_all_nth : forall bs s k, nth k (bs_all bs s) [] = if nth k bs false && (k <? length s) then bs_shape (nth k s []) else nth k s [].
Proof.
  induction bs as [|b bt IH]; intros s k; [destruct k, s; reflexivity|]. destruct s as [|sh t].
  - simpl. destruct k; simpl; now rewrite ?andb_false_r.
  - destruct k as [|k]; simpl; [now destruct b|]. rewrite IH. reflexivity.
Qed.
Lemma bs_all_length : forall bs s, length (bs_all bs s) = length s.
Proof. induction bs as [|b bt IH]; intros [|sh t]; simpl; auto. Qed.
Lemma layout_from_nth : forall s t, length s = length t -> (forall k, k < length s -> length (nth k s []) = length (nth k t [])) -> same_layout s t.
Proof.
  intros s t L H. unfold same_layout. apply (nth_ext _ _ 0 0); [now rewrite !map_length|]. intros n Hn. rewrite map_length in Hn.
  change 0 with (@length nat []). rewrite !map_nth. now apply H.
Qed.
Lemma bs_all_spec : forall bs s, bs_ok bs s -> positive s ->
  le (bs_all bs s) s /\ positive (bs_all bs s)
  /\ (forall t, le t s -> (forall k, nth k bs false = true -> k < length t ->
        get t k 0 <= get t k 2 + get t k 3 /\ get t k 1 <= get t k 2 + get t k 3
        /\ get t k 2 <= get t k 0 + get t k 1 /\ get t k 3 <= get t k 0 + get t k 1) -> le t (bs_all bs s))
  /\ (bs_all bs s = s -> forall k, nth k bs false = true -> k < length s ->
        get s k 0 <= get s k 2 + get s k 3 /\ get s k 1 <= get s k 2 + get s k 3
        /\ get s k 2 <= get s k 0 + get s k 1 /\ get s k 3 <= get s k 0 + get s k 1).
Proof.
  intros bs s BO P.
  assert (SP : forall k, nth k bs false = true -> k < length s -> exists a b c d a' b' c' d', nth k s [] = [a; b; c; d]
     /\ nth k (bs_all bs s) [] = [a'; b'; c'; d']
     /\ a' = Nat.min a (c + d) /\ b' = Nat.min b (c + d) /\ c' = Nat.min c (a' + b') /\ d' = Nat.min d (a' + b')
     /\ 0 < a' /\ 0 < b' /\ 0 < c' /\ 0 < d').
  { intros k B K. rewrite bs_all_nth, B. apply Nat.ltb_lt in K. rewrite K. simpl. apply Nat.ltb_lt in K.
    destruct (bs_shape_spec (nth k s [])) as [a [b [c [d [a' [b' [c' [d' H]]]]]]]].
    - now apply BO.
    - intros i Hi. apply (P k i). split; [exact K|]. now rewrite (BO k B K).
    - now exists a, b, c, d, a', b', c', d'. }
  assert (NB : forall k, nth k bs false && (k <? length s) = false -> nth k (bs_all bs s) [] = nth k s []).
  { intros k H. now rewrite bs_all_nth, H. }
  assert (CASE : forall k, (nth k bs false = true /\ k < length s) \/ nth k (bs_all bs s) [] = nth k s []).
  { intros k. destruct (nth k bs false && (k <? length s)) eqn:E; [left|right; now apply NB]. apply andb_prop in E. rewrite Nat.ltb_lt in E. exact E. }
  assert (LAY : same_layout (bs_all bs s) s).
  { apply layout_from_nth; [apply bs_all_length|]. intros k _. destruct (CASE k) as [[B K]|E]; [|now rewrite E].
    destruct (SP k B K) as [a [b [c [d [a' [b' [c' [d' [E1 [E2 _]]]]]]]]]]. now rewrite E1, E2. }
  split; [|split; [|split]].
  - split; [exact LAY|]. intros k i. unfold get. destruct (CASE k) as [[B K]|E]; [|rewrite E; lia].
    destruct (SP k B K) as [a [b [c [d [a' [b' [c' [d' [E1 [E2 H]]]]]]]]]]. rewrite E1, E2.
    destruct i as [|[|[|[|[|i]]]]]; simpl; lia.
  - intros k i R. unfold get. destruct (CASE k) as [[B K]|E].
    + destruct (SP k B K) as [a [b [c [d [a' [b' [c' [d' [E1 [E2 H]]]]]]]]]]. destruct R as [_ R]. rewrite E2 in R |- *. simpl in R.
      destruct i as [|[|[|[|i]]]]; simpl; lia.
    + rewrite E. apply P. eapply layout_range; eauto.
  - intros t [L Ht] C. split; [eapply layout_trans; [exact L|symmetry; exact LAY]|]. intros k i. destruct (CASE k) as [[B K]|E].
    + destruct (SP k B K) as [a [b [c [d [a' [b' [c' [d' [E1 [E2 H]]]]]]]]]].
      assert (KT : k < length t) by (rewrite (layout_length t s L); exact K). specialize (C k B KT).
      pose proof (Ht k 0) as T0. pose proof (Ht k 1) as T1. pose proof (Ht k 2) as T2. pose proof (Ht k 3) as T3. pose proof (Ht k i) as Ti.
      unfold get in T0, T1, T2, T3, Ti |- *. unfold get in C. rewrite E1 in T0, T1, T2, T3, Ti. rewrite E2.
      destruct i as [|[|[|[|i]]]]; simpl in *; lia.
    + unfold get at 2. rewrite E. apply Ht.
  - intros Eq k B K. destruct (SP k B K) as [a [b [c [d [a' [b' [c' [d' [E1 [E2 H]]]]]]]]]]. rewrite Eq, E1 in E2. injection E2 as <- <- <- <-.
    unfold get. rewrite E1. simpl. lia.
Qed.

Lemma le_antisym : forall s t, le s t -> le t s -> s = t.
Proof.
  intros s t [L H1] [_ H2]. revert t L H1 H2. induction s as [|x s IH]; intros [|y t] L H1 H2; try discriminate; [reflexivity|].
  unfold same_layout in L. simpl in L. injection L as L0 L1. f_equal.
  - apply (nth_ext _ _ 0 0 L0). intros n _. specialize (H1 0 n). specialize (H2 0 n). unfold get in *. simpl in *. lia.
  - apply IH; [exact L1| |]; intros k i; [apply (H1 (S k) i)|apply (H2 (S k) i)].
Qed.

Lemma pass_spec : forall links bs s, links_ok links s -> bs_ok bs s -> positive s ->
  le (pass links bs s) s /\ positive (pass links bs s) /\ (forall t, le t s -> consistent links bs t -> le t (pass links bs s))
  /\ (pass links bs s = s -> consistent links bs s).
Proof.
  intros links bs s LO BO P. destruct (joins_spec links s LO) as [L1 [P1 [G1 F1]]]. set (u := fold_left join1 links s) in *.
  assert (BU : bs_ok bs u).
  { intros k B K. rewrite (layout_nth u s k (proj1 L1)). apply BO; [exact B|]. now rewrite <- (layout_length u s (proj1 L1)). }
  destruct (bs_all_spec bs u BU (P1 P)) as [L2 [P2 [G2 F2]]].
  unfold pass. fold u. split; [eapply le_trans; eauto|]. split; [exact P2|]. split.
  - intros t Ht [C1 C2]. apply G2; [|exact C2]. now apply G1.
  - intros E. assert (U : u = s) by (apply le_antisym; [exact L1|rewrite <- E; exact L2]).
    split; [now apply F1|]. rewrite U in E, F2. now apply F2.
Qed.

Definition total (s : shapes) : nat := list_sum (map list_sum s).
Lemma list_sum_le : forall l m, length l = length m -> (forall i, nth i l 0 <= nth i m 0) -> list_sum l <= list_sum m.
Proof.
  induction l as [|x l IH]; intros [|y m] L H; try discriminate; [simpl; lia|]. simpl. pose proof (H 0). simpl in *.
  specialize (IH m ltac:(lia) (fun i => H (S i))). lia.
Qed.
Lemma list_sum_lt : forall l m, length l = length m -> (forall i, nth i l 0 <= nth i m 0) -> l <> m -> list_sum l < list_sum m.
Proof.
  induction l as [|x l IH]; intros [|y m] L H N; try discriminate; [congruence|]. simpl. pose proof (H 0) as H0. simpl in *.
  destruct (list_eq_dec Nat.eq_dec l m) as [->|N'].
  - assert (x <> y) by congruence. lia.
  - specialize (IH m ltac:(lia) (fun i => H (S i)) N'). lia.
Qed.
Lemma total_lt : forall s t, le s t -> s <> t -> total s < total t.
Proof.
  intros s t [L H] N. unfold total. apply list_sum_lt.
  - rewrite !map_length. now apply layout_length.
  - intros i. change 0 with (list_sum []). rewrite !map_nth. apply list_sum_le; [now apply layout_nth|]. intros j. apply (H i j).
  - intros E. apply N. apply le_antisym; [now split|]. split; [symmetry; exact L|]. intros k i.
    assert (EK : list_sum (nth k s []) = list_sum (nth k t [])).
    { change (list_sum (nth k s [])) with (list_sum (nth k s [])). rewrite <- !(map_nth list_sum). now rewrite E. }
    assert (nth k s [] = nth k t []) as X.
    { destruct (list_eq_dec Nat.eq_dec (nth k s []) (nth k t [])) as [X|X]; [exact X|].
      exfalso. pose proof (list_sum_lt _ _ (layout_nth s t k L) (fun j => H k j) X). lia. }
    unfold get. rewrite X. lia.
Qed.

(** C11: the iteration ends, never increases a shape, keeps shapes positive, and its result is consistent; it is the largest
    consistent assignment below the initial one *)
Theorem C11_fock_shapes : forall links bs s, links_ok links s -> bs_ok bs s -> positive s ->
  exists s', (forall fuel, total s < fuel -> optimize fuel links bs s = Some s')
    /\ le s' s /\ positive s' /\ consistent links bs s'
    /\ forall t, le t s -> consistent links bs t -> le t s'.
Proof.
  intros links bs s. remember (total s) as n eqn:En. revert s En. induction n as [n IH] using (well_founded_induction Wf_nat.lt_wf).
  intros s En LO BO P. destruct (pass_spec links bs s LO BO P) as [L [PP [G F]]].
  destruct (shapes_dec (pass links bs s) s) as [E|N].
  - exists s. split; [intros [|f] H; [lia|simpl; destruct (shapes_dec _ s); [now rewrite E|tauto]]|]. split; [apply le_refl|]. split; [exact P|].
    split; [now apply F|]. auto.
  - pose proof (total_lt _ _ L N) as LT. destruct (IH (total (pass links bs s))) with (s := pass links bs s) as [s' [E' [L' [P' [C' G']]]]]; auto; [lia| | |].
    + eapply links_ok_layout; [|exact LO]. symmetry. apply L.
    + intros k B K. rewrite (layout_nth _ s k (proj1 L)). apply BO; [exact B|]. now rewrite <- (layout_length _ s (proj1 L)).
    + exists s'. split; [intros [|f] H; [lia|]|].
      * simpl. destruct (shapes_dec (pass links bs s) s); [tauto|]. apply E'. lia.
      * split; [eapply le_trans; eauto|]. split; [exact P'|]. split; [exact C'|]. intros t Ht Ct. apply G'; [|exact Ct]. now apply G.
Qed.

(** a state with cutoffs 2,3 into a beam splitter with cutoffs 9,9,5,5 into a detector with cutoffs 20,1 *)
Theorem C11_example :
  links_ok [((0, 0), (1, 2)); ((0, 1), (1, 3)); ((1, 0), (2, 0)); ((1, 1), (2, 1))] [[2; 3]; [9; 9; 5; 5]; [20; 1]]
  /\ bs_ok [false; true; false] [[2; 3]; [9; 9; 5; 5]; [20; 1]] /\ positive [[2; 3]; [9; 9; 5; 5]; [20; 1]]
  /\ optimize 100 [((0, 0), (1, 2)); ((0, 1), (1, 3)); ((1, 0), (2, 0)); ((1, 1), (2, 1))] [false; true; false] [[2; 3]; [9; 9; 5; 5]; [20; 1]]
     = Some [[2; 3]; [5; 1; 2; 3]; [5; 1]].
Proof.
  split; [|split; [|split; [|reflexivity]]].
  - intros A i B j H. simpl in H. repeat (destruct H as [H|H]; [injection H as <- <- <- <-; split; split; simpl; lia|]). destruct H.
  - intros k B K. destruct k as [|[|[|k]]]; simpl in *; try discriminate; try lia; reflexivity.
  - intros k i [K I]. destruct k as [|[|[|k]]]; simpl in *; try lia; destruct i as [|[|[|[|i]]]]; simpl in *; unfold get; simpl; lia.
Qed.
