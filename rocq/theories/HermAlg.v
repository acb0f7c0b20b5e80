(** Algebra of the amplitudes [amp] (Series.v), the values of math.hermite_renormalized: uniqueness of the recurrence,
    block-diagonal A, and the expansion in the linear part.  Used by PolyExp.v. *)
From Coq Require Import List Arith Lia Field Ring Permutation.
From Verif Require Import RootField Tensor Series Vanilla VanillaProps StellarFock.
Import ListNotations.

Lemma at_app_l : forall i k l, i < length k -> at' i (k ++ l) = at' i k.
Proof. intros. unfold at'. now apply app_nth1. Qed.
Lemma at_app_r : forall i k l, at' (length k + i) (k ++ l) = at' i l.
Proof. intros. unfold at'. rewrite app_nth2 by lia. f_equal. lia. Qed.
Lemma upd_app_l : forall i v k l, i < length k -> upd i v (k ++ l) = upd i v k ++ l.
Proof. induction i; destruct k; simpl; intros l H; try lia; auto. f_equal. apply IHi. lia. Qed.
Lemma upd_app_r : forall i v k l, upd (length k + i) v (k ++ l) = k ++ upd i v l.
Proof. induction k as [|x k IH]; simpl; intros l; auto. now rewrite IH. Qed.
Lemma dec_app_l : forall i k l, i < length k -> dec i (k ++ l) = dec i k ++ l.
Proof. intros. unfold dec. now rewrite at_app_l, upd_app_l. Qed.
Lemma dec_app_r : forall i k l, dec (length k + i) (k ++ l) = k ++ dec i l.
Proof. intros. unfold dec. now rewrite at_app_r, upd_app_r. Qed.
Lemma nz_axis : forall k, k <> zeros (length k) -> exists i, i < length k /\ at' i k <> 0.
Proof.
  induction k as [|x k IH]; intros H; [now elim H|]. destruct (Nat.eq_dec x 0) as [->|N].
  - destruct IH as [i [Hi Hn]]; [intros E; apply H; cbn [length zeros repeat]; now rewrite E at 1|].
    exists (S i). split; [simpl; lia|exact Hn].
  - exists 0. split; [simpl; lia|exact N].
Qed.
Lemma sum_app_idx : forall k l, list_sum (k ++ l) = list_sum k + list_sum l.
Proof. intros. apply list_sum_app. Qed.

Section Alg.
  Context {K : rootfield}.
  Add Field Kfield : (kft K).
  Open Scope rf_scope.

  (** sum of f over the elements of a list *)
  Definition lsum {X} (l : list X) (f : X -> K) : K := sum k0 kadd l f.
  Let Rth := F_R (kft K).
  Lemma lsum_ext : forall {X} (l : list X) f g, (forall x, In x l -> f x = g x) -> lsum l f = lsum l g.
  Proof. intros. now apply sum_ext. Qed.
  Lemma lsum_app : forall {X} (l1 l2 : list X) f, lsum (l1 ++ l2) f = lsum l1 f + lsum l2 f.
  Proof. intros. apply (sum_app _ _ _ _ _ _ Rth). Qed.
  Lemma lsum_map : forall {X Y} (g : X -> Y) l f, lsum (map g l) f = lsum l (fun x => f (g x)).
  Proof. intros. apply sum_map. Qed.
  Lemma lsum_add : forall {X} (l : list X) f g, lsum l (fun x => f x + g x) = lsum l f + lsum l g.
  Proof. intros. apply (sum_add _ _ _ _ _ _ Rth). Qed.
  Lemma lsum_zero : forall {X} (l : list X) f, (forall x, In x l -> f x = k0) -> lsum l f = k0.
  Proof. intros. now apply (sum_zero _ _ _ _ _ _ Rth). Qed.
  Lemma lsum_swap : forall {X Y} (l1 : list X) (l2 : list Y) f, lsum l1 (fun x => lsum l2 (fun y => f x y)) = lsum l2 (fun y => lsum l1 (fun x => f x y)).
  Proof. intros. apply (sum_swap _ _ _ _ _ _ Rth). Qed.
  Lemma lsum_scal : forall {X} (l : list X) c f, lsum l (fun x => c * f x) = c * lsum l f.
  Proof. intros. apply (sum_scal_l _ _ _ _ _ _ Rth). Qed.
  Lemma lsum_scal_r : forall {X} (l : list X) c f, lsum l (fun x => f x * c) = lsum l f * c.
  Proof. intros. apply (sum_scal_r _ _ _ _ _ _ Rth). Qed.
  Lemma lsum_perm : forall {X} (l1 l2 : list X) f, Permutation l1 l2 -> lsum l1 f = lsum l2 f.
  Proof. intros. now apply (sum_perm _ _ _ _ _ _ Rth). Qed.
  Lemma lsum_cons : forall {X} (x : X) l f, lsum (x :: l) f = f x + lsum l f.
  Proof. reflexivity. Qed.
  Lemma lsum_nil : forall {X} (f : X -> K), lsum [] f = k0.
  Proof. reflexivity. Qed.
  Lemma lsum_box_app : forall d1 d2 f, lsum (box (d1 ++ d2)) f = lsum (box d1) (fun a => lsum (box d2) (fun e => f (a ++ e))).
  Proof. intros. apply (sum_box_app _ _ _ _ _ _ Rth). Qed.
  Lemma lsum_box_cons : forall d t f, lsum (box (d :: t)) f = lsum (seq 0 d) (fun i => lsum (box t) (fun k => f (i :: k))).
  Proof. intros. apply (sum_box_cons _ _ _ _ _ _ Rth). Qed.
  Lemma lsum_seq : forall f n m, lsum (seq m n) f = sumn n (fun i => f (m + i)%nat).
  Proof.
    intros f n. revert f. induction n as [|n IH]; intros f m; [reflexivity|]. cbn [seq]. rewrite lsum_cons, IH, sumn_S_l.
    rewrite Nat.add_0_r. f_equal. apply sumn_ext. intros i _. f_equal. lia.
  Qed.
  Lemma lsum_seq0 : forall f n, lsum (seq 0 n) f = sumn n f.
  Proof. intros. rewrite lsum_seq. now apply sumn_ext. Qed.
  Lemma lsum_nth : forall (l : list nat) f, sumn (length l) (fun i => f (nth i l 0)) = lsum l f.
  Proof. induction l as [|x l IH]; intros f; [reflexivity|]. cbn [length]. rewrite sumn_S_l, lsum_cons. now rewrite IH. Qed.

  (** the recurrence determines the amplitudes (up to any total photon number) *)
  Lemma amp_unique_bd : forall D A b N, symmetric D A -> forall (f : list nat -> K) c, f (zeros D) = c ->
    (forall k i, length k = D -> list_sum k < N -> i < D -> at' i k <> 0 ->
      sq (at' i k) * f k = b i * f (dec i k) + sumn D (fun j => A i j * (sq (at' j (dec i k)) * f (dec j (dec i k))))) ->
    forall k, length k = D -> list_sum k < N -> f k = amp D A b c k.
  Proof.
    intros D A b M S f c Z R k. remember (list_sum k) as s eqn:E. revert k E. induction s as [s IH] using lt_wf_ind. intros k E L Hs.
    destruct (list_eq_dec Nat.eq_dec k (zeros D)) as [->|N]; [now rewrite amp_zero|].
    rewrite <- L in N. destruct (nz_axis k N) as [i [Hi Hn]]. rewrite (amp_step D A b S c i k) by (auto; lia).
    assert (Q : @sq K (at' i k) <> k0) by now apply sq_neq.
    transitivity ((sq (at' i k) * f k) / sq (at' i k)); [field; exact Q|]. rewrite R by (auto; lia). f_equal.
    pose proof (sum_dec i k Hi Hn) as Sd.
    f_equal; [rewrite (IH (list_sum (dec i k))); auto; try lia; now rewrite dec_length|].
    apply sumn_ext. intros j Hj. destruct (Nat.eq_dec (at' j (dec i k)) 0) as [E0|E0]; [rewrite E0, sq_0; ring|].
    assert (Hj' : j < length (dec i k)) by (rewrite dec_length; lia). pose proof (sum_dec j (dec i k) Hj' E0).
    rewrite (IH (list_sum (dec j (dec i k)))); auto; try lia; now rewrite !dec_length.
  Qed.
  Lemma amp_unique : forall D A b, symmetric D A -> forall (f : list nat -> K) c, f (zeros D) = c ->
    (forall k i, length k = D -> i < D -> at' i k <> 0 ->
      sq (at' i k) * f k = b i * f (dec i k) + sumn D (fun j => A i j * (sq (at' j (dec i k)) * f (dec j (dec i k))))) ->
    forall k, length k = D -> f k = amp D A b c k.
  Proof. intros D A b S f c Z R k L. apply (amp_unique_bd D A b (Datatypes.S (list_sum k)) S f c Z); auto. Qed.
  Lemma amp_ext : forall D (A A' : nat -> nat -> K) b b' c k, symmetric D A -> length k = D ->
    (forall i j, i < D -> j < D -> A i j = A' i j) -> (forall i, i < D -> b i = b' i) -> amp D A b c k = amp D A' b' c k.
  Proof.
    intros D A A' b b' c k S L HA Hb. apply amp_unique; auto.
    - intros i j Hi Hj. rewrite <- !HA by assumption. now apply S.
    - apply amp_zero.
    - intros k' i L' Hi N. rewrite (amp_rec D A b S) by auto. rewrite Hb by auto. f_equal. apply sumn_ext. intros j Hj. now rewrite HA.
  Qed.
  Lemma amp_c : forall D A b (c : K) k, amp D A b c k = c * amp D A b k1 k.
  Proof. intros. unfold amp. ring. Qed.
  Lemma amp_nil : forall A b (c : K), amp 0 A b c [] = c.
  Proof. intros. apply (amp_zero 0). Qed.

  (** the direct sum of two quadratic forms *)
  Definition blk (m : nat) (A1 A2 : nat -> nat -> K) (i j : nat) : K :=
    if i <? m then (if j <? m then A1 i j else k0) else (if j <? m then k0 else A2 (i - m)%nat (j - m)%nat).
  Definition cat (m : nat) (b1 b2 : nat -> K) (i : nat) : K := if i <? m then b1 i else b2 (i - m)%nat.
  Lemma blk_sym : forall m1 m2 A1 A2, symmetric m1 A1 -> symmetric m2 A2 -> symmetric (m1 + m2) (blk m1 A1 A2).
  Proof.
    intros m1 m2 A1 A2 S1 S2 i j Hi Hj. unfold blk. destruct (Nat.ltb_spec i m1), (Nat.ltb_spec j m1); auto; apply S2; lia.
  Qed.
  Lemma sumn_blk : forall m1 m2 A1 A2 i (g : nat -> K),
    sumn (m1 + m2) (fun j => blk m1 A1 A2 i j * g j) = if i <? m1 then sumn m1 (fun j => A1 i j * g j) else sumn m2 (fun j => A2 (i - m1)%nat j * g (m1 + j)%nat).
  Proof.
    intros m1 m2 A1 A2 i g. rewrite sumn_plus. unfold blk. destruct (Nat.ltb_spec i m1).
    - rewrite (sumn_0 m2); [|intros j Hj; destruct (Nat.ltb_spec (m1 + j) m1); [lia|ring]].
      rewrite (sumn_ext m1 _ (fun j => A1 i j * g j)); [ring|]. intros j Hj. destruct (Nat.ltb_spec j m1); [reflexivity|lia].
    - rewrite (sumn_0 m1); [|intros j Hj; destruct (Nat.ltb_spec j m1); [ring|lia]].
      rewrite (sumn_ext m2 _ (fun j => A2 (i - m1)%nat j * g (m1 + j)%nat)); [ring|]. intros j Hj. destruct (Nat.ltb_spec (m1 + j) m1); [lia|].
      do 2 f_equal. lia.
  Qed.
  Lemma zeros_app : forall m n, zeros (m + n) = zeros m ++ zeros n.
  Proof. intros. unfold zeros. apply repeat_app. Qed.
  Lemma amp_block : forall m1 m2 A1 A2 b1 b2 k1' k2', symmetric m1 A1 -> symmetric m2 A2 -> length k1' = m1 -> length k2' = m2 ->
    amp (m1 + m2) (blk m1 A1 A2) (cat m1 b1 b2) k1 (k1' ++ k2') = amp m1 A1 b1 k1 k1' * amp m2 A2 b2 k1 k2'.
  Proof.
    intros m1 m2 A1 A2 b1 b2 x y S1 S2 L1 L2. symmetry.
    set (f := fun k : list nat => amp m1 A1 b1 k1 (firstn m1 k) * amp m2 A2 b2 k1 (skipn m1 k)).
    assert (Ff : forall x y, length x = m1 -> f (x ++ y) = amp m1 A1 b1 k1 x * amp m2 A2 b2 k1 y).
    { intros u v Lu. unfold f. rewrite <- Lu. rewrite firstn_app, firstn_all, Nat.sub_diag, skipn_app, skipn_all, Nat.sub_diag. cbn [firstn skipn app]. now rewrite app_nil_r. }
    rewrite <- Ff by exact L1.
    apply amp_unique; [now apply blk_sym| | |rewrite app_length; lia].
    - rewrite zeros_app, Ff by apply repeat_length. rewrite !amp_zero. ring.
    - intros k i L Hi N. rewrite <- (firstn_skipn m1 k) in N |- *. set (u := firstn m1 k) in *. set (v := skipn m1 k) in *.
      assert (Lu : length u = m1) by (unfold u; rewrite firstn_length; lia). assert (Lv : length v = m2) by (unfold v; rewrite skipn_length; lia).
      clearbody u v. rewrite (sumn_blk m1 m2 A1 A2 i). unfold cat. destruct (Nat.ltb_spec i m1) as [H|H].
      + rewrite at_app_l in N |- * by lia. rewrite dec_app_l by lia. rewrite !Ff by (rewrite ?dec_length; assumption).
        transitivity ((sq (at' i u) * amp m1 A1 b1 k1 u) * amp m2 A2 b2 k1 v); [ring|]. rewrite (amp_rec m1 A1 b1 S1) by auto.
        rewrite (sumn_ext m1 (fun j => A1 i j * (sq (at' j (dec i u ++ v)) * f (dec j (dec i u ++ v)))) (fun j => (A1 i j * (sq (at' j (dec i u)) * amp m1 A1 b1 k1 (dec j (dec i u)))) * amp m2 A2 b2 k1 v)).
        * rewrite sumn_scal_r. ring.
        * intros j Hj. rewrite at_app_l by (rewrite dec_length; lia). rewrite dec_app_l by (rewrite dec_length; lia). rewrite Ff by (rewrite !dec_length; assumption). ring.
      + assert (Hi' : i = (length u + (i - m1))%nat) by lia. set (i' := (i - m1)%nat) in *. rewrite Hi' in N |- *. rewrite at_app_r in N |- *.
        rewrite dec_app_r. rewrite !Ff by assumption.
        transitivity (amp m1 A1 b1 k1 u * (sq (at' i' v) * amp m2 A2 b2 k1 v)); [ring|]. rewrite (amp_rec m2 A2 b2 S2) by (auto; unfold i'; lia).
        rewrite (sumn_ext m2 (fun j => A2 i' j * (sq (at' (m1 + j) (u ++ dec i' v)) * f (dec (m1 + j) (u ++ dec i' v)))) (fun j => amp m1 A1 b1 k1 u * (A2 i' j * (sq (at' j (dec i' v)) * amp m2 A2 b2 k1 (dec j (dec i' v)))))).
        * rewrite sumn_scal. ring.
        * intros j Hj. rewrite <- Lu. rewrite at_app_r, dec_app_r, Ff by assumption. rewrite Lu. ring.
  Qed.

  (** no amplitude with more photons in the first n variables than in the others, if A and b vanish on the first n *)
  Lemma amp_sparse : forall n m (A : nat -> nat -> K) b c, symmetric (n + m) A -> (forall i j, i < n -> j < n -> A i j = k0) -> (forall i, i < n -> b i = k0) ->
    forall l k, length l = n -> length k = m -> list_sum k < list_sum l -> amp (n + m) A b c (l ++ k) = k0.
  Proof.
    intros n m A b c S HA Hb l k. remember (list_sum l) as s eqn:E. revert l k E. induction s as [s IH] using lt_wf_ind. intros l k E Ll Lk H.
    destruct (list_eq_dec Nat.eq_dec l (zeros (length l))) as [Z|N]; [rewrite Z, sum_zeros in E; lia|].
    destruct (nz_axis l N) as [i [Hi Hn]]. pose proof (sum_dec i l Hi Hn) as Sd.
    rewrite (amp_step (n + m) A b S c i) by (try (rewrite app_length); try (rewrite at_app_l); auto; lia).
    rewrite Hb by lia. rewrite sumn_0.
    - rewrite at_app_l by lia. assert (Q : @sq K (at' i l) <> k0) by now apply sq_neq. field. exact Q.
    - intros j Hj. destruct (Nat.lt_ge_cases j n) as [Hjn|Hjn]; [rewrite HA by lia; ring|].
      rewrite dec_app_l by exact Hi. replace j with (length (dec i l) + (j - n))%nat by (rewrite dec_length; lia). rewrite at_app_r, dec_app_r.
      destruct (Nat.eq_dec (at' (j - n) k) 0) as [E0|E0]; [rewrite E0, sq_0; ring|].
      pose proof (sum_dec (j - n) k ltac:(lia) E0). rewrite (IH (list_sum (dec i l))); auto; try ring; rewrite ?dec_length; auto; lia.
  Qed.

  (** moving the index a of a box down by one, when the terms at its last value vanish *)
  Lemma box_shift : forall ds a (h : list nat -> K), a < length ds -> (forall l, In l (box ds) -> S (at' a l) = nth a ds 0 -> h l = k0) ->
    lsum (box ds) (fun l => if Nat.eqb (at' a l) 0 then k0 else h (dec a l)) = lsum (box ds) h.
  Proof.
    induction ds as [|d t IH]; intros a h Ha H; simpl in Ha; [lia|]. rewrite !lsum_box_cons. destruct a as [|a].
    - rewrite !lsum_seq0. destruct d as [|d]; [reflexivity|]. rewrite sumn_S_l. cbn [sumn].
      rewrite (lsum_zero (box t) (fun k => if Nat.eqb (at' 0 (0 :: k)) 0 then k0 else h (dec 0 (0 :: k)))) by reflexivity.
      rewrite (lsum_zero (box t) (fun k => h (d :: k))).
      + rewrite (sumn_ext d (fun i => lsum (box t) (fun k => if Nat.eqb (at' 0 (S i :: k)) 0 then k0 else h (dec 0 (S i :: k)))) (fun i => lsum (box t) (fun k => h (i :: k)))) by reflexivity. ring.
      + intros l Hl. apply H; [|reflexivity]. apply in_box. apply in_box in Hl. constructor; [lia|exact Hl].
    - apply lsum_ext. intros i Hi. apply in_seq in Hi.
      transitivity (lsum (box t) (fun k => if Nat.eqb (at' a k) 0 then k0 else (fun k => h (i :: k)) (dec a k))); [reflexivity|]. apply (IH a (fun k => h (i :: k))); [lia|].
      intros l Hl E. apply H; [|exact E]. apply in_box. apply in_box in Hl. constructor; [lia|exact Hl].
  Qed.
  (** the amplitudes of a pure linear exponent: powers of z divided by the roots of the factorials *)
  Definition mono (n : nat) (z : nat -> K) (l : list nat) : K := amp n (fun _ _ => k0) z k1 l.
  Lemma mono_rec : forall n z a l, a < n -> length l = n -> at' a l <> 0 -> sq (at' a l) * mono n z l = z a * mono n z (dec a l).
  Proof.
    intros n z a l Ha L N. unfold mono. rewrite (amp_rec n (fun _ _ => k0) z) by (auto; intros i j _ _; reflexivity).
    rewrite sumn_0 by (intros; ring). ring.
  Qed.

  Section Shift.
    Variables (n m N : nat) (A : nat -> nat -> K) (b z : nat -> K).
    Hypothesis Sym : symmetric (n + m) A.
    Hypothesis HA : forall i j, i < n -> j < n -> A i j = k0.
    Hypothesis Hb : forall i, i < n -> b i = k0.
    Let g := amp (n + m) A b k1.
    Let bx := box (repeat N n).
    Let tot (k : list nat) : K := lsum bx (fun l => mono n z l * g (l ++ k)).
    Lemma bx_len : forall l, In l bx -> length l = n.
    Proof. intros l Hl. apply box_length_in in Hl. now rewrite repeat_length in Hl. Qed.
    Lemma tot_zero : forall k, length k = m -> list_sum k = 0 -> 0 < N -> tot k = k1.
    Proof.
      intros k L Z P. unfold tot.
      assert (Zk : k = zeros m) by (rewrite <- L; now apply sum_zero_iff).
      assert (G : forall ds n', length ds = n' -> (forall d, In d ds -> 0 < d) -> forall h : list nat -> K, (forall l, In l (box ds) -> l <> zeros n' -> h l = k0) -> lsum (box ds) h = h (zeros n')).
      { induction ds as [|d t IH]; intros n' Ln Pd h Hh; [subst n'; cbn [box length]; rewrite lsum_cons, lsum_nil; cbn [zeros repeat]; ring|].
        destruct n' as [|n']; [discriminate|]. injection Ln as Ln. assert (Pd0 : 0 < d) by (apply Pd; now left). rewrite lsum_box_cons, lsum_seq0.
        destruct d as [|d]; [lia|]. rewrite sumn_S_l. rewrite (sumn_0 d).
        - rewrite (IH n' Ln).
          + cbn [zeros repeat]. change (repeat 0 n') with (zeros n'). ring.
          + intros d' Hd'. apply Pd. now right.
          + intros l Hl Nl. apply Hh; [apply in_box; constructor; [lia|now apply in_box]|]. cbn [zeros repeat]. intros E. injection E as E. contradiction.
        - intros i Hi. apply lsum_zero. intros l Hl. apply Hh; [apply in_box; constructor; [lia|now apply in_box]|]. cbn [zeros repeat]. discriminate. }
      rewrite (G (repeat N n) n (repeat_length _ _)).
      - unfold mono, g. rewrite amp_zero, Zk, <- zeros_app, amp_zero. ring.
      - intros d Hd. apply repeat_spec in Hd. lia.
      - intros l Hl Nl. pose proof (bx_len l Hl) as Ll. assert (H : list_sum k < list_sum l) by (rewrite Z; destruct (Nat.eq_dec (list_sum l) 0) as [E|E]; [apply sum_zero_iff in E; rewrite Ll in E; contradiction|lia]).
        unfold g. rewrite (amp_sparse n m A b k1 Sym HA Hb l k) by auto. ring.
    Qed.
    Lemma tot_shift : forall a k, a < n -> length k = m -> S (list_sum k) < N ->
      lsum bx (fun l => mono n z l * (sq (at' a l) * g (dec a l ++ k))) = z a * tot k.
    Proof.
      intros a k Ha Lk Hk. unfold tot. rewrite <- lsum_scal. unfold bx.
      rewrite <- (box_shift (repeat N n) a (fun l => z a * (mono n z l * g (l ++ k)))).
      - apply lsum_ext. intros l Hl. pose proof (bx_len l Hl) as Ll. destruct (Nat.eqb_spec (at' a l) 0) as [E|E]; [rewrite E, sq_0; ring|].
        transitivity ((sq (at' a l) * mono n z l) * g (dec a l ++ k)); [ring|]. rewrite mono_rec by auto. ring.
      - now rewrite repeat_length.
      - intros l Hl E. pose proof (bx_len l Hl) as Ll. assert (EN : nth a (repeat N n) 0 = N) by (apply (repeat_spec n N), nth_In; now rewrite repeat_length). rewrite EN in E.
        pose proof (at_le_sum l a). unfold g. rewrite (amp_sparse n m A b k1 Sym HA Hb l k) by (auto; lia). ring.
    Qed.
    (** the linear part of the last m variables may be shifted by a combination of the first n *)
    Lemma amp_shift : forall k, length k = m -> list_sum k < N ->
      amp m (fun i j => A (n + i)%nat (n + j)%nat) (fun i => sumn n (fun a => A a (n + i)%nat * z a) + b (n + i)%nat) k1 k
      = lsum (box (repeat N n)) (fun l => amp n (fun _ _ => k0) z k1 l * amp (n + m) A b k1 (l ++ k)).
    Proof.
      intros k Lk Hk. symmetry. change (tot k = amp m (fun i j => A (n + i)%nat (n + j)%nat) (fun i => sumn n (fun a => A a (n + i)%nat * z a) + b (n + i)%nat) k1 k).
      apply (amp_unique_bd m _ _ N); auto.
      - intros i j Hi Hj. apply Sym; lia.
      - apply tot_zero; [apply repeat_length|apply sum_zeros|lia].
      - clear k Lk Hk. intros k i Lk Hk Hi Ni. pose proof (sum_dec i k ltac:(lia) Ni) as Sd. set (p := dec i k) in *. assert (Lp : length p = m) by (unfold p; now rewrite dec_length).
        transitivity (lsum bx (fun l => mono n z l * (sq (at' i k) * g (l ++ k)))).
        { unfold tot. rewrite <- lsum_scal. apply lsum_ext. intros l _. ring. }
        rewrite (lsum_ext bx _ (fun l => (b (n + i)%nat * (mono n z l * g (l ++ p)) + sumn n (fun a => A a (n + i)%nat * (mono n z l * (sq (at' a l) * g (dec a l ++ p)))))
            + sumn m (fun j => A (n + i)%nat (n + j)%nat * (sq (at' j p) * (mono n z l * g (l ++ dec j p)))))).
        + rewrite !lsum_add. rewrite lsum_scal. change (lsum bx (fun l => mono n z l * g (l ++ p))) with (tot p).
          rewrite (lsum_ext bx (fun l => sumn n (fun a => A a (n + i)%nat * (mono n z l * (sq (at' a l) * g (dec a l ++ p))))) (fun l => lsum (seq 0 n) (fun a => A a (n + i)%nat * (mono n z l * (sq (at' a l) * g (dec a l ++ p)))))) by (intros; now rewrite lsum_seq0).
          rewrite (lsum_swap bx (seq 0 n)). rewrite (lsum_ext (seq 0 n) _ (fun a => A a (n + i)%nat * z a * tot p)).
          2:{ intros a Ha. apply in_seq in Ha. rewrite lsum_scal, tot_shift by (auto; lia). ring. }
          rewrite lsum_scal_r, lsum_seq0.
          rewrite (lsum_ext bx (fun l => sumn m (fun j => A (n + i)%nat (n + j)%nat * (sq (at' j p) * (mono n z l * g (l ++ dec j p))))) (fun l => lsum (seq 0 m) (fun j => A (n + i)%nat (n + j)%nat * (sq (at' j p) * (mono n z l * g (l ++ dec j p)))))) by (intros; now rewrite lsum_seq0).
          rewrite (lsum_swap bx (seq 0 m)). rewrite (lsum_ext (seq 0 m) _ (fun j => A (n + i)%nat (n + j)%nat * (sq (at' j p) * tot (dec j p)))).
          2:{ intros j Hj. rewrite !lsum_scal. reflexivity. }
          rewrite lsum_seq0. ring.
        + intros l Hl. pose proof (bx_len l Hl) as Ll. unfold g.
          assert (E : sq (at' i k) * amp (n + m) A b k1 (l ++ k) = b (n + i)%nat * amp (n + m) A b k1 (l ++ p)
              + (sumn n (fun a => A a (n + i)%nat * (sq (at' a l) * amp (n + m) A b k1 (dec a l ++ p))) + sumn m (fun j => A (n + i)%nat (n + j)%nat * (sq (at' j p) * amp (n + m) A b k1 (l ++ dec j p))))).
          { pose proof (amp_rec (n + m) A b Sym k1 (n + i) (l ++ k)) as R. rewrite <- Ll in R at 5 6 7 8. rewrite <- Ll. rewrite <- Ll in R.
            rewrite at_app_r, dec_app_r in R. rewrite R by (try rewrite app_length; auto; lia). fold p. f_equal. rewrite sumn_plus. f_equal.
            - apply sumn_ext. intros a Ha. rewrite at_app_l, dec_app_l by exact Ha. rewrite (Sym (length l + i)%nat a) by lia. reflexivity.
            - apply sumn_ext. intros j Hj. now rewrite at_app_r, dec_app_r. }
          rewrite E. clear E.
          rewrite (sumn_ext n (fun a => A a (n + i)%nat * (mono n z l * (sq (at' a l) * amp (n + m) A b k1 (dec a l ++ p)))) (fun a => mono n z l * (A a (n + i)%nat * (sq (at' a l) * amp (n + m) A b k1 (dec a l ++ p))))) by (intros; ring).
          rewrite (sumn_ext m (fun j => A (n + i)%nat (n + j)%nat * (sq (at' j p) * (mono n z l * amp (n + m) A b k1 (l ++ dec j p)))) (fun j => mono n z l * (A (n + i)%nat (n + j)%nat * (sq (at' j p) * amp (n + m) A b k1 (l ++ dec j p))))) by (intros; ring).
          rewrite !sumn_scal. ring.
    Qed.
  End Shift.
End Alg.
