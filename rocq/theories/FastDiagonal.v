(** mrmustard/math/lattice/strategies/fast_diagonal.py *)
From Coq Require Import List Arith Bool Lia Field Ring.
From Verif Require Import Base RootField Tensor Series Vanilla.
Import ListNotations.
Open Scope nat_scope.

(** ** coordinates *)
(** fast_diagonal.py:150-159 generate_partitions.  Simplification: the empty tuple m (m[0] fails) gives the empty partition of 0. *)
Fixpoint partitions (m : list nat) (w : nat) : list (list nat) :=
  match m with
  | [] => if Nat.eqb w 0 then [[]] else []
  | [m0] => if Nat.leb w m0 then [[w]] else []
  | m0 :: ms => flat_map (fun first => map (cons first) (partitions ms (w - first))) (rev (seq 0 (S (Nat.min w m0))))
  end.
(** itertools.product *)
Fixpoint product {X} (ls : list (list X)) : list (list X) :=
  match ls with [] => [[]] | l :: r => flat_map (fun x => map (cons x) (product r)) l end.
Fixpoint flat (ps : list (nat * nat)) : list nat := match ps with [] => [] | (a, b) :: r => a :: b :: flat r end.
(** fast_diagonal.py:183-199 the two option lists of one mode with cutoff mi and partial weight s *)
Definition delta2_options (s mi : nat) : list (nat * nat) :=
  if Nat.even s then (if (Nat.leb 1 (s / 2) && Nat.leb (s / 2 + 1) mi)%bool then [(s / 2 - 1, s / 2 + 1); (s / 2 + 1, s / 2 - 1)] else []) else [].
Definition non_delta2_options (s mi : nat) : list (nat * nat) :=
  if Nat.even s then (if Nat.leb (s / 2) mi then [(s / 2, s / 2)] else [])
  else if Nat.leb (s / 2 + 1) mi then [(s / 2, s / 2 + 1); (s / 2 + 1, s / 2)] else [].
Definition zip_with {X Y Z} (f : X -> Y -> Z) (xs : list X) (ys : list Y) : list Z := map (fun p => f (fst p) (snd p)) (combine xs ys).
(** fast_diagonal.py:162-201 enumerate_diagonal_coords *)
Definition enumerate_diagonal_coords (weight : nat) (m : list nat) : list (list nat) :=
  flat_map (fun p =>
    let d2 := zip_with delta2_options p m in
    let nd := zip_with non_delta2_options p m in
    flat_map (fun i => map flat (product (firstn i nd ++ [nth i d2 []] ++ skipn (S i) nd))) (seq 0 (length m))
    ++ map flat (product nd)) (partitions (map (fun k => 2 * k) m) weight).

(** fast_diagonal.py:82-103 get_pivot *)
Definition absdiff (a b : nat) : nat := (a - b) + (b - a).
Fixpoint deltas (k : list nat) : list nat := match k with a :: b :: r => absdiff a b :: deltas r | _ => [] end.
(** np.argmax: the first position of the largest entry *)
Fixpoint argmax (l : list nat) : nat :=
  match l with
  | [] => 0
  | x :: r => if Nat.leb (list_max r) x then 0 else S (argmax r)
  end.
Definition get_pivot (k : list nat) : nat * list nat :=
  let m := argmax (deltas k) in
  if Nat.eqb (nth m (deltas k) 0) 0 then let i := argmax k in (i, dec i k)
  else if Nat.ltb (at' (2 * m + 1) k) (at' (2 * m) k) then (2 * m, dec (2 * m) k) else (2 * m + 1, dec (2 * m + 1) k).

Section Model.
  Context {K : rootfield}.
  Open Scope rf_scope.
  Definition mat := nat -> nat -> K.
  Definition buffer := list nat -> option mat.
  Variable A : nat -> nat -> K.  (** already permuted *)
  Variable b : nat -> K.
  (** fast_diagonal.py:106-133 single_step; a missing key is None (KeyError) *)
  Definition single_step (buf1 buf2 : buffer) (i : nat) (pivot : list nat) : option mat :=
    match buf1 pivot with
    | None => None
    | Some g =>
      let val : mat := fun r s => b (i + 2)%nat * g r s + (if Nat.ltb 0 r then A (i + 2)%nat 0%nat * sq r * g (r - 1)%nat s else k0)
                                  + (if Nat.ltb 0 s then A (i + 2)%nat 1%nat * sq s * g r (s - 1)%nat else k0) in
      match fold_left (fun acc j => match acc with
             | None => None
             | Some v => if Nat.ltb 0 (at' j pivot)
                 then match buf2 (dec j pivot) with None => None | Some h => Some ((fun r s => v r s + A (i + 2)%nat (j + 2)%nat * sq (at' j pivot) * h r s) : mat) end
                 else Some v end) (seq 0 (length pivot)) (Some val) with
      | None => None
      | Some v => Some (fun r s => v r s / sq (at' i pivot + 1))
      end
    end.
  Definition setk {X} (f : list nat -> X) (k : list nat) (v : X) : list nat -> X := fun k' => if list_eq_dec Nat.eq_dec k' k then v else f k'.
  Definition dup (p : list nat) : list nat := flat_map (fun x => [x; x]) p.
  (** one iteration of fast_diagonal.py:70-79 *)
  Definition diag_step (pnr : list nat) (st : option (buffer * buffer * buffer * (list nat -> mat))) (weight : nat)
    : option (buffer * buffer * buffer * (list nat -> mat)) :=
    match st with
    | None => None
    | Some (_, buf1, buf0, out) =>
      let new2 := buf1 in let new1 := buf0 in
      match fold_left (fun acc w => match acc with
              | None => None
              | Some n0 => let '(i, pivot) := get_pivot w in
                  match single_step new1 new2 i pivot with None => None | Some v => Some (setk n0 w (Some v)) end end)
              (enumerate_diagonal_coords weight pnr) (Some ((fun _ => None) : buffer)) with
      | None => None
      | Some new0 =>
        let out' := if Nat.even weight then
            fold_left (fun acc p => match acc with None => None | Some o => match new0 (dup p) with None => None | Some g => Some (setk o p g) end end)
              (partitions pnr (weight / 2)) (Some out)
          else Some out in
        match out' with None => None | Some o => Some (new2, new1, new0, o) end
      end
    end.
  (** fast_diagonal.py:33-80 fast_diagonal after the permutation of A and b; first block computed by vanilla_numba *)
  Definition fast_diagonal_perm (c : K) (oc : nat) (pnr : list nat) : option (list nat -> mat) :=
    let L := (length pnr + 1)%nat in
    let shape := [oc + 1; oc + 1]%nat in
    let G := vanilla 2 A b shape c (repeat k0 (prod shape)) in
    let first : mat := fun r s => entry shape G [r; s] in
    let out0 : list nat -> mat := setk (fun _ _ _ => k0) (zeros (length pnr)) first in
    let buf0 : buffer := setk (fun _ => None) (zeros (2 * length pnr)) (Some first) in
    match fold_left (diag_step pnr) (seq 1 (2 * oc + 2 * list_sum pnr - L - 1)) (Some ((fun _ => None), (fun _ => None), buf0, out0)) with
    | None => None
    | Some (_, _, _, out) => Some out
    end.
  Definition perm (L i : nat) : nat := if Nat.even i then (i / 2)%nat else (i / 2 + L)%nat.
End Model.
(** fast_diagonal.py:33-80 (A and b in the caller's order: all kets, then all bras) *)
Definition fast_diagonal {K : rootfield} (A : nat -> nat -> K) (b : nat -> K) (c : K) (oc : nat) (pnr : list nat) : option (list nat -> mat) :=
  let L := length pnr + 1 in fast_diagonal_perm (fun i j => A (perm L i) (perm L j)) (fun i => b (perm L i)) c oc pnr.

(** ** enumeration *)
Lemma in_partitions : forall m w p, m <> [] -> (In p (partitions m w) <-> Forall2 le p m /\ list_sum p = w).
Proof.
  induction m as [|m0 ms IH]; intros w p N; [congruence|]. destruct ms as [|m1 ms].
  - cbn [partitions]. destruct (Nat.leb_spec w m0) as [H|H].
    + split.
      * intros [<-|[]]. split; [repeat constructor; exact H|simpl; lia].
      * intros [F S]. inversion F as [|x y l l' H1 H2]; subst. inversion H2; subst. left. simpl. now rewrite Nat.add_0_r.
    + split; [intros []|]. intros [F S]. inversion F as [|x y l l' H1 H2]; subst. inversion H2; subst. simpl in H. lia.
  - change (partitions (m0 :: m1 :: ms) w) with (flat_map (fun first => map (cons first) (partitions (m1 :: ms) (w - first))) (rev (seq 0 (S (Nat.min w m0))))).
    rewrite in_flat_map. split.
    + intros [x [H1 H2]]. apply in_rev, in_seq in H1. apply in_map_iff in H2. destruct H2 as [q [<- H2]]. apply IH in H2; [|congruence]. destruct H2 as [F S].
      split; [constructor; [lia|exact F]|]. change (list_sum (x :: q)) with (x + list_sum q). lia.
    + intros [F S]. inversion F as [|x y q l' H1 H2]; subst. change (list_sum (x :: q)) with (x + list_sum q). exists x. split; [rewrite <- in_rev; apply in_seq; lia|].
      apply in_map_iff. exists q. split; [reflexivity|]. apply IH; [congruence|]. split; [exact H2|lia].
Qed.
Lemma in_product : forall {X} (ls : list (list X)) l, In l (product ls) <-> Forall2 (@In X) l ls.
Proof.
  induction ls as [|x ls IH]; intros l; simpl.
  - split; [intros [<-|[]]; constructor|]. intros H. inversion H. now left.
  - rewrite in_flat_map. split.
    + intros [y [H1 H2]]. apply in_map_iff in H2. destruct H2 as [r [<- H2]]. constructor; [exact H1|now apply IH].
    + intros H. inversion H as [|a b r r' H1 H2]; subst. exists a. split; [exact H1|]. apply in_map_iff. exists r. split; [reflexivity|now apply IH].
Qed.
Lemma even_half : forall s, Nat.even s = true -> s = 2 * (s / 2).
Proof. intros s H. apply Nat.even_spec in H. destruct H as [x ->]. rewrite (Nat.mul_comm 2 x), Nat.div_mul by lia. lia. Qed.
Lemma odd_half : forall s, Nat.even s = false -> s = 2 * (s / 2) + 1.
Proof.
  intros s H. assert (O : Nat.odd s = true) by (rewrite <- Nat.negb_even, H; reflexivity). apply Nat.odd_spec in O. destruct O as [x ->].
  rewrite (Nat.mul_comm 2 x), Nat.div_add_l by lia. simpl. lia.
Qed.
Lemma in_non_delta2 : forall s mi a b, In (a, b) (non_delta2_options s mi) <-> a + b = s /\ absdiff a b <= 1 /\ a <= mi /\ b <= mi.
Proof.
  intros s mi a b. unfold non_delta2_options, absdiff. destruct (Nat.even s) eqn:E; [apply even_half in E|apply odd_half in E]; remember (s / 2) as d.
  - destruct (Nat.leb_spec d mi); simpl; (split; [intros H0; repeat destruct H0 as [H0|H0]; try injection H0 as <- <-; try tauto; lia|]); intros H0; [left; f_equal|]; lia.
  - destruct (Nat.leb_spec (d + 1) mi); simpl; (split; [intros H0; repeat destruct H0 as [H0|H0]; try injection H0 as <- <-; try tauto; lia|]); intros H0;
      [destruct (Nat.eq_dec a d); [left|right; left]; f_equal|]; lia.
Qed.
Lemma in_delta2 : forall s mi a b, In (a, b) (delta2_options s mi) <-> a + b = s /\ absdiff a b = 2 /\ a <= mi /\ b <= mi.
Proof.
  intros s mi a b. unfold delta2_options, absdiff. destruct (Nat.even s) eqn:E; [apply even_half in E|apply odd_half in E]; remember (s / 2) as d.
  - destruct (Nat.leb_spec 1 d); destruct (Nat.leb_spec (d + 1) mi); simpl; (split; [intros H1; repeat destruct H1 as [H1|H1]; try injection H1 as <- <-; try tauto; lia|]); intros H1;
      try lia. destruct (Nat.eq_dec a (d - 1)); [left|right; left]; f_equal; lia.
  - split; [intros []|]. lia.
Qed.

(** the coordinates the recursion visits: every pair (a, b) within its cutoff, |a - b| <= 2, and at most one pair with |a - b| = 2 *)
Definition dlt (j : nat) (k : list nat) : nat := absdiff (at' (2 * j) k) (at' (2 * j + 1) k).
Definition near_diagonal (m k : list nat) : Prop :=
  length k = 2 * length m /\
  (forall j, j < length m -> at' (2 * j) k <= at' j m /\ at' (2 * j + 1) k <= at' j m /\ dlt j k <= 2) /\
  (forall i j, i < length m -> j < length m -> dlt i k = 2 -> dlt j k = 2 -> i = j).
(** ... with at most [d] off the diagonal *)
Fixpoint pairs (k : list nat) : list (nat * nat) := match k with a :: b :: r => (a, b) :: pairs r | _ => [] end.
Lemma flat_length : forall ps, length (flat ps) = 2 * length ps.
Proof. induction ps as [|[a b] ps IH]; simpl; auto. rewrite IH. lia. Qed.
Lemma flat_pairs : forall n k, length k = 2 * n -> flat (pairs k) = k /\ length (pairs k) = n.
Proof.
  induction n as [|n IH]; intros k L; [destruct k; simpl in *; [auto|lia]|]. destruct k as [|a [|b k]]; simpl in L; try lia. destruct (IH k ltac:(lia)) as [H1 H2].
  simpl. rewrite H1, H2. auto.
Qed.
Lemma at_flat : forall ps j, at' (2 * j) (flat ps) = fst (nth j ps (0, 0)) /\ at' (2 * j + 1) (flat ps) = snd (nth j ps (0, 0)).
Proof.
  unfold at'. induction ps as [|[a b] ps IH]; intros j.
  - cbn [flat]. split; rewrite !nth_overflow by (simpl; lia); reflexivity.
  - destruct j as [|j]; [auto|]. destruct (IH j) as [H1 H2]. replace (2 * S j) with (S (S (2 * j))) by lia. replace (S (S (2 * j)) + 1) with (S (S (2 * j + 1))) by lia.
    cbn [flat nth]. auto.
Qed.
Lemma zip_with_nth : forall {X Y Z} (f : X -> Y -> Z) xs ys i dx dy dz, length xs = length ys -> i < length xs -> nth i (zip_with f xs ys) dz = f (nth i xs dx) (nth i ys dy).
Proof.
  intros X Y Z f. unfold zip_with. induction xs as [|x xs IH]; intros [|y ys] i dx dy dz L H; simpl in *; try lia. destruct i as [|i]; [reflexivity|]. apply IH; lia.
Qed.
Lemma zip_with_length : forall {X Y Z} (f : X -> Y -> Z) xs ys, length xs = length ys -> length (zip_with f xs ys) = length xs.
Proof. intros. unfold zip_with. rewrite map_length, combine_length. lia. Qed.
Lemma Forall2_nth_iff : forall {X Y} (R : X -> Y -> Prop) xs ys dx dy, Forall2 R xs ys <-> length xs = length ys /\ forall i, i < length xs -> R (nth i xs dx) (nth i ys dy).
Proof.
  intros X Y R xs ys dx dy. split.
  - intros H. induction H as [|x y xs ys H F [L IH]]; simpl; [split; [auto|lia]|]. split; [lia|]. intros [|i] Hi; [exact H|]. apply IH. lia.
  - revert ys. induction xs as [|x xs IH]; intros [|y ys] [L H]; simpl in L; try lia; constructor; [apply (H 0); simpl; lia|]. apply IH. split; [lia|]. intros i Hi. apply (H (S i)). simpl. lia.
Qed.
Lemma nth_replace : forall {X} (l : list X) i x j d, i < length l -> nth j (firstn i l ++ [x] ++ skipn (S i) l) d = if Nat.eqb j i then x else nth j l d.
Proof.
  intros X l. induction l as [|y l IH]; intros i x j d H; simpl in H; [lia|]. destruct i as [|i].
  - cbn [firstn skipn app]. destruct j; reflexivity.
  - cbn [firstn app skipn]. destruct j as [|j]; [reflexivity|]. cbn [nth Nat.eqb]. apply IH. lia.
Qed.
Lemma replace_length : forall {X} (l : list X) i x, i < length l -> length (firstn i l ++ [x] ++ skipn (S i) l) = length l.
Proof. intros X l i x H. rewrite app_length, firstn_length, app_length, skipn_length. cbn [length]. lia. Qed.
Lemma sum_flat : forall ps, list_sum (flat ps) = list_sum (map (fun '(a, b) => a + b) ps).
Proof. induction ps as [|[a b] ps IH]; simpl; auto. unfold list_sum in *. simpl. rewrite IH. lia. Qed.

Lemma Forall2_length : forall {X Y} (R : X -> Y -> Prop) xs ys, Forall2 R xs ys -> length xs = length ys.
Proof. intros X Y R xs ys H. induction H; simpl; auto. Qed.
Lemma nth_sums : forall ps j, nth j (map (fun '(a, b) => a + b) ps) 0 = fst (nth j ps (0, 0)) + snd (nth j ps (0, 0)).
Proof. induction ps as [|[a b] ps IH]; intros [|j]; simpl; auto. Qed.
Theorem enumerate_spec : forall weight m k, m <> [] -> (In k (enumerate_diagonal_coords weight m) <-> near_diagonal m k /\ list_sum k = weight).
Proof.
  intros weight m k Nm. unfold enumerate_diagonal_coords. rewrite in_flat_map.
  assert (N2 : map (fun x => 2 * x) m <> []) by (destruct m; [congruence|discriminate]).
  set (n := length m).
  split.
  - intros [p [Hp H]]. apply in_partitions in Hp; [|exact N2]. destruct Hp as [Fp Sp].
    assert (Lp : length p = n) by (apply Forall2_length in Fp; rewrite map_length in Fp; exact Fp).
    assert (Ld : length (zip_with delta2_options p m) = n) by (rewrite zip_with_length; auto).
    assert (Lnd : length (zip_with non_delta2_options p m) = n) by (rewrite zip_with_length; auto).
    cbv zeta in H. apply in_app_or in H.
    assert (X : exists ps i0, k = flat ps /\ length ps = n /\ forall j, j < n -> let '(a, b) := nth j ps (0, 0) in
       a + b = at' j p /\ a <= at' j m /\ b <= at' j m /\ (if Nat.eqb j i0 then absdiff a b = 2 else absdiff a b <= 1)).
    { destruct H as [H|H].
      - apply in_flat_map in H. destruct H as [i0 [H1 H]]. apply in_seq in H1. apply in_map_iff in H. destruct H as [ps [<- H]]. apply in_product in H.
        apply (Forall2_nth_iff _ _ _ (0, 0) []) in H. rewrite replace_length in H by (rewrite Lnd; lia). rewrite Lnd in H. destruct H as [H2 H3]. exists ps, i0. split; [reflexivity|]. split; [exact H2|].
        intros j Hj. specialize (H3 j ltac:(lia)). rewrite nth_replace in H3 by (rewrite Lnd; lia). destruct (nth j ps (0, 0)) as [a b]. destruct (Nat.eqb_spec j i0) as [->|].
        + rewrite (zip_with_nth _ _ _ _ 0 0) in H3 by lia. apply in_delta2 in H3. unfold at'. lia.
        + rewrite (zip_with_nth _ _ _ _ 0 0) in H3 by lia. apply in_non_delta2 in H3. unfold at'. lia.
      - apply in_map_iff in H. destruct H as [ps [<- H]]. apply in_product in H. apply (Forall2_nth_iff _ _ _ (0, 0) []) in H. rewrite Lnd in H. destruct H as [H2 H3].
        exists ps, n. split; [reflexivity|]. split; [exact H2|]. intros j Hj. specialize (H3 j ltac:(lia)). destruct (nth j ps (0, 0)) as [a b].
        rewrite (proj2 (Nat.eqb_neq j n)) by lia. rewrite (zip_with_nth _ _ _ _ 0 0) in H3 by lia. apply in_non_delta2 in H3. unfold at'. lia. }
    destruct X as [ps [i0 [-> [Lps X]]]]. split.
    + split; [rewrite flat_length; fold n; lia|]. split.
      * intros j Hj. destruct (at_flat ps j) as [E1 E2]. unfold dlt. rewrite E1, E2. specialize (X j Hj). destruct (nth j ps (0, 0)) as [a b]. cbn [fst snd]. destruct (Nat.eqb j i0); lia.
      * assert (Y : forall i, i < length m -> dlt i (flat ps) = 2 -> i = i0).
        { intros i Hi Hd. destruct (at_flat ps i) as [E1 E2]. unfold dlt in Hd. rewrite E1, E2 in Hd. specialize (X i Hi). destruct (nth i ps (0, 0)) as [a b]. cbn [fst snd] in Hd.
          destruct (Nat.eqb_spec i i0) as [|]; [assumption|lia]. }
        intros i j Hi Hj Di Dj. rewrite (Y i Hi Di), (Y j Hj Dj). reflexivity.
    + rewrite sum_flat, <- Sp. f_equal. apply nth_ext with (d := 0) (d' := 0); [rewrite map_length; lia|]. rewrite map_length. intros j Hj.
      rewrite nth_sums. specialize (X j ltac:(lia)). destruct (nth j ps (0, 0)) as [a b]. unfold at' in X. simpl. lia.
  - intros [[Lk [B U]] Sk]. destruct (flat_pairs n k Lk) as [F Lps]. set (ps := pairs k) in *.
    set (p := map (fun '(a, b) => a + b) ps).
    assert (Lp : length p = n) by (unfold p; rewrite map_length; exact Lps).
    assert (P : forall j, j < n -> let '(a, b) := nth j ps (0, 0) in nth j p 0 = a + b /\ a <= at' j m /\ b <= at' j m /\ absdiff a b <= 2 /\ absdiff a b = dlt j k).
    { intros j Hj. destruct (B j Hj) as [B1 [B2 B3]]. unfold dlt in *. rewrite <- F in B1, B2, B3 |- *. destruct (at_flat ps j) as [E1 E2]. rewrite E1, E2 in *. unfold p.
      rewrite nth_sums. destruct (nth j ps (0, 0)) as [a b]. cbn [fst snd] in *. auto. }
    exists p. split.
    + apply in_partitions; [exact N2|]. split.
      * apply (Forall2_nth_iff _ _ _ 0 0). rewrite map_length. split; [exact Lp|]. intros j Hj. rewrite Lp in Hj. assert (E2 : nth j (map (fun x => 2 * x) m) 0 = 2 * nth j m 0) by exact (map_nth (fun x => 2 * x) m 0 j). rewrite E2.
        specialize (P j Hj). destruct (nth j ps (0, 0)) as [a b]. unfold at' in P. lia.
      * unfold p. rewrite <- sum_flat, F. exact Sk.
    + cbv zeta. assert (Ld : length (zip_with delta2_options p m) = n) by (rewrite zip_with_length; auto).
      assert (Lnd : length (zip_with non_delta2_options p m) = n) by (rewrite zip_with_length; auto).
      assert (Dc : (exists i0, i0 < n /\ dlt i0 k = 2) \/ forall j, j < n -> dlt j k <> 2).
      { clear. induction n as [|q IH]; [right; intros; lia|]. destruct IH as [[i0 [H1 H2]]|H]; [left; exists i0; split; [lia|exact H2]|].
        destruct (Nat.eq_dec (dlt q k) 2) as [E|E]; [left; exists q; split; [lia|exact E]|]. right. intros j Hj. destruct (Nat.eq_dec j q) as [->|]; [exact E|apply H; lia]. }
      apply in_or_app. destruct Dc as [[i0 [Hi0 D0]]|Dn].
      * left. apply in_flat_map. exists i0. split; [apply in_seq; fold n; lia|]. apply in_map_iff. exists ps. split; [exact F|]. apply in_product.
        apply (Forall2_nth_iff _ _ _ (0, 0) []). rewrite replace_length by (rewrite Lnd; exact Hi0). split; [lia|]. intros j Hj. rewrite Lps in Hj.
        rewrite nth_replace by (rewrite Lnd; exact Hi0). specialize (P j Hj). destruct (nth j ps (0, 0)) as [a b] eqn:Ej. destruct (Nat.eqb_spec j i0) as [->|Ne].
        -- rewrite (zip_with_nth _ _ _ _ 0 0) by lia. apply in_delta2. unfold at' in P. lia.
        -- rewrite (zip_with_nth _ _ _ _ 0 0) by lia. apply in_non_delta2. assert (dlt j k <> 2) by (intros E; apply Ne, (U j i0); auto). unfold at' in P. lia.
      * right. apply in_map_iff. exists ps. split; [exact F|]. apply in_product. apply (Forall2_nth_iff _ _ _ (0, 0) []). split; [lia|]. intros j Hj. rewrite Lps in Hj.
        specialize (P j Hj). destruct (nth j ps (0, 0)) as [a b] eqn:Ej. rewrite (zip_with_nth _ _ _ _ 0 0) by lia. apply in_non_delta2. specialize (Dn j Hj). unfold at' in P. lia.
Qed.

(** ** pivots *)
Lemma argmax_spec : forall l, l <> [] -> argmax l < length l /\ forall j, nth j l 0 <= nth (argmax l) l 0.
Proof.
  assert (LM : forall l j, nth j l 0 <= list_max l).
  { induction l as [|x l IH]; intros [|j]; simpl; try lia. unfold list_max in *. specialize (IH j). lia. }
  assert (MX : forall l, l <> [] -> argmax l < length l /\ nth (argmax l) l 0 = list_max l).
  { induction l as [|x l IH]; intros N; [congruence|]. simpl. destruct (Nat.leb_spec (list_max l) x) as [H|H]; [simpl; split; [lia|unfold list_max in *; lia]|].
    assert (Nl : l <> []) by (intros ->; simpl in H; lia). destruct (IH Nl) as [I1 I2]. rewrite I2. split; [cbn [length] in *; lia|]. unfold list_max in *. lia. }
  intros l N. destruct (MX l N) as [M1 M2]. split; [exact M1|]. intros j. rewrite M2. apply LM.
Qed.
Lemma deltas_spec : forall n k, length k = 2 * n -> length (deltas k) = n /\ forall j, nth j (deltas k) 0 = dlt j k.
Proof.
  induction n as [|n IH]; intros k L.
  - destruct k; simpl in L; [|lia]. split; [reflexivity|]. intros j. unfold dlt, at'. rewrite !nth_overflow by (simpl; lia). reflexivity.
  - destruct k as [|a [|b k]]; simpl in L; try lia. destruct (IH k ltac:(lia)) as [H1 H2]. split; [simpl; lia|]. intros [|j]; [reflexivity|].
    unfold dlt, at'. replace (2 * S j) with (S (S (2 * j))) by lia. replace (S (S (2 * j)) + 1) with (S (S (2 * j + 1))) by lia. cbn [deltas nth]. apply H2.
Qed.
Definition tight (m k : list nat) : Prop := forall j, j < length m -> dlt j k <= 1.
Lemma dlt_dec : forall j i k, i < length k -> at' i k <> 0 ->
  dlt j (dec i k) = absdiff (if Nat.eqb (2 * j) i then pred (at' (2 * j) k) else at' (2 * j) k) (if Nat.eqb (2 * j + 1) i then pred (at' (2 * j + 1) k) else at' (2 * j + 1) k).
Proof. intros j i k Hi N. unfold dlt. now rewrite !at_dec. Qed.
Ltac eqbs := repeat match goal with |- context [Nat.eqb ?a ?b] => destruct (Nat.eqb_spec a b) | H : context [Nat.eqb ?a ?b] |- _ => destruct (Nat.eqb_spec a b) end.
Lemma get_pivot_spec : forall m k, m <> [] -> near_diagonal m k -> list_sum k <> 0 ->
  let '(i, p) := get_pivot k in i < length k /\ at' i k <> 0 /\ p = dec i k /\ near_diagonal m p /\ tight m p.
Proof.
  intros m k Nm [L [B U]] S. set (n := length m) in *. destruct (deltas_spec n k L) as [D1 D2]. unfold get_pivot.
  assert (ND : deltas k <> []) by (intros E; rewrite E in D1; simpl in D1; unfold n in D1; destruct m; simpl in *; congruence).
  destruct (argmax_spec (deltas k) ND) as [A1 A2]. set (a := argmax (deltas k)) in *. rewrite D1 in A1. rewrite D2 in *.
  assert (MX : forall j, dlt j k <= dlt a k) by (intros j; rewrite <- (D2 j); apply A2).
  assert (fin : forall i, i < length k -> at' i k <> 0 -> tight m (dec i k) -> i < length k /\ at' i k <> 0 /\ dec i k = dec i k /\ near_diagonal m (dec i k) /\ tight m (dec i k)).
  { intros i Hi Ni T. split; [exact Hi|]. split; [exact Ni|]. split; [reflexivity|]. split; [|exact T]. split; [rewrite dec_length; exact L|]. split.
    - intros j Hj. specialize (T j Hj). destruct (B j Hj) as [B1 [B2 B3]]. rewrite !at_dec by exact Hi. eqbs; lia.
    - intros x y Hx Hy Ex Ey. pose proof (T x Hx). lia. }
  destruct (Nat.eqb_spec (dlt a k) 0) as [E0|E0].
  - assert (Nk : k <> []) by (intros ->; simpl in S; lia). destruct (argmax_spec k Nk) as [C1 C2]. apply fin; [exact C1| |].
    + intros Z. apply S. assert (forall j, nth j k 0 = 0) as ZZ by (intros j; specialize (C2 j); unfold at' in Z; lia). clear - ZZ.
      induction k as [|x k IH]; [reflexivity|]. change (x + list_sum k = 0). rewrite IH by (intros j; apply (ZZ (Datatypes.S j))). specialize (ZZ 0). simpl in ZZ. lia.
    + intros j Hj. specialize (MX j). assert (Z : at' (argmax k) k <> 0).
      { intros Z. apply S. assert (forall j, nth j k 0 = 0) as ZZ by (intros j'; specialize (C2 j'); unfold at' in Z; lia). clear - ZZ.
        induction k as [|x k IH]; [reflexivity|]. change (x + list_sum k = 0). rewrite IH by (intros j; apply (ZZ (Datatypes.S j))). specialize (ZZ 0). simpl in ZZ. lia. }
      rewrite dlt_dec by assumption. unfold dlt, absdiff in *. eqbs; lia.
  - destruct (B a A1) as [B1 [B2 B3]].
    assert (T : forall i, i < length k -> at' i k <> 0 -> ((i = 2 * a /\ at' (2 * a + 1) k < at' (2 * a) k) \/ (i = 2 * a + 1 /\ at' (2 * a) k < at' (2 * a + 1) k)) -> tight m (dec i k)).
    { intros i Hi Ni H j Hj. rewrite dlt_dec by assumption. destruct (Nat.eq_dec j a) as [->|Ne].
      - unfold dlt, absdiff in *. eqbs; lia.
      - assert (dlt j k <= 1).
        { destruct (Nat.eq_dec (dlt j k) 2) as [E|E]; [|pose proof (B j Hj); lia]. exfalso. apply Ne, (U j a Hj A1 E). specialize (MX j). lia. }
        unfold dlt, absdiff in *. eqbs; lia. }
    destruct (Nat.ltb_spec (at' (2 * a + 1) k) (at' (2 * a) k)) as [G|G]; (unfold dlt, absdiff in E0; apply fin; [lia|lia|]; apply T; lia).
Qed.
Lemma tight_dec : forall m p j, near_diagonal m p -> tight m p -> j < length p -> at' j p <> 0 -> near_diagonal m (dec j p).
Proof.
  intros m p j [L [B U]] T Hj Nj. split; [rewrite dec_length; exact L|].
  assert (X : forall i, i < length m -> dlt i (dec j p) <= 2 /\ (dlt i (dec j p) = 2 -> j = 2 * i \/ j = 2 * i + 1)).
  { intros i Hi. specialize (T i Hi). rewrite dlt_dec by assumption. unfold dlt, absdiff in *. eqbs; lia. }
  split.
  - intros i Hi. destruct (X i Hi). destruct (B i Hi) as [B1 [B2 B3]]. rewrite !at_dec by exact Hj. eqbs; lia.
  - intros x y Hx Hy Ex Ey. destruct (X x Hx) as [_ X1]. destruct (X y Hy) as [_ Y1]. specialize (X1 Ex). specialize (Y1 Ey). lia.
Qed.

(** ** values *)
Section Values.
  Context {K : rootfield}.
  Add Field Kfield : (kft K).
  Open Scope rf_scope.
  Variable A : nat -> nat -> K.
  Variable b : nat -> K.
  Variable c : K.
  Variable pnr : list nat.
  Hypothesis Np : pnr <> [].
  Notation D := (2 + 2 * length pnr)%nat.
  Hypothesis Asym : forall i j, (i < D)%nat -> (j < D)%nat -> A i j = A j i.
  Variable oc : nat.
  Notation F := (amp D A b c).
  Definition right_mat (g : @mat K) (k : list nat) : Prop := forall r s, (r <= oc)%nat -> (s <= oc)%nat -> g r s = F (r :: s :: k).
  (** a buffer holds exactly the near-diagonal coordinates of one weight, with the right matrices *)
  Definition right_buf (buf : @buffer K) (w : nat) : Prop := forall k, near_diagonal pnr k -> list_sum k = w -> exists g, buf k = Some g /\ right_mat g k.

  Lemma sumn_fold : forall n (f : nat -> K), fold_left (fun s j => s + f j) (seq 0 n) k0 = sumn n f.
  Proof. induction n as [|n IH]; intros f; [reflexivity|]. rewrite seq_S, fold_left_app. cbn [fold_left sumn]. now rewrite IH. Qed.
  Lemma step_fold : forall buf2 i pivot l (v : @mat K),
    (forall j, In j l -> at' j pivot <> 0%nat -> exists h, buf2 (dec j pivot) = Some h /\ right_mat h (dec j pivot)) ->
    exists v', fold_left (fun acc j => match acc with
             | None => None
             | Some v => if Nat.ltb 0 (at' j pivot)
                 then match buf2 (dec j pivot) with None => None | Some h => Some ((fun r s => v r s + A (i + 2)%nat (j + 2)%nat * sq (at' j pivot) * h r s) : @mat K) end
                 else Some v end) l (Some v) = Some v'
      /\ forall r s, (r <= oc)%nat -> (s <= oc)%nat -> v' r s = v r s + fold_left (fun t j => t + A (i + 2)%nat (j + 2)%nat * (sq (at' j pivot) * F (r :: s :: dec j pivot))) l k0.
  Proof.
    intros buf2 i pivot l. assert (FA : forall (f : nat -> K) l a, fold_left (fun t j => t + f j) l a = a + fold_left (fun t j => t + f j) l k0).
    { intros f l0. induction l0 as [|x l0 IH]; intros a; cbn [fold_left]; [ring|]. rewrite IH. rewrite (IH (k0 + f x)). ring. }
    induction l as [|j l IH]; intros v H.
    - exists v. split; [reflexivity|]. intros. cbn. ring.
    - cbn [fold_left]. destruct (Nat.ltb_spec 0 (at' j pivot)) as [P|P].
      + destruct (H j (or_introl eq_refl) ltac:(lia)) as [h [-> Hh]].
        destruct (IH (fun r s => v r s + A (i + 2)%nat (j + 2)%nat * sq (at' j pivot) * h r s)) as [v' [E V]]; [intros; apply H; [now right|assumption]|].
        exists v'. split; [exact E|]. intros r s Hr Hs. rewrite (V r s Hr Hs), (Hh r s Hr Hs). rewrite (FA _ l (k0 + _)). ring.
      + destruct (IH v) as [v' [E V]]; [intros; apply H; [now right|assumption]|]. exists v'. split; [exact E|]. intros r s Hr Hs. rewrite (V r s Hr Hs). rewrite (FA _ l (k0 + _)).
        replace (at' j pivot) with 0%nat by lia. rewrite sq_0. ring.
  Qed.
  Lemma dec_cons2 : forall i r s k, dec (i + 2) (r :: s :: k) = r :: s :: dec i k.
  Proof. intros. replace (i + 2)%nat with (S (S i)) by lia. unfold dec, at'. reflexivity. Qed.
  Lemma at_cons2 : forall i r s k, at' (i + 2) (r :: s :: k) = at' i k.
  Proof. intros. replace (i + 2)%nat with (S (S i)) by lia. reflexivity. Qed.
  Lemma single_step_right : forall buf1 buf2 w k, right_buf buf1 w -> (w <> 0%nat -> right_buf buf2 (w - 1)) -> near_diagonal pnr k -> list_sum k = S w ->
    let '(i, pivot) := get_pivot k in exists g, single_step A b buf1 buf2 i pivot = Some g /\ right_mat g k.
  Proof.
    intros buf1 buf2 w k H1 H2 Nk Sk. pose proof (get_pivot_spec pnr k Np Nk ltac:(lia)) as GP. destruct (get_pivot k) as [i p]. destruct GP as [Hi [Ni [-> [Np' Tp]]]].
    assert (Lk : length k = (2 * length pnr)%nat) by exact (proj1 Nk). pose proof (sum_dec i k Hi Ni) as SD. set (p := dec i k) in *.
    assert (Lp : length p = length k) by apply dec_length.
    destruct (H1 p Np' ltac:(lia)) as [g [Eg Hg]]. unfold single_step. rewrite Eg.
    match goal with |- context [fold_left _ _ (Some ?v0)] => destruct (step_fold buf2 i p (seq 0 (length p)) v0) as [v [Ev V]] end.
    { intros j Hj Nj. apply in_seq in Hj. pose proof (sum_dec j p ltac:(lia) Nj) as S2. apply H2; [lia|now apply tight_dec; try lia|lia]. }
    rewrite Ev. eexists. split; [reflexivity|]. intros r s Hr Hs. rewrite (V r s Hr Hs). rewrite sumn_fold.
    rewrite (amp_step D A b Asym c (i + 2) (r :: s :: k)); [|lia|simpl; lia|rewrite at_cons2; exact Ni].
    rewrite dec_cons2, at_cons2. fold p. replace (at' i k) with (at' i p + 1)%nat by (unfold p; rewrite at_dec by exact Hi; rewrite Nat.eqb_refl; lia).
    f_equal. change (2 + 2 * length pnr)%nat with (S (S (2 * length pnr))). rewrite sumn_S_l, sumn_S_l. rewrite Lp, Lk.
    rewrite (sumn_ext (2 * length pnr) (fun j => A (i + 2)%nat (S (S j)) * _) (fun j => A (i + 2)%nat (j + 2)%nat * (sq (at' j p) * F (r :: s :: dec j p)))).
    2:{ intros j Hj. replace (S (S j)) with (j + 2)%nat by lia. now rewrite at_cons2, dec_cons2. }
    change (S (S (2 * length pnr))) with (2 + 2 * length pnr)%nat.
    change (dec 0 (r :: s :: p)) with (pred r :: s :: p). change (dec 1 (r :: s :: p)) with (r :: pred s :: p). change (at' 0 (r :: s :: p)) with r. change (at' 1 (r :: s :: p)) with s. rewrite (Hg r s Hr Hs).
    assert (E1 : (if Nat.ltb 0 r then A (i + 2)%nat 0%nat * sq r * g (r - 1)%nat s else k0) = A (i + 2)%nat 0%nat * (sq r * F (pred r :: s :: p))).
    { destruct r as [|r]; cbn [Nat.ltb Nat.leb pred]; [rewrite sq_0; ring|]. replace (S r - 1)%nat with r by lia. rewrite (Hg r s) by lia. ring. }
    assert (E2 : (if Nat.ltb 0 s then A (i + 2)%nat 1%nat * sq s * g r (s - 1)%nat else k0) = A (i + 2)%nat 1%nat * (sq s * F (r :: pred s :: p))).
    { destruct s as [|s]; cbn [Nat.ltb Nat.leb pred]; [rewrite sq_0; ring|]. replace (S s - 1)%nat with s by lia. rewrite (Hg r s) by lia. ring. }
    rewrite E1, E2. ring.
  Qed.
  Lemma setk_same : forall {X} f k (v : X), setk f k v k = v.
  Proof. intros. unfold setk. now destruct (list_eq_dec Nat.eq_dec k k). Qed.
  Lemma setk_other : forall {X} f k (v : X) k', k' <> k -> setk f k v k' = f k'.
  Proof. intros. unfold setk. now destruct (list_eq_dec Nat.eq_dec k' k). Qed.
  Lemma build_right : forall buf1 buf2 w l (n0 : @buffer K), right_buf buf1 w -> (w <> 0%nat -> right_buf buf2 (w - 1)) ->
    (forall k, In k l -> near_diagonal pnr k /\ list_sum k = S w) ->
    exists n0' : @buffer K, fold_left (fun acc w => match acc with
              | None => None
              | Some n0 => let '(i, pivot) := get_pivot w in
                  match single_step A b buf1 buf2 i pivot with None => None | Some v => Some (setk n0 w (Some v)) end end) l (Some n0) = Some n0'
      /\ forall k, (In k l \/ exists g, n0 k = Some g /\ right_mat g k) -> exists g, n0' k = Some g /\ right_mat g k.
  Proof.
    intros buf1 buf2 w l. induction l as [|k l IH]; intros n0 H1 H2 H.
    - exists n0. split; [reflexivity|]. intros k [[]|X]. exact X.
    - cbn [fold_left]. destruct (H k (or_introl eq_refl)) as [Nk Sk]. pose proof (single_step_right buf1 buf2 w k H1 H2 Nk Sk) as SS. destruct (get_pivot k) as [i p].
      destruct SS as [g [-> Hg]]. destruct (IH (setk n0 k (Some g)) H1 H2) as [n0' [E V]]; [intros; apply H; now right|]. exists n0'. split; [exact E|].
      intros k' X. apply V. destruct (list_eq_dec Nat.eq_dec k' k) as [->|Ne]; [right; exists g; rewrite setk_same; auto|]. rewrite setk_other by exact Ne.
      destruct X as [[X|X]|X]; [congruence|now left|now right].
  Qed.
  Lemma dup_length : forall p, length (dup p) = (2 * length p)%nat.
  Proof. unfold dup. induction p as [|x p IH]; simpl; auto. rewrite IH. lia. Qed.
  Lemma dup_sum : forall p, list_sum (dup p) = (2 * list_sum p)%nat.
  Proof. unfold dup, list_sum. induction p as [|x p IH]; simpl; auto. rewrite IH. lia. Qed.
  Lemma at_dup : forall p j, at' (2 * j) (dup p) = at' j p /\ at' (2 * j + 1) (dup p) = at' j p.
  Proof.
    unfold dup, at'. induction p as [|x p IH]; intros j; [cbn [flat_map]; split; rewrite !nth_overflow by (simpl; lia); reflexivity|].
    destruct j as [|j]; [auto|]. replace (2 * S j)%nat with (S (S (2 * j))) by lia. replace (S (S (2 * j)) + 1)%nat with (S (S (2 * j + 1))) by lia. cbn [flat_map app nth]. apply IH.
  Qed.
  Lemma dup_near : forall p, Forall2 le p pnr -> near_diagonal pnr (dup p).
  Proof.
    intros p H. apply (Forall2_nth_iff _ _ _ 0%nat 0%nat) in H. destruct H as [L H]. split; [rewrite dup_length; lia|]. split.
    - intros j Hj. unfold dlt. destruct (at_dup p j) as [-> ->]. specialize (H j ltac:(lia)). unfold at', absdiff. lia.
    - intros i j Hi Hj E. unfold dlt in E. destruct (at_dup p i) as [E1 E2]. rewrite E1, E2 in E. unfold absdiff in E. lia.
  Qed.
  (** the output array holds the right matrix for every partition of total at most [w]/2, zeros elsewhere *)
  Definition right_out (out : list nat -> @mat K) (w : nat) : Prop :=
    (forall p, Forall2 le p pnr -> (2 * list_sum p <= w)%nat -> right_mat (out p) (dup p)) /\
    (forall p, Forall2 le p pnr -> (w < 2 * list_sum p)%nat -> forall r s, out p r s = k0).
  Lemma collect : forall new0 l out, (forall p, In p l -> exists g, new0 (dup p) = Some g /\ right_mat g (dup p)) ->
    exists out', fold_left (fun acc p => match acc with None => None | Some o => match new0 (dup p) with None => None | Some g => Some (setk o p g) end end) l (Some out) = Some out'
      /\ (forall p, In p l -> right_mat (out' p) (dup p)) /\ (forall p, ~ In p l -> out' p = out p).
  Proof.
    intros new0 l. induction l as [|p l IH]; intros out H.
    - exists out. split; [reflexivity|]. split; [intros p []|auto].
    - cbn [fold_left]. destruct (H p (or_introl eq_refl)) as [g [-> Hg]]. destruct (IH (setk out p g)) as [out' [E [V1 V2]]]; [intros; apply H; now right|].
      exists out'. split; [exact E|]. split.
      + intros q Hq. destruct (in_dec (list_eq_dec Nat.eq_dec) q l) as [I|I]; [now apply V1|]. destruct Hq as [<-|Hq]; [|contradiction]. rewrite V2 by exact I. now rewrite setk_same.
      + intros q Hq. rewrite V2 by (intros X; apply Hq; now right). apply setk_other. intros ->. apply Hq. now left.
  Qed.
  Definition inv (w : nat) (st : option (@buffer K * buffer * buffer * (list nat -> @mat K))) : Prop :=
    exists b2 b1 b0 out, st = Some (b2, b1, b0, out) /\ right_buf b0 w /\ (w <> 0%nat -> right_buf b1 (w - 1)) /\ right_out out w.
  Lemma diag_step_right : forall w st, inv w st -> inv (S w) (diag_step A b pnr st (S w)).
  Proof.
    intros w st [b2 [b1 [b0 [out [-> [H0 [H1 [O1 O2]]]]]]]]. unfold diag_step.
    destruct (build_right b0 b1 w (enumerate_diagonal_coords (S w) pnr) (fun _ => None) H0 H1) as [n0 [E V]].
    { intros k Hk. now apply enumerate_spec in Hk. }
    rewrite E. assert (B0 : right_buf n0 (S w)).
    { intros k Nk Sk. apply V. left. apply enumerate_spec; auto. }
    destruct (Nat.even (S w)) eqn:Ev.
    - apply even_half in Ev. destruct (collect n0 (partitions pnr (S w / 2)) out) as [out' [E' [V1 V2]]].
      { intros p Hp. apply in_partitions in Hp; [|exact Np]. destruct Hp as [Fp Sp]. apply B0; [now apply dup_near|]. rewrite dup_sum. lia. }
      rewrite E'. exists b1, b0, n0, out'. split; [reflexivity|]. split; [exact B0|]. split; [intros _; replace (S w - 1)%nat with w by lia; exact H0|]. split.
      + intros p Fp Sp. destruct (Nat.eq_dec (2 * list_sum p) (S w)) as [Eq|Ne].
        * apply V1. apply in_partitions; [exact Np|]. split; [exact Fp|lia].
        * rewrite V2; [apply O1; [exact Fp|lia]|]. intros I. apply in_partitions in I; [|exact Np]. lia.
      + intros p Fp Sp. rewrite V2; [apply O2; [exact Fp|lia]|]. intros I. apply in_partitions in I; [|exact Np]. lia.
    - exists b1, b0, n0, out. split; [reflexivity|]. split; [exact B0|]. split; [intros _; replace (S w - 1)%nat with w by lia; exact H0|]. apply odd_half in Ev. split.
      + intros p Fp Sp. apply O1; [exact Fp|lia].
      + intros p Fp Sp. apply O2; [exact Fp|lia].
  Qed.
  Lemma loop_right : forall n w st, inv w st -> inv (w + n) (fold_left (diag_step A b pnr) (seq (S w) n) st).
  Proof.
    induction n as [|n IH]; intros w st H; [now rewrite Nat.add_0_r|]. cbn [seq fold_left]. rewrite Nat.add_succ_r, <- Nat.add_succ_l. apply IH. now apply diag_step_right.
  Qed.
  (** restriction to the first two indices *)
  Lemma amp_front : forall w r s, (r + s <= w)%nat -> amp 2 A b c [r; s] = F (r :: s :: zeros (2 * length pnr)).
  Proof.
    assert (AS2 : forall i j, (i < 2)%nat -> (j < 2)%nat -> A i j = A j i) by (intros; apply Asym; lia).
    assert (Z : forall i r s, (2 <= i)%nat -> at' i (r :: s :: zeros (2 * length pnr)) = 0%nat) by (intros i r s Hi; destruct i as [|[|i]]; try lia; exact (at_zeros i _)).
    induction w as [w IH] using lt_wf_ind. intros r s Hw.
    assert (LZ : length (zeros (2 * length pnr)) = (2 * length pnr)%nat) by apply repeat_length.
    destruct r as [|r].
    - destruct s as [|s].
      + transitivity c; [exact (amp_zero 2 A b c)|]. symmetry. exact (amp_zero D A b c).
      + rewrite (amp_step 2 A b AS2 c 1) by (try (unfold at'; simpl); lia). rewrite (amp_step D A b Asym c 1); [|lia|cbn [length]; rewrite LZ; reflexivity|unfold at'; simpl; lia].
        unfold at' at 3. cbn [nth]. f_equal. change (2 + 2 * length pnr)%nat with (S (S (2 * length pnr))). rewrite (sumn_S_l (S (2 * length pnr))), (sumn_S_l (2 * length pnr)).
        rewrite (sumn_0 (2 * length pnr)).
        2:{ intros i Hi. change (dec 1 (0%nat :: S s :: zeros (2 * length pnr))) with (0%nat :: s :: zeros (2 * length pnr)). pose proof (Z (S (S i)) 0%nat s ltac:(lia)) as Z'. unfold at' in Z' |- *. rewrite Z'. rewrite sq_0. ring. }
        unfold dec, at'. cbn [upd nth pred sumn]. rewrite !sq_0. change (2 + 2 * length pnr)%nat with (S (S (2 * length pnr))) in IH.
        rewrite (IH s ltac:(lia) 0%nat s ltac:(lia)). destruct s as [|s]; [rewrite sq_0; ring|]. cbn [pred]. rewrite (IH s ltac:(lia) 0%nat s ltac:(lia)). ring.
    - rewrite (amp_step 2 A b AS2 c 0) by (try (unfold at'; simpl); lia). rewrite (amp_step D A b Asym c 0); [|lia|cbn [length]; rewrite LZ; reflexivity|unfold at'; simpl; lia].
      unfold at' at 3. cbn [nth]. f_equal. change (2 + 2 * length pnr)%nat with (S (S (2 * length pnr))). rewrite (sumn_S_l (S (2 * length pnr))), (sumn_S_l (2 * length pnr)).
      rewrite (sumn_0 (2 * length pnr)).
      2:{ intros i Hi. change (dec 0 (S r :: s :: zeros (2 * length pnr))) with (r :: s :: zeros (2 * length pnr)). pose proof (Z (S (S i)) r s ltac:(lia)) as Z'. unfold at' in Z' |- *. rewrite Z'. rewrite sq_0. ring. }
      unfold dec, at'. cbn [upd nth pred sumn]. change (2 + 2 * length pnr)%nat with (S (S (2 * length pnr))) in IH.
      rewrite (IH (r + s)%nat ltac:(lia) r s ltac:(lia)).
      assert (E1 : sq r * amp 2 A b c [pred r; s] = sq r * amp (S (S (2 * length pnr))) A b c (pred r :: s :: zeros (2 * length pnr))).
      { destruct r as [|r]; [rewrite sq_0; ring|]. cbn [pred]. now rewrite (IH (r + s)%nat ltac:(lia) r s ltac:(lia)). }
      assert (E2 : sq s * amp 2 A b c [r; pred s] = sq s * amp (S (S (2 * length pnr))) A b c (r :: pred s :: zeros (2 * length pnr))).
      { destruct s as [|s]; [rewrite sq_0; ring|]. cbn [pred]. now rewrite (IH (r + s)%nat ltac:(lia) r s ltac:(lia)). }
      rewrite E1, E2. ring.
  Qed.
  Lemma zero_only : forall m k, near_diagonal m k -> list_sum k = 0%nat -> k = zeros (2 * length m).
  Proof. intros m k [L _] S. rewrite <- L. now apply sum_zero_iff. Qed.
  Lemma dup_zeros : forall n, dup (zeros n) = zeros (2 * n).
  Proof. induction n as [|n IH]; [reflexivity|]. replace (2 * S n)%nat with (S (S (2 * n))) by lia. unfold dup, zeros in *. cbn [repeat flat_map app]. now rewrite IH. Qed.
  Theorem fast_diagonal_perm_right : exists out, fast_diagonal_perm A b c oc pnr = Some out
    /\ right_out out (2 * oc + 2 * list_sum pnr - (length pnr + 1) - 1).
  Proof.
    unfold fast_diagonal_perm. set (shape := [oc + 1; oc + 1]%nat).
    set (first := fun r s => entry shape (vanilla 2 A b shape c (repeat k0 (prod shape))) [r; s]).
    assert (HF : right_mat first (zeros (2 * length pnr))).
    { intros r s Hr Hs. rewrite <- (amp_front (r + s) r s) by lia. unfold first.
      assert (Fx : length (repeat (@k0 K) (prod shape)) = prod shape) by apply repeat_length.
      assert (H2 : forall i j, (i < length shape)%nat -> (j < length shape)%nat -> A i j = A j i) by (intros i j Hi Hj; simpl in Hi, Hj; apply Asym; lia).
      destruct (vanilla_correct A b c shape H2 ltac:(simpl; lia) ltac:(repeat constructor; lia) _ Fx) as [_ V]. apply (V [r; s]).
      unfold shape. repeat constructor; lia. }
    match goal with |- context [fold_left _ (seq 1 ?n) ?st] => assert (I := loop_right n 0 st) end.
    destruct I as [b2 [b1 [b0 [out [E [_ [_ O]]]]]]].
    - do 4 eexists. split; [reflexivity|]. split; [|split; [intros H; now elim H|]].
      + intros k Nk Sk. rewrite (zero_only _ _ Nk Sk). rewrite setk_same. exists first. auto.
      + split.
        * intros p Fp Sp. assert (p = zeros (length pnr)) as ->.
          { rewrite <- (Forall2_length _ _ _ Fp). apply sum_zero_iff. lia. }
          rewrite setk_same, dup_zeros. exact HF.
        * intros p Fp Sp r s. rewrite setk_other; [reflexivity|]. intros ->. rewrite sum_zeros in Sp. lia.
    - rewrite E. exists out. split; [reflexivity|]. exact O.
  Qed.
End Values.
