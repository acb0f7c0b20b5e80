(** Claims C05 (wires part) and C06. *)
From Coq Require Import ZArith List Bool Lia Permutation Sorted Arith.
Require Import Verif.Base Verif.Wires Verif.WiresSpec Verif.WiresLemmas Verif.WiresMatmul Verif.WiresLabels Verif.WiresProps.
Import ListNotations.

(** * C05: what the adjoint and the dual of a wire are (specification) *)
Definition swap_side (d : descr) : descr :=
  (d_mode d, d_out d, match d_side d with Bra => Ket | Ket => Bra | Cl => Cl end).

Lemma swap_swap : forall d, swap_side (swap_side d) = d.
Proof. intros [[m o] []]; reflexivity. Qed.
Lemma swap_flip : forall d, swap_side (flip d) = flip (swap_side d).
Proof. intros [[m o] []]; reflexivity. Qed.

Lemma adjoint_perm : forall f ws, Permutation (descs (adjoint f ws)) (map swap_side (descs ws)).
Proof.
  intros. unfold adjoint. rewrite reindex_descs_perm. unfold descs, with_ids. rewrite !map_map.
  apply Permutation_refl'. apply map_ext. intros w. reflexivity.
Qed.
Lemma dual_perm : forall f ws, Permutation (descs (dual f ws)) (map flip (descs ws)).
Proof.
  intros. unfold dual. rewrite reindex_descs_perm. unfold descs, with_ids. rewrite !map_map.
  apply Permutation_refl'. apply map_ext. intros w. reflexivity.
Qed.

Lemma window_modes : forall a b, (forall w, In w b -> exists v, In v a /\ mode v = mode w) -> window a -> window b.
Proof.
  intros a b H W x y Hx Hy. destruct (H x Hx) as [x' [Ix <-]]. destruct (H y Hy) as [y' [Iy <-]]. now apply W.
Qed.
Lemma modes_of_perm : forall g a b, (forall d, d_mode (g d) = d_mode d) -> Permutation (descs b) (map g (descs a)) ->
  forall w, In w b -> exists v, In v a /\ mode v = mode w.
Proof.
  intros g a b Hg P w Hw. apply (in_map desc) in Hw. apply (Permutation_in _ P) in Hw.
  apply in_map_iff in Hw. destruct Hw as [d [E Hd]]. apply in_map_iff in Hd. destruct Hd as [v [Ev Hv]].
  exists v. split; auto. change (mode v) with (d_mode (desc v)). change (mode w) with (d_mode (desc w)).
  rewrite Ev, <- E. now rewrite Hg.
Qed.
Lemma NoDup_map_inj : forall {A B} (f : A -> B) l, (forall x y, f x = f y -> x = y) -> NoDup l -> NoDup (map f l).
Proof. intros. apply NoDup_map_of_inj; auto. Qed.
Lemma swap_inj : forall x y, swap_side x = swap_side y -> x = y.
Proof. intros x y H. rewrite <- (swap_swap x), <- (swap_swap y). now rewrite H. Qed.
Lemma flip_inj : forall x y, flip x = flip y -> x = y.
Proof. intros x y H. rewrite <- (flip_flip x), <- (flip_flip y). now rewrite H. Qed.

(** a view of the object: what iteration shows *)
Definition shown (ws : wires) : list descr := descs (sorted_wires ws).
Lemma shown_perm : forall ws, Permutation (shown ws) (descs ws).
Proof. intros. apply descs_perm, sorted_wires_perm. Qed.

(** two objects with the same wires show the same list *)
Lemma shown_unique : forall a b, window a -> distinct a -> distinct b ->
  (forall d, In d (descs a) <-> In d (descs b)) -> shown a = shown b.
Proof.
  intros a b W Da Db H. assert (Wb : window b). { eapply window_perm_descs; [|exact W]. intros; now apply H. }
  apply std_sorted_unique; try now apply sorted_std.
  intros d. rewrite (in_map_iff desc (sorted_wires a)), (in_map_iff desc (sorted_wires b)).
  specialize (H d). unfold descs in H. rewrite !in_map_iff in H.
  setoid_rewrite sorted_wires_in. exact H.
Qed.

Theorem C05_adjoint_wires : forall f ws, distinct ws ->
  (* exactly the same wires with bra and ket exchanged, numbered 0..n-1 in standard order *)
  Permutation (descs (adjoint f ws)) (map swap_side (descs ws))
  /\ distinct (adjoint f ws) /\ indices (adjoint f ws) = seq 0 (length ws)
  /\ (window ws -> window (adjoint f ws) /\ StronglySorted std_lt (shown (adjoint f ws))).
Proof.
  intros f ws D. assert (P := adjoint_perm f ws). assert (D' : distinct (adjoint f ws)).
  { eapply Permutation_NoDup; [symmetry; exact P|]. apply NoDup_map_inj; [exact swap_inj|exact D]. }
  split; [exact P|]. split; [exact D'|]. split.
  - unfold adjoint at 1. rewrite (reindex_well_indexed (map flip_ket (with_ids f ws))).
    rewrite reindex_length, map_length. unfold with_ids. now rewrite map_length.
  - intros W. assert (W' : window (adjoint f ws)).
    { eapply window_modes; [|exact W]. eapply modes_of_perm; [|exact P]. reflexivity. }
    split; [exact W'|]. now apply sorted_std.
Qed.

Theorem C05_dual_wires : forall f ws, distinct ws ->
  Permutation (descs (dual f ws)) (map flip (descs ws))
  /\ distinct (dual f ws) /\ indices (dual f ws) = seq 0 (length ws)
  /\ (window ws -> window (dual f ws) /\ StronglySorted std_lt (shown (dual f ws))).
Proof.
  intros f ws D. assert (P := dual_perm f ws). assert (D' : distinct (dual f ws)).
  { eapply Permutation_NoDup; [symmetry; exact P|]. apply NoDup_map_inj; [exact flip_inj|exact D]. }
  split; [exact P|]. split; [exact D'|]. split.
  - unfold dual at 1. rewrite (reindex_well_indexed (map flip_out (with_ids f ws))).
    rewrite reindex_length, map_length. unfold with_ids. now rewrite map_length.
  - intros W. assert (W' : window (dual f ws)).
    { eapply window_modes; [|exact W]. eapply modes_of_perm; [|exact P]. reflexivity. }
    split; [exact W'|]. now apply sorted_std.
Qed.

Theorem C05_involutions_commute : forall f g f' g' ws, distinct ws -> window ws ->
  shown (adjoint f (adjoint g ws)) = shown ws
  /\ shown (dual f (dual g ws)) = shown ws
  /\ shown (adjoint f (dual g ws)) = shown (dual f' (adjoint g' ws)).
Proof.
  intros f g f' g' ws D W.
  destruct (C05_adjoint_wires g ws D) as [P1 [D1 [_ W1]]]. destruct (W1 W) as [W1' _].
  destruct (C05_adjoint_wires f _ D1) as [P2 [D2 [_ W2]]]. destruct (W2 W1') as [W2' _].
  destruct (C05_dual_wires g ws D) as [P3 [D3 [_ W3]]]. destruct (W3 W) as [W3' _].
  destruct (C05_dual_wires f _ D3) as [P4 [D4 [_ W4]]]. destruct (W4 W3') as [W4' _].
  destruct (C05_adjoint_wires f _ D3) as [P5 [D5 [_ W5]]]. destruct (W5 W3') as [W5' _].
  destruct (C05_adjoint_wires g' ws D) as [P6 [D6 [_ W6]]].
  destruct (C05_dual_wires f' _ D6) as [P7 [D7 [_ W7]]].
  assert (I : forall a b : list descr, Permutation a b -> forall d, In d a <-> In d b).
  { intros a b P d. split; apply Permutation_in; [|symmetry]; assumption. }
  assert (E1 : map swap_side (map swap_side (descs ws)) = descs ws).
  { rewrite map_map. rewrite <- map_id. apply map_ext. apply swap_swap. }
  assert (E2 : map flip (map flip (descs ws)) = descs ws).
  { rewrite map_map. rewrite <- map_id. apply map_ext. apply flip_flip. }
  assert (E3 : map swap_side (map flip (descs ws)) = map flip (map swap_side (descs ws))).
  { rewrite !map_map. apply map_ext. apply swap_flip. }
  split; [|split]; apply shown_unique; auto; apply I.
  - rewrite P2. rewrite <- E1. now apply Permutation_map.
  - rewrite P4. rewrite <- E2. now apply Permutation_map.
  - rewrite P5, P7. rewrite (Permutation_map swap_side P3), (Permutation_map flip P6). now rewrite E3.
Qed.

Theorem C05_example :
  shown (adjoint (fun w => index w) (make (fun n => n) [] [] [1; 0]%Z [0]%Z [] []))
  = [(0, true, Bra); (1, true, Bra); (0, false, Bra)]%Z.
Proof. reflexivity. Qed.

(** * C06 *)
(** A CPython set stores each element with the hash computed when it was inserted (wires.py:318-336 and
    338-390: [adjoint]/[dual] flip the fields of elements already stored in a set). An entry is the key
    hashed at insertion and the wire as it is now. Hashes are modelled by the hashed tuple itself (no
    collisions of distinct keys). *)
Definition key := (Z * bool * side * repr)%type.
Definition key_of (w : wire) : key := (mode w, is_out w, wside w, wrepr w).
Definition entry := (key * wire)%type.
Definition fresh (l : wires) : list entry := map (fun w => (key_of w, w)) l.
Definition current (es : list entry) : wires := map snd es.
Definition key_eqb (k1 k2 : key) : bool :=
  let '(m1, o1, s1, r1) := k1 in let '(m2, o2, s2, r2) := k2 in
  Z.eqb m1 m2 && Bool.eqb o1 o2 && side_eqb s1 s2 && repr_eqb r1 r2.
(** wires.py:554-567: [set & set] matches on the stored hash and on [==] *)
Definition entries_meet (a b : list entry) : bool :=
  existsb (fun x => existsb (fun y => key_eqb (fst x) (fst y) && wire_eqb (snd x) (snd y)) b) a.
Definition add_sets (a b : list entry) : result (list entry) :=
  if entries_meet a b then Err ValueError else Ok (a ++ b).
(** wires.py:338-348: elements mutated in place, stored hashes unchanged *)
Definition adjoint_entries (f : wire -> nat) (ws : wires) : list entry :=
  map (fun w => (key_of w, flip_ket w)) (with_ids f ws).
Definition dual_entries (f : wire -> nat) (ws : wires) : list entry :=
  map (fun w => (key_of w, flip_out w)) (with_ids f ws).

Lemma key_eqb_refl : forall k, key_eqb k k = true.
Proof.
  intros [[[m o] s] r]. simpl. rewrite Z.eqb_refl, Bool.eqb_reflx, side_eqb_refl. simpl. now apply repr_eqb_eq.
Qed.

(** sets built by iteration (constructor, views, composition): overlaps are always rejected *)
Theorem C06_overlap_rejected : forall a b, same_repr a b ->
  ((exists d, In d (descs a) /\ In d (descs b)) <-> add_sets (fresh a) (fresh b) = Err ValueError)
  /\ (forall r, add_sets (fresh a) (fresh b) = Ok r -> current r = a ++ b).
Proof.
  intros a b SR. unfold add_sets. split.
  - destruct (entries_meet (fresh a) (fresh b)) eqn:E.
    + split; [reflexivity|]. intros _. unfold entries_meet in E. apply existsb_exists in E.
      destruct E as [x [Hx E]]. apply existsb_exists in E. destruct E as [y [Hy E]].
      apply in_map_iff in Hx. destruct Hx as [v [<- Hv]]. apply in_map_iff in Hy. destruct Hy as [w [<- Hw]].
      apply andb_true_iff in E. destruct E as [_ E]. apply wire_eqb_true in E. destruct E as [E _].
      exists (desc v). split; [now apply in_map|]. simpl in E. rewrite E. now apply in_map.
    + split; [|discriminate]. intros [d [Ha Hb]]. exfalso.
      apply in_map_iff in Ha. destruct Ha as [v [Ev Hv]]. apply in_map_iff in Hb. destruct Hb as [w [Ew Hw]].
      assert (DE : desc v = desc w) by congruence. assert (RE := SR v w Hv Hw DE).
      enough (entries_meet (fresh a) (fresh b) = true) by congruence.
      apply existsb_exists. exists (key_of v, v). split; [now apply (in_map (fun w => (key_of w, w)))|].
      apply existsb_exists. exists (key_of w, w). split; [now apply (in_map (fun w => (key_of w, w)))|].
      simpl fst. simpl snd. assert (key_of v = key_of w) as ->.
      { unfold key_of. unfold desc in DE. injection DE as -> -> ->. now rewrite RE. }
      rewrite key_eqb_refl. apply wire_eqb_true. auto.
  - destruct (entries_meet _ _); [discriminate|]. intros r H. injection H as <-. unfold current, fresh.
    rewrite map_app, !map_map. simpl. now rewrite !map_id.
Qed.

Theorem C06_example :
  add_sets (fresh (make (fun n => n) [] [] [0; 1]%Z [] [] [])) (fresh (make (fun n => 9 + n) [] [] [1]%Z [] [] []))
  = Err ValueError.
Proof. reflexivity. Qed.

(** a wire shared by an adjoint (or a dual) and another object is not seen: the code accepts
    Wires(ket_out={0}).adjoint + Wires(bra_out={0}) *)
Theorem C06_refuted_stale_hash :
  let a := adjoint_entries (fun w => index w) (make (fun n => n) [] [] [0]%Z [] [] []) in
  let b := fresh (make (fun n => 9 + n) [0]%Z [] [] [] [] []) in
  descs (current a) = descs (current b) /\ is_ok (add_sets a b) = true.
Proof. split; reflexivity. Qed.
Theorem C06_refuted_stale_hash_dual :
  let a := dual_entries (fun w => index w) (make (fun n => n) [] [] [0]%Z [] [] []) in
  let b := fresh (make (fun n => 9 + n) [] [] [] [0]%Z [] []) in
  descs (current a) = descs (current b) /\ is_ok (add_sets a b) = true.
Proof. split; reflexivity. Qed.
(** and neither is a wire shared under another representation tag *)
Theorem C06_refuted_other_repr :
  let a := [mkWire 0 true Ket 0 Bargmann 1] in let b := [mkWire 0 true Ket 0 Fock 2] in
  descs a = descs b /\ is_ok (add_sets (fresh a) (fresh b)) = true /\ is_ok (add a b) = true.
Proof. repeat split; reflexivity. Qed.
