(** C46, the Fock side: a core state has no more photons in its core modes than in the others.
    The amplitudes are those computed by the code (Vanilla.v: math.hermite_renormalized, fock/lattice/strategies/vanilla/core.py). *)
From Coq Require Import List Arith Lia Field Ring Bool.
From Verif Require Import RootField Tensor Series Vanilla VanillaProps ComplexRF.
Import ListNotations.

(** photons of the index k in the modes selected by P *)
Definition photons (P : nat -> bool) (k : list nat) : nat := list_sum (map (fun i => if P i then at' i k else 0) (seq 0 (length k))).

Lemma photons_dec_seq (P : nat -> bool) i k n a : i < length k -> at' i k <> 0 ->
  list_sum (map (fun j => if P j then at' j (dec i k) else 0) (seq a n)) + (if (a <=? i) && (i <? a + n) && P i then 1 else 0)
  = list_sum (map (fun j => if P j then at' j k else 0) (seq a n)).
Proof.
  intros Hi N. revert a. induction n as [|n IH]; intro a; simpl.
  - destruct (Nat.leb_spec a i), (Nat.ltb_spec i (a + 0)); simpl; lia.
  - specialize (IH (S a)). rewrite <- IH. rewrite at_dec by exact Hi.
    replace (a + S n) with (S a + n) by lia.
    destruct (Nat.eqb_spec a i) as [->|Q].
    + destruct (Nat.leb_spec i i), (Nat.leb_spec (S i) i), (Nat.ltb_spec i (S i + n)); simpl; try lia. destruct (P i); lia.
    + destruct (Nat.leb_spec a i), (Nat.leb_spec (S a) i); try lia.
Qed.
Lemma photons_dec P i k : i < length k -> at' i k <> 0 -> photons P (dec i k) + (if P i then 1 else 0) = photons P k.
Proof.
  intros Hi N. unfold photons. rewrite dec_length. rewrite <- (photons_dec_seq P i k (length k) 0 Hi N).
  destruct (Nat.leb_spec 0 i), (Nat.ltb_spec i (0 + length k)); simpl; try lia.
Qed.
Lemma photons_pos P k : 0 < photons P k -> exists i, i < length k /\ P i = true /\ at' i k <> 0.
Proof.
  unfold photons. assert (G : forall n a, a + n <= length k -> 0 < list_sum (map (fun i => if P i then at' i k else 0) (seq a n)) -> exists i, i < length k /\ P i = true /\ at' i k <> 0).
  { induction n as [|n IH]; intros a L H; simpl in H; [lia|]. destruct (P a) eqn:E.
    - destruct (Nat.eq_dec (at' a k) 0) as [Z|Z]; [apply (IH (S a)); lia|]. exists a. repeat split; auto; lia.
    - apply (IH (S a)); lia. }
  apply G. lia.
Qed.

Section Props.
  Context {K : rootfield}.
  Add Field Kfield : (kft K).
  Open Scope rf_scope.
  (** every amplitude with more photons in the core modes than in the other modes is zero, when A and b vanish on the core modes: whatever the array shape *)
  Theorem C46_sparse : forall shape (A : nat -> nat -> K) b c out core, positive_shape shape -> symmetric (length shape) A -> fits shape out ->
    (forall i j, i < length shape -> j < length shape -> core i = true -> core j = true -> A i j = k0) ->
    (forall i, i < length shape -> core i = true -> b i = k0) ->
    forall k, Forall2 lt k shape -> photons (fun i => negb (core i)) k < photons core k ->
      entry shape (vanilla (length shape) A b shape c out) k = k0.
  Proof.
    intros shape A b c out core Pp S F HA Hb k. remember (photons core k) as m eqn:Em. revert k Em. induction m as [m IH] using lt_wf_ind. intros k Em Hk Hm.
    assert (L : length k = length shape) by (now apply Forall2_lt_len).
    destruct (photons_pos core k) as [i [Hi [Ci Ni]]]; [lia|]. pose proof (C19_recurrence shape A b c out Pp S F) as [_ R].
    specialize (R k i Hk ltac:(lia) Ni). set (G := entry shape (vanilla (length shape) A b shape c out)) in *.
    assert (Z : sq (at' i k) * G k = k0).
    { rewrite R, (Hb i) by (auto; lia). rewrite (sumn_ext _ _ (fun _ => k0)).
      - transitivity (sumn (length shape) (fun _ : nat => @k0 K)); [ring|]. clear. induction (length shape) as [|n IHn]; [reflexivity|]. cbn [sumn]. rewrite IHn. ring.
      - intros j Hj. destruct (Nat.eqb_spec (at' j (dec i k)) 0) as [E|E]; [reflexivity|].
        destruct (core j) eqn:Cj; [rewrite HA by (auto; lia); ring|].
        pose proof (photons_dec core i k Hi Ni) as P1. pose proof (photons_dec (fun x => negb (core x)) i k Hi Ni) as P2.
        assert (Hj' : j < length (dec i k)) by (rewrite dec_length; lia).
        pose proof (photons_dec core j (dec i k) Hj' E) as P3. pose proof (photons_dec (fun x => negb (core x)) j (dec i k) Hj' E) as P4.
        cbv beta in P2, P4. rewrite Ci in P1, P2. rewrite Cj in P3, P4. simpl negb in P2, P4. cbv iota in P1, P2, P3, P4.
        unfold G. rewrite (IH (photons core (dec j (dec i k)))); [ring|lia|reflexivity|apply dec_box, dec_box, Hk|lia]. }
    assert (Q : @sq K (at' i k) <> k0) by now apply sq_neq.
    transitivity ((sq (at' i k) * G k) / sq (at' i k)); [field; exact Q|]. rewrite Z. field. exact Q.
  Qed.
  (** it applies to a core state of two modes (core mode 0), and the condition is sharp: with as many photons in both modes the amplitude is c *)
  Theorem C46_sparse_example : forall (c : K) out, length out = 9 -> entry [3; 3] (vanilla 2 A_tms (fun _ => k0) [3; 3] c out) [2; 1] = k0 /\ entry [3; 3] (vanilla 2 A_tms (fun _ => k0) [3; 3] c out) [2; 2] = c.
  Proof.
    intros c out L. split; [|now apply C19_example]. apply (C46_sparse [3; 3] A_tms (fun _ => k0) c out (fun i => Nat.eqb i 0)).
    - split; [simpl; lia|repeat constructor; lia].
    - intros i j _ _. unfold A_tms. now rewrite Nat.eqb_sym.
    - exact L.
    - intros i j _ _ Hi Hj. apply Nat.eqb_eq in Hi, Hj. now subst.
    - reflexivity.
    - repeat constructor; lia.
    - unfold photons. simpl. lia.
  Qed.
End Props.
