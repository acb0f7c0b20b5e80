(** C19, C20, C22: the vanilla Fock strategies *)
From Coq Require Import List Arith Lia Field Ring.
From Verif Require Import RootField Tensor Series Vanilla ComplexRF.
Import ListNotations.

Section Props.
  Context {K : rootfield}.
  Add Field Kfield : (kft K).
  Open Scope rf_scope.

  Definition symmetric (D : nat) (A : nat -> nat -> K) : Prop := forall i j, i < D -> j < D -> A i j = A j i.
  Definition positive_shape (shape : list nat) : Prop := 0 < length shape /\ Forall (fun d => 0 < d) shape.
  (** [out] is any array with as many entries as the shape (the code's zeros, or a caller's array with any content) *)
  Definition fits (shape : list nat) (out : list K) : Prop := length out = prod shape.

  (** C19: every entry is sqrt(k!) times the Taylor coefficient of c exp(z.A.z/2 + b.z) at z^k *)
  Theorem C19_taylor : forall shape A b c out, positive_shape shape -> symmetric (length shape) A -> fits shape out ->
    forall k, Forall2 lt k shape ->
      entry shape (vanilla (length shape) A b shape c out) k = c * sqf k * expq (length shape) A b k.
  Proof. intros shape A b c out [P1 P2] S F k Hk. now apply (vanilla_correct A b c shape S P1 P2 out F). Qed.

  (** the recurrence read on the output array itself, for every axis with a photon *)
  Theorem C19_recurrence : forall shape A b c out, positive_shape shape -> symmetric (length shape) A -> fits shape out ->
    let G := entry shape (vanilla (length shape) A b shape c out) in
    G (zeros (length shape)) = c /\
    forall k i, Forall2 lt k shape -> i < length shape -> at' i k <> 0 ->
      sq (at' i k) * G k = b i * G (dec i k)
        + sumn (length shape) (fun j => if Nat.eqb (at' j (dec i k)) 0 then k0 else A i j * (sq (at' j (dec i k)) * G (dec j (dec i k)))).
  Proof.
    intros shape A b c out [P1 P2] S F G. destruct (vanilla_correct A b c shape S P1 P2 out F) as [_ H]. split.
    - unfold G. rewrite H; [apply amp_zero|]. clear - P2. unfold zeros. induction P2; simpl; constructor; auto.
    - intros k i Hk Hi N. unfold G. rewrite !H by (try apply dec_box; exact Hk).
      rewrite (amp_rec (length shape) A b S c i k Hi (Forall2_lt_len _ _ Hk) N). f_equal. apply sumn_ext. intros j Hj.
      destruct (Nat.eqb_spec (at' j (dec i k)) 0) as [E|E]; [rewrite E, sq_0; ring|]. rewrite H by (apply dec_box, dec_box, Hk). reflexivity.
  Qed.

  (** C20: the averaging ("stable") strategy and the batched one give the same arrays *)
  Theorem C20_stable : forall shape A b c out out', positive_shape shape -> symmetric (length shape) A -> fits shape out -> fits shape out' ->
    stable (length shape) A b shape c out = vanilla (length shape) A b shape c out'.
  Proof.
    intros shape A b c out out' [P1 P2] S F F'.
    destruct (stable_correct A b c shape S P1 P2 out F) as [L1 H1]. destruct (vanilla_correct A b c shape S P1 P2 out' F') as [L2 H2].
    apply (entries_eq shape); auto. intros k Hk. now rewrite H1, H2.
  Qed.
  Theorem C20_batch : forall shape flag ABc, positive_shape shape -> (forall A b c, In (A, b, c) ABc -> symmetric (length shape) A) ->
    vanilla_batch (length shape) shape flag ABc
    = map (fun '(A, b, c) => vanilla (length shape) A b shape c (repeat k0 (prod shape))) ABc.
  Proof.
    intros shape flag ABc P S. apply map_ext_in. intros [[A b] c] H. destruct flag; [|reflexivity].
    apply C20_stable; auto; [eapply S; eauto| |]; apply repeat_length.
  Qed.

  (** C22: a smaller shape gives the corresponding slice of a larger one, for either strategy *)
  Theorem C22_cutoff : forall shape shape' A b c out out', positive_shape shape -> Forall2 le shape shape' -> symmetric (length shape) A ->
    fits shape out -> fits shape' out' -> forall k, Forall2 lt k shape ->
      entry shape (vanilla (length shape) A b shape c out) k = entry shape' (vanilla (length shape) A b shape' c out') k
      /\ entry shape (stable (length shape) A b shape c out) k = entry shape' (stable (length shape) A b shape' c out') k.
  Proof.
    intros shape shape' A b c out out' P LE S F F' k Hk.
    assert (L : length shape' = length shape) by (clear - LE; induction LE; simpl; auto).
    assert (P' : positive_shape shape').
    { destruct P as [P1 P2]. split; [lia|]. clear - P2 LE. induction LE; constructor; inversion P2; subst; auto. lia. }
    assert (Hk' : Forall2 lt k shape').
    { clear - Hk LE. revert k Hk. induction LE; intros k Hk; inversion Hk; subst; constructor; auto. lia. }
    pose proof (C19_taylor shape A b c out P S F k Hk) as E1.
    pose proof (C19_taylor shape' A b c out' P') as E2. rewrite L in E2. specialize (E2 S F' k Hk').
    split; [now rewrite E1, E2|]. rewrite (C20_stable shape A b c out out) by assumption.
    pose proof (C20_stable shape' A b c out' out' P') as E3. rewrite L in E3. rewrite E3 by assumption. now rewrite E1, E2.
  Qed.

  (** a concrete case: A = [[0,1],[1,0]], b = 0 (two-mode squeezing): all diagonal amplitudes are c *)
  Definition A_tms (i j : nat) : K := if Nat.eqb i j then k0 else k1.
  Ltac ev := unfold dec, at'; cbn [upd nth pred sumn]; change (A_tms 0 0) with (@k0 K); change (A_tms 0 1) with (@k1 K);
    change (A_tms 1 0) with (@k1 K); change (A_tms 1 1) with (@k0 K).
  Theorem C19_example : forall c out, length out = 9 ->
    positive_shape [3; 3] /\ symmetric 2 A_tms /\ entry [3; 3] (vanilla 2 A_tms (fun _ => k0) [3; 3] c out) [2; 2] = c
    /\ entry [3; 3] (vanilla 2 A_tms (fun _ => k0) [3; 3] c out) [1; 2] = k0.
  Proof.
    intros c out L. assert (P : positive_shape [3; 3]) by (split; [simpl; lia|repeat constructor]).
    assert (S : symmetric 2 A_tms) by (intros i j _ _; unfold A_tms; now rewrite Nat.eqb_sym).
    split; [exact P|]. split; [exact S|].
    assert (S1 : sq 1 <> k0 :> K) by (apply sq_neq; lia). assert (S2 : sq 2 <> k0 :> K) by (apply sq_neq; lia).
    assert (Z : amp 2 A_tms (fun _ => k0) c [0; 0] = c) by (apply (amp_zero 2)).
    assert (X1 : amp 2 A_tms (fun _ => k0) c [0; 1] = k0).
    { rewrite (amp_step 2 A_tms _ S c 1) by (unfold at'; simpl; lia). ev. rewrite sq_0. field. exact S1. }
    assert (X2 : amp 2 A_tms (fun _ => k0) c [1; 1] = c).
    { rewrite (amp_step 2 A_tms _ S c 0) by (unfold at'; simpl; lia). ev. rewrite sq_0, Z. field. exact S1. }
    assert (X3 : amp 2 A_tms (fun _ => k0) c [1; 2] = k0).
    { rewrite (amp_step 2 A_tms _ S c 0) by (unfold at'; simpl; lia). ev. rewrite sq_0, X1. field. exact S1. }
    split; rewrite (C19_taylor [3; 3] A_tms (fun _ => k0) c out P S) by first [assumption | now repeat constructor].
    - change (amp 2 A_tms (fun _ => k0) c [2; 2] = c).
      rewrite (amp_step 2 A_tms _ S c 0) by (unfold at'; simpl; lia). ev.  rewrite X2, X3. field. exact S2.
    - exact X3.
  Qed.
End Props.

(** the hypotheses on the numbers are met by the complex numbers *)
Theorem C19_complex : forall c out, length out = 9 ->
  entry (K := CF) [3; 3] (vanilla 2 A_tms (fun _ => k0) [3; 3] c out) [2; 2] = c.
Proof. intros c out L. now apply C19_example. Qed.

Print Assumptions C19_taylor.
Print Assumptions C19_complex.
