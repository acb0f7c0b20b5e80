(** Concrete objects meeting the hypotheses of C07 and C08 (and of C09, CircuitContract.v). *)
From Coq Require Import ZArith List Bool Lia Permutation Sorted Arith.
Require Import Verif.Base Verif.Wires Verif.WiresSpec Verif.WiresLemmas Verif.WiresMatmul Verif.WiresLabels
  Verif.WiresProps Verif.WiresAdj Verif.Tensor Verif.Contract Verif.ContractAssoc Verif.CompAdj Verif.RShift.
Import ListNotations.
Local Open Scope Z_scope.

Ltac each_wire := match goal with
  | H : In _ _ |- _ => simpl in H; repeat (destruct H as [<-|H]; [|]); try contradiction
  end.
Ltac wf_by_cases := split; [unfold distinct; cbv; repeat constructor; simpl; intuition congruence
  | split; [reflexivity | split; [intros w H; each_wire; discriminate | reflexivity]]].
Ltac pairs_by_cases := intros x y Hx Hy; simpl in Hx, Hy;
  repeat (destruct Hx as [<-|Hx]; [|]); try contradiction;
  repeat (destruct Hy as [<-|Hy]; [|]); try contradiction.

(** a state of mode 0 with cutoff 3 and an operator 0 -> 0 with 2 output and 2 input levels: the joined axis is cut to 2 *)
Definition ex_ket : @comp Z :=
  mkComp (make (fun n => (1 + n)%nat) [] [] [0] [] [] [])
         (mkArray [3%nat] (fun k => match k with [i] => 1 + Z.of_nat i | _ => 0 end)).
Definition ex_gate : @comp Z :=
  mkComp (make (fun n => (3 + n)%nat) [] [] [0] [0] [] [])
         (mkArray [2%nat; 2%nat] (fun k => match k with [i; j] => 10 * Z.of_nat i + Z.of_nat j + 1 | _ => 0 end)).
Definition ex_channel : @comp Z :=
  mkComp (make (fun n => (6 + n)%nat) [0] [0] [0] [0] [] [])
         (mkArray [2%nat; 2%nat; 2%nat; 2%nat]
            (fun k => match k with [i; j; k; l] => 1000 * Z.of_nat i + 100 * Z.of_nat j + 10 * Z.of_nat k + Z.of_nat l | _ => 0 end)).
Definition fresh (n : nat) (w : wire) : nat := (n + wid w)%nat.

Theorem C07_example :
  wf ex_ket /\ wf ex_gate /\ same_repr (cw ex_ket) (cw ex_gate)
  /\ distinct_ids (cw ex_ket) (with_ids (fresh 20) (cw ex_gate)) /\ window (cw ex_ket ++ cw ex_gate)
  /\ exists c, Contract.contract 0 Z.add Z.mul (fresh 20) ex_ket ex_gate = Ok c
     /\ shape (carr c) = [2%nat] /\ amp c (fun _ => 1%nat) = 1 * 11 + 2 * 12.
Proof.
  split; [wf_by_cases|]. split; [wf_by_cases|]. split; [pairs_by_cases; cbn; intros; congruence|].
  split; [|split; [pairs_by_cases; cbn; lia|]].
  - unfold distinct_ids. cbv. repeat constructor; simpl; intuition congruence.
  - eexists. split; [reflexivity|]. split; reflexivity.
Qed.

(** ket >> channel: the ket is used on both sides *)
Theorem C08_example_self :
  one_sided Ket ex_ket /\ two_sided ex_channel /\ wf ex_channel
  /\ distinct_ids (cw ex_ket) (with_ids (fresh 20) (cw ex_channel))
  /\ exists c, RShift.rshift 0 Z.add Z.mul (fun z => z) (fresh 20) (fresh 40) (fresh 60) ex_ket ex_channel = Ok c
     /\ amp c (fun d => if side_eqb (d_side d) Bra then 1%nat else 0%nat)
        = 1 * 1 * 1000 + 1 * 2 * 1001 + 2 * 1 * 1100 + 2 * 2 * 1101.
Proof.
  split; [intros d H; simpl in H; destruct H as [<-|[]]; reflexivity|].
  split; [split; [exists (0, true, Bra)|exists (0, true, Ket)]; (split; [simpl; tauto|reflexivity])|].
  split; [wf_by_cases|]. split; [unfold distinct_ids; cbv; repeat constructor; simpl; intuition congruence|].
  eexists. split; [reflexivity|]. reflexivity.
Qed.

(** channel >> operator: the operator is used on both sides *)
Theorem C08_example_other :
  one_sided Ket ex_gate /\ two_sided ex_channel
  /\ exists c, RShift.rshift 0 Z.add Z.mul (fun z => z) (fresh 20) (fresh 40) (fresh 60) ex_channel ex_gate = Ok c
     /\ amp c (fun d => if d_out d then 0%nat else if side_eqb (d_side d) Bra then 1%nat else 0%nat)
        = 1 * 1 * 100 + 1 * 2 * 110 + 2 * 1 * 1100 + 2 * 2 * 1110.
Proof.
  split; [intros d H; simpl in H; destruct H as [<-|[<-|[]]]; reflexivity|].
  split; [split; [exists (0, true, Bra)|exists (0, true, Ket)]; (split; [simpl; tauto|reflexivity])|].
  eexists. split; [reflexivity|]. reflexivity.
Qed.
