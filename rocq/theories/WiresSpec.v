(** Specification vocabulary for wires, independent of the model's helpers: a wire is observed
    through its mode, direction and side; "standard order" is stated as in the documentation of
    the class (wires.py:242-244): bra_out, bra_in, ket_out, ket_in (then classical), and the modes in
    increasing order. *)
From Coq Require Import ZArith List Bool.
Require Import Verif.Base Verif.Wires.
Import ListNotations.

Definition descr := (Z * bool * side)%type.
Definition desc (w : wire) : descr := (mode w, is_out w, wside w).
Definition descs (ws : wires) : list descr := map desc ws.

Definition d_mode (d : descr) : Z := fst (fst d).
Definition d_out (d : descr) : bool := snd (fst d).
Definition d_side (d : descr) : side := snd d.
(** the wire it can be joined to: same mode and side, opposite direction *)
Definition flip (d : descr) : descr := (d_mode d, negb (d_out d), d_side d).

Definition group_rank (d : descr) : nat :=
  match d_side d, d_out d with
  | Bra, true => 0 | Bra, false => 1 | Ket, true => 2 | Ket, false => 3
  | Cl, true => 4 | Cl, false => 5
  end.

(** strict standard order *)
Definition std_lt (d1 d2 : descr) : Prop :=
  group_rank d1 < group_rank d2 \/ (group_rank d1 = group_rank d2 /\ (d_mode d1 < d_mode d2)%Z).

(** all modes of the object lie in a window of 20000 *)
Definition window (ws : wires) : Prop :=
  forall w1 w2, In w1 ws -> In w2 ws -> (mode w1 - mode w2 < 20000)%Z.

(** no two wires with the same mode, direction and side *)
Definition distinct (ws : wires) : Prop := NoDup (descs ws).

(** the i-th wire in iteration order has index i *)
Definition well_indexed (ws : wires) : Prop := indices ws = seq 0 (length ws).

(** composition: what must survive and when it must be refused (documentation of __matmul__, wires.py:595-616) *)
Definition survives (a b : wires) (d : descr) : Prop :=
  if d_out d
  then In d (descs b) \/ (In d (descs a) /\ ~ In (flip d) (descs b))
  else In d (descs a) \/ (In d (descs b) /\ ~ In (flip d) (descs a)).
Definition collision (a b : wires) (d : descr) : Prop :=
  if d_out d
  then In d (descs b) /\ In d (descs a) /\ ~ In (flip d) (descs b)
  else In d (descs a) /\ In d (descs b) /\ ~ In (flip d) (descs a).

(** wires of the two operands with the same observable descriptor carry the same representation tag *)
Definition same_repr (a b : wires) : Prop :=
  forall x y, In x a -> In y b -> desc x = desc y -> wrepr x = wrepr y.

(** a wire of [a] and a wire of [b] are joined by [a @ b] *)
Definition joined (x y : wire) : Prop := is_out x = true /\ desc y = flip (desc x).
