(** Model of mrmustard/physics/wires.py (all of class QuantumWire, ClassicalWire, Wires except
    the display code). Modes are integers (Z). A Python set of wires is a list without
    repetitions, in an arbitrary iteration order. *)
From Coq Require Import ZArith List Bool Lia Permutation Sorted Arith.
Require Import Verif.Base.
Import ListNotations.

(** wires.py:36-44 ReprEnum *)
Inductive repr := Unspecified | Bargmann | Fock | Quadrature | PhaseSpace | Characteristic.
Definition repr_eqb (a b : repr) : bool :=
  match a, b with
  | Unspecified, Unspecified | Bargmann, Bargmann | Fock, Fock | Quadrature, Quadrature
  | PhaseSpace, PhaseSpace | Characteristic, Characteristic => true
  | _, _ => false
  end.
Lemma repr_eqb_eq : forall a b, repr_eqb a b = true <-> a = b.
Proof. intros [] []; simpl; split; congruence. Qed.

(** wires.py:59-80 QuantumWire and 120-137 ClassicalWire: one record; [Cl] tags a ClassicalWire,
    [Bra]/[Ket] is the [is_ket] flag of a QuantumWire. [fock_cutoff] is not modelled (it takes no
    part in any function of this file). *)
Inductive side := Bra | Ket | Cl.
Definition side_eqb (a b : side) : bool :=
  match a, b with Bra, Bra | Ket, Ket | Cl, Cl => true | _, _ => false end.
Lemma side_eqb_eq : forall a b, side_eqb a b = true <-> a = b.
Proof. intros [] []; simpl; split; congruence. Qed.

Record wire := mkWire { mode : Z; is_out : bool; wside : side; index : nat; wrepr : repr; wid : nat }.
Definition wires := list wire.

Definition is_ketb (w : wire) := side_eqb (wside w) Ket.
Definition is_brab (w : wire) := side_eqb (wside w) Bra.
Definition is_clb (w : wire) := side_eqb (wside w) Cl.
Definition quantumb (w : wire) := negb (is_clb w).

(** wires.py:101-106 QuantumWire._order, wires.py:149-154 ClassicalWire._order *)
Definition b2z (b : bool) : Z := if b then 1 else 0.
Definition order (w : wire) : Z :=
  match wside w with
  | Cl => 1000000 + mode w + 10000 * (1 - 2 * b2z (is_out w))
  | _ => mode w + 10000 * (1 - 2 * b2z (is_out w)) - 100000 * (1 - 2 * b2z (is_ketb w))
  end%Z.
Arguments order : simpl never.

(** wires.py:108-114 QuantumWire.__eq__, 156-157 ClassicalWire.__eq__, as seen through hashing
    (two wires of different classes have different hashes, so sets never identify them). *)
Definition wire_eqb (a b : wire) : bool :=
  Z.eqb (mode a) (mode b) && Bool.eqb (is_out a) (is_out b)
  && side_eqb (wside a) (wside b) && repr_eqb (wrepr a) (wrepr b).

(** [a == b] called directly (list.index does): QuantumWire.__eq__ reads other.is_ket after mode and
    is_out compared equal, which a ClassicalWire does not have -> AttributeError (wires.py:108-114);
    ClassicalWire.__eq__ only reads mode, is_out, repr (wires.py:156-157). *)
Definition wire_py_eq (a b : wire) : result bool :=
  if is_clb a then
    Ok (Z.eqb (mode a) (mode b) && Bool.eqb (is_out a) (is_out b) && repr_eqb (wrepr a) (wrepr b))
  else if Z.eqb (mode a) (mode b) && Bool.eqb (is_out a) (is_out b) then
    if is_clb b then Err AttributeError
    else Ok (side_eqb (wside a) (wside b) && repr_eqb (wrepr a) (wrepr b))
  else Ok false.

(** wires.py:451-456 sorted_wires *)
Definition sorted_wires (ws : wires) : list wire := isort order ws.

(** wires.py:399-404 indices, 392-397 ids, 425-430 modes, 591-592 __len__ *)
Definition indices (ws : wires) : list nat := map index (sorted_wires ws).
Definition ids (ws : wires) : list nat := map wid (sorted_wires ws).
Definition modes (ws : wires) : list Z := map mode ws.

Definition mem_mode (m : Z) (l : list Z) : bool := existsb (Z.eqb m) l.

(** wires.py:364-449: bra, classical, input, ket, output, quantum (views) *)
Definition bra (ws : wires) := filter is_brab ws.
Definition ket (ws : wires) := filter is_ketb ws.
Definition classical (ws : wires) := filter is_clb ws.
Definition quantum (ws : wires) := filter quantumb ws.
Definition input (ws : wires) := filter (fun w => negb (is_out w)) ws.
Definition output (ws : wires) := filter is_out ws.

(** wires.py:575-583 __getitem__, 664-672 __sub__ *)
Definition at_modes (ws : wires) (ms : list Z) : wires := filter (fun w => mem_mode (mode w) ms) ws.
Definition sub (a b : wires) : wires := filter (fun w => negb (mem_mode (mode w) (modes b))) a.

(** wires.py:554-567 __add__ *)
Definition overlaps (a b : wires) : bool := existsb (fun x => existsb (wire_eqb x) b) a.
Definition add (a b : wires) : result wires :=
  if overlaps (classical a) (classical b) then Err ValueError
  else if overlaps (quantum a) (quantum b) then Err ValueError
  else Ok (a ++ b).

(** wires.py:547-552 _reindex: index := position in the sorted list *)
Fixpoint number_from (i : nat) (l : list wire) : list wire :=
  match l with
  | [] => []
  | w :: t => mkWire (mode w) (is_out w) (wside w) i (wrepr w) (wid w) :: number_from (S i) t
  end.
Definition reindex (ws : wires) : wires := number_from 0 (sorted_wires ws).

(** wires.py:302-336 __init__: each argument is a set of modes (list without repetition);
    ids are random in the code (randint), here given by an arbitrary function. *)
Fixpoint group (out : bool) (s : side) (r : repr) (f : nat -> nat) (n : nat) (l : list Z) : list wire :=
  match l with
  | [] => []
  | m :: t => mkWire m out s n r (f n) :: group out s r f (S n) t
  end.
Definition zsort (l : list Z) : list Z := isort (fun z => z) l.
Definition make (f : nat -> nat) (ob ib ok ik co ci : list Z) : wires :=
  let n1 := length ob in
  let n2 := n1 + length ib in
  let n3 := n2 + length ok in
  let n4 := n3 + length ik in
  let n5 := n4 + length co in
  group true Bra Bargmann f 0 (zsort ob) ++ group false Bra Bargmann f n1 (zsort ib)
  ++ group true Ket Bargmann f n2 (zsort ok) ++ group false Ket Bargmann f n3 (zsort ik)
  ++ group true Cl Unspecified f n4 (zsort co) ++ group false Cl Unspecified f n5 (zsort ci).

(** wires.py:350-362 args *)
Definition args (ws : wires) : list (list Z) :=
  [ modes (output (bra ws)); modes (input (bra ws)); modes (output (ket ws));
    modes (input (ket ws)); modes (output (classical ws)); modes (input (classical ws)) ].

(** wires.py:513-518 copy(new_ids): same wires, new ids (arbitrary injective-or-not function of the wire) *)
Definition with_ids (f : wire -> nat) (ws : wires) : wires :=
  map (fun w => mkWire (mode w) (is_out w) (wside w) (index w) (wrepr w) (f w)) ws.

(** wires.py:338-348 adjoint, 380-390 dual *)
Definition flip_ket (w : wire) : wire :=
  mkWire (mode w) (is_out w) (match wside w with Bra => Ket | Ket => Bra | Cl => Cl end)
         (index w) (wrepr w) (wid w).
Definition flip_out (w : wire) : wire :=
  mkWire (mode w) (negb (is_out w)) (wside w) (index w) (wrepr w) (wid w).
Definition adjoint (f : wire -> nat) (ws : wires) : wires := reindex (map flip_ket (with_ids f ws)).
Definition dual (f : wire -> nat) (ws : wires) : wires := reindex (map flip_out (with_ids f ws)).

(** wires.py:520-529 overlap *)
Definition inter_modes (a b : list Z) : list Z := filter (fun m => mem_mode m b) a.
Definition overlap (a b : wires) : list Z * list Z :=
  (inter_modes (modes (bra (output a))) (modes (bra (input b))),
   inter_modes (modes (ket (output a))) (modes (ket (input b)))).

(** wires.py:475-486 contracted_indices *)
Definition contracted_indices (a b : wires) : list nat * list nat :=
  let (ob, ok) := overlap a b in
  (indices (at_modes (bra (output a)) ob) ++ indices (at_modes (ket (output a)) ok),
   indices (at_modes (bra (input b)) ob) ++ indices (at_modes (ket (input b)) ok)).

(** wires.py:630-646 first half of __matmul__: the new wires *)
Definition matmul_wires (a b : wires) : result wires :=
  bind (add (bra (output b)) (sub (bra (output a)) (bra (input b)))) (fun bra_out =>
  bind (add (ket (output b)) (sub (ket (output a)) (ket (input b)))) (fun ket_out =>
  bind (add (bra (input a)) (sub (bra (input b)) (bra (output a)))) (fun bra_in =>
  bind (add (ket (input a)) (sub (ket (input b)) (ket (output a)))) (fun ket_in =>
  bind (add (output (classical b)) (sub (output (classical a)) (input (classical b)))) (fun cl_out =>
  bind (add (input (classical a)) (sub (input (classical b)) (output (classical a)))) (fun cl_in =>
  Ok (reindex (sorted_wires bra_out ++ sorted_wires bra_in ++ sorted_wires ket_out
               ++ sorted_wires ket_in ++ sorted_wires cl_out ++ sorted_wires cl_in)))))))).

(** Python's list.index(w): position of the first element equal to w (ValueError if none) *)
Fixpoint py_index (w : wire) (l : list wire) (i : nat) : result nat :=
  match l with
  | [] => Err ValueError
  | x :: t => bind (wire_py_eq x w) (fun e => if e then Ok i else py_index w t (S i))
  end.
Fixpoint mapM {A B} (f : A -> result B) (l : list A) : result (list B) :=
  match l with
  | [] => Ok []
  | x :: t => bind (f x) (fun y => bind (mapM f t) (fun ys => Ok (y :: ys)))
  end.

(** wires.py:648-652 second half of __matmul__: the permutation *)
Definition combined (a b new : wires) : list wire :=
  filter (fun w => existsb (Nat.eqb (wid w)) (ids new)) (sorted_wires a)
  ++ filter (fun w => existsb (Nat.eqb (wid w)) (ids new)) (sorted_wires b).
Definition matmul (a b : wires) : result (wires * list nat) :=
  bind (matmul_wires a b) (fun new =>
  bind (mapM (fun w => py_index w (combined a b new) 0) (sorted_wires new)) (fun perm =>
  Ok (new, perm))).

(** wires.py:488-511 contracted_labels. [f] gives the new ids of the copy of other. *)
Fixpoint set_nth (l : list nat) (i v : nat) : list nat :=
  match l, i with
  | [], _ => []
  | _ :: t, O => v :: t
  | x :: t, S i' => x :: set_nth t i' v
  end.
Definition memn (x : nat) (l : list nat) : bool := existsb (Nat.eqb x) l.
Definition join_labels (idxA idxB : list nat) (lblA lblB : list nat) : list nat :=
  fold_left (fun l ij => set_nth l (snd ij) (nth (fst ij) lblA 0)) (combine idxA idxB) lblB.
Definition lookup_id (tbl : list (nat * nat)) (i : nat) : result nat :=
  (* dict lookup after insertion in order: the last binding of a key wins *)
  match find (fun p => Nat.eqb (fst p) i) (rev tbl) with
  | Some p => Ok (snd p)
  | None => Err KeyError
  end.
Definition contracted_labels (f : wire -> nat) (a b : wires)
  : result (list nat * list nat * list nat) :=
  let b' := with_ids f b in
  let (idxA, idxB) := contracted_indices a b' in
  let lblA := seq 0 (length a) in
  let lblB := join_labels idxA idxB lblA (seq (length a) (length b')) in
  let is_output l := xorb (memn l lblA) (memn l lblB) in
  let id2label := combine (ids a) lblA ++ combine (ids b') lblB in
  bind (matmul a b') (fun r =>
  bind (mapM (fun w => lookup_id id2label (wid w)) (sorted_wires (fst r))) (fun all =>
  Ok (lblA, lblB, filter is_output all))).
