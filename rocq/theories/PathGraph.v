(** Claims C10, C12: graphs of components, their contraction, and the path search on them.
    Model of mrmustard/path/branch_and_bound.py. Costs are exact natural numbers (int in the code). *)
From Coq Require Import ZArith List Bool Lia Arith String.
Require Import Verif.Base Verif.Wires Verif.BranchBound.
Import ListNotations.
Local Open Scope nat_scope.
Local Open Scope list_scope.

(** branch_and_bound.py:44-78 GraphComponent; [ansatz] is the class name of the ansatz *)
Record gcomp := mkG { ansatz : string; gwires : wires; gshape : list nat; gname : string; gcost : nat }.
Definition is_poly (c : gcomp) : bool := String.eqb (ansatz c) "PolyExpAnsatz".
Definition prodl (l : list nat) : nat := fold_right Nat.mul 1 l.
Definition without (idx : list nat) (sh : list nat) : list nat :=
  map snd (filter (fun p => negb (memn (fst p) idx)) (combine (seq 0 (List.length sh)) sh)).

(** branch_and_bound.py:80-127 contraction_cost *)
Definition contraction_cost (A B : gcomp) : nat :=
  let (idxA, idxB) := contracted_indices (gwires A) (gwires B) in
  let m := List.length idxA in
  let nA := List.length (gshape A) - m in let nB := List.length (gshape B) - m in
  if is_poly A && is_poly B
  then m * m * m + (m + 1) * m * nA + (m + 1) * m * nB + (m + 1) * m + m * m * m
  else prodl (without idxA (gshape A)) * prodl (without idxB (gshape B))
       * prodl (map (fun ij => Nat.min (nth (fst ij) (gshape A) 0) (nth (snd ij) (gshape B) 0)) (combine idxA idxB))
       + prodl (gshape A) * Nat.b2n (is_poly A) + prodl (gshape B) * Nat.b2n (is_poly B).

(** branch_and_bound.py:129-148 __matmul__ *)
Definition gmatmul (A B : gcomp) : result gcomp :=
  bind (matmul (gwires A) (gwires B)) (fun wp =>
  let (idxA, idxB) := contracted_indices (gwires A) (gwires B) in
  let shape := without idxA (gshape A) ++ without idxB (gshape B) in
  Ok (mkG (if is_poly A && is_poly B then "PolyExpAnsatz" else "ArrayAnsatz") (fst wp) (map (fun p => nth p shape 0) (snd wp))
          ("(" ++ gname A ++ "@" ++ gname B ++ ")")%string (contraction_cost A B + gcost A + gcost B))).

(** branch_and_bound.py:154-190 Graph. The edge attribute "cost" is always the contraction cost of the two nodes (assign_costs is
    called on every new graph, 347), so it is not stored. *)
Record graph := mkGraph { nodes : list (nat * gcomp); gedges : list (nat * nat); gcosts : list nat; solution : list (nat * nat) }.
Definition comp_at (g : graph) (n : nat) : result gcomp :=
  match find (fun p => Nat.eqb (fst p) n) (nodes g) with Some p => Ok (snd p) | None => Err KeyError end.
Definition edge_cost (g : graph) (e : nat * nat) : nat :=
  match comp_at g (fst e), comp_at g (snd e) with Ok A, Ok B => contraction_cost A B | _, _ => 0 end.
Definition total_cost (g : graph) : nat := list_sum (gcosts g).
Definition edge_eqb (e f : nat * nat) : bool := Nat.eqb (fst e) (fst f) && Nat.eqb (snd e) (snd f).
Definition pair_eq_dec : forall x y : nat * nat, {x = y} + {x <> y}.
Proof. decide equality; apply Nat.eq_dec. Defined.
(** networkx.contracted_edge(graph, (u, v), self_loops=False): v is merged into u *)
Definition merged_edges (u v : nat) (es : list (nat * nat)) : list (nat * nat) :=
  let f n := if Nat.eqb n v then u else n in
  nodup pair_eq_dec (filter (fun e => negb (Nat.eqb (fst e) (snd e))) (map (fun e => (f (fst e), f (snd e))) es)).
(** branch_and_bound.py:330-349 contract *)
Definition gcontract (g : graph) (e : nat * nat) : result graph :=
  let (u, v) := e in
  bind (comp_at g u) (fun A => bind (comp_at g v) (fun B => bind (gmatmul A B) (fun AB =>
  Ok (mkGraph (map (fun p => if Nat.eqb (fst p) u then (u, AB) else p) (filter (fun p => negb (Nat.eqb (fst p) v)) (nodes g)))
              (merged_edges u v (gedges g)) (gcosts g ++ [edge_cost g e]) (solution g ++ [e]))))).

Definition optimal_contraction := optimal gedges edge_cost total_cost gcontract.

Lemma gcontract_cost : forall g e c, In e (gedges g) -> gcontract g e = Ok c -> total_cost c = total_cost g + edge_cost g e.
Proof.
  intros g [u v] c _ H. unfold gcontract in H. destruct (comp_at g u) as [A|]; [|discriminate]. destruct (comp_at g v) as [B|]; [|discriminate].
  cbn [bind] in H. destruct (gmatmul A B); [|discriminate]. cbn [bind] in H. injection H as <-.
  unfold total_cost. cbn [gcosts]. rewrite list_sum_app. simpl. lia.
Qed.
Lemma gcontract_size : forall g e c, In e (gedges g) -> gcontract g e = Ok c -> List.length (nodes c) < List.length (nodes g).
Proof.
  intros g [u v] c _ H. unfold gcontract in H. destruct (comp_at g u) as [A|]; [|discriminate]. destruct (comp_at g v) as [B|] eqn:EB; [|discriminate].
  cbn [bind] in H. destruct (gmatmul A B); [|discriminate]. cbn [bind] in H. injection H as <-. cbn [nodes]. rewrite map_length.
  unfold comp_at in EB. destruct (find _ (nodes g)) as [p|] eqn:F; [|discriminate]. clear EB.
  induction (nodes g) as [|q t IH]; [discriminate|]. simpl in *. destruct (Nat.eqb (fst q) v); simpl.
  - assert (List.length (filter (fun p => negb (Nat.eqb (fst p) v)) t) <= List.length t); [|lia]. clear. induction t as [|x t IH]; simpl; [lia|]. destruct (negb _); simpl; lia.
  - specialize (IH F). lia.
Qed.

(** a contraction of g: a graph obtained by contracting edges one after the other *)
Definition contraction := reach gedges gcontract.

(** C10: for every choice of the random initial contractions and every delivery order of the queue, the graph returned is a
    contraction of g with no edge left whose cost is minimal among all of these; the search always ends *)
Theorem C10_optimal : forall fuel choices pick g b,
  (forall e, In e (gedges g) -> 0 < edge_cost g e) ->
  optimal_contraction fuel choices pick g = Some (Ok (Some b)) ->
  contraction g b /\ gedges b = []
  /\ forall r, contraction g r -> gedges r = [] -> total_cost b <= total_cost r.
Proof.
  intros fuel choices pick g b POS H.
  destruct (search_optimal gedges edge_cost total_cost gcontract gcontract_cost fuel choices pick g (Some b) POS H) as [H1 _].
  now apply H1.
Qed.
Theorem C10_terminates : forall g, exists n, forall fuel choices pick, n <= fuel -> optimal_contraction fuel choices pick g <> None.
Proof. intros g. exact (search_terminates gedges edge_cost total_cost gcontract (fun g => List.length (nodes g)) gcontract_size g). Qed.

(** the solution is the list of the contracted edges, its costs are those of the contractions *)
Inductive contracted_by : graph -> list (nat * nat) -> graph -> Prop :=
| cb_nil : forall g, contracted_by g [] g
| cb_cons : forall g e c p r, In e (gedges g) -> gcontract g e = Ok c -> contracted_by c p r -> contracted_by g (e :: p) r.
Theorem C10_solution : forall g b, contraction g b -> solution g = [] -> contracted_by g (solution b) b.
Proof.
  intros g b H S.
  assert (X : forall g b, contraction g b -> exists p, solution b = solution g ++ p /\ contracted_by g p b).
  { clear. intros g b H. induction H as [g|g e c r He Ec R [p [E1 C1]]]; [exists []; rewrite app_nil_r; split; [reflexivity|constructor]|].
    exists (e :: p). split; [|econstructor; eauto]. rewrite E1.
    assert (solution c = solution g ++ [e]) as ->; [|now rewrite <- app_assoc].
    unfold gcontract in Ec. destruct e as [u v]. destruct (comp_at g u); [|discriminate]. destruct (comp_at g v); [|discriminate].
    cbn [bind] in Ec. destruct (gmatmul g0 g1); [|discriminate]. cbn [bind] in Ec. injection Ec as <-. reflexivity. }
  destruct (X g b H) as [p [E C]]. rewrite S in E. simpl in E. now rewrite E.
Qed.

(** branch_and_bound.py:276-307 parse_components *)
Fixpoint out_edges (i j : nat) (w : wires) (rest : list gcomp) : list (nat * nat) :=
  match rest with
  | [] => []
  | B :: t =>
    let (ob, ok) := overlap w (gwires B) in
    let hit := negb (match ob, ok with [], [] => true | _, _ => false end) in
    let w' := if hit then filter (fun x => negb (is_out x && ((is_brab x && mem_mode (mode x) ob) || (is_ketb x && mem_mode (mode x) ok)))) (quantum w) else w in
    let e := if hit then [(i, j)] else [] in
    if match output w' with [] => true | _ => false end then e else e ++ out_edges i (S j) w' t
  end.
Fixpoint parse_edges (i : nat) (l : list gcomp) : list (nat * nat) :=
  match l with [] => [] | A :: t => out_edges i (S i) (gwires A) t ++ parse_edges (S i) t end.
Definition parse_components (l : list gcomp) : graph :=
  mkGraph (combine (seq 0 (List.length l)) l) (parse_edges 0 l) [] [].

(** ** a circuit where the search returns a path that skips a component *)
Definition arr (w : wires) (sh : list nat) : gcomp := mkG "ArrayAnsatz" w sh "" 0.
Local Open Scope Z_scope.
Definition c_vac := arr (make (fun n => (1 + n)%nat) [] [] [0; 1] [] [] []) [10; 1]%nat.
Definition c_s   := arr (make (fun n => (3 + n)%nat) [] [] [0] [0] [] []) [1; 10]%nat.
Definition c_bs  := arr (make (fun n => (5 + n)%nat) [] [] [0; 1] [0; 1] [] []) [1; 1; 1; 1]%nat.
Definition c_m   := arr (make (fun n => (9 + n)%nat) [] [] [] [0; 1] [] []) [1; 1]%nat.
Local Open Scope nat_scope.
Definition g4 := parse_components [c_vac; c_s; c_bs; c_m].

Theorem C10_example : gedges g4 = [(0, 1); (0, 2); (1, 2); (2, 3)] /\ forall e, In e (gedges g4) -> 0 < edge_cost g4 e.
Proof.
  split; [reflexivity|]. intros e H. assert (E : gedges g4 = [(0, 1); (0, 2); (1, 2); (2, 3)]) by reflexivity. rewrite E in H.
  simpl in H. destruct H as [<-|[<-|[<-|[<-|[]]]]]; vm_compute; lia.
Qed.
(** the edge (0,2) joins the state directly with the beam splitter because their modes 1 are connected; contracting it joins
    the modes 0 as well, so the gate of component 1 acts after the beam splitter. The search prefers this path. *)
Theorem C10_refuted_skipping_path : exists choices pick b,
  optimal_contraction 100 choices pick g4 = Some (Ok (Some b)) /\ solution b = [(0, 2); (0, 1); (0, 3)] /\ total_cost b = 3.
Proof.
  exists [fun k => match k with 99 => 1 | _ => 0 end], (fun _ => 0).
  destruct (optimal_contraction 100 [fun k => match k with 99 => 1 | _ => 0 end] (fun _ => 0) g4) as [[[b|]|]|] eqn:E.
  - exists b. split; [reflexivity|]. 
    assert (X : match optimal_contraction 100 [fun k => match k with 99 => 1 | _ => 0 end] (fun _ => 0) g4 with
      Some (Ok (Some b)) => solution b = [(0, 2); (0, 1); (0, 3)] /\ total_cost b = 3 | _ => False end) by (vm_compute; auto).
    rewrite E in X. exact X.
  - exfalso. assert (X : match optimal_contraction 100 [fun k => match k with 99 => 1 | _ => 0 end] (fun _ => 0) g4 with Some (Ok None) => False | _ => True end) by (vm_compute; auto).
    now rewrite E in X.
  - exfalso. assert (X : match optimal_contraction 100 [fun k => match k with 99 => 1 | _ => 0 end] (fun _ => 0) g4 with Some (Err _) => False | _ => True end) by (vm_compute; auto).
    now rewrite E in X.
  - exfalso. assert (X : match optimal_contraction 100 [fun k => match k with 99 => 1 | _ => 0 end] (fun _ => 0) g4 with None => False | _ => True end) by (vm_compute; auto).
    now rewrite E in X.
Qed.
(** another random choice makes the search raise ValueError on the same circuit *)
Theorem C10_refuted_crash : exists choices pick, optimal_contraction 100 choices pick g4 = Some (Err ValueError).
Proof. exists [fun k => match k with 99 => 1 | 98 => 1 | _ => 0 end], (fun _ => 0). vm_compute. reflexivity. Qed.
