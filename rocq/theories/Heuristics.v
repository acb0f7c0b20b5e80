(** Claim C12: pattern heuristics. Model of mrmustard/path/branch_and_bound.py:434-464 (reduce_first, heuristic) and
    path/optimize.py:57-62 (the patterns in use). *)
From Coq Require Import ZArith List Bool Lia Arith String Ascii.
Require Import Verif.Base Verif.Wires Verif.BranchBound Verif.PathGraph.
Import ListNotations.
Local Open Scope nat_scope.
Local Open Scope list_scope.

(** a pattern such as 1BB: number of edges, first letters of the two ansatz names *)
Record code := mkCode { deg : nat; tA : ascii; tB : ascii }.
Definition initial_letter (c : gcomp) : option ascii := match ansatz c with EmptyString => None | String a _ => Some a end.
Definition out_of (g : graph) (n : nat) := filter (fun e => Nat.eqb (fst e) n) (gedges g).
Definition into (g : graph) (n : nat) := filter (fun e => Nat.eqb (snd e) n) (gedges g).
Definition degree (g : graph) (n : nat) : nat := List.length (out_of g n) + List.length (into g n).
Definition letter_is (x : option ascii) (a : ascii) : bool := match x with Some y => Ascii.eqb y a | None => false end.
Definition edge_matches (g : graph) (k : code) (e : nat * nat) : bool :=
  match comp_at g (fst e), comp_at g (snd e) with
  | Ok A, Ok B => letter_is (initial_letter A) (tA k) && letter_is (initial_letter B) (tB k)
  | _, _ => false
  end.
(** the candidate edges in the order in which the two nested loops visit them (450-458) *)
Definition visited (g : graph) (k : code) : list (nat * nat) :=
  flat_map (fun p => if Nat.eqb (deg k) (degree g (fst p)) then out_of g (fst p) ++ into g (fst p) else []) (nodes g).
Definition reduce_first (g : graph) (k : code) : result (graph * option (nat * nat)) :=
  match find (edge_matches g k) (visited g k) with
  | Some e => bind (gcontract g e) (fun g' => Ok (g', Some e))
  | None => Ok (g, None)
  end.
(** 461-475; None: fuel exhausted *)
Fixpoint heuristic (fuel : nat) (g : graph) (k : code) : option (result graph) :=
  match fuel with O => None | S f =>
    match reduce_first g k with
    | Err x => Some (Err x)
    | Ok (g', None) => Some (Ok g')
    | Ok (g', Some _) => heuristic f g' k
    end end.
Definition codes : list code :=
  [mkCode 1 "B" "B"; mkCode 2 "B" "B"; mkCode 1 "B" "F"; mkCode 1 "F" "B"; mkCode 1 "F" "F"; mkCode 2 "F" "F"]%char.

(** an edge matching the pattern at one of its ends *)
Definition matching (g : graph) (k : code) (e : nat * nat) : Prop :=
  In e (gedges g) /\ (exists n, In n (map fst (nodes g)) /\ (fst e = n \/ snd e = n) /\ degree g n = deg k)
  /\ edge_matches g k e = true.

Lemma visited_in : forall g k e, In e (visited g k) <->
  In e (gedges g) /\ exists n, In n (map fst (nodes g)) /\ (fst e = n \/ snd e = n) /\ degree g n = deg k.
Proof.
  intros g k e. unfold visited. rewrite in_flat_map. split.
  - intros [p [Hp H]]. destruct (Nat.eqb_spec (deg k) (degree g (fst p))) as [E|]; [|destruct H].
    apply in_app_or in H. unfold out_of, into in H. rewrite !filter_In, !Nat.eqb_eq in H.
    split; [tauto|]. exists (fst p). split; [now apply in_map|]. split; [tauto|congruence].
  - intros [He [n [Hn [D E]]]]. apply in_map_iff in Hn. destruct Hn as [p [<- Hp]]. exists p. split; [exact Hp|].
    rewrite E, Nat.eqb_refl. apply in_or_app. unfold out_of, into. rewrite !filter_In, !Nat.eqb_eq. tauto.
Qed.

(** one step contracts an edge that matches the pattern, and does nothing only if there is none *)
Theorem C12_reduce_first : forall g k,
  (exists e, matching g k e /\ reduce_first g k = bind (gcontract g e) (fun g' => Ok (g', Some e)))
  \/ ((forall e, ~ matching g k e) /\ reduce_first g k = Ok (g, None)).
Proof.
  intros g k. unfold reduce_first. destruct (find (edge_matches g k) (visited g k)) as [e|] eqn:F.
  - left. apply find_some in F. destruct F as [I M]. apply visited_in in I. exists e. split; [|reflexivity]. split; [apply I|]. split; [apply I|exact M].
  - right. split; [|reflexivity]. intros e [I [N M]]. assert (V : In e (visited g k)) by (apply visited_in; auto).
    pose proof (find_none _ _ F e V). congruence.
Qed.
(** the loop ends, and when it ends without error no edge matches the pattern any more *)
Theorem C12_heuristic : forall g k fuel, List.length (nodes g) < fuel ->
  exists r, heuristic fuel g k = Some r /\ forall g', r = Ok g' -> contraction g g' /\ forall e, ~ matching g' k e.
Proof.
  intros g k fuel. revert g. induction fuel as [|f IH]; intros g L; [lia|]. simpl.
  destruct (C12_reduce_first g k) as [[e [M E]]|[N E]]; rewrite E.
  - destruct (gcontract g e) as [g1|] eqn:Ec; cbn [bind].
    + destruct (IH g1) as [r [Er Hr]].
      { pose proof (gcontract_size g e g1 (proj1 M) Ec). lia. }
      exists r. split; [exact Er|]. intros g' Eg. destruct (Hr g' Eg) as [C K]. split; [|exact K]. econstructor; [apply M|exact Ec|exact C].
    + exists (Err e0). split; [reflexivity|]. discriminate.
  - exists (Ok g). split; [reflexivity|]. intros g' Eg. injection Eg as <-. split; [constructor|exact N].
Qed.

(** the names that from_circuitcomponent and __matmul__ actually put in [ansatz]: the class names *)
Definition real_names (g : graph) : Prop :=
  forall p, In p (nodes g) -> ansatz (snd p) = "PolyExpAnsatz"%string \/ ansatz (snd p) = "ArrayAnsatz"%string.
(** with these names no pattern in use ever matches: the heuristics of optimal_path do nothing *)
Theorem C12_refuted_never_fires : forall g k fuel, real_names g -> In k codes -> heuristic (S fuel) g k = Some (Ok g).
Proof.
  intros g k fuel RN Hk. simpl. destruct (C12_reduce_first g k) as [[e [[_ [_ M]] _]]|[_ E]]; [|now rewrite E].
  exfalso. unfold edge_matches, comp_at in M. destruct (find _ (nodes g)) as [p|] eqn:F1; [|discriminate].
  destruct (find (fun p0 => Nat.eqb (fst p0) (snd e)) (nodes g)) as [q|] eqn:F2; [|discriminate].
  apply find_some in F1. destruct (RN p (proj1 F1)) as [N|N]; unfold initial_letter at 1 in M; rewrite N in M;
    simpl in Hk; repeat (destruct Hk as [<-|Hk]; [discriminate|]); destruct Hk.
Qed.
Theorem C12_example : real_names g4 /\ matching g4 (mkCode 1 "A" "A")%char (2, 3)
  /\ exists g', reduce_first g4 (mkCode 1 "A" "A")%char = Ok (g', Some (2, 3)).
Proof.
  split; [|split].
  - intros p H. simpl in H. destruct H as [<-|[<-|[<-|[<-|[]]]]]; right; reflexivity.
  - split; [vm_compute; auto 6|]. split; [|reflexivity]. exists 3. split; [vm_compute; auto 6|]. split; [now right|reflexivity].
  - unfold reduce_first. replace (find (edge_matches g4 (mkCode 1 "A" "A")%char) (visited g4 (mkCode 1 "A" "A")%char)) with (Some (2, 3)) by reflexivity.
    destruct (gcontract g4 (2, 3)) as [g'|] eqn:E; [now exists g'|]. exfalso.
    assert (X : is_ok (gcontract g4 (2, 3)) = true) by (vm_compute; reflexivity). rewrite E in X. discriminate.
Qed.
