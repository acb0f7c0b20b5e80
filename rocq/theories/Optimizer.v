(** The optimizer: mrmustard/training/optimizer.py, mrmustard/training/parameter_update.py, and the gradient conversions of
    mrmustard/math/backend_manager.py:1627-1679. C38 and C49. *)
From Coq Require Import Reals Lra Lia.
From Coquelicot Require Import Complex.
From mathcomp Require Import all_ssreflect all_algebra.
From Verif Require Import CMat Expm.
Set Implicit Arguments. Unset Strict Implicit. Unset Printing Implicit Defensive.
Import GRing.Theory.
Local Open Scope ring_scope.

(** conjugate transpose and real part *)
Definition adj n m (A : 'M[C]_(n, m)) : 'M[C]_(m, n) := (map_mx Cconj A)^T.
Definition re_mx n m (A : 'M[C]_(n, m)) : 'M[C]_(n, m) := map_mx (fun z : C => RtoC (Re z)) A.
Definition half : C := RtoC (Rinv (IZR 2)).
(** backend_manager.py:1627-1632 *)
Definition J n : 'M[C]_(n + n) := block_mx 0 1%:M (- 1%:M) 0.
(** backend_manager.py:1644-1662 *)
Definition euclidean_to_symplectic n (S dS : 'M[C]_(n + n)) : 'M[C]_(n + n) := let Z := S^T *m dS in half *: (Z + J n *m Z^T *m J n).
(** backend_manager.py:1664-1679 *)
Definition euclidean_to_unitary n (U dU : 'M[C]_n) : 'M[C]_n := let Z := adj U *m dU in half *: (Z - adj Z).
(** parameter_update.py:69-78: the returned update, new_value - S; learning rates are real *)
Definition update_symplectic n (lr : R) (S dS : 'M[C]_(n + n)) : 'M[C]_(n + n) :=
  let Y := euclidean_to_symplectic S dS in
  S *m (expm (RtoC (- lr) *: Y^T) *m expm (RtoC (- lr) *: (Y - Y^T))) - S.
(** parameter_update.py:104-108 *)
Definition update_unitary n (lr : R) (U dU : 'M[C]_n) : 'M[C]_n := U *m expm (RtoC (- lr) *: euclidean_to_unitary U dU) - U.
(** parameter_update.py:42-46 *)
Definition update_orthogonal n (lr : R) (O dO : 'M[C]_n) : 'M[C]_n := O *m expm (RtoC (- lr) *: euclidean_to_unitary O (re_mx dO)) - O.

(** ** Specification: the groups *)
Definition real n m (A : 'M[C]_(n, m)) : Prop := map_mx Cconj A = A.
Definition symplectic n (S : 'M[C]_(n + n)) : Prop := S^T *m J n *m S = J n /\ S *m J n *m S^T = J n.
Definition unitary n (U : 'M[C]_n) : Prop := adj U *m U = 1%:M /\ U *m adj U = 1%:M.
Definition orthogonal n (O : 'M[C]_n) : Prop := real O /\ O^T *m O = 1%:M /\ O *m O^T = 1%:M.

Section Alg.
Variable n : nat.
Lemma JJ : J n *m J n = - 1%:M.
Proof. by rewrite /J mulmx_block !mul0mx !mul1mx !mulmx0 mulmx1 !addr0 !add0r -[RHS]/(- 1%:M) scalar_mx_block opp_block_mx !oppr0. Qed.
Lemma JT : (J n)^T = - J n.
Proof. by rewrite /J tr_block_mx !trmx0 linearN /= !trmx1 opp_block_mx !oppr0 opprK. Qed.
Lemma J_inv : J n *m (- J n) = 1%:M /\ (- J n) *m J n = 1%:M.
Proof. by rewrite mulmxN mulNmx JJ opprK. Qed.
(** the Lie algebra: X^T J = - J X *)
Definition sp (X : 'M[C]_(n + n)) : Prop := X^T *m J n = - (J n *m X).
Lemma sp_scal c X : sp X -> sp (c *: X).
Proof. rewrite /sp => H. by rewrite linearZ /= -scalemxAl H -scalemxAr scalerN. Qed.
Lemma sp_sub X Y : sp X -> sp Y -> sp (X - Y).
Proof. rewrite /sp => H1 H2. by rewrite linearB /= mulmxBl H1 H2 mulmxBr opprB addrC opprK. Qed.
Lemma sp_tr X : sp X -> sp X^T.
Proof.
rewrite /sp trmxK => H. have E : J n *m (X^T *m J n) *m J n = - (J n *m (J n *m X) *m J n) by rewrite H mulmxN mulNmx.
move: E. rewrite !mulmxA JJ -!mulmxA JJ. rewrite !mulNmx !mul1mx !mulmxN mulmx1 opprK => E. by rewrite -E.
Qed.
Lemma sp_expm X : sp X -> (expm X)^T *m J n *m expm X = J n /\ expm X *m J n *m (expm X)^T = J n.
Proof.
move=> H. have [J1 J2] := J_inv. have E : X^T = J n *m (- X) *m (- J n). { rewrite mulmxN mulmxN mulNmx opprK. move: H. rewrite /sp => H. have := congr1 (fun A => A *m (- J n)) H. rewrite -!mulmxA J1 mulmx1 => ->. by rewrite mulmxN mulNmx opprK mulmxA. }
have ET : (expm X)^T = J n *m expm (- X) *m (- J n) by rewrite -expm_tr E expm_sim.
split; rewrite ET.
- rewrite -!mulmxA (mulmxA (- J n)) J2 mul1mx. by rewrite expmNl mulmx1.
- rewrite !mulmxA -(mulmxA (expm X)) JJ mulmxN mulmx1 mulNmx expmN !mulNmx mul1mx. by rewrite opprK.
Qed.
Lemma e2s_sp S dS : sp (euclidean_to_symplectic S dS).
Proof.
apply: sp_scal. rewrite /sp. move: (S^T *m dS) => Z.
have A : (J n *m Z^T *m J n)^T = J n *m Z *m J n by rewrite !trmx_mul trmxK JT !mulmxN !mulNmx opprK mulmxA.
have B : J n *m Z *m J n *m J n = - (J n *m Z) by rewrite -mulmxA JJ mulmxN mulmx1.
have D : J n *m (J n *m Z^T *m J n) = - (Z^T *m J n) by rewrite !mulmxA JJ !mulNmx mul1mx.
by rewrite linearD /= A mulmxDl mulmxDr B D opprD opprK addrC.
Qed.
Lemma symplectic_mul S E : symplectic S -> E^T *m J n *m E = J n /\ E *m J n *m E^T = J n -> symplectic (S *m E).
Proof.
move=> [S1 S2] [E1 E2]. split; rewrite trmx_mul.
- by rewrite -!mulmxA (mulmxA S^T) (mulmxA _ S) S1 !mulmxA E1.
- by rewrite !mulmxA -(mulmxA S) -(mulmxA S) E2 S2.
Qed.
End Alg.

(** C38, symplectic parameters: every step keeps a (real) symplectic matrix (real and) symplectic *)
Theorem C38_symplectic : forall n lr (S dS : 'M[C]_(n + n)), symplectic S -> symplectic (S + update_symplectic lr S dS).
Proof.
move=> n lr S dS HS. rewrite /update_symplectic addrC subrK. have H := e2s_sp S dS. set Y := euclidean_to_symplectic S dS in H *.
apply: symplectic_mul => //. have [A1 A2] := sp_expm (sp_scal (RtoC (- lr)) (sp_tr H)). have [B1 B2] := sp_expm (sp_scal (RtoC (- lr)) (sp_sub H (sp_tr H))).
set E := expm _ in A1 A2 *. set F := expm _ in B1 B2 *. rewrite trmx_mul. split.
- by rewrite -!mulmxA (mulmxA E^T) (mulmxA _ E) A1 !mulmxA B1.
- by rewrite !mulmxA -(mulmxA E) -(mulmxA E) B2 A2.
Qed.
Lemma real_mul n m p (A : 'M[C]_(n, m)) (B : 'M[C]_(m, p)) : real A -> real B -> real (A *m B).
Proof. rewrite /real => H1 H2. by rewrite map_mxM H1 H2. Qed.
Lemma real_add n m (A B : 'M[C]_(n, m)) : real A -> real B -> real (A + B).
Proof. rewrite /real => H1 H2. by rewrite map_mxD H1 H2. Qed.
Lemma real_opp n m (A : 'M[C]_(n, m)) : real A -> real (- A).
Proof. rewrite /real => H1. by rewrite map_mxN H1. Qed.
Lemma real_tr n m (A : 'M[C]_(n, m)) : real A -> real A^T.
Proof. rewrite /real => H1. by rewrite -map_trmx H1. Qed.
Lemma real_scal n m r (A : 'M[C]_(n, m)) : real A -> real (RtoC r *: A).
Proof. rewrite /real => H1. rewrite map_mxZ H1. by rewrite (_ : Cconj_rmorphism (RtoC r) = RtoC r) //; exact: Cconj_R. Qed.
Lemma real_expm n (A : 'M[C]_n) : real A -> real (expm A).
Proof. rewrite /real => H1. by rewrite -expm_conj H1. Qed.
Lemma real_J n : real (J n).
Proof. by rewrite /real /J map_block_mx !map_mx0 map_mxN !map_mx1. Qed.
Theorem C38_symplectic_real : forall n lr (S dS : 'M[C]_(n + n)), real S -> real dS -> real (S + update_symplectic lr S dS).
Proof.
move=> n lr S dS HS HD. rewrite /update_symplectic addrC subrK.
have HY : real (euclidean_to_symplectic S dS).
  rewrite /euclidean_to_symplectic. apply: real_scal. have HZ : real (S^T *m dS) by apply: real_mul => //; exact: real_tr.
  apply: real_add => //. apply: real_mul; [|exact: real_J]. apply: real_mul; [exact: real_J|exact: real_tr].
apply: real_mul => //. apply: real_mul; apply: real_expm; apply: real_scal; [exact: real_tr|]. apply: real_add => //. apply: real_opp. exact: real_tr.
Qed.
Section Uni.
Variable n : nat.
Implicit Types U A B : 'M[C]_n.
Lemma adjK A : adj (adj A) = A.
Proof. apply/matrixP => i j. by rewrite !mxE CconjK. Qed.
Lemma adj_mul A B : adj (A *m B) = adj B *m adj A.
Proof. by rewrite /adj map_mxM trmx_mul. Qed.
Lemma adj_expm A : adj (expm A) = expm (adj A).
Proof. by rewrite /adj expm_tr expm_conj. Qed.
Lemma adj_e2u U dU : adj (euclidean_to_unitary U dU) = - euclidean_to_unitary U dU.
Proof.
rewrite /euclidean_to_unitary. set Z := adj U *m dU. rewrite {1}/adj map_mxZ linearZ /= (_ : Cconj half = half); last exact: Cconj_R.
rewrite map_mxB linearB /= -/(adj Z) -/(adj (adj Z)) adjK -scalerN opprB. by [].
Qed.
Lemma expm_unitary r A : adj A = - A -> unitary (expm (RtoC r *: A)).
Proof.
move=> H. have E : adj (RtoC r *: A) = - (RtoC r *: A). { rewrite /adj map_mxZ linearZ /= (_ : Cconj (RtoC r) = RtoC r); last exact: Cconj_R. by rewrite -/(adj A) H scalerN. }
by rewrite /unitary adj_expm E expmNl expmN.
Qed.
Lemma unitary_mul U A : unitary U -> unitary A -> unitary (U *m A).
Proof.
move=> [U1 U2] [A1 A2]. split; rewrite adj_mul.
- by rewrite -!mulmxA (mulmxA (adj U)) U1 mul1mx A1.
- by rewrite -!mulmxA (mulmxA A) A2 mul1mx U2.
Qed.
End Uni.
(** C38, unitary parameters *)
Theorem C38_unitary : forall n lr (U dU : 'M[C]_n), unitary U -> unitary (U + update_unitary lr U dU).
Proof. move=> n lr U dU H. rewrite /update_unitary addrC subrK. apply: unitary_mul => //. apply: expm_unitary. exact: adj_e2u. Qed.
Lemma real_re n m (A : 'M[C]_(n, m)) : real (re_mx A).
Proof. apply/matrixP => i j. rewrite !mxE. exact: Cconj_R. Qed.
(** C38, orthogonal parameters *)
Theorem C38_orthogonal : forall n lr (O dO : 'M[C]_n), orthogonal O -> orthogonal (O + update_orthogonal lr O dO).
Proof.
move=> n lr O dO [R1 [O1 O2]]. have AO : adj O = O^T by rewrite /adj R1.
have U : unitary O by rewrite /unitary AO.
have := C38_unitary lr (re_mx dO) U. rewrite -[update_unitary lr O (re_mx dO)]/(update_orthogonal lr O dO).
have RR : real (O + update_orthogonal lr O dO).
  rewrite /update_orthogonal addrC subrK. apply: real_mul => //. apply: real_expm. apply: real_scal. rewrite /euclidean_to_unitary. apply: real_scal. rewrite AO.
  have RZ : real (O^T *m re_mx dO) by apply: real_mul; [exact: real_tr|exact: real_re]. apply: real_add => //. apply: real_opp. rewrite /adj RZ. exact: real_tr.
rewrite /unitary {1 2}/adj RR => H. by split.
Qed.

(** ** The loop: optimizer.py:109-222 *)
(** variables by update rule (parameters.py:181-195); the label picks the rule (optimizer.py:191-207) *)
Inductive var (E : Type) := VSym n (M : 'M[C]_(n + n)) | VUni n (U : 'M[C]_n) | VOrth n (Q : 'M[C]_n) | VEuc (x : E).
Arguments VEuc {E} _. Arguments VSym {E} _ _. Arguments VUni {E} _ _. Arguments VOrth {E} _ _.
(** gradients have the type of the variable *)
Definition grad E (v : var E) : Type := match v with VSym n _ => 'M[C]_(n + n) | VUni n _ => 'M[C]_n | VOrth n _ => 'M[C]_n | VEuc _ => E end.
Record rates := mkrates { symplectic_lr : R; unitary_lr : R; orthogonal_lr : R }.
(** optim.update and eqx.apply_updates (optimizer.py:105-106) for one variable; the euclidean rule [euc] (adamw or the user's) is arbitrary *)
Definition step1 E (euc : E -> E -> E) (r : rates) (v : var E) : grad v -> var E :=
  match v as w return grad w -> var E with
  | VSym n M => fun g => VSym n (M + update_symplectic (symplectic_lr r) M g)
  | VUni n U => fun g => VUni n (U + update_unitary (unitary_lr r) U g)
  | VOrth n Q => fun g => VOrth n (Q + update_orthogonal (orthogonal_lr r) Q g)
  | VEuc x => fun g => VEuc (euc x g)
  end.
(** one step (optimizer.py:82-107): the cost function gives the loss and the gradients; both may depend on everything *)
Definition step E (euc : nat -> seq (var E) -> E -> E -> E) (r : rates) (gr : nat -> seq (var E) -> nat -> forall v, grad v) (k : nat) (vs : seq (var E)) : seq (var E) :=
  map (fun iv => step1 (euc k vs) r (gr k vs iv.1 iv.2)) (zip (iota 0 (size vs)) vs).
(** optimizer.py:150-172; the history is kept most recent first: opt_history[-i] is nth (i-1) *)
Definition should_stop (max_steps : nat) (thr : R) (hist : seq R) : bool :=
  if (max_steps != 0)%N && (max_steps < size hist)%N then true
  else (20 < size hist)%N && (if Rlt_dec (foldr Rplus R0 [seq Rabs (Rminus (nth R0 hist i) (nth R0 hist i.-1)) | i <- iota 1 19]) thr then true else false).
(** optimizer.py:211-222, with fuel for the while loop: None when the fuel runs out; the result has the variables and the number of steps *)
Fixpoint loop E euc r gr (loss : nat -> seq (var E) -> R) (max_steps : nat) (thr : R) (fuel : nat) (k : nat) (hist : seq R) (vs : seq (var E)) : option (seq (var E) * nat) :=
  match fuel with
  | 0%N => None
  | f.+1 => if should_stop max_steps thr hist then Some (vs, k) else loop euc r gr loss max_steps thr f k.+1 (loss k vs :: hist) (step euc r gr k vs)
  end.
(** optimizer.py:109-148: opt_history = [0] *)
Definition minimize E euc r gr loss max_steps thr fuel (vs : seq (var E)) := loop euc r gr loss max_steps thr fuel 0 [:: R0] vs.

(** ** Specification *)
Definition on_manifold E (v : var E) : Prop := match v with VSym n M => symplectic M /\ real M | VUni n U => unitary U | VOrth n Q => orthogonal Q | VEuc _ => True end.
(** gradients with respect to real matrices are real *)
Definition real_grad E (v : var E) : grad v -> Prop := match v as w return grad w -> Prop with VSym n _ => fun g => real g | _ => fun _ => True end.
Definition all E (P : var E -> Prop) (vs : seq (var E)) : Prop := forall v, List.In v vs -> P v.
(** the variables, their number and losses after k steps *)
Fixpoint vars_at E euc r gr (vs0 : seq (var E)) (k : nat) : seq (var E) := match k with 0%N => vs0 | k'.+1 => step euc r gr k' (vars_at euc r gr vs0 k') end.

Section Loop.
Variables (E : Type) (euc : nat -> seq (var E) -> E -> E -> E) (r : rates) (gr : nat -> seq (var E) -> nat -> forall v : var E, grad v) (loss : nat -> seq (var E) -> R).
Hypothesis gr_real : forall k vs i v, real_grad (gr k vs i v).
Lemma step_manifold k vs : all (@on_manifold E) vs -> all (@on_manifold E) (step euc r gr k vs).
Proof.
move=> H v. rewrite /step => /List.in_map_iff [[i w] [<- Hin]]. have {Hin} Hw : List.In w vs.
  move: Hin. move: (iota 0 (size vs)) => s. clear. elim: vs s => [|x vs IH] [|j s] //=. case=> [[_ ->]|H]; [by left|right; exact: IH H].
have := H w Hw. have := gr_real k vs i w. move: (gr k vs i w). case: w {Hw} => [n M|n U|n Q|x] g /=.
- move=> Rg [S1 S2]. split; [exact: C38_symplectic|exact: C38_symplectic_real].
- move=> _. exact: C38_unitary.
- move=> _. exact: C38_orthogonal.
- by [].
Qed.
Lemma vars_manifold vs0 k : all (@on_manifold E) vs0 -> all (@on_manifold E) (vars_at euc r gr vs0 k).
Proof. move=> H. elim: k => [|k IH] //. exact: step_manifold. Qed.
(** the losses seen after k steps, most recent first *)
Fixpoint hist_at vs0 k : seq R := match k with 0%N => [:: R0] | k'.+1 => loss k' (vars_at euc r gr vs0 k') :: hist_at vs0 k' end.
Lemma size_hist vs0 k : size (hist_at vs0 k) = k.+1.
Proof. elim: k => [|k IH] //=. by rewrite IH. Qed.
Lemma loop_at max thr vs0 fuel k : loop euc r gr loss max thr fuel k (hist_at vs0 k) (vars_at euc r gr vs0 k) =
  if [seq j <- iota k fuel | should_stop max thr (hist_at vs0 j)] is j :: _ then Some (vars_at euc r gr vs0 j, j) else None.
Proof.
elim: fuel k => [|f IH] k //=. case: (should_stop max thr (hist_at vs0 k)) => //. by rewrite -(IH k.+1).
Qed.
(** C38: for every cost function, gradients, euclidean rule, learning rates, threshold and starting values on their manifolds, minimize with max_steps > 0 ends
    (fuel: the while loop runs at most max_steps + 1 tests); it performs k <= max_steps steps, k being the first number of steps after which the stopping
    condition holds (max_steps steps done, or more than 20 losses and the last 19 changes of the loss sum to less than the threshold); every symplectic,
    unitary and orthogonal variable is in its group at the end and after every intermediate step. *)
Theorem C38_minimize : forall max thr vs0, (0 < max)%N -> all (@on_manifold E) vs0 ->
  exists k, minimize euc r gr loss max thr max.+1 vs0 = Some (vars_at euc r gr vs0 k, k) /\ (k <= max)%N
    /\ should_stop max thr (hist_at vs0 k) = true /\ (forall j, (j < k)%N -> should_stop max thr (hist_at vs0 j) = false)
    /\ forall j, all (@on_manifold E) (vars_at euc r gr vs0 j).
Proof using gr_real.
move=> max thr vs0 max0 M0. rewrite /minimize (loop_at max thr vs0 max.+1 0).
have SM : should_stop max thr (hist_at vs0 max) by rewrite /should_stop size_hist -lt0n max0 ltnSn.
have EX : exists k, should_stop max thr (hist_at vs0 k) by exists max.
have [k Hk Hmin] := ex_minnP EX. have km : (k <= max)%N by exact: Hmin.
exists k. split; [|split => //; split => //; split; [|move=> j; exact: vars_manifold]].
- have -> : iota 0 max.+1 = iota 0 k ++ k :: iota k.+1 (max - k). { rewrite -[max.+1](@subnKC k) ?leqW // iota_add subSn //. }
  rewrite filter_cat /= Hk. have -> : [seq j <- iota 0 k | should_stop max thr (hist_at vs0 j)] = [::]; last by [].
  apply/eqP. rewrite -[_ == _]negbK -has_filter. apply/hasPn => j. rewrite mem_iota add0n => /andP [_ jk]. apply/negP => Hj. have := Hmin j Hj. by rewrite leqNgt jk.
- move=> j jk. apply/negbTE/negP => Hj. have := Hmin j Hj. by rewrite leqNgt jk.
Qed.
End Loop.
(** with max_steps = 0 the loop need not end: a loss that keeps changing by 1 is never stable *)
Definition no_euc : nat -> seq (var unit) -> unit -> unit -> unit := fun _ _ x _ => x.
Definition no_grad : nat -> seq (var unit) -> nat -> forall v : var unit, grad v :=
  fun _ _ _ v => match v as w return grad w with VSym n _ => 0 | VUni n _ => 0 | VOrth n _ => 0 | VEuc _ => tt end.
Definition rising : nat -> seq (var unit) -> R := fun k _ => INR k.
Theorem C38_unbounded : forall fuel, minimize no_euc (mkrates R0 R0 R0) no_grad rising 0 R1 fuel [::] = None.
Proof.
move=> fuel. rewrite /minimize. set h := hist_at no_euc (mkrates R0 R0 R0) no_grad rising [::].
have N : forall j, should_stop 0 R1 (h j) = false.
  have Nth : forall j i, (i < j)%N -> nth R0 (h j) i = INR (j - i.+1).
    elim=> [|m IH] [|i] //= H; [by rewrite /rising subn1|]. by rewrite IH.
  move=> j. rewrite /should_stop /h size_hist -/h eqxx andFb. case: ltnP => // Hj. rewrite andTb. case: Rlt_dec => // Hlt. exfalso. move: Hlt.
  rewrite (_ : [seq _ | i <- iota 1 19] = nseq 19 R1); first by rewrite /=; lra.
  apply: (@eq_from_nth _ R0); [by rewrite size_map size_iota size_nseq|]. move=> i. rewrite size_map size_iota => Hi. rewrite nth_nseq Hi (nth_map 0%N) ?size_iota // nth_iota // add1n /=.
  have ij : (i.+1 < j)%N. { rewrite ltnS in Hj. apply: leq_trans Hj. exact: Hi. }
  rewrite !Nth //; last exact: ltnW ij. rewrite -[(j - i.+1)%N](@subnSK i.+1) // S_INR Rabs_left; lra.
have L := @loop_at unit no_euc (mkrates R0 R0 R0) no_grad rising 0 R1 [::] fuel 0. rewrite [LHS]L. rewrite (eq_filter (a2 := pred0)) ?filter_pred0 //.
Qed.

(** ** C49: bounds *)
(** parameters.py:153-200 and _tree_flatten/_tree_unflatten (216-221, 310-313): a variable with its bounds; a step replaces the value and nothing else.
    No function of /repo reads the bounds during optimisation. *)
Record bvar := mkb { bval : R; bname : nat; blo : option R; bhi : option R }.
Definition bstep (b : bvar) (update : R) : bvar := mkb (Rplus (bval b) update) (bname b) (blo b) (bhi b).
Definition within (b : bvar) : Prop := (forall l, blo b = Some l -> Rle l (bval b)) /\ (forall h, bhi b = Some h -> Rle (bval b) h).
(** the name and the bounds are kept by every sequence of updates, and the value is the initial value plus all updates *)
Theorem C49_metadata : forall us b, let b' := foldl bstep b us in bname b' = bname b /\ blo b' = blo b /\ bhi b' = bhi b /\ bval b' = Rplus (bval b) (foldr Rplus R0 us).
Proof.
elim=> [|u us IH] b /=; [by rewrite Rplus_0_r|]. have [H1 [H2 [H3 H4]]] := IH (bstep b u). rewrite H1 H2 H3 H4 /=. repeat split => //. by rewrite Rplus_assoc.
Qed.
(** the bounds are not enforced: any update sequence whose sum leads outside does leave them *)
Theorem C49_exact : forall us b, within b -> (within (foldl bstep b us) <->
  (forall l, blo b = Some l -> Rle l (Rplus (bval b) (foldr Rplus R0 us))) /\ (forall h, bhi b = Some h -> Rle (Rplus (bval b) (foldr Rplus R0 us)) h)).
Proof. move=> us b _. have [_ [H2 [H3 H4]]] := C49_metadata us b. by rewrite /within H2 H3 H4. Qed.
Theorem C49_refuted : within (mkb (Rinv (IZR 2)) 0 (Some R0) (Some R1)) /\ ~ within (bstep (mkb (Rinv (IZR 2)) 0 (Some R0) (Some R1)) R1).
Proof.
split.
- split => x [<-] /=; lra.
- move=> [_ /(_ R1 erefl)] /=. lra.
Qed.

(** concrete matrices on the manifolds *)
Theorem C38_example : symplectic (J 2) /\ real (J 2) /\ unitary (1%:M : 'M[C]_3) /\ orthogonal (1%:M : 'M[C]_3)
  /\ symplectic (J 2 + update_symplectic (Rinv (IZR 2)) (J 2) (1%:M)).
Proof.
have S1 : symplectic (J 2). { split; [by rewrite JT mulNmx JJ opprK mul1mx|by rewrite JT mulmxN JJ mulNmx mul1mx opprK]. }
split => //. split; [exact: real_J|]. split; [by rewrite /unitary /adj map_mx1 trmx1 mulmx1|]. split; [by rewrite /orthogonal /real map_mx1 trmx1 mulmx1|]. exact: C38_symplectic.
Qed.
