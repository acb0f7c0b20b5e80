(** Cached functions: mrmustard/math/caching.py (tensor_int_cache), physics/fock_utils.py:80,124,152,176 and math/backend_manager.py:1589-1633
    (functools.lru_cache). C37. *)
From Coq Require Import List Arith Bool Lia Reals Lra.
Import ListNotations.
Open Scope nat_scope.

Section Cache.
(** [Env]: the settings the function may read; [K]: argument tuples; [keq]: equality of the hashable keys as Python compares them (tuples of numbers);
    [V]: the arrays returned; [maxsize] is 128 for a bare `@lru_cache`. *)
Context {Env K V : Type}.
Variable keq : K -> K -> bool.
Variable maxsize : nat.
Variable fn : Env -> K -> V.
(** The cache stores references: the array computed by a call is an object, and every hit returns the same object. Objects are numbered in [heap]. *)
Record st := mkst { env : Env; heap : list V; cache : list (K * nat) }.
Definition lookup (k : K) (c : list (K * nat)) : option nat := match find (fun p => keq (fst p) k) c with Some p => Some (snd p) | None => None end.
(** functools.lru_cache: a hit moves the entry to the front, a miss computes, stores the result in front and drops the oldest entry when there are more than
    maxsize; caching.py:34-41: the key is the tuple of the entries of the vector and the cutoff *)
Definition call (k : K) (s : st) : nat * st :=
  match lookup k (cache s) with
  | Some l => (l, mkst (env s) (heap s) ((k, l) :: filter (fun p => negb (keq (fst p) k)) (cache s)))
  | None => let l := length (heap s) in (l, mkst (env s) (heap s ++ [fn (env s) k]) (firstn maxsize ((k, l) :: cache s)))
  end.
(** what a program can do: call the function, change the settings, modify a returned array in place *)
Inductive event := Call (k : K) | SetEnv (e : Env) | Mutate (obj : nat) (f : V -> V).
Fixpoint set_heap (i : nat) (f : V -> V) (h : list V) : list V := match h, i with [], _ => [] | x :: r, 0 => f x :: r | x :: r, S j => x :: set_heap j f r end.
(** the values seen by the calls of a history, in order *)
Fixpoint run (h : list event) (s : st) : list (option V) :=
  match h with
  | [] => []
  | Call k :: r => let (l, s') := call k s in nth_error (heap s') l :: run r s'
  | SetEnv e :: r => run r (mkst e (heap s) (cache s))
  | Mutate o f :: r => run r (mkst (env s) (set_heap o f (heap s)) (cache s))
  end.
(** ** Specification: what the undecorated function returns *)
Fixpoint plain (h : list event) (e : Env) : list (option V) :=
  match h with [] => [] | Call k :: r => Some (fn e k) :: plain r e | SetEnv e' :: r => plain r e' | Mutate _ _ :: r => plain r e end.
Definition envs (h : list event) : list Env := flat_map (fun x => match x with SetEnv e => [e] | _ => [] end) h.
Definition no_mutation (h : list event) : Prop := Forall (fun x => match x with Mutate _ _ => False | _ => True end) h.
Definition start (e : Env) : st := mkst e [] [].

(** every cached object holds the value of the function in one of the settings in use *)
Definition okc (P : Env -> Prop) (s : st) : Prop := P (env s) /\ forall k l, In (k, l) (cache s) -> exists e, P e /\ nth_error (heap s) l = Some (fn e k).
Lemma in_firstn : forall A n (l : list A) x, In x (firstn n l) -> In x l.
Proof using. clear. induction n; intros [|a l] x; simpl; try tauto. intros [H|H]; auto. Qed.
Lemma run_plain : forall (P : Env -> Prop), (forall e1 e2 k1 k2, P e1 -> P e2 -> keq k1 k2 = true -> fn e1 k1 = fn e2 k2) -> (forall k, keq k k = true) ->
  forall h s, okc P s -> (forall e, In e (envs h) -> P e) -> no_mutation h -> run h s = plain h (env s).
Proof using.
  intros P Hf Hr. induction h as [|x h IH]; intros s [Pe Hc] HE NM; [reflexivity|]. inversion NM as [|? ? N1 N2]; subst. destruct x as [k|e|o f]; [| |tauto].
  - simpl. unfold call, lookup. destruct (find (fun p => keq (fst p) k) (cache s)) as [[k' l]|] eqn:F.
    + apply find_some in F. destruct F as [F1 F2]. simpl in F2 |- *. destruct (Hc k' l F1) as [e [Pe' Hl]]. rewrite Hl. f_equal; [f_equal; now apply Hf|].
      apply (IH (mkst (env s) (heap s) ((k, l) :: filter (fun p => negb (keq (fst p) k)) (cache s)))); [|exact HE|exact N2]. split; [exact Pe|]. simpl. intros k0 l0 [H|H]; [|apply filter_In in H; apply Hc; tauto].
      injection H as <- <-. exists e. split; [exact Pe'|]. rewrite Hl. f_equal. now apply Hf.
    + cbn [heap]. rewrite nth_error_app2 by lia. rewrite Nat.sub_diag. simpl. f_equal.
      apply (IH (mkst (env s) (heap s ++ [fn (env s) k]) (firstn maxsize ((k, length (heap s)) :: cache s)))); [|exact HE|exact N2]. split; [exact Pe|]. cbn [heap cache]. intros k0 l0 H. apply in_firstn in H. destruct H as [H|H].
      * injection H as <- <-. exists (env s). split; [exact Pe|]. rewrite nth_error_app2 by lia. now rewrite Nat.sub_diag.
      * destruct (Hc k0 l0 H) as [e [Pe' Hl]]. exists e. split; [exact Pe'|]. rewrite nth_error_app1; [exact Hl|]. apply nth_error_Some. congruence.
  - simpl. apply (IH (mkst e (heap s) (cache s))); [|intros e' He; apply HE; simpl; now right|exact N2]. split; [apply HE; now left|exact Hc].
Qed.
(** C37: for every history of calls and settings changes without in-place changes of returned arrays: if the function gives the same value for equal keys
    in all the settings used in the history, every call returns what the undecorated function would return in the settings in force at the call.
    (In particular: every function that does not read the settings, and every function as long as the settings are not changed.) *)
Theorem C37_transparent : forall h e0, (forall k, keq k k = true) -> no_mutation h ->
  (forall e1 e2 k1 k2, In e1 (e0 :: envs h) -> In e2 (e0 :: envs h) -> keq k1 k2 = true -> fn e1 k1 = fn e2 k2) ->
  run h (start e0) = plain h e0.
Proof using.
  intros h e0 Hr NM Hf. apply (run_plain (fun e => In e (e0 :: envs h))); auto; [split; [now left|intros k l []]|intros e He; now right].
Qed.
(** the memory used is bounded: at most maxsize results are kept alive by the cache *)
Fixpoint final (h : list event) (s : st) : st :=
  match h with
  | [] => s
  | Call k :: r => final r (snd (call k s))
  | SetEnv e :: r => final r (mkst e (heap s) (cache s))
  | Mutate o f :: r => final r (mkst (env s) (set_heap o f (heap s)) (cache s))
  end.
Lemma filter_len : forall A (f : A -> bool) l, length (filter f l) <= length l.
Proof using. clear. induction l as [|a l IH]; simpl; [lia|]. destruct (f a); simpl; lia. Qed.
Lemma filter_shorter : forall A (f : A -> bool) l x, In x l -> f x = false -> length (filter f l) < length l.
Proof using. clear. induction l as [|a l IH]; intros x; simpl; [tauto|]. intros [->|H] E; [rewrite E; pose proof (filter_len A f l); lia|]. specialize (IH x H E). destruct (f a); simpl; lia. Qed.
Theorem C37_bounded : forall h e0, length (cache (final h (start e0))) <= maxsize.
Proof using.
  intros h e0. assert (X : forall h s, length (cache s) <= maxsize -> length (cache (final h s)) <= maxsize).
  { clear. induction h as [|[k|e|o f] h IH]; intros s H; simpl; [exact H| |now apply IH|now apply IH]. apply IH. unfold call, lookup. destruct (find _ (cache s)) as [[k' l]|] eqn:F; simpl.
    - apply find_some in F. destruct F as [F1 F2]. simpl in F2. pose proof (filter_shorter _ (fun p => negb (keq (fst p) k)) (cache s) (k', l) F1) as Y. simpl in Y. rewrite F2 in Y. specialize (Y eq_refl). lia.
    - rewrite firstn_length. lia. }
  apply X. simpl. lia.
Qed.
End Cache.
Arguments SetEnv {Env K V} _. Arguments Call {Env K V} _. Arguments Mutate {Env K V} _ _. Arguments mkst {Env K V} _ _ _.

(** ** oscillator_eigenstate is cached but reads settings.HBAR: fock_utils.py:80-121 for cutoff = 1 and a single point q: the prefactor
    (pi*hbar)^(-1/4) * 0.5^0, the renormalised Hermite polynomial of order 0, which is 1, and the Gaussian exp(-(q/sqrt hbar)^2/2) *)
Open Scope R_scope.
Definition psi0 (hbar q : R) : R := Rpower (PI * hbar) (- (1/4)) * exp (- ((q / sqrt hbar) * (q / sqrt hbar) / 2)).
Definition Reqb (x y : R) : bool := if Req_EM_T x y then true else false.
(** C37 is false for it: called once with hbar = 1 and again, with the same argument, with hbar = 2, it returns the old value *)
Theorem C37_refuted_hbar :
  run Reqb 128 psi0 [Call 0; SetEnv 2; Call 0] (start 1) = [Some (psi0 1 0); Some (psi0 1 0)]
  /\ plain psi0 [Call 0; SetEnv 2; Call (V := R) 0] 1 = [Some (psi0 1 0); Some (psi0 2 0)]
  /\ psi0 1 0 <> psi0 2 0.
Proof.
  split; [|split; [reflexivity|]].
  - simpl. unfold call, lookup. simpl. assert (E : Reqb 0 0 = true) by (unfold Reqb; destruct (Req_EM_T 0 0); [reflexivity|congruence]). rewrite E. reflexivity.
  - unfold psi0. assert (X : forall h, 0 < h -> exp (- (0 / sqrt h * (0 / sqrt h) / 2)) = 1). { intros h H. replace (- (0 / sqrt h * (0 / sqrt h) / 2)) with 0; [apply exp_0|]. field. pose proof (sqrt_lt_R0 h H). lra. }
    rewrite !X by lra. rewrite !Rmult_1_r. unfold Rpower. pose proof PI_RGT_0. intros E. apply exp_inv in E. assert (ln PI = ln (PI * 2)) by lra. apply ln_inv in H0; lra.
Qed.
(** and, for every cached function, modifying a returned array in place changes what later calls return *)
Theorem C37_refuted_aliasing : run Nat.eqb 128 (fun (_ : unit) (k : nat) => k) [Call 3; Mutate 0 (fun v => v + 10); Call 3]%nat (start tt) = [Some 3%nat; Some 13%nat].
Proof. reflexivity. Qed.
Open Scope nat_scope.
Theorem C37_example : run Nat.eqb 2 (fun (_ : nat) (k : nat) => k * k) [Call 3; SetEnv 1; Call 4; Call 5; Call 3; Call 4] (start 0) = map Some [9; 16; 25; 9; 16].
Proof. reflexivity. Qed.
