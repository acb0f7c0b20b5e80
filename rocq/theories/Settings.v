(** The global settings object and its context manager: mrmustard/utils/settings.py. C36. *)
From Coq Require Import List Arith Bool Lia.
From Verif Require Import Base.
Import ListNotations.

Section Settings.
(** [V] are the values of settings; settings are numbered; [known] are the attributes the frozen object has (settings.py:58-110); [accepts k v]: whether
    the setter of [k] returns normally for [v] (CACHE_DIR creates the directory, settings.py:119-122, and can fail; all other setters accept anything);
    [seedk] is SEED. *)
Context {V : Type}.
Variable known : nat -> bool.
Variable accepts : nat -> V -> bool.
Variable seedk : nat.
(** settings.py:56-110: the object: its values, the random generator (the seed it was made from and how many numbers were drawn from it), and the single
    dictionary `_original_values`.
    Simplification: SEED is never None (the getter would then choose a random seed). *)
Record st := mkst { vals : nat -> V; rng : V * nat; orig : list (nat * V) }.
Definition upd (f : nat -> V) (k : nat) (v : V) : nat -> V := fun k' => if k' =? k then v else f k'.
(** settings.py:186-192 (`__setattr__`) and the property setters 119-122, 131-134, 145-148; a failing setter leaves the old value *)
Definition setattr (k : nat) (v : V) (s : st) : st * bool :=
  if negb (known k) then (s, true)
  else if negb (accepts k v) then (s, true)
  else (mkst (upd (vals s) k v) (if k =? seedk then (v, 0) else rng s) (orig s), false).
(** assignments one after the other, stopping at the first that raises (settings.py:155-156 and 165-166) *)
Fixpoint setall (kw : list (nat * V)) (s : st) : st * bool :=
  match kw with [] => (s, false) | (k, v) :: r => let (s', e) := setattr k v s in if e then (s', true) else setall r s' end.
(** settings.py:150-157: `settings(k=v, ...)`: the dictionary of the current values (AttributeError when a name is unknown, before anything changes), then the assignments *)
Definition call (kw : list (nat * V)) (s : st) : st * bool :=
  if forallb (fun p => known (fst p)) kw
  then setall kw (mkst (vals s) (rng s) (map (fun p => (fst p, vals s (fst p))) kw))
  else (s, true).
(** settings.py:163-166: `__exit__` *)
Definition exit_ (s : st) : st * bool := setall (orig s) s.

(** Python programs that use the object: the body of a `with` may raise; `Try c` is `try: c except: pass`; `Call` is a bare `settings(...)`;
    `Draw` takes a number from `settings.rng` *)
Inductive cmd := Skip | Seq (a b : cmd) | Assign (k : nat) (v : V) | Draw | Call (kw : list (nat * V)) | Raise | Try (c : cmd) | With (kw : list (nat * V)) (c : cmd).
(** the Python `with` statement: the context expression is evaluated first (if it raises, neither the body nor `__exit__` runs), then the body, then
    `__exit__`, which returns None: an exception of the body goes on *)
Fixpoint exec (c : cmd) (s : st) : st * bool :=
  match c with
  | Skip => (s, false)
  | Seq a b => let (s', e) := exec a s in if e then (s', true) else exec b s'
  | Assign k v => setattr k v s
  | Draw => (mkst (vals s) (fst (rng s), S (snd (rng s))) (orig s), false)
  | Call kw => call kw s
  | Raise => (s, true)
  | Try a => (fst (exec a s), false)
  | With kw a => let (s1, e1) := call kw s in if e1 then (s1, true) else
                 let (s2, e2) := exec a s1 in let (s3, e3) := exit_ s2 in (s3, e2 || e3)
  end.

(** ** Specification side *)
(** the program text never evaluates `settings(...)` *)
Fixpoint no_call (c : cmd) : Prop :=
  match c with Seq a b => no_call a /\ no_call b | Call _ => False | With _ _ => False | Try a => no_call a | _ => True end.
(** every setting has a value its setter accepts *)
Definition valid (s : st) : Prop := forall k, known k = true -> accepts k (vals s k) = true.
Definition good (kw : list (nat * V)) : Prop := NoDup (map fst kw) /\ Forall (fun p => known (fst p) = true /\ accepts (fst p) (snd p) = true) kw.

Lemma setall_ok : forall kw s, Forall (fun p => known (fst p) = true /\ accepts (fst p) (snd p) = true) kw ->
  exists s', setall kw s = (s', false) /\ orig s' = orig s /\ (forall k, ~ In k (map fst kw) -> vals s' k = vals s k)
    /\ (NoDup (map fst kw) -> forall k v, In (k, v) kw -> vals s' k = v)
    /\ (rng s' = rng s \/ In seedk (map fst kw)).
Proof using.
  induction kw as [|[k v] kw IH]; intros s F.
  - exists s. simpl. repeat split; auto; intros; tauto.
  - inversion F as [|? ? [H1 H2] F']; subst. simpl in H1, H2. simpl. unfold setattr. rewrite H1, H2. cbn [negb].
    destruct (IH (mkst (upd (vals s) k v) (if k =? seedk then (v, 0) else rng s) (orig s)) F') as [s' [E [O [K1 [K2 K3]]]]].
    exists s'. split; [exact E|]. split; [exact O|]. split; [|split].
    + intros j Hj. rewrite K1 by tauto. simpl. unfold upd. destruct (Nat.eqb_spec j k); [subst; tauto|reflexivity].
    + intros ND j w [H|H].
      * injection H as -> ->. rewrite K1 by (inversion ND; assumption). simpl. unfold upd. now rewrite Nat.eqb_refl.
      * apply K2; [inversion ND; assumption|exact H].
    + destruct K3 as [K3|K3]; [|tauto]. simpl in K3. destruct (Nat.eqb_spec k seedk); [subst; tauto|tauto].
Qed.
Lemma call_ok : forall kw s, good kw -> exists s', call kw s = (s', false) /\ orig s' = map (fun p => (fst p, vals s (fst p))) kw
  /\ (forall k, ~ In k (map fst kw) -> vals s' k = vals s k) /\ (forall k v, In (k, v) kw -> vals s' k = v) /\ (rng s' = rng s \/ In seedk (map fst kw)).
Proof using.
  intros kw s [ND F]. unfold call. assert (X : forallb (fun p => known (fst p)) kw = true).
  { apply forallb_forall. intros p Hp. rewrite Forall_forall in F. now apply F. }
  rewrite X. destruct (setall_ok kw (mkst (vals s) (rng s) (map (fun p => (fst p, vals s (fst p))) kw)) F) as [s' [E [O [K1 [K2 K3]]]]].
  exists s'. repeat split; auto.
Qed.
Lemma valid_setattr : forall k v s, valid s -> valid (fst (setattr k v s)).
Proof using.
  intros k v s Va. unfold setattr. destruct (known k); [|exact Va]. destruct (accepts k v) eqn:A; [|exact Va]. intros j Hj. simpl. unfold upd. destruct (Nat.eqb_spec j k); [now subst|now apply Va].
Qed.
Lemma valid_setall : forall kw s, valid s -> valid (fst (setall kw s)).
Proof using.
  induction kw as [|[k v] kw IH]; intros s Va; [exact Va|]. simpl. pose proof (valid_setattr k v s Va) as H. destruct (setattr k v s) as [s' []]; [exact H|now apply IH].
Qed.
Lemma valid_exec : forall c s, valid s -> valid (fst (exec c s)).
Proof using.
  induction c; intros s Va; simpl; auto using valid_setattr.
  - specialize (IHc1 s Va). destruct (exec c1 s) as [s' []]; auto.
  - unfold call. destruct (forallb _ _); [now apply valid_setall|exact Va].
  - assert (H : valid (fst (call kw s))) by (unfold call; destruct (forallb _ _); [now apply valid_setall|exact Va]). destruct (call kw s) as [s1 []]; [exact H|].
    specialize (IHc s1 H). destruct (exec c s1) as [s2 e2]. pose proof (valid_setall (orig s2) s2 IHc) as X. unfold exit_. destruct (setall (orig s2) s2) as [s3 e3]. exact X.
Qed.
Lemma orig_no_call : forall c s, no_call c -> orig (fst (exec c s)) = orig s.
Proof using.
  induction c; intros s H; simpl in *; auto; try contradiction.
  - destruct H as [H1 H2]. specialize (IHc1 s H1). destruct (exec c1 s) as [s' []]; [exact IHc1|]. now rewrite IHc2.
  - unfold setattr. destruct (known k); [|reflexivity]. now destruct (accepts k v).
Qed.
Lemma good_orig : forall kw s, good kw -> valid s -> Forall (fun p => known (fst p) = true /\ accepts (fst p) (snd p) = true) (map (fun p => (fst p, vals s (fst p))) kw)
   /\ map fst (map (fun p => (fst p, vals s (fst p))) kw) = map fst kw.
Proof using.
  intros kw s [ND F] Va. split; [|now rewrite map_map]. apply Forall_map. eapply Forall_impl; [|exact F]. intros [k v] [H1 _]. simpl in *. split; [exact H1|now apply Va].
Qed.

(** C36, without nesting: for every body that assigns settings, draws random numbers, raises and handles exceptions, but does not itself evaluate
    `settings(...)`: inside the block the given values hold and nothing else changed; after the block every setting named in the call has the value it had
    on entry, every other setting has the value the body left; the exception of the body, and no other, leaves the block. *)
Theorem C36_restore : forall kw c s, valid s -> good kw -> no_call c ->
  exists s1 s2 e, call kw s = (s1, false)
    /\ (forall k v, In (k, v) kw -> vals s1 k = v) /\ (forall k, ~ In k (map fst kw) -> vals s1 k = vals s k)
    /\ exec c s1 = (s2, e)
    /\ exists s3, exec (With kw c) s = (s3, e)
         /\ (forall k, In k (map fst kw) -> vals s3 k = vals s k) /\ (forall k, ~ In k (map fst kw) -> vals s3 k = vals s2 k).
Proof using.
  intros kw c s Va G NC. destruct (call_ok kw s G) as [s1 [E1 [O1 [K1 [K2 _]]]]]. destruct (exec c s1) as [s2 e] eqn:E2. exists s1, s2, e.
  split; [exact E1|]. split; [exact K2|]. split; [exact K1|]. split; [exact E2|]. simpl. rewrite E1, E2.
  pose proof (orig_no_call c s1 NC) as O2. rewrite E2 in O2. cbn [fst] in O2. destruct (good_orig kw s G Va) as [F M].
  unfold exit_. rewrite O2, O1. destruct (setall_ok _ s2 F) as [s3 [E3 [_ [K3 [K4 _]]]]]. rewrite E3. exists s3. rewrite orb_false_r. split; [reflexivity|].
  rewrite M in K3, K4. split; [|exact K3]. intros k Hk. apply in_map_iff in Hk. destruct Hk as [[k' v] [<- Hk]]. apply (K4 (proj1 G)). apply in_map_iff. exists (k', v). auto.
Qed.
(** an unknown name is refused before anything changes *)
Theorem C36_unknown : forall kw c s, (exists k, In k (map fst kw) /\ known k = false) -> exec (With kw c) s = (s, true).
Proof using.
  intros kw c s [k [H1 H2]]. simpl. unfold call. destruct (forallb (fun p => known (fst p)) kw) eqn:E; [|reflexivity].
  rewrite forallb_forall in E. apply in_map_iff in H1. destruct H1 as [p [<- Hp]]. now rewrite (E p Hp) in H2.
Qed.
(** blocks one after the other (also inside `try`) all restore: the table is rebuilt by each call *)
Theorem C36_sequence : forall kw1 c1 kw2 c2 s k, valid s -> good kw1 -> good kw2 -> no_call c1 -> no_call c2 ->
  In k (map fst kw1) -> In k (map fst kw2) ->
  vals (fst (exec (Seq (Try (With kw1 c1)) (With kw2 c2)) s)) k = vals s k.
Proof using.
  intros kw1 c1 kw2 c2 s k Va G1 G2 N1 N2 H1 H2. assert (V1 : valid (fst (exec (Try (With kw1 c1)) s))) by now apply valid_exec.
  change (vals (fst (let (s', e) := (fst (exec (With kw1 c1) s), false) in if e then (s', true) else exec (With kw2 c2) s')) k = vals s k). cbn iota beta.
  change (fst (exec (Try (With kw1 c1)) s)) with (fst (exec (With kw1 c1) s)) in V1.
  destruct (C36_restore kw1 c1 s Va G1 N1) as [s1 [s2 [e [_ [_ [_ [_ [s3 [E [K _]]]]]]]]]]. rewrite E in *. cbn [fst] in *.
  destruct (C36_restore kw2 c2 s3 V1 G2 N2) as [t1 [t2 [e' [_ [_ [_ [_ [t3 [E' [K' _]]]]]]]]]]. rewrite E'. cbn [fst]. rewrite K' by exact H2. now apply K.
Qed.
(** What nested blocks really do: leaving the outer block restores, a second time, the settings of the inner call to the values they had when the inner block
    was entered; settings named only by the outer call keep the values the body left. *)
Theorem C36_nested_actual : forall kw1 kw2 c1 c2 c3 s, valid s -> good kw1 -> good kw2 -> no_call c1 -> no_call c2 -> no_call c3 ->
  forall s1 s2 s3 s4, call kw1 s = (s1, false) -> exec c1 s1 = (s2, false) -> exec (With kw2 c2) s2 = (s3, false) -> exec c3 s3 = (s4, false) ->
  exists s5, exec (With kw1 (Seq c1 (Seq (With kw2 c2) c3))) s = (s5, false)
    /\ forall k, (In k (map fst kw2) -> vals s5 k = vals s2 k) /\ (~ In k (map fst kw2) -> vals s5 k = vals s4 k).
Proof using.
  intros kw1 kw2 c1 c2 c3 s Va G1 G2 N1 N2 N3 s1 s2 s3 s4 E1 E2 E3 E4.
  assert (V1 : valid s1). { destruct G1 as [_ F]. unfold call in E1. destruct (forallb _ kw1); [|discriminate]. replace s1 with (fst (setall kw1 {| vals := vals s; rng := rng s; orig := map (fun p : nat * V => (fst p, vals s (fst p))) kw1 |})) by now rewrite E1. now apply valid_setall. }
  assert (V2 : valid s2). { replace s2 with (fst (exec c1 s1)) by now rewrite E2. now apply valid_exec. }
  cbn [exec]. rewrite E1, E2. cbn [exec] in E3.
  destruct (call_ok kw2 s2 G2) as [t1 [F1 [O1 [K1 [K2 _]]]]]. rewrite F1 in E3 |- *. destruct (exec c2 t1) as [t2 e2] eqn:F2.
  pose proof (orig_no_call c2 t1 N2) as O2. rewrite F2 in O2. cbn [fst] in O2. unfold exit_ in E3 |- *. destruct (good_orig kw2 s2 G2 V2) as [F M].
  rewrite O2, O1 in E3 |- *. destruct (setall_ok _ t2 F) as [t3 [F3 [O3 _]]]. rewrite F3 in E3 |- *. rewrite orb_false_r in E3 |- *. injection E3 as -> ->. rewrite E4.
  pose proof (orig_no_call c3 s3 N3) as O4. rewrite E4 in O4. cbn [fst] in O4. rewrite O4, O3, O2, O1.
  destruct (setall_ok _ s4 F) as [s5 [F5 [_ [K5 [K6 _]]]]]. rewrite F5. exists s5. split; [reflexivity|]. intros k. rewrite M in K5, K6. split; [|intros H; now apply K5].
  intros Hk. apply in_map_iff in Hk. destruct Hk as [[k' v] [<- Hk]]. apply (K6 (proj1 G2)). apply in_map_iff. exists (k', v). auto.
Qed.
End Settings.
Arguments mkst {V} _ _ _.

(** ** The literal claim is false of the code *)
Definition allk (k : nat) : bool := k <? 5.
Definition dir_ok (k v : nat) : bool := negb ((k =? 4) && (v =? 9)). (* setting 4 (CACHE_DIR) cannot be set to 9 *)
Definition s0 : st (V := nat) := mkst (fun _ => 1) (1, 3) [].
(** nested blocks: the outer setting is not restored: after
    with settings(HBAR=2): with settings(ATOL=3): pass    HBAR is still 2 *)
Theorem C36_refuted_nested : vals (fst (exec allk dir_ok 0 (With [(1, 2)] (With [(2, 3)] Skip)) s0)) 1 = 2 /\ vals s0 1 = 1.
Proof. split; reflexivity. Qed.
(** a setter that fails in the middle of the call leaves the earlier assignments in force: with settings(HBAR=2, CACHE_DIR=bad): ... *)
Theorem C36_refuted_failing_setter : let (s, e) := exec allk dir_ok 0 (With [(1, 2); (4, 9)] Skip) s0 in e = true /\ vals s 1 = 2.
Proof. split; reflexivity. Qed.
(** the random generator is not restored: leaving `with settings(SEED=...)` restarts the generator of the old seed from its beginning *)
Theorem C36_refuted_rng : rng (fst (exec allk dir_ok 0 (With [(0, 7)] Skip) s0)) = (1, 0) /\ rng s0 = (1, 3).
Proof. split; reflexivity. Qed.
(** a block with an exception and assignments in its body *)
Theorem C36_example : let (s, e) := exec allk dir_ok 0 (Try (With [(1, 2); (2, 5)] (Seq (Assign 1 8) (Seq (Assign 3 4) Raise)))) s0 in
  e = false /\ vals s 1 = 1 /\ vals s 2 = 1 /\ vals s 3 = 4.
Proof. repeat split; reflexivity. Qed.
Theorem C36_example_hyps : valid allk dir_ok s0 /\ good allk dir_ok [(1, 2); (2, 5)] /\ no_call (V := nat) (Seq (Assign 1 8) (Seq (Assign 3 4) Raise)).
Proof. split; [intros k _; unfold dir_ok; simpl; now rewrite andb_false_r|]. split; [|simpl; tauto]. split; [repeat constructor; simpl; lia|repeat constructor]. Qed.
