(** Parameter sets: mrmustard/math/parameter_set.py. C35. *)
From Coq Require Import List Arith Bool Lia String.
From Verif Require Import Base Wires.
Import ListNotations.
Open Scope string_scope.
Open Scope list_scope.
Open Scope nat_scope.

Lemma NoDup_app_iff : forall {A} (l1 l2 : list A), NoDup (l1 ++ l2) <-> NoDup l1 /\ NoDup l2 /\ (forall x, In x l1 -> In x l2 -> False).
Proof.
  intros A l1 l2. split.
  - intros H. split; [eapply NoDup_app_l, H|]. split; [eapply NoDup_app_r, H|]. intros x. now apply NoDup_app_disj.
  - intros [H1 [H2 H3]]. apply NoDup_app_intro; auto.
Qed.
(** ** Python dictionaries: association lists in insertion order *)
Section Dict.
Context {A : Type}.
Definition dict := list (string * A).
Fixpoint dget (k : string) (d : dict) : option A := match d with [] => None | (k', v) :: r => if String.eqb k k' then Some v else dget k r end.
(** d[k] = v: an existing key keeps its place *)
Fixpoint dset (k : string) (v : A) (d : dict) : dict := match d with [] => [(k, v)] | (k', v') :: r => if String.eqb k k' then (k, v) :: r else (k', v') :: dset k v r end.
(** d1 | d2 *)
Definition dmerge (d1 d2 : dict) : dict := fold_left (fun d p => dset (fst p) (snd p) d) d2 d1.
Lemma dget_dset : forall k k' v d, dget k (dset k' v d) = if String.eqb k k' then Some v else dget k d.
Proof using.
  induction d as [|[k0 v0] d IH]; simpl; [reflexivity|]. destruct (String.eqb_spec k' k0) as [->|N]; simpl.
  - destruct (String.eqb_spec k k0); reflexivity.
  - destruct (String.eqb_spec k k0) as [->|]; [|exact IH]. destruct (String.eqb_spec k0 k'); [congruence|reflexivity].
Qed.
Lemma dset_new : forall k v d, dget k d = None -> dset k v d = d ++ [(k, v)].
Proof using. induction d as [|[k0 v0] d IH]; simpl; intros H; [reflexivity|]. destruct (String.eqb k k0); [discriminate|]. now rewrite IH. Qed.
Lemma dget_none : forall k d, dget k d = None <-> ~ In k (map fst d).
Proof using.
  induction d as [|[k0 v0] d IH]; simpl; [tauto|]. destruct (String.eqb_spec k k0); [split; [discriminate|intros H; exfalso; auto]|]. rewrite IH. split; [intros H [X|X]; [congruence|tauto]|tauto].
Qed.
Lemma dget_In : forall k v d, NoDup (map fst d) -> (dget k d = Some v <-> In (k, v) d).
Proof using.
  induction d as [|[k0 v0] d IH]; simpl; intros ND; [split; [discriminate|tauto]|]. inversion ND as [|? ? H1 H2]; subst. destruct (String.eqb_spec k k0) as [->|N].
  - split; [intros H; injection H as ->; now left|]. intros [H|H]; [congruence|]. exfalso. apply H1. apply in_map_iff. now exists (k0, v).
  - rewrite IH by exact H2. split; [tauto|]. intros [H|H]; [congruence|exact H].
Qed.
Lemma dmerge_disjoint : forall d2 d1, NoDup (map fst (d1 ++ d2)) -> dmerge d1 d2 = d1 ++ d2.
Proof using.
  unfold dmerge. induction d2 as [|[k v] d2 IH]; intros d1 ND; simpl; [now rewrite app_nil_r|]. rewrite dset_new.
  - rewrite IH; [now rewrite <- app_assoc|]. now rewrite <- app_assoc.
  - apply dget_none. rewrite map_app in ND. simpl in ND. apply NoDup_remove_2 in ND. intros H. apply ND, in_or_app. now left.
Qed.
End Dict.
Arguments dict : clear implicits.

(** parameters.py:111-200: a parameter has a value (a number, or an array given by its rows), a name, and variables have bounds and an update function.
    Simplification: values are only distinguished by their first axis. *)
Inductive value (V : Type) := Num (v : V) | Arr (rows : list V).
Arguments Num {V} _. Arguments Arr {V} _.
Inductive kind := Const | Var (bounds upd : nat).
Record param (V : Type) := mkparam { pname : string; pkind : kind; pval : value V }.
Arguments mkparam {V} _ _ _. Arguments pname {V} _. Arguments pkind {V} _. Arguments pval {V} _.
Definition is_const {V} (p : param V) : bool := match pkind p with Const => true | Var _ _ => false end.

(** parameter_set.py:56-59: the three fields, and the attributes added by `self.__dict__[name] = ...`.
    [broken]: one of the three fields was overwritten by such an attribute, so that every later use of them raises TypeError. *)
Record pset (V : Type) := mkps { names : list string; constants : dict (param V); variables : dict (param V); attrs : dict (param V); broken : bool }.
Arguments mkps {V} _ _ _ _ _. Arguments names {V} _. Arguments constants {V} _. Arguments variables {V} _. Arguments attrs {V} _. Arguments broken {V} _.
Definition empty {V} : pset V := mkps [] [] [] [] false.
Definition reserved (n : string) : bool := existsb (String.eqb n) ["_names"; "_constants"; "_variables"].
Definition memS (n : string) (l : list string) : bool := existsb (String.eqb n) l.
(** parameter_set.py:102-126 *)
Definition add {V} (p : param V) (s : pset V) : result (pset V) :=
  if broken s then Err TypeError
  else if memS (pname p) (names s) then Err ValueError
  else Ok (mkps (names s ++ [pname p])
                (if is_const p then dset (pname p) p (constants s) else constants s)
                (if is_const p then variables s else dset (pname p) p (variables s))
                (dset (pname p) p (attrs s)) (broken s || reserved (pname p))).
(** parameter_set.py:61-66 *)
Definition all_parameters {V} (s : pset V) : dict (param V) := dmerge (constants s) (variables s).
(** math.gather(value, items) along the first axis; an index out of range raises (numpy take).
    Simplification: indices from the end (negative) are not modelled *)
Definition gather {V} (v : value V) (items : list nat) : result (value V) :=
  match v with
  | Num x => Ok (Num x)
  | Arr rows => bind (mapM (fun i => match nth_error rows i with Some r => Ok r | None => Err IndexError end) items) (fun r => Ok (Arr r))
  end.
(** parameter_set.py:196-254 `__getitem__`: constants first, then variables *)
Definition slice1 {V} (items : list nat) (p : param V) : result (param V) := bind (gather (pval p) items) (fun v => Ok (mkparam (pname p) (pkind p) v)).
Fixpoint add_all {V} (items : list nat) (ps : list (param V)) (s : pset V) : result (pset V) :=
  match ps with [] => Ok s | p :: r => bind (slice1 items p) (fun q => bind (add q s) (fun s' => add_all items r s')) end.
Definition getitem {V} (items : list nat) (s : pset V) : result (pset V) :=
  if broken s then Err TypeError else bind (add_all items (map snd (constants s)) empty) (fun s' => add_all items (map snd (variables s)) s').
(** parameter_set.py:139-150 `to_dict`: entries are values, the flag of a variable, or its bounds *)
Inductive entry (V : Type) := EVal (v : value V) | ETrue | EBounds (b : nat).
Arguments EVal {V} _. Arguments ETrue {V}. Arguments EBounds {V} _.
Definition to_dict {V} (s : pset V) : dict (entry V) :=
  fold_left (fun d p => let d1 := dset (fst p) (EVal (pval (snd p))) d in
      match pkind (snd p) with Const => d1 | Var b _ => dset (fst p ++ "_bounds")%string (EBounds b) (dset (fst p ++ "_trainable")%string ETrue d1) end)
    (all_parameters s) [].

(** ** Histories *)
(** the set after trying to add the parameters one by one; a failed addition is caught and has no effect on the object *)
Definition try_add {V} (s : pset V) (p : param V) : pset V := match add p s with Ok s' => s' | Err _ => s end.
Definition run {V} (h : list (param V)) : pset V := fold_left try_add h empty.
(** the additions that succeed: the first of each name *)
Fixpoint firsts {V} (seen : list string) (h : list (param V)) : list (param V) :=
  match h with [] => [] | p :: r => if memS (pname p) seen then firsts seen r else p :: firsts (pname p :: seen) r end.

Lemma memS_In : forall n l, memS n l = true <-> In n l.
Proof. intros n l. unfold memS. rewrite existsb_exists. split; [intros [x [H1 H2]]; apply String.eqb_eq in H2; now subst|intros H; exists n; split; [exact H|apply String.eqb_refl]]. Qed.
Lemma memS_false : forall n l, memS n l = false <-> ~ In n l.
Proof. intros n l. rewrite <- memS_In. destruct (memS n l); split; intros; congruence. Qed.
Definition tag {V} (p : param V) : string * param V := (pname p, p).
(** the state after a history, in terms of the list [l] of successful additions *)
Definition state_of {V} (l : list (param V)) : pset V :=
  mkps (map pname l) (map tag (filter is_const l)) (map tag (filter (fun p => negb (is_const p)) l)) (map tag l) (existsb (fun p => reserved (pname p)) l).
Lemma fst_tag : forall V (l : list (param V)), map fst (map tag l) = map pname l.
Proof. intros. rewrite map_map. now apply map_ext. Qed.
Lemma add_state : forall V (l : list (param V)) p, existsb (fun p => reserved (pname p)) l = false -> ~ In (pname p) (map pname l) -> add p (state_of l) = Ok (state_of (l ++ [p])).
Proof.
  intros V l p B NI. unfold add. cbn [broken state_of]. rewrite B. cbn [names state_of]. rewrite (proj2 (memS_false _ _) NI).
  assert (X : forall f, ~ In (pname p) (map fst (map tag (filter f l)))). { intros f H. rewrite fst_tag in H. apply in_map_iff in H. destruct H as [q [H1 H2]]. apply filter_In in H2. apply NI. rewrite <- H1. now apply in_map. }
  unfold state_of. rewrite map_app, !filter_app, existsb_app, B. simpl. cbn [constants variables attrs]. rewrite orb_false_r.
  rewrite (dset_new _ _ (map tag l)) by (apply dget_none; now rewrite fst_tag).
  destruct (is_const p) eqn:C; simpl; rewrite ?app_nil_r; rewrite !map_app; simpl; (rewrite dset_new; [reflexivity|apply dget_none, X]).
Qed.
Lemma run_from : forall V (h : list (param V)) l seen, NoDup (map pname l) -> (forall n, In n seen <-> In n (map pname l)) ->
  existsb (fun p => reserved (pname p)) (l ++ h) = false ->
  fold_left try_add h (state_of l) = state_of (l ++ firsts seen h) /\ NoDup (map pname (l ++ firsts seen h)).
Proof.
  induction h as [|p h IH]; intros l seen ND HS R; simpl; [now rewrite app_nil_r|].
  assert (R1 : existsb (fun p => reserved (pname p)) l = false) by (rewrite existsb_app in R; now apply orb_false_iff in R).
  destruct (memS (pname p) seen) eqn:M.
  - apply memS_In, HS in M. unfold try_add at 2. unfold add. cbn [broken state_of]. rewrite R1. cbn [names state_of]. rewrite (proj2 (memS_In _ _) M).
    apply IH; auto. rewrite existsb_app in *. simpl in R. apply orb_false_iff in R. apply orb_false_iff. destruct R as [R2 R3]. apply orb_false_iff in R3. tauto.
  - apply memS_false in M. assert (NI : ~ In (pname p) (map pname l)) by (now rewrite <- HS).
    unfold try_add at 2. rewrite add_state by assumption. destruct (IH (l ++ [p]) (pname p :: seen)) as [E1 E2].
    + rewrite map_app. simpl. apply NoDup_app_iff; repeat split; auto; [repeat constructor; simpl; tauto|]. intros x Hx [<-|[]]. tauto.
    + intros n. simpl. rewrite HS, map_app, in_app_iff. simpl. tauto.
    + rewrite <- app_assoc. exact R.
    + rewrite <- app_assoc in E1, E2. simpl in E1, E2. split; [exact E1|exact E2].
Qed.
Lemma run_state : forall V (h : list (param V)), existsb (fun p => reserved (pname p)) h = false -> run h = state_of (firsts [] h) /\ NoDup (map pname (firsts [] h)).
Proof. intros V h R. apply (run_from V h [] []); [constructor|intros n; simpl; tauto|exact R]. Qed.
Lemma firsts_In : forall V (h : list (param V)) seen p, In p (firsts seen h) <-> exists h1 h2, h = h1 ++ p :: h2 /\ ~ In (pname p) seen /\ ~ In (pname p) (map pname h1).
Proof.
  induction h as [|q h IH]; intros seen p; simpl; [split; [tauto|intros [[|? ?] [h2 [H _]]]; discriminate]|]. destruct (memS (pname q) seen) eqn:M.
  - apply memS_In in M. rewrite IH. split.
    + intros [h1 [h2 [-> [H2 H3]]]]. exists (q :: h1), h2. split; [reflexivity|]. split; [exact H2|]. simpl. intros [X|X]; [congruence|tauto].
    + intros [[|q' h1] [h2 [E [H2 H3]]]]; simpl in E; injection E as -> ->; [tauto|]. exists h1, h2. simpl in H3. tauto.
  - apply memS_false in M. simpl. rewrite IH. split.
    + intros [->|[h1 [h2 [-> [H2 H3]]]]]; [exists [], h; simpl; tauto|]. simpl in H2. exists (q :: h1), h2. simpl. split; [reflexivity|]. split; [tauto|]. intros [X|X]; tauto.
    + intros [[|q' h1] [h2 [E [H2 H3]]]]; simpl in E; injection E as -> ->; [now left|]. simpl in H3. right. exists h1, h2. simpl. split; [reflexivity|]. split; [intros [X|X]; tauto|tauto].
Qed.

(** C35: for every history of additions (caught when they raise) of parameters whose names are not the three internal field names: the names are
    distinct, each name belongs to a constant or to a variable but not both, and looking a name up (in constants, in variables, in all_parameters, or as
    an attribute) gives the first parameter of the history that has this name, of the right kind. *)
Theorem C35_history : forall V (h : list (param V)), (forall p, In p h -> reserved (pname p) = false) ->
  let s := run h in
  NoDup (names s)
  /\ (forall n, In n (names s) <-> In n (map pname h))
  /\ (forall n, In n (names s) <-> In n (map fst (constants s)) \/ In n (map fst (variables s)))
  /\ (forall n, ~ (In n (map fst (constants s)) /\ In n (map fst (variables s))))
  /\ (forall h1 p h2, h = h1 ++ p :: h2 -> ~ In (pname p) (map pname h1) ->
        dget (pname p) (all_parameters s) = Some p /\ dget (pname p) (attrs s) = Some p
        /\ dget (pname p) (constants s) = (if is_const p then Some p else None) /\ dget (pname p) (variables s) = (if is_const p then None else Some p)).
Proof.
  intros V h R s. assert (R' : existsb (fun p => reserved (pname p)) h = false). { destruct (existsb _ h) eqn:E; [|reflexivity]. apply existsb_exists in E. destruct E as [p [H1 H2]]. rewrite (R p H1) in H2. discriminate. }
  destruct (run_state V h R') as [E ND]. unfold s. rewrite E. set (l := firsts [] h) in *.
  assert (NF : forall f, NoDup (map fst (map tag (filter f l)))). { intros f. rewrite fst_tag. clear -ND. induction l as [|p l IH]; simpl in *; [constructor|]. inversion ND as [|? ? H1 H2]; subst. destruct (f p); simpl; auto. constructor; auto. intros H. apply H1. apply in_map_iff in H. destruct H as [q [<- H]]. apply filter_In in H. now apply in_map. }
  assert (UN : forall p q, In p l -> In q l -> pname p = pname q -> p = q). { clear -ND. induction l as [|x l IH]; simpl in *; [tauto|]. inversion ND as [|? ? H1 H2]; subst. intros p q [->|Hp] [->|Hq] Epq; auto; exfalso; apply H1; [rewrite Epq|rewrite <- Epq]; now apply in_map. }
  split; [exact ND|]. split; [|split; [|split]].
  - intros n. cbn [names state_of]. split; intros H; apply in_map_iff in H; destruct H as [p [<- Hp]].
    + apply firsts_In in Hp. destruct Hp as [h1 [h2 [-> _]]]. apply in_map, in_elt.
    + clear -Hp. unfold l. assert (X : forall h seen, In p h -> In (pname p) seen \/ In (pname p) (map pname (firsts seen h))).
      { clear. induction h as [|q h IH]; intros seen; simpl; [tauto|]. intros [->|H].
        - destruct (memS (pname p) seen) eqn:M; [left; now apply memS_In|right; now left].
        - destruct (memS (pname q) seen) eqn:M; [now apply IH|]. destruct (IH (pname q :: seen) H) as [[X|X]|X]; [right; left; exact X|now left|right; now right]. }
      destruct (X h [] Hp) as [[]|Y]. exact Y.
  - intros n. cbn [names constants variables state_of]. rewrite !fst_tag, !in_map_iff. split.
    + intros [p [<- Hp]]. destruct (is_const p) eqn:C; [left|right]; exists p; split; auto; apply filter_In; rewrite C; auto.
    + intros [[p [<- Hp]]|[p [<- Hp]]]; apply filter_In in Hp; exists p; tauto.
  - intros n. cbn [constants variables state_of]. rewrite !fst_tag, !in_map_iff. intros [[p [E1 Hp]] [q [E2 Hq]]]. apply filter_In in Hp, Hq. destruct Hp as [Hp Cp], Hq as [Hq Cq].
    assert (p = q) by (apply UN; auto; congruence). subst. now rewrite Cp in Cq.
  - intros h1 p h2 Eh NI. assert (Hp : In p l) by (apply firsts_In; exists h1, h2; auto).
    assert (Fi : forall f, dget (pname p) (map tag (filter f l)) = if f p then Some p else None).
    { intros f. destruct (f p) eqn:C.
      - apply dget_In; [apply NF|]. apply in_map_iff. exists p. split; [reflexivity|]. now apply filter_In.
      - apply dget_none. rewrite fst_tag. intros H. apply in_map_iff in H. destruct H as [q [H1 H2]]. apply filter_In in H2. destruct H2 as [H2 H3]. assert (q = p) by (now apply UN). congruence. }
    assert (NA : NoDup (map fst (map tag l))) by (now rewrite fst_tag).
    cbn [constants variables attrs state_of]. rewrite !Fi. split; [|split; [|split]].
    + unfold all_parameters. cbn [constants variables state_of]. rewrite dmerge_disjoint.
      * rewrite <- map_app. set (l' := filter is_const l ++ filter (fun p0 => negb (is_const p0)) l). apply dget_In.
        -- rewrite fst_tag. unfold l'. rewrite map_app. apply NoDup_app_iff. repeat split; [rewrite <- fst_tag; apply NF|rewrite <- fst_tag; apply NF|]. intros x H1 H2. apply in_map_iff in H1, H2.
           destruct H1 as [q1 [E1 H1]], H2 as [q2 [E2 H2]]. apply filter_In in H1, H2. assert (q1 = q2) by (apply UN; [tauto|tauto|congruence]). subst. destruct H1 as [_ H1], H2 as [_ H2]. now rewrite H1 in H2.
        -- apply in_map_iff. exists p. split; [reflexivity|]. unfold l'. apply in_or_app. destruct (is_const p) eqn:C; [left|right]; apply filter_In; rewrite C; auto.
      * rewrite map_app, !fst_tag. apply NoDup_app_iff. repeat split; [rewrite <- fst_tag; apply NF|rewrite <- fst_tag; apply NF|]. intros x H1 H2. apply in_map_iff in H1, H2.
        destruct H1 as [q1 [E1 H1]], H2 as [q2 [E2 H2]]. apply filter_In in H1, H2. assert (q1 = q2) by (apply UN; [tauto|tauto|congruence]). subst. destruct H1 as [_ H1], H2 as [_ H2]. now rewrite H1 in H2.
    + apply dget_In; [exact NA|]. apply in_map_iff. exists p. auto.
    + reflexivity.
    + now destruct (is_const p).
Qed.
(** adding a name that is present raises ValueError (the history above shows that the set is then unchanged) *)
Theorem C35_duplicate : forall V (s : pset V) p, broken s = false -> In (pname p) (names s) -> add p s = Err ValueError.
Proof. intros V s p B H. unfold add. rewrite B. now rewrite (proj2 (memS_In _ _) H). Qed.
(** false for the names of the internal fields: adding a parameter called "_names" succeeds and makes the set unusable *)
Theorem C35_refuted_reserved : exists s, add (mkparam "_names" Const (Num 1)) empty = Ok s /\ add (mkparam "x" Const (Num 2)) s = Err TypeError.
Proof. eexists. split; reflexivity. Qed.

(** ** Slices *)
Lemma add_all_state : forall V items (ps qs l : list (param V)), mapM (slice1 items) ps = Ok qs -> existsb (fun p => reserved (pname p)) (l ++ ps) = false -> NoDup (map pname (l ++ ps)) ->
  add_all items ps (state_of l) = Ok (state_of (l ++ qs)) /\ map pname qs = map pname ps /\ map is_const qs = map is_const ps.
Proof.
  induction ps as [|p ps IH]; intros qs l; simpl; intros E R ND; [injection E as <-; rewrite app_nil_r; auto|].
  destruct (slice1 items p) as [q|e] eqn:Q; simpl in E; [|discriminate]. destruct (mapM (slice1 items) ps) as [qs'|] eqn:QS; simpl in E; [|discriminate]. injection E as <-.
  assert (Eq : pname q = pname p /\ pkind q = pkind p). { unfold slice1 in Q. destruct (gather (pval p) items); simpl in Q; [|discriminate]. injection Q as <-. auto. }
  destruct Eq as [Eq1 Eq2]. cbn [bind]. rewrite map_app in ND. simpl in ND. rewrite existsb_app in R. simpl in R. apply orb_false_iff in R. destruct R as [R1 R2]. apply orb_false_iff in R2. destruct R2 as [R2 R3].
  rewrite add_state; [|exact R1|rewrite Eq1; intros H; apply NoDup_remove_2 in ND; apply ND, in_or_app; now left]. cbn [bind].
  destruct (IH qs' (l ++ [q]) eq_refl) as [E1 [E2 E3]].
  - rewrite !existsb_app. simpl. rewrite R1, Eq1, R2. exact R3.
  - rewrite !map_app. simpl. rewrite Eq1. now rewrite <- app_assoc.
  - rewrite <- app_assoc in E1. split; [exact E1|]. cbn [map]. rewrite E2, E3, Eq1. split; [reflexivity|]. f_equal. unfold is_const. now rewrite Eq2.
Qed.
Lemma mapM_app_ok : forall {A B} (f : A -> result B) l1 l2 r, mapM f (l1 ++ l2) = Ok r -> exists r1 r2, mapM f l1 = Ok r1 /\ mapM f l2 = Ok r2 /\ r = r1 ++ r2.
Proof.
  induction l1 as [|x l1 IH]; simpl; intros l2 r H; [exists [], r; auto|]. destruct (f x); simpl in *; [|discriminate]. destruct (mapM f (l1 ++ l2)) eqn:E; simpl in *; [|discriminate]. injection H as <-.
  destruct (IH _ _ E) as [r1 [r2 [H1 [H2 ->]]]]. exists (b :: r1), r2. rewrite H1. simpl. auto.
Qed.
Lemma mapM_In : forall {A B} (f : A -> result B) l r, mapM f l = Ok r -> forall x, In x l -> exists y, f x = Ok y /\ In y r.
Proof.
  induction l as [|a l IH]; simpl; intros r H x; [tauto|]. destruct (f a) eqn:E; simpl in H; [|discriminate]. destruct (mapM f l) eqn:E2; simpl in H; [|discriminate]. injection H as <-.
  intros [->|Hx]; [exists b; simpl; auto|]. destruct (IH _ eq_refl x Hx) as [y [H1 H2]]. exists y. simpl. auto.
Qed.
(** C35: ps[items] has the same names and, for every parameter, one of the same kind, name, bounds and update function whose value is the old one when
    it is a number and the rows listed in items otherwise; the names come in the order constants, then variables. *)
Theorem C35_slice : forall V (h : list (param V)) items s', (forall p, In p h -> reserved (pname p) = false) -> getitem items (run h) = Ok s' ->
  (forall n p, dget n (all_parameters (run h)) = Some p -> exists q, dget n (all_parameters s') = Some q /\ pname q = pname p /\ pkind q = pkind p
      /\ match pval p with Num x => pval q = Num x | Arr rows => exists out, pval q = Arr out /\ List.length out = List.length items /\ forall j i, nth_error items j = Some i -> nth_error out j = nth_error rows i end)
  /\ names s' = map fst (constants (run h)) ++ map fst (variables (run h)).
Proof.
  intros V h items s' R. assert (R' : existsb (fun p => reserved (pname p)) h = false). { destruct (existsb _ h) eqn:E; [|reflexivity]. apply existsb_exists in E. destruct E as [p [H1 H2]]. rewrite (R p H1) in H2. discriminate. }
  destruct (run_state V h R') as [E ND]. rewrite E. set (l := firsts [] h) in *.
  assert (Rl : existsb (fun p => reserved (pname p)) l = false). { destruct (existsb _ l) eqn:X; [|reflexivity]. apply existsb_exists in X. destruct X as [p [H1 H2]]. apply firsts_In in H1. destruct H1 as [h1 [h2 [-> _]]]. rewrite R in H2 by apply in_elt. discriminate. }
  unfold getitem. cbn [broken state_of]. rewrite Rl. cbn [constants variables state_of].
  assert (SM : forall m : list (param V), map snd (map tag m) = m). { intros m. rewrite map_map. apply map_id. }
  rewrite !SM. set (l1 := filter is_const l). set (l2 := filter (fun p => negb (is_const p)) l).
  assert (RF : existsb (fun p => reserved (pname p)) (l1 ++ l2) = false). { destruct (existsb _ (l1 ++ l2)) eqn:X; [|reflexivity]. apply existsb_exists in X. destruct X as [p [H1 H2]]. assert (In p l) by (apply in_app_or in H1; destruct H1 as [H1|H1]; apply filter_In in H1; tauto).
    assert (existsb (fun p => reserved (pname p)) l = true) by (apply existsb_exists; exists p; auto). congruence. }
  assert (UN : forall p q, In p l -> In q l -> pname p = pname q -> p = q). { clear -ND. induction l as [|x l IH]; simpl in *; [tauto|]. inversion ND as [|? ? H1 H2]; subst. intros p q [->|Hp] [->|Hq] Epq; auto; exfalso; apply H1; [rewrite Epq|rewrite <- Epq]; now apply in_map. }
  assert (NFl : forall f, NoDup (map pname (filter f l))). { intros f. clear -ND. induction l as [|p l IH]; simpl in *; [constructor|]. inversion ND as [|? ? H1 H2]; subst. destruct (f p); simpl; auto. constructor; auto. intros H. apply H1. apply in_map_iff in H. destruct H as [q [<- H]]. apply filter_In in H. now apply in_map. }
  assert (N12 : NoDup (map pname (l1 ++ l2))). { rewrite map_app. apply NoDup_app_iff. repeat split; [apply NFl|apply NFl|]. intros x H1 H2. apply in_map_iff in H1, H2. destruct H1 as [q1 [E1 H1]], H2 as [q2 [E2 H2]]. apply filter_In in H1, H2. assert (q1 = q2) by (apply UN; [tauto|tauto|congruence]). subst. destruct H1 as [_ H1], H2 as [_ H2]. now rewrite H1 in H2. }
  intros G. assert (exists qs1 qs2, mapM (slice1 items) l1 = Ok qs1 /\ mapM (slice1 items) l2 = Ok qs2) as [qs1 [qs2 [Q1 Q2]]].
  { assert (A : forall (ps : list (param V)) s s0, add_all items ps s = Ok s0 -> exists qs, mapM (slice1 items) ps = Ok qs).
    { clear. induction ps as [|p ps IH]; simpl; intros s s0 H; [exists []; reflexivity|]. destruct (slice1 items p) as [a|]; simpl in *; [|discriminate]. destruct (add a s); simpl in H; [|discriminate]. destruct (IH _ _ H) as [qs ->]. simpl. eauto. }
    change (@empty V) with (state_of (@nil (param V))) in G. destruct (add_all items l1 (state_of [])) eqn:G1; simpl in G; [|discriminate]. destruct (A _ _ _ G1) as [qs1 Q1]. destruct (A _ _ _ G) as [qs2 Q2]. eauto. }
  destruct (add_all_state V items l1 qs1 [] Q1) as [A1 [A2 A3]]; [simpl; rewrite existsb_app in RF; now apply orb_false_iff in RF|simpl; rewrite map_app in N12; apply NoDup_app_iff in N12; tauto|].
  change (@empty V) with (state_of (@nil (param V))) in G. rewrite A1 in G. cbn [bind] in G. simpl app in G.
  assert (EX : forall P : string -> bool, existsb (fun p => P (pname p)) qs1 = existsb (fun p => P (pname p)) l1).
  { intros P. clear -A2. revert A2. generalize l1. clear. induction qs1 as [|q qs1 IH]; intros [|p l1]; simpl; intros H; try discriminate; [reflexivity|]. injection H as H1 H2. now rewrite H1, (IH _ H2). }
  destruct (add_all_state V items l2 qs2 qs1 Q2) as [B1 [B2 B3]].
  { rewrite existsb_app, (EX reserved), <- existsb_app. exact RF. }
  { rewrite map_app, A2, <- map_app. exact N12. }
  rewrite B1 in G. injection G as <-.
  assert (NQ : NoDup (map pname (qs1 ++ qs2))) by (rewrite map_app, A2, B2, <- map_app; exact N12).
  assert (C1 : Forall (fun q => is_const q = true) qs1). { apply Forall_forall. intros q Hq. assert (In (is_const q) (map is_const qs1)) by now apply in_map. rewrite A3 in H. apply in_map_iff in H. destruct H as [p [<- Hp]]. now apply filter_In in Hp. }
  assert (C2 : Forall (fun q => is_const q = false) qs2). { apply Forall_forall. intros q Hq. assert (In (is_const q) (map is_const qs2)) by now apply in_map. rewrite B3 in H. apply in_map_iff in H. destruct H as [p [<- Hp]]. apply filter_In in Hp. now destruct (is_const p). }
  assert (F1 : filter is_const (qs1 ++ qs2) = qs1 /\ filter (fun p => negb (is_const p)) (qs1 ++ qs2) = qs2).
  { rewrite !filter_app. clear -C1 C2. assert (filter is_const qs1 = qs1 /\ filter (fun p => negb (is_const p)) qs1 = []) as [-> ->]. { induction C1 as [|q r H _ [I1 I2]]; simpl; auto. rewrite H. simpl. now rewrite I1. }
    assert (filter is_const qs2 = [] /\ filter (fun p => negb (is_const p)) qs2 = qs2) as [-> ->]. { induction C2 as [|q r H _ [I1 I2]]; simpl; auto. rewrite H. simpl. now rewrite I2. } now rewrite app_nil_r. }
  destruct F1 as [F1 F2]. split.
  - intros n p. unfold all_parameters. cbn [constants variables state_of]. rewrite F1, F2.
    rewrite !dmerge_disjoint by (rewrite <- map_app, fst_tag; assumption). rewrite <- !map_app.
    intros D. apply dget_In in D; [|rewrite fst_tag; exact N12]. apply in_map_iff in D. destruct D as [p' [Ep Hp]]. injection Ep as <- ->.
    assert (exists q, slice1 items p = Ok q /\ In q (qs1 ++ qs2)) as [q [Hq1 Hq2]].
    { apply in_app_or in Hp. destruct Hp as [Hp|Hp]; [destruct (mapM_In _ _ _ Q1 p Hp) as [q [? ?]]|destruct (mapM_In _ _ _ Q2 p Hp) as [q [? ?]]]; exists q; (split; [assumption|apply in_or_app; auto]). }
    unfold slice1, gather in Hq1. exists q.
    destruct (pval p) as [x|rows] eqn:PV; simpl in Hq1.
    + injection Hq1 as <-. simpl. split; [|auto]. apply dget_In; [rewrite fst_tag; exact NQ|]. apply in_map_iff. exists {| pname := pname p; pkind := pkind p; pval := Num x |}. auto.
    + destruct (mapM _ items) as [out|] eqn:MO; simpl in Hq1; [|discriminate]. injection Hq1 as <-. split; [apply dget_In; [rewrite fst_tag; exact NQ|]; apply in_map_iff; exists {| pname := pname p; pkind := pkind p; pval := Arr out |}; auto|].
      simpl. split; [reflexivity|]. split; [reflexivity|]. exists out. split; [reflexivity|]. clear -MO. revert out MO. induction items as [|i items IH]; simpl; intros out MO; [injection MO as <-; split; [reflexivity|intros [|j] i; discriminate]|].
      destruct (nth_error rows i) as [r|] eqn:N; simpl in MO; [|discriminate]. destruct (mapM _ items) as [out'|] eqn:MO'; simpl in MO; [|discriminate]. injection MO as <-. destruct (IH _ eq_refl) as [L1 L2].
      split; [simpl; now rewrite L1|]. intros [|j] i'; simpl; [intros H; injection H as ->; now rewrite N|apply L2].
  - cbn [names state_of]. rewrite !fst_tag. rewrite map_app, A2, B2. reflexivity.
Qed.
(** so the order of the names is not kept when a variable was added before a constant *)
Theorem C35_refuted_order : exists s, getitem [0] (run [mkparam "v" (Var 0 0) (Arr [1; 2]); mkparam "c" Const (Num 3)]) = Ok s
  /\ names s = ["c"; "v"] /\ names (run [mkparam "v" (Var 0 0) (Arr [1; 2]); mkparam "c" Const (Num 3)]) = ["v"; "c"].
Proof. eexists. repeat split; reflexivity. Qed.

Theorem C35_example : let s := run [mkparam "x" (Var 7 0) (Arr [1; 2; 3]); mkparam "y" Const (Num 5); mkparam "x" Const (Num 9)] in
  names s = ["x"; "y"] /\ dget "x" (all_parameters s) = Some (mkparam "x" (Var 7 0) (Arr [1; 2; 3])) /\
  to_dict s = [("y", EVal (Num 5)); ("x", EVal (Arr [1; 2; 3])); ("x_trainable", ETrue); ("x_bounds", EBounds 7)] /\
  exists s', getitem [2; 0] s = Ok s' /\ dget "x" (all_parameters s') = Some (mkparam "x" (Var 7 0) (Arr [3; 1])).
Proof. repeat split; [reflexivity..|]. eexists. split; reflexivity. Qed.
