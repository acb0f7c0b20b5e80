(** C73: the sum of two parametrised components (Coherent + Coherent, Dgate + Dgate, ...) *)
From Coq Require Import List Bool Arith Lia String.
Import ListNotations.
From Verif Require Import Base.

(** The table of the classes built with PolyExpAnsatz.from_function:
    - [c_fn]: the function (None: a lambda written in the constructor, so every instance has its own);
    - [c_kwargs]: the keyword arguments of from_function with the parameter that is passed (None: a plain Python value);
    - [c_args]: the constructor's arguments that have [_trainable] and [_bounds] companions, with the number of axes of one value;
    - [c_plain]: the constructor's other arguments *)
Record class := mkClass { c_name : string; c_fn : option string; c_kwargs : list (string * option string); c_args : list (string * nat); c_plain : list (string * nat) }.
Open Scope string_scope.
Definition same (l : list string) : list (string * option string) := map (fun s => (s, Some s)) l.
Definition sc (l : list string) : list (string * nat) := map (fun s => (s, 0)) l.
(** lab/states/coherent.py:83-100 *)
Definition coherent := mkClass "Coherent" (Some "coherent_state_Abc") (same ["alpha"]) (sc ["alpha"]) [].
(** lab/states/displaced_squeezed.py:63-108 *)
Definition displaced_squeezed := mkClass "DisplacedSqueezed" (Some "displaced_squeezed_vacuum_state_Abc") (same ["alpha"; "r"; "phi"]) (sc ["alpha"; "r"; "phi"]) [].
(** lab/transformations/attenuator.py:81-109 *)
Definition attenuator := mkClass "Attenuator" (Some "attenuator_Abc") [("eta", Some "transmissivity")] (sc ["transmissivity"]) [].
(** lab/states/bargmann_eigenstate.py:63-86, quadrature_eigenstate.py:63-100, sauron.py:59-74, squeezed_vacuum.py:59-91, thermal.py:57-78,
    two_mode_squeezed_vacuum.py:60-90, gaussian_state.py:71-93 and 152-187; lab/transformations/amplifier.py:81-105, bsgate.py:89-111, cxgate.py:63-90,
    czgate.py:63-90, dgate.py:77-93, fockdamping.py:70-93, gaussrandnoise.py:68-101, ggate.py:57-82, identity.py:63-78, interferometer.py:59-83,
    mzgate.py:64-92, pgate.py:56-81, realinterferometer.py:53-85, rgate.py:55-71, s2gate.py:72-102, sgate.py:84-122;
    lab/circuit_components_utils/b_to_q.py:56-80, b_to_ps.py:41-66, b_to_ch.py:73-99 *)
Definition catalog : list class :=
  [ coherent; displaced_squeezed;
    mkClass "BargmannEigenstate" (Some "bargmann_eigenstate_Abc") (same ["alpha"]) (sc ["alpha"]) [];
    mkClass "QuadratureEigenstate" (Some "quadrature_eigenstates_Abc") (same ["x"; "phi"]) (sc ["x"; "phi"]) [];
    mkClass "SqueezedVacuum" (Some "squeezed_vacuum_state_Abc") (same ["r"; "phi"]) (sc ["r"; "phi"]) [];
    mkClass "Thermal" (Some "thermal_state_Abc") (same ["nbar"]) (sc ["nbar"]) [];
    mkClass "TwoModeSqueezedVacuum" (Some "two_mode_squeezed_vacuum_state_Abc") (same ["r"; "phi"]) (sc ["r"; "phi"]) [];
    mkClass "BSgate" (Some "beamsplitter_gate_Abc") (same ["theta"; "phi"]) (sc ["theta"; "phi"]) [];
    mkClass "Dgate" (Some "displacement_gate_Abc") (same ["alpha"]) (sc ["alpha"]) [];
    mkClass "Rgate" (Some "rotation_gate_Abc") (same ["theta"]) (sc ["theta"]) [];
    mkClass "S2gate" (Some "twomode_squeezing_gate_Abc") (same ["r"; "phi"]) (sc ["r"; "phi"]) [];
    mkClass "Sgate" (Some "squeezing_gate_Abc") (same ["r"; "phi"]) (sc ["r"; "phi"]) [];
    attenuator;
    mkClass "Amplifier" (Some "amplifier_Abc") [("g", Some "gain")] (sc ["gain"]) [];
    mkClass "FockDamping" (Some "fock_damping_Abc") [("beta", Some "damping")] (sc ["damping"]) [];
    mkClass "GDM" (Some "gdm_state_Abc") [("betas", Some "beta"); ("symplectic", Some "symplectic")] [("beta", 1)] [("symplectic", 2)];
    mkClass "Identity" (Some "identity_Abc") [("n_modes", None)] [] [];
    mkClass "BtoQ" (Some "bargmann_to_quadrature_Abc") [("n_modes", None); ("phi", Some "phi")] [] (sc ["phi"]);
    mkClass "BtoPS" (Some "bargmann_to_wigner_Abc") [("s", Some "s"); ("n_modes", None)] [] (sc ["s"]);
    mkClass "BtoChar" (Some "displacement_map_s_parametrized_Abc") [("s", Some "s"); ("n_modes", None)] [] (sc ["s"]);
    mkClass "GKet" (Some "gket_state_Abc") (same ["symplectic"]) [] [("symplectic", 2)];
    mkClass "GaussRandNoise" (Some "gaussian_random_noise_Abc") (same ["Y"]) [] [("Y", 2)];
    mkClass "Sauron" (Some "sauron_state_Abc") (same ["n"; "epsilon"]) [] (sc ["n"; "epsilon"]);
    mkClass "CXgate" None (same ["s"]) (sc ["s"]) [];
    mkClass "CZgate" None (same ["s"]) (sc ["s"]) [];
    mkClass "Pgate" None (same ["shearing"]) (sc ["shearing"]) [];
    mkClass "MZgate" None [("phi_a", Some "phi_a"); ("phi_b", Some "phi_b"); ("internal", None)] (sc ["phi_a"; "phi_b"]) [];
    mkClass "Ggate" None [("s", Some "symplectic")] [] [("symplectic", 2)];
    mkClass "Interferometer" None [("uni", Some "unitary")] [] [("unitary", 2)];
    mkClass "RealInterferometer" None [("ortho", Some "orthogonal")] [] [("orthogonal", 2)] ].
Close Scope string_scope.

Lemma seq_at n m : seq n m = map (fun i => n + i) (seq 0 m).
Proof.
  revert n. induction m as [|m IH]; intros n; simpl; [reflexivity|]. rewrite Nat.add_0_r. f_equal. rewrite (IH (S n)), <- seq_shift, map_map. apply map_ext. intros i. lia.
Qed.
Section Model.
  Variables (V W B Wr : Type) (wr_eqb : Wr -> Wr -> bool) (b_eqb : B -> B -> bool).

  (** an array: no axis, or rows (flattened) along axis 0 with the sizes of the other axes *)
  Inductive arr := Scal (x : V) | Rows (tail : list nat) (rows : list (list V)).
  Definition ndim (a : arr) : nat := match a with Scal _ => 0 | Rows t _ => S (List.length t) end.
  (** backend_numpy.py atleast_nd (n = 1) and concat (axis 0) *)
  Definition atleast_1d (a : arr) : arr := match a with Scal x => Rows [] [[x]] | _ => a end.
  Definition concat0 (a b : arr) : result arr :=
    match a, b with
    | Rows t r, Rows t' r' => if list_eq_dec Nat.eq_dec t t' then Ok (Rows t (r ++ r')) else Err ValueError
    | _, _ => Err ValueError
    end.
  (** math/parameters.py: a Constant (no bounds) or a Variable with its bounds *)
  Record param := mkParam { bounds : option B; value : arr }.
  (** a component: its class, the identity of its function, its wires, its parameter set and the lin_sup flag of its ansatz *)
  Record comp := mkComp { cls : class; fn_id : nat; wires : Wr; params : list (string * param); lin_sup : bool }.
  Definition lookup {A} (l : list (string * A)) (s : string) : option A :=
    match find (fun p => String.eqb (fst p) s) l with Some p => Some (snd p) | None => None end.
  Definition getattr (c : comp) (s : string) : result param := match lookup (params c) s with Some p => Ok p | None => Err AttributeError end.
  (** functions compare equal when they are the same module function, or the same lambda object *)
  Definition same_fn (a b : comp) : bool :=
    match c_fn (cls a), c_fn (cls b) with
    | Some f, Some g => String.eqb f g
    | None, None => fn_id a =? fn_id b
    | _, _ => false
    end.
  (** the batch dimensions of the ansatz: the axes a parameter has besides those of one value (polyexp_ansatz.py:694-709) *)
  Definition rank (k : class) (s : string) : nat := match lookup (c_args k ++ c_plain k) s with Some r => r | None => 0 end.
  Definition batch_dims (c : comp) : nat :=
    list_max (map (fun p => ndim (value (snd p)) - rank (cls c) (fst p)) (params c)).
  (** circuit_components.py:871-895, one turn of the loop: the new constructor arguments [name], [name_trainable], [name_bounds] *)
  Definition merge (a b : comp) (name : string) : result (string * param) :=
    bind (getattr a name) (fun p => bind (getattr b name) (fun q =>
      match bounds p, bounds q with
      | Some _, None | None, Some _ => Err ValueError
      | _, _ =>
        if negb (batch_dims a - Nat.b2n (lin_sup a) =? 0) || negb (batch_dims b - Nat.b2n (lin_sup b) =? 0) then Err ValueError else
        match bounds p, bounds q with
        | Some x, Some y => if b_eqb x y then bind (concat0 (atleast_1d (value p)) (atleast_1d (value q))) (fun v => Ok (name, mkParam (Some x) v)) else Err ValueError
        | _, _ => bind (concat0 (atleast_1d (value p)) (atleast_1d (value q))) (fun v => Ok (name, mkParam None v))
        end
      end)).
  Fixpoint mapM {X Y} (f : X -> result Y) (l : list X) : result (list Y) :=
    match l with [] => Ok [] | x :: r => bind (f x) (fun y => bind (mapM f r) (fun ys => Ok (y :: ys))) end.
  (** the constructor call: unexpected keyword arguments raise TypeError (also name_bounds for arguments without bounds); the parameters are
      registered in the order of the arguments. Simplification: arguments that are not given are left out instead of set to their default. *)
  Definition construct (k : class) (w : Wr) (new : list (string * param)) : result comp :=
    let ok p := existsb (String.eqb (fst p)) (map fst (c_args k)) ||
                (existsb (String.eqb (fst p)) (map fst (c_plain k)) && match bounds (snd p) with None => true | _ => false end) in
    if forallb ok new
    then Ok (mkComp k 0 w (flat_map (fun s => match lookup new s with Some p => [(s, p)] | None => [] end) (map fst (c_args k ++ c_plain k))) true)
    else Err TypeError.
  (** circuit_components.py:859-903: None when the ansatze are added (C61) *)
  Definition add (a b : comp) : result (option comp) :=
    if negb (wr_eqb (wires a) (wires b)) then Err ValueError else
    if same_fn a b
    then bind (mapM (merge a b) (map fst (c_kwargs (cls a)))) (fun new => bind (construct (cls a) (wires a) new) (fun c => Ok (Some c)))
    else Ok None.

  (** ** specification: the function a component represents *)
  Variables (w0 : W) (wadd : W -> W -> W).
  Hypothesis wadd_assoc : forall x y z, wadd x (wadd y z) = wadd (wadd x y) z.
  Hypothesis wadd_0 : forall x, wadd w0 x = x.
  (** the value of the function of a class for one value of every parameter *)
  Variable eval : class -> (string -> list V) -> W.
  Hypothesis eval_ext : forall k f g, (forall s, In s (map fst (c_args k ++ c_plain k)) -> f s = g s) -> eval k f = eval k g.
  Definition entry (a : arr) (i : nat) : list V := match a with Scal x => [x] | Rows _ r => nth i r [] end.
  Definition term (c : comp) (i : nat) : W := eval (cls c) (fun s => match lookup (params c) s with Some p => entry (value p) i | None => [] end).
  Definition wsum (l : list W) : W := fold_right wadd w0 l.
  (** a component that stands for the sum of n terms *)
  Definition total (c : comp) (n : nat) : W := wsum (map (term c) (seq 0 n)).
  (** every parameter is a number and the component is a single term, or all parameters are vectors of n numbers and it is their superposition *)
  Definition numbers (n : nat) (a : arr) : Prop := exists l, a = Rows [] (map (fun x => [x]) l) /\ List.length l = n.
  Definition superposition (n : nat) (c : comp) : Prop :=
    map fst (params c) = map fst (c_args (cls c)) /\
    ((lin_sup c = false /\ n = 1 /\ forall s p, In (s, p) (params c) -> exists x, value p = Scal x)
     \/ (lin_sup c = true /\ forall s p, In (s, p) (params c) -> numbers n (value p))).
  (** classes whose keyword arguments are the parameters of the same names, all of them numbers *)
  Definition summable (k : class) : bool :=
    (if list_eq_dec string_dec (map fst (c_kwargs k)) (map fst (c_args k)) then true else false) &&
    (if list_eq_dec string_dec (map fst (c_args k)) (nodup string_dec (map fst (c_args k))) then true else false) &&
    forallb (fun p => snd p =? 0) (c_args k) && match c_plain k, c_args k with [], _ :: _ => true | _, _ => false end.
  (** the two components have the same trainable parameters with the same bounds *)
  Definition same_kinds (a b : comp) : Prop := map (fun p => (fst p, bounds (snd p))) (params a) = map (fun p => (fst p, bounds (snd p))) (params b).

  Hypothesis wr_eqb_eq : forall x y, wr_eqb x y = true <-> x = y.
  Hypothesis b_eqb_eq : forall x y, b_eqb x y = true <-> x = y.
  Notation names c := (map fst (params c)).

  Lemma lookup_In {A} (l : list (string * A)) s : In s (map fst l) -> exists x, lookup l s = Some x /\ In (s, x) l.
  Proof.
    intros H. unfold lookup. induction l as [|[t x] l IH]; simpl in *; [tauto|]. destruct (String.eqb_spec t s) as [->|N].
    - exists x. auto.
    - destruct H as [E|H]; [congruence|]. destruct (IH H) as (y & E & I). exists y. auto.
  Qed.
  Lemma lookup_None {A} (l : list (string * A)) s : ~ In s (map fst l) -> lookup l s = None.
  Proof.
    intros H. unfold lookup. induction l as [|[t x] l IH]; simpl in *; [reflexivity|]. destruct (String.eqb_spec t s) as [->|N]; [tauto|]. apply IH. tauto.
  Qed.
  Lemma lookup_map {A} (g : string -> A) l s : In s l -> lookup (map (fun s => (s, g s)) l) s = Some (g s).
  Proof.
    unfold lookup. induction l as [|t l IH]; simpl; [tauto|]. intros H. destruct (String.eqb_spec t s) as [->|N]; [reflexivity|]. apply IH. destruct H; [congruence|auto].
  Qed.
  Lemma mapM_ok {X Y} (f : X -> result Y) g l : (forall x, In x l -> f x = Ok (g x)) -> mapM f l = Ok (map g l).
  Proof. induction l as [|x l IH]; simpl; intros H; [reflexivity|]. rewrite H by auto. simpl. rewrite IH by auto. reflexivity. Qed.
  Lemma mapM_err {X Y} (f : X -> result Y) e l : (forall x, In x l -> f x = Err e \/ exists y, f x = Ok y) -> (exists x, In x l /\ f x = Err e) -> mapM f l = Err e.
  Proof.
    induction l as [|x l IH]; simpl; intros H (z & I & E); [tauto|]. destruct (f x) as [y|e'] eqn:F.
    - simpl. destruct I as [->|I]; [congruence|]. rewrite IH; eauto.
    - simpl. destruct (H x (or_introl eq_refl)) as [K|(y & K)]; congruence.
  Qed.
  Lemma eqb_existsb s l : existsb (String.eqb s) l = true <-> In s l.
  Proof.
    rewrite existsb_exists. split.
    - intros (x & I & E). apply String.eqb_eq in E. subst. exact I.
    - intros I. exists s. split; [exact I|]. apply String.eqb_refl.
  Qed.

  Lemma summable_spec k : summable k = true ->
    map fst (c_kwargs k) = map fst (c_args k) /\ NoDup (map fst (c_args k)) /\ (forall p, In p (c_args k) -> snd p = 0) /\ c_plain k = [] /\ c_args k <> [].
  Proof.
    unfold summable. intros H. apply andb_true_iff in H. destruct H as [H H4]. apply andb_true_iff in H. destruct H as [H H3]. apply andb_true_iff in H. destruct H as [H1 H2].
    destruct (list_eq_dec string_dec (map fst (c_kwargs k)) (map fst (c_args k))) as [E1|]; [|discriminate].
    destruct (list_eq_dec string_dec (map fst (c_args k)) (nodup string_dec (map fst (c_args k)))) as [E2|]; [|discriminate].
    destruct (c_plain k) eqn:P; [|discriminate]. destruct (c_args k) eqn:Q; [discriminate|].
    split; [exact E1|]. split; [rewrite E2; apply NoDup_nodup|]. split; [|split; [reflexivity|discriminate]].
    intros p0 I. rewrite forallb_forall in H3. apply Nat.eqb_eq, H3, I.
  Qed.

  Definition rows (a : arr) : list (list V) := match a with Scal x => [[x]] | Rows _ r => r end.
  Lemma sup_param n c : superposition n c -> forall s p, In (s, p) (params c) -> atleast_1d (value p) = Rows [] (rows (value p)) /\ List.length (rows (value p)) = n
     /\ (exists l, rows (value p) = map (fun x => [x]) l) /\ (ndim (value p) - Nat.b2n (lin_sup c) = 0) /\ (forall i, i < n -> entry (value p) i = nth i (rows (value p)) []).
  Proof.
    intros (_ & [(L & -> & H)|(L & H)]) s p I.
    - destruct (H s p I) as (x & E). rewrite E, L. simpl. repeat split; [exists [x]; reflexivity|]. intros [|i] Hi; [reflexivity|lia].
    - destruct (H s p I) as (l & E & Hl). rewrite E, L. simpl. rewrite map_length. repeat split; auto. exists l. reflexivity.
  Qed.
  Lemma sup_batch n c : superposition n c -> batch_dims c - Nat.b2n (lin_sup c) = 0.
  Proof.
    intros H. unfold batch_dims. assert (list_max (map (fun p => ndim (value (snd p)) - rank (cls c) (fst p)) (params c)) <= Nat.b2n (lin_sup c)); [|lia].
    apply list_max_le. apply Forall_forall. intros x I. apply in_map_iff in I. destruct I as ([s p] & <- & I). simpl.
    destruct (sup_param n c H s p I) as (_ & _ & _ & E & _). lia.
  Qed.
  Definition merged (a b : comp) (s : string) : param :=
    match lookup (params a) s, lookup (params b) s with
    | Some p, Some q => mkParam (bounds p) (Rows [] (rows (value p) ++ rows (value q)))
    | _, _ => mkParam None (Rows [] [])
    end.
  Lemma merge_ok n m a b s p q : superposition n a -> superposition m b -> lookup (params a) s = Some p -> lookup (params b) s = Some q ->
    In (s, p) (params a) -> In (s, q) (params b) ->
    (bounds p = bounds q -> merge a b s = Ok (s, merged a b s)) /\ (bounds p <> bounds q -> merge a b s = Err ValueError).
  Proof.
    intros Ha Hb Ea Eb Ia Ib. unfold merge, merged, getattr. rewrite Ea, Eb. simpl. rewrite (sup_batch n a Ha), (sup_batch m b Hb). simpl.
    destruct (sup_param n a Ha s p Ia) as (-> & _). destruct (sup_param m b Hb s q Ib) as (-> & _). simpl.
    destruct (bounds p) as [x|], (bounds q) as [y|]; split; intros E; try discriminate; try congruence; try reflexivity.
    - injection E as ->. rewrite (proj2 (b_eqb_eq y y) eq_refl). reflexivity.
    - destruct (b_eqb x y) eqn:F; [|reflexivity]. apply b_eqb_eq in F. congruence.
  Qed.
  Lemma kinds_at a b n m : superposition n a -> superposition m b -> cls b = cls a -> NoDup (map fst (c_args (cls a))) ->
    (same_kinds a b <-> forall s p q, lookup (params a) s = Some p -> lookup (params b) s = Some q -> bounds p = bounds q).
  Proof.
    intros (Na & _) (Nb & _) E ND. unfold same_kinds. rewrite E in Nb. rewrite <- Na in ND, Nb. clear Na.
    generalize dependent (params b). generalize dependent (params a). clear. induction l as [|[s p] l IH]; intros ND [|[t q] r] Nb; simpl in *; try discriminate.
    - split; [intros _ s p q H; discriminate|reflexivity].
    - injection Nb as Nst Nr. subst t. inversion ND as [|x y HN HND E]. subst. specialize (IH HND r Nr). split.
      + intros H. injection H as Hb Hr. intros u p' q'. unfold lookup. simpl. destruct (String.eqb_spec s u) as [->|N].
        * intros [= <-] [= <-]. exact Hb.
        * apply (proj1 IH Hr u p' q').
      + intros H. f_equal.
        * f_equal. apply (H s p q); unfold lookup; simpl; rewrite String.eqb_refl; reflexivity.
        * apply IH. intros u p' q' E1 E2. apply (H u p' q'); unfold lookup in *; simpl; (destruct (String.eqb_spec s u) as [->|N]; [|assumption]);
            exfalso; apply HN; destruct (find (fun p0 => String.eqb (fst p0) u) l) as [x|] eqn:F; try discriminate; apply find_some in F; destruct F as (I & F); apply String.eqb_eq in F; subst u; apply in_map; exact I.
  Qed.
  Lemma wsum_app l r : wsum (l ++ r) = wadd (wsum l) (wsum r).
  Proof. induction l as [|x l IH]; simpl; [symmetry; apply wadd_0|]. rewrite IH. apply wadd_assoc. Qed.

  (** the sum of two superpositions of the same class *)
  Theorem add_correct a b n m : summable (cls a) = true -> cls b = cls a -> same_fn a b = true -> wires b = wires a -> superposition n a -> superposition m b ->
    (same_kinds a b -> exists c, add a b = Ok (Some c) /\ cls c = cls a /\ wires c = wires a /\ superposition (n + m) c /\ same_kinds c a
        /\ (forall i, i < n -> term c i = term a i) /\ (forall i, i < m -> term c (n + i) = term b i)
        /\ total c (n + m) = wadd (total a n) (total b m))
    /\ (~ same_kinds a b -> add a b = Err ValueError).
  Proof.
    intros SK Ec Ef Ew Ha Hb. destruct (summable_spec _ SK) as (Kw & ND & R0 & Pl & NE).
    assert (Na := proj1 Ha). assert (Nb := proj1 Hb). rewrite Ec in Nb.
    assert (L : forall s, In s (map fst (c_args (cls a))) -> exists p q, lookup (params a) s = Some p /\ In (s, p) (params a) /\ lookup (params b) s = Some q /\ In (s, q) (params b)).
    { intros s I. rewrite <- Na in I. destruct (lookup_In _ s I) as (p & E1 & I1). rewrite Na, <- Nb in I. destruct (lookup_In _ s I) as (q & E2 & I2). exists p, q. auto. }
    unfold add. rewrite Ew, (proj2 (wr_eqb_eq _ _) eq_refl), Ef. simpl. rewrite Kw. split.
    - intros K. rewrite (kinds_at a b n m Ha Hb Ec ND) in K.
      assert (M : mapM (merge a b) (map fst (c_args (cls a))) = Ok (map (fun s => (s, merged a b s)) (map fst (c_args (cls a))))).
      { apply mapM_ok. intros s I. destruct (L s I) as (p & q & E1 & I1 & E2 & I2). apply (proj1 (merge_ok n m a b s p q Ha Hb E1 E2 I1 I2)). apply (K s p q E1 E2). }
      rewrite M. simpl. unfold construct. rewrite Pl, app_nil_r.
      set (new := map (fun s => (s, merged a b s)) (map fst (c_args (cls a)))).
      match goal with |- context [forallb ?f new] => assert (F : forallb f new = true) end.
      { apply forallb_forall. intros x I. apply orb_true_iff. left. apply eqb_existsb. unfold new in I. apply in_map_iff in I. destruct I as (s & <- & I). exact I. }
      rewrite F. simpl.
      assert (E : flat_map (fun s => match lookup new s with Some p => [(s, p)] | None => [] end) (map fst (c_args (cls a))) = new).
      { unfold new. assert (G : forall l, (forall s, In s l -> In s (map fst (c_args (cls a)))) ->
          flat_map (fun s => match lookup (map (fun s => (s, merged a b s)) (map fst (c_args (cls a)))) s with Some p => [(s, p)] | None => [] end) l = map (fun s => (s, merged a b s)) l).
        { induction l as [|s l IH]; intros H; simpl; [reflexivity|]. rewrite (lookup_map (merged a b)) by (apply H; left; reflexivity). simpl. rewrite IH by (intros; apply H; right; assumption). reflexivity. }
        apply G. auto. }
      rewrite E. eexists. split; [reflexivity|]. set (c := mkComp (cls a) 0 (wires a) new true).
      assert (T1 : forall i, i < n -> term c i = term a i).
      { intros i Hi. unfold term. simpl. apply eval_ext. rewrite Pl, app_nil_r. intros s I. destruct (L s I) as (p & q & E1 & I1 & E2 & I2). unfold new. rewrite (lookup_map (merged a b)), E1 by exact I.
        unfold merged. rewrite E1, E2. simpl. destruct (sup_param n a Ha s p I1) as (_ & Ln & _ & _ & En). rewrite (En i Hi), app_nth1 by lia. reflexivity. }
      assert (T2 : forall i, i < m -> term c (n + i) = term b i).
      { intros i Hi. unfold term. simpl. rewrite Ec. apply eval_ext. rewrite Pl, app_nil_r. intros s I. destruct (L s I) as (p & q & E1 & I1 & E2 & I2). unfold new. rewrite (lookup_map (merged a b)), E2 by exact I.
        unfold merged. rewrite E1, E2. simpl. destruct (sup_param n a Ha s p I1) as (_ & Ln & _). destruct (sup_param m b Hb s q I2) as (_ & _ & _ & _ & En).
        rewrite (En i Hi), app_nth2 by lia. f_equal. lia. }
      split; [reflexivity|]. split; [reflexivity|]. split; [|split; [|split; [|split]]].
      + split; [simpl; unfold new; rewrite map_map; apply map_id|]. right. split; [reflexivity|]. intros s p I. simpl in I. unfold new in I. apply in_map_iff in I. destruct I as (t & E' & I).
        injection E' as <- <-. destruct (L t I) as (p & q & E1 & I1 & E2 & I2). unfold merged. rewrite E1, E2. simpl.
        destruct (sup_param n a Ha t p I1) as (_ & Ln & (l1 & Q1) & _). destruct (sup_param m b Hb t q I2) as (_ & Lm & (l2 & Q2) & _).
        exists (l1 ++ l2). rewrite Q1, Q2, map_app. split; [reflexivity|]. rewrite app_length. rewrite Q1, map_length in Ln. rewrite Q2, map_length in Lm. lia.
      + unfold same_kinds. simpl. unfold new. rewrite map_map. simpl. rewrite <- Na. rewrite map_map. apply map_ext_in. intros [s p] I. simpl. f_equal.
        assert (I' : In s (map fst (c_args (cls a)))) by (rewrite <- Na; apply (in_map fst) in I; exact I). destruct (L s I') as (p' & q & E1 & I1 & E2 & I2). unfold merged. rewrite E1, E2. simpl.
        assert (U : p' = p); [|subst; reflexivity].
        rewrite <- Na in ND. clear - ND I I1. induction (params a) as [|[t r] l IH]; simpl in *; [tauto|]. inversion ND as [|x y HN HND E]. subst.
        destruct I as [I|I], I1 as [I1|I1]; try congruence.
        * injection I as -> ->. exfalso. apply HN. apply (in_map fst) in I1. exact I1.
        * injection I1 as -> ->. exfalso. apply HN. apply (in_map fst) in I. exact I.
        * apply IH; assumption.
      + exact T1.
      + exact T2.
      + unfold total. rewrite seq_app, map_app, wsum_app. f_equal.
        * f_equal. apply map_ext_in. intros i I. apply in_seq in I. apply T1. lia.
        * f_equal. simpl. rewrite (seq_at n m). rewrite map_map. apply map_ext_in. intros i I. apply in_seq in I. apply T2. lia.
    - intros NK. assert (M : mapM (merge a b) (map fst (c_args (cls a))) = Err ValueError); [|rewrite M; reflexivity].
      apply mapM_err.
      + intros s I. destruct (L s I) as (p & q & E1 & I1 & E2 & I2). destruct (merge_ok n m a b s p q Ha Hb E1 E2 I1 I2) as (M1 & M2).
        assert (D : bounds p = bounds q \/ bounds p <> bounds q).
        { destruct (bounds p) as [x|], (bounds q) as [y|]; try (right; discriminate); [|left; reflexivity].
          destruct (b_eqb x y) eqn:F; [left; f_equal; apply b_eqb_eq; exact F|]. right. intros E. injection E as E. apply b_eqb_eq in E. congruence. }
        destruct D as [D|D]; [right; eexists; apply M1, D|left; apply M2, D].
      + destruct (existsb (fun s => match merge a b s with Err ValueError => true | _ => false end) (map fst (c_args (cls a)))) eqn:X.
        * apply existsb_exists in X. destruct X as (s & I & X). exists s. split; [exact I|]. destruct (merge a b s) as [|e]; [discriminate|]. destruct e; congruence.
        * exfalso. apply NK. apply (kinds_at a b n m Ha Hb Ec ND). intros s p q E1 E2.
          assert (I : In s (map fst (c_args (cls a)))).
          { rewrite <- Na. destruct (in_dec string_dec s (names a)) as [I|N]; [exact I|]. rewrite lookup_None in E1 by exact N. discriminate. }
          destruct (L s I) as (p' & q' & E1' & I1 & E2' & I2). rewrite E1 in E1'. injection E1' as <-. rewrite E2 in E2'. injection E2' as <-.
          destruct (merge_ok n m a b s p q Ha Hb E1 E2 I1 I2) as (_ & M2).
          destruct (bounds p) as [x|] eqn:P, (bounds q) as [y|] eqn:Q.
          -- destruct (b_eqb x y) eqn:F; [f_equal; apply b_eqb_eq; exact F|]. exfalso. assert (MM : merge a b s = Err ValueError). { apply M2. intros E. injection E as E. apply b_eqb_eq in E. congruence. }
             apply Bool.not_true_iff_false in X. apply X. apply existsb_exists. exists s. rewrite MM. auto.
          -- exfalso. assert (MM : merge a b s = Err ValueError) by (apply M2; discriminate). apply Bool.not_true_iff_false in X. apply X. apply existsb_exists. exists s. rewrite MM. auto.
          -- exfalso. assert (MM : merge a b s = Err ValueError) by (apply M2; discriminate). apply Bool.not_true_iff_false in X. apply X. apply existsb_exists. exists s. rewrite MM. auto.
          -- reflexivity.
  Qed.
End Model.
