(** Claim C80: building circuits with >>, and Circuit.check_contraction compared with Circuit.contract.
    Model of mrmustard/lab/circuits.py:77-84 (constructor), :106-128 (contract, from CircuitContract.v), :222-243 (check_contraction), :291-328 (__eq__, __getitem__, __len__, __rshift__),
    for components of any type with any operation >>. *)
From Coq Require Import ZArith List Bool Lia Permutation Arith.
Require Import Verif.Base Verif.CircuitContract.
Import ListNotations.

Section Circuits.
  Context {X : Type}.
  (** circuits.py:77-84: the constructor sets the default path; _light_copy keeps the component *)
  Record circuit := Circuit { components : list X; path : list (nat * nat) }.
  Definition mk_circuit (l : list X) : circuit := Circuit l (default_path (length l)).
  (** circuits.py:318-328; other is a circuit or a component *)
  Definition circ_rshift (c other : circuit) : circuit := mk_circuit (components c ++ components other).
  Definition circ_rshift_comp (c : circuit) (x : X) : circuit := circ_rshift c (mk_circuit [x]).
  (** circuits.py:291-294 *)
  Definition circ_eq (c d : circuit) : Prop := components c = components d.
  Definition circ_contract (op : X -> X -> result X) (c : circuit) : result X := circuit_contract op (components c) (path c).
  (** path[:n]; a negative n counts from the end *)
  Definition py_prefix {Y} (n : Z) (l : list Y) : list Y := firstn (Z.to_nat (if Z.ltb n 0 then Z.of_nat (length l) + n else n)) l.
  (** circuits.py:222-243: what is printed, an index with its remaining components for every entry, or the ValueError with the key and the pair of its message *)
  Inductive outcome := Shown (d : dict (list X)) | Invalid (wrong_key idx0 idx1 : nat).
  Fixpoint check_run (d : dict (list X)) (p : list (nat * nat)) : outcome :=
    match p with
    | [] => Shown d
    | (i, j) :: t =>
      match get i d, get j d with
      | Ok l, Ok r => check_run (put i (l ++ r) (del j d)) t
      | Err _, _ => Invalid i i j
      | Ok _, Err _ => Invalid j i j
      end
    end.
  Definition singles (l : list X) : dict (list X) := combine (seq 0 (length l)) (map (fun c => [c]) l).
  Definition check_contraction (c : circuit) (n : Z) : outcome := check_run (singles (components c)) (py_prefix n (path c)).

  (** ** Specification *)
  (** the components of a group combined from left to right *)
  Definition chain (f : X -> X -> X) (l : list X) (r : X) : Prop := match l with [] => False | x :: t => r = fold_left f t x end.
  (** the same left to right when >> may raise *)
  Definition chain_res (op : X -> X -> result X) (l : list X) : result X :=
    match l with [] => Err ValueError | x :: t => fold_left (fun acc c => bind acc (fun a => op a c)) t (Ok x) end.
  (** a displayed entry describes an entry of the dictionary of contract *)
  Definition describes (f : X -> X -> X) (g : nat * list X) (v : nat * X) : Prop := fst g = fst v /\ chain f (snd g) (snd v).
  Definition self_pair (p : nat * nat) : bool := Nat.eqb (fst p) (snd p).

  (** ** >> on circuits *)
  (** C80: >> is associative, the empty circuit is neutral (for ==, which compares the components), lengths add and indices run through both *)
  Theorem C80_rshift : forall a b c : circuit,
    circ_rshift (circ_rshift a b) c = circ_rshift a (circ_rshift b c)
    /\ circ_eq (circ_rshift (mk_circuit []) a) a /\ circ_eq (circ_rshift a (mk_circuit [])) a
    /\ length (components (circ_rshift a b)) = length (components a) + length (components b)
    /\ (forall i, nth_error (components (circ_rshift a b)) i = if Nat.ltb i (length (components a)) then nth_error (components a) i else nth_error (components b) (i - length (components a)))
    /\ (forall x, circ_rshift_comp (circ_rshift a b) x = circ_rshift a (circ_rshift_comp b x)).
  Proof.
    intros a b c. unfold circ_rshift_comp, circ_rshift, circ_eq, mk_circuit; cbn [components path app]. rewrite !app_assoc, app_nil_r.
    repeat split; try reflexivity.
    - apply app_length.
    - intros i. destruct (Nat.ltb_spec i (length (components a))); [now apply nth_error_app1|now apply nth_error_app2].
    - intros x. cbn. now rewrite app_assoc.
  Qed.
  (** C80, deviation: the path of the operands is lost *)
  Theorem C80_path_lost : forall x y z : X, let a := Circuit [x; y; z] [(1, 2); (0, 1)] in
    path (circ_rshift a (mk_circuit [])) <> path a /\ path (circ_rshift (mk_circuit []) a) <> path a.
  Proof. intros x y z a. cbn. split; discriminate. Qed.

  (** ** The default path *)
  Section Default.
    Context (op : X -> X -> result X).
    Lemma chain_err : forall t e, fold_left (fun acc c => bind acc (fun a => op a c)) t (Err e) = Err e.
    Proof. induction t; intros e; [reflexivity|]. cbn. apply IHt. Qed.
    Lemma step_0 : forall k a b d, 0 < k -> step op ((0, a) :: (k, b) :: d) (0, k) = bind (op a b) (fun z => Ok ((0, z) :: d)).
    Proof. intros [|k] a b d H; [lia|]. unfold step. cbn. rewrite Nat.eqb_refl. cbn. destruct (op a b); reflexivity. Qed.
    Lemma run_default : forall t k a, 0 < k ->
      bind (run op ((0, a) :: combine (seq k (length t)) t) (map (fun i => (0, i)) (seq k (length t)))) (fun d => match d with [] => Err RuntimeError | (_, x) :: _ => Ok x end)
      = fold_left (fun acc c => bind acc (fun a => op a c)) t (Ok a).
    Proof.
      induction t as [|b t IH]; intros k a Hk; [reflexivity|]. cbn [length seq map combine run fold_left]. rewrite step_0 by exact Hk.
      cbn [bind]. destruct (op a b) as [z|e]; cbn [bind]; [apply IH; lia|]. now rewrite chain_err.
    Qed.
    (** C80: without a path of its own a non-empty circuit is contracted from left to right; an empty one raises ValueError *)
    Theorem C80_default : forall l, circ_contract op (mk_circuit l) = chain_res op l.
    Proof.
      intros [|x t]; [reflexivity|]. unfold circ_contract, circuit_contract, mk_circuit, default_path; cbn [components path length seq].
      rewrite Nat.sub_succ, Nat.sub_0_r, map_length, seq_length. replace (Z.of_nat (S (length t)) - 1)%Z with (Z.of_nat (length t)) by lia.
      rewrite Z.eqb_refl. cbn [negb combine]. apply (run_default t 1 x). lia.
    Qed.
    (** C80: appending a component to a circuit applies it to the contracted circuit *)
    Theorem C80_append : forall c x, components c <> [] ->
      circ_contract op (circ_rshift_comp c x) = bind (circ_contract op (mk_circuit (components c))) (fun a => op a x).
    Proof.
      intros c x H. unfold circ_rshift_comp, circ_rshift. rewrite !C80_default. cbn [components mk_circuit]. destruct (components c) as [|y t]; [congruence|].
      cbn [app chain_res]. now rewrite fold_left_app.
    Qed.
  End Default.

  (** ** check_contraction and contract *)
  Section Total.
    Context (f : X -> X -> X).
    Hypothesis assoc : forall x y z, f (f x y) z = f x (f y z).
    Let op x y : result X := Ok (f x y).
    Lemma chain_app : forall l r x y, chain f l x -> chain f r y -> chain f (l ++ r) (f x y).
    Proof using assoc.
      intros [|a l] [|b r] x y; cbn; try tauto. intros -> ->. rewrite fold_left_app. cbn. generalize (fold_left f l a). intros u.
      revert u b. induction r as [|c r IH]; intros u b; [reflexivity|]. cbn [fold_left]. rewrite assoc. apply IH.
    Qed.
    Lemma get_rel : forall k d d', Forall2 (describes f) d d' ->
      match get k d, get k d' with Ok l, Ok x => chain f l x | Err _, Err e => e = KeyError | _, _ => False end.
    Proof.
      intros k d d' H. induction H as [|[i l] [i' x] d d' [E C] H IH]; cbn; [reflexivity|]. cbn in E, C. subst i'. destruct (Nat.eqb i k); [exact C|exact IH].
    Qed.
    Lemma del_rel : forall k d d', Forall2 (describes f) d d' -> Forall2 (describes f) (del k d) (del k d').
    Proof.
      intros k d d' H. induction H as [|[i l] [i' x] d d' [E C] H IH]; cbn; [constructor|]. cbn in E, C. subst i'. destruct (Nat.eqb i k); [exact H|]. constructor; [split; [reflexivity|exact C]|exact IH].
    Qed.
    Lemma put_rel : forall k l x d d', Forall2 (describes f) d d' -> chain f l x -> Forall2 (describes f) (put k l d) (put k x d').
    Proof.
      intros k l x d d' H C0. induction H as [|[i g] [i' y] d d' [E C] H IH]; cbn; [constructor; [split; [reflexivity|exact C0]|constructor]|]. cbn in E, C. subst i'.
      destruct (Nat.eqb i k); constructor; first [assumption | split; first [reflexivity | assumption]].
    Qed.
    Lemma run_rel : forall p d d', Forall2 (describes f) d d' ->
      match check_run d p with
      | Shown g => exists g', run op d' p = Ok g' /\ Forall2 (describes f) g g'
      | Invalid key i j => run op d' p = Err KeyError
      end.
    Proof using assoc.
      induction p as [|[i j] p IH]; intros d d' H; cbn; [eauto|]. unfold step. cbn [fst snd].
      pose proof (get_rel i d d' H) as Gi. pose proof (get_rel j d d' H) as Gj.
      destruct (get i d) as [l|ei]; destruct (get i d') as [x|ei']; try tauto; cbn; [|now subst].
      destruct (get j d) as [r|ej]; destruct (get j d') as [y|ej']; try tauto; cbn; [|now subst].
      apply IH. apply put_rel; [now apply del_rel|now apply chain_app].
    Qed.
    Lemma start_rel : forall l k, Forall2 (describes f) (combine (seq k (length l)) (map (fun c => [c]) l)) (combine (seq k (length l)) l).
    Proof. induction l as [|x l IH]; intros k; cbn; constructor; [split; reflexivity|apply IH]. Qed.
    (** C80: check_contraction(n) raises exactly if the first n steps of contract raise a KeyError; otherwise it shows the entries of the dictionary of contract after n steps, in order,
        each as the components whose left to right product it is *)
    Theorem C80_check : forall c n,
      match check_contraction c n with
      | Shown g => exists g', run op (combine (seq 0 (length (components c))) (components c)) (py_prefix n (path c)) = Ok g' /\ Forall2 (describes f) g g'
      | Invalid key i j => run op (combine (seq 0 (length (components c))) (components c)) (py_prefix n (path c)) = Err KeyError
      end.
    Proof using assoc. intros c n. apply run_rel. apply start_rel. Qed.
  End Total.

  (** ** What is shown *)
  Lemma get_in : forall {Y} k (d : dict Y) x, get k d = Ok x -> Permutation d ((k, x) :: del k d).
  Proof.
    induction d as [|[i y] d IH]; cbn; intros x H; [discriminate|]. destruct (Nat.eqb_spec i k) as [->|N]; [injection H as ->; reflexivity|].
    rewrite perm_swap. constructor. now apply IH.
  Qed.
  Lemma get_del : forall {Y} i j (d : dict Y), i <> j -> get i (del j d) = get i d.
  Proof.
    induction d as [|[k y] d IH]; cbn; intros H; [reflexivity|]. destruct (Nat.eqb_spec k j) as [->|N].
    - destruct (Nat.eqb_spec j i); [congruence|reflexivity].
    - cbn. destruct (Nat.eqb k i); [reflexivity|now apply IH].
  Qed.
  Lemma put_in : forall {Y} i v (d : dict Y) x, get i d = Ok x -> Permutation (put i v d) ((i, v) :: del i d).
  Proof.
    induction d as [|[k y] d IH]; cbn; intros x H; [discriminate|]. destruct (Nat.eqb_spec k i) as [->|N]; [reflexivity|].
    rewrite perm_swap. constructor. eapply IH. exact H.
  Qed.
  Lemma put_new : forall {Y} i v (d : dict Y), ~ In i (map fst d) -> put i v d = d ++ [(i, v)].
  Proof.
    induction d as [|[k y] d IH]; cbn; intros H; [reflexivity|]. destruct (Nat.eqb_spec k i) as [->|N]; [tauto|]. now rewrite IH by tauto.
  Qed.
  Lemma get_err : forall {Y} i (d : dict Y) e, get i d = Err e -> ~ In i (map fst d).
  Proof.
    induction d as [|[k y] d IH]; cbn; intros e H; [tauto|]. destruct (Nat.eqb_spec k i) as [->|N]; [discriminate|]. specialize (IH e H). tauto.
  Qed.
  Lemma perm_concat : forall {Y} (a b : list (list Y)), Permutation a b -> Permutation (concat a) (concat b).
  Proof.
    intros Y a b H. induction H; cbn; [reflexivity|now apply Permutation_app_head| |etransitivity; eassumption].
    rewrite !app_assoc. apply Permutation_app_tail, Permutation_app_comm.
  Qed.
  Lemma step_shape : forall i j l r (d : dict (list X)), NoDup (map fst d) -> get i d = Ok l -> get j d = Ok r ->
    NoDup (map fst (put i (l ++ r) (del j d))) /\
    (if Nat.eqb i j then length (put i (l ++ r) (del j d)) = length d
     else S (length (put i (l ++ r) (del j d))) = length d /\ Permutation (concat (map snd (put i (l ++ r) (del j d)))) (concat (map snd d))).
  Proof.
    intros i j l r d N Gi Gj. pose proof (get_in _ _ _ Gj) as P.
    assert (N' : NoDup (j :: map fst (del j d))) by (apply (Permutation_NoDup (Permutation_map fst P)); exact N).
    inversion N' as [|? ? Hj N2]; subst. destruct (Nat.eqb_spec i j) as [->|D].
    - rewrite put_new by assumption. split.
      + rewrite map_app. cbn. apply (Permutation_NoDup (Permutation_cons_append (map fst (del j d)) j)). exact N'.
      + rewrite app_length, (Permutation_length P). cbn. lia.
    - pose proof Gi as Gi'. rewrite <- (get_del i j d D) in Gi'. pose proof (get_in _ _ _ Gi') as P1. pose proof (put_in i (l ++ r) _ _ Gi') as P2. split; [|split].
      + apply (Permutation_NoDup (Permutation_sym (Permutation_map fst P2))). apply (Permutation_NoDup (Permutation_map fst P1)). exact N2.
      + rewrite (Permutation_length P2), (Permutation_length P). cbn [length]. rewrite (Permutation_length P1). reflexivity.
      + rewrite (perm_concat _ _ (Permutation_map snd P2)), (perm_concat _ _ (Permutation_map snd P)). cbn [map snd concat].
        rewrite (perm_concat _ _ (Permutation_map snd P1)). cbn [map snd concat]. rewrite <- app_assoc. 
        rewrite !app_assoc. apply Permutation_app_tail. apply Permutation_app_comm.
  Qed.
  Definition selfs (p : list (nat * nat)) : nat := length (filter self_pair p).
  Lemma run_shape : forall p d g, NoDup (map fst d) -> check_run d p = Shown g ->
    length g + length p = length d + selfs p /\ (selfs p = 0 -> Permutation (concat (map snd g)) (concat (map snd d))).
  Proof.
    induction p as [|[i j] p IH]; intros d g N H; cbn in H.
    - injection H as ->. cbn. split; [lia|reflexivity].
    - destruct (get i d) as [l|] eqn:Gi; [|discriminate]. destruct (get j d) as [r|] eqn:Gj; [|discriminate].
      destruct (step_shape i j l r d N Gi Gj) as [N' Sh]. destruct (IH _ _ N' H) as [L P]. unfold selfs in *. cbn [filter length].
      change (self_pair (i, j)) with (Nat.eqb i j).
      destruct (Nat.eqb i j); cbn [length].
      + split; [lia|discriminate].
      + destruct Sh as [S1 S2]. split; [lia|]. intros Z. rewrite (P Z). exact S2.
  Qed.
  Lemma singles_keys : forall (l : list X) k, map fst (combine (seq k (length l)) (map (fun c => [c]) l)) = seq k (length l).
  Proof. induction l as [|x l IH]; intros k; cbn; [reflexivity|]. now rewrite IH. Qed.
  Lemma singles_concat : forall (l : list X) k, concat (map snd (combine (seq k (length l)) (map (fun c => [c]) l))) = l.
  Proof. induction l as [|x l IH]; intros k; cbn; [reflexivity|]. now rewrite IH. Qed.
  Lemma singles_length : forall (l : list X), length (singles l) = length l.
  Proof. intros l. unfold singles. rewrite combine_length, seq_length, map_length. apply Nat.min_id. Qed.
  (** C80: every pair joins two entries, except a pair (i, i), which joins none; without such pairs the groups shown together are the components, each exactly once *)
  Theorem C80_partition : forall c n g, check_contraction c n = Shown g ->
    length g + length (py_prefix n (path c)) = length (components c) + selfs (py_prefix n (path c))
    /\ (selfs (py_prefix n (path c)) = 0 -> Permutation (concat (map snd g)) (components c)).
  Proof.
    intros c n g H. apply run_shape in H; [|unfold singles; rewrite singles_keys; apply seq_NoDup]. rewrite singles_length in H. unfold singles in H. now rewrite singles_concat in H.
  Qed.
  (** C80: the key in the message of the ValueError is one of the pair, and is not among the remaining indices at that point *)
  Theorem C80_invalid : forall c n k i j, check_contraction c n = Invalid k i j ->
    exists pre post g, py_prefix n (path c) = pre ++ (i, j) :: post /\ check_contraction (Circuit (components c) pre) (Z.of_nat (length pre)) = Shown g
      /\ ~ In k (map fst g) /\ (k = i \/ (k = j /\ In i (map fst g))).
  Proof.
    intros c n k i j. unfold check_contraction at 1. generalize (py_prefix n (path c)). intros p H.
    assert (X0 : exists pre post g, p = pre ++ (i, j) :: post /\ check_run (singles (components c)) pre = Shown g /\ ~ In k (map fst g) /\ (k = i \/ (k = j /\ In i (map fst g)))).
    { revert H. generalize (singles (components c)). induction p as [|[a b] p IH]; intros d H; cbn in H; [discriminate|].
      destruct (get a d) as [l|e] eqn:Ga.
      - destruct (get b d) as [r|e] eqn:Gb.
        + destruct (IH _ H) as [pre [post [g [E [C [N D]]]]]]. exists ((a, b) :: pre), post, g. subst p. cbn. rewrite Ga, Gb. auto.
        + injection H as <- <- <-. exists [], p, d. repeat split; [exact (get_err _ _ _ Gb)|]. right. split; [reflexivity|].
          apply get_in in Ga. apply (Permutation_in _ (Permutation_sym (Permutation_map fst Ga))). now left.
      - injection H as <- <- <-. exists [], p, d. repeat split; [exact (get_err _ _ _ Ga)|]. now left. }
    destruct X0 as [pre [post [g [E [C R]]]]]. exists pre, post, g. split; [exact E|]. split; [|exact R]. unfold check_contraction. cbn [components path].
    unfold py_prefix. destruct (Z.ltb_spec (Z.of_nat (length pre)) 0); [lia|]. rewrite Nat2Z.id, firstn_all. exact C.
  Qed.
  Lemma prefix_all : forall {Y} (l : list Y), py_prefix (Z.of_nat (length l)) l = l.
  Proof. intros Y l. unfold py_prefix. destruct (Z.ltb_spec (Z.of_nat (length l)) 0); [lia|]. rewrite Nat2Z.id. apply firstn_all. Qed.
  (** C80: n >= 0 stands for the first n contractions (all of them if there are fewer), - k for all but the last k *)
  Theorem C80_prefix : forall c : circuit, (forall n : nat, check_contraction c (Z.of_nat n) = check_run (singles (components c)) (firstn n (path c)))
    /\ (forall k : nat, 0 < k -> check_contraction c (- Z.of_nat k) = check_contraction c (Z.of_nat (length (path c) - k))).
  Proof.
    intros c. unfold check_contraction, py_prefix. split.
    - intros n. destruct (Z.ltb_spec (Z.of_nat n) 0); [lia|]. now rewrite Nat2Z.id.
    - intros k H. destruct (Z.ltb_spec (- Z.of_nat k) 0); [|lia]. destruct (Z.ltb_spec (Z.of_nat (length (path c) - k)) 0); [lia|].
      do 2 f_equal. lia.
  Qed.
  (** C80: the result of contract is the first group shown after all contractions; the number of groups left out is the number of pairs (i, i) in the path.
      Without such pairs every component is used exactly once *)
  Theorem C80_contract : forall (f : X -> X -> X), (forall x y z, f (f x y) z = f x (f y z)) -> forall c r,
    circ_contract (fun x y => Ok (f x y)) c = Ok r ->
    exists k l rest, check_contraction c (Z.of_nat (length (path c))) = Shown ((k, l) :: rest) /\ chain f l r /\ length rest = selfs (path c)
      /\ (selfs (path c) = 0 -> Permutation l (components c)).
  Proof.
    intros f A c r H. unfold circ_contract, circuit_contract in H. destruct (Z.eqb_spec (Z.of_nat (length (path c))) (Z.of_nat (length (components c)) - 1)) as [L|]; [|discriminate].
    cbn [negb] in H. pose proof (C80_check f A c (Z.of_nat (length (path c)))) as K. pose proof (C80_partition c (Z.of_nat (length (path c)))) as P. rewrite prefix_all in K, P.
    destruct (check_contraction c (Z.of_nat (length (path c)))) as [g|k i j]; [|rewrite K in H; discriminate].
    destruct K as [g' [E F]]. rewrite E in H. cbn [bind] in H. destruct F as [|[k l] [k' x] g g' [_ C] F]; [discriminate|]. injection H as ->. cbn in C.
    destruct (P _ eq_refl) as [P1 P2]. exists k, l, g. split; [reflexivity|]. split; [exact C|]. cbn [length] in P1. split; [lia|]. intros Z. specialize (P2 Z).
    destruct g as [|? ?]; [|cbn [length] in P1; lia]. cbn in P2. now rewrite app_nil_r in P2.
  Qed.
  (** C80, deviation: a path with a pair (i, i) is accepted and silently drops components: this circuit of x and y contracts to y *)
  Theorem C80_self_pair_refuted : forall (op : X -> X -> result X) x y z, op x x = Ok z -> circ_contract op (Circuit [x; y] [(0, 0)]) = Ok y
    /\ check_contraction (Circuit [x; y] [(0, 0)]) 1 = Shown [(1, [y]); (0, [x; x])].
  Proof. intros op x y z H. unfold circ_contract, circuit_contract, check_contraction. cbn. unfold step. cbn. rewrite H. cbn. split; reflexivity. Qed.
End Circuits.
(** a non-trivial case: the path of the example in the documentation of check_contraction *)
Theorem C80_example : let c := Circuit [1; 2; 3; 4] [(0, 1); (2, 3); (0, 2)] in
  check_contraction c 2 = Shown [(0, [1; 2]); (2, [3; 4])] /\ check_contraction c 3 = Shown [(0, [1; 2; 3; 4])] /\ check_contraction c (-1) = check_contraction c 2
  /\ circ_contract (fun x y => Ok (x * 10 + y)) c = Ok 154 /\ check_contraction (Circuit [1; 2; 3] [(0, 1); (1, 2)]) 2 = Invalid 1 1 2.
Proof. repeat split. Qed.
