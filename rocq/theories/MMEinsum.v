(** mm_einsum: contraction of a network along a path.  Claim C47.
    Model of mrmustard/physics/mm_einsum.py (mm_einsum, get_shapes, prepare_idx_out, to_fock, ua_to_linear).
    Labels are numbered; [isstr] tells which labels are strings (batch axes), the others are integers (Hilbert space indices).
    The operations of the Bargmann representation are opaque parameters: the theorems are about runs that stay in the Fock
    representation.  An operand that carries the same label twice is not modelled. *)
From Coq Require Import List Bool Arith Lia Permutation Ring_theory Ring ZArith.
Require Import Verif.Base Verif.Wires Verif.Tensor Verif.Contract Verif.ArrayOps.
Import ListNotations.

Section MM.
  Context {R : Type} (rO rI : R) (radd rmul rsub : R -> R -> R) (ropp : R -> R).
  Hypothesis Rth : ring_theory rO rI radd rmul rsub ropp eq.
  Add Ring RrM : Rth.
  Notation ansatz := (@ArrayOps.ansatz R).
  Notation amplitude := (@ArrayOps.amplitude R rO).
  Notation sum := (Tensor.sum rO radd).
  Notation nsum := (Tensor.nsum rO radd Nat.eqb).
  Notation reduce := (@ArrayOps.reduce R rO).
  Variable isstr : nat -> bool.
  (** the dictionary fock_dims *)
  Variable fd : nat -> option nat.
  Variable B : Type.
  Variable to_barg : ansatz -> B.
  Variable b_to_fock : B -> list nat -> result ansatz.
  Variable b_contract : B -> B -> list nat -> list nat -> list nat -> result B.
  Variable b_reorder b_reorder_batch : B -> list nat -> result B.
  Inductive rep := Fk (a : ansatz) | Bg (b : B).

  (** mm_einsum.py:30-35 *)
  Definition strings (l : list nat) : list nat := filter isstr l.
  Definition ints (l : list nat) : list nat := filter (fun x => negb (isstr x)) l.
  (** fock_dims.get(i, 1) *)
  Definition fdg (i : nat) : nat := match fd i with Some d => d | None => 1 end.
  (** ansatz.core_shape[core_idx.index(idx)] *)
  Definition adim (a : ansatz) (ci : list nat) (i : nat) : result nat :=
    match look Nat.eqb ci (core_shape a) i with Some d => Ok d | None => Err IndexError end.
  Definition BIG : nat := 10 ^ 9.
  (** mm_einsum.py:187-197 get_shape_for_idx *)
  Definition shape_for (i : nat) (x : rep) (ci : list nat) : result nat :=
    match fd i with Some d => Ok d | None => match x with Fk a => adim a ci i | Bg _ => Err ValueError end end.
  (** mm_einsum.py:199-214 get_common_shape *)
  Definition shape_common (i : nat) (x : rep) (ci : list nat) (y : rep) (cj : list nat) : result nat :=
    match fd i with
    | Some d => Ok d
    | None => bind (match x with Fk a => bind (adim a ci i) (fun d => Ok (Nat.min BIG d)) | Bg _ => Ok BIG end)
                (fun m => match y with Fk b => bind (adim b cj i) (fun d => Ok (Nat.min m d)) | Bg _ => Ok m end)
    end.
  (** mm_einsum.py:165-235 *)
  Definition get_shapes (x y : rep) (ci cj : list nat) : result (list nat * list nat) :=
    bind (mapM (fun i => if nmem i cj then shape_common i x ci y cj else shape_for i x ci) ci) (fun sa =>
    bind (mapM (fun i => if nmem i ci then shape_common i x ci y cj else shape_for i y cj) cj) (fun sb =>
    Ok (sa, sb))).
  (** mm_einsum.py:257 [index for i, index in enumerate(indices) if i not in (a, b)] *)
  Fixpoint drop2 {X} (i a b : nat) (l : list X) : list X :=
    match l with [] => [] | x :: t => if (i =? a) || (i =? b) then drop2 (S i) a b t else x :: drop2 (S i) a b t end.
  (** mm_einsum.py:261-267 *)
  Definition add_new (keep : nat -> bool) (acc l : list nat) : list nat :=
    fold_left (fun acc x => if keep x && negb (nmem x acc) then acc ++ [x] else acc) l acc.
  (** mm_einsum.py:238-268 *)
  Definition prepare_idx_out (idxs : list (list nat)) (a b : nat) (out : list nat) : list nat :=
    let others := drop2 0 a b idxs in
    let other_chars := flat_map strings others ++ strings out in
    let other_core := flat_map ints others ++ ints out in
    let ia := nth a idxs [] in let ib := nth b idxs [] in
    add_new (fun x => nmem x other_core) (add_new (fun x => nmem x other_chars) [] (strings ia ++ strings ib)) (ints ia ++ ints ib).
  (** mm_einsum.py:271-293 *)
  Definition to_fock (x : rep) (s : list nat) : result ansatz :=
    if nmem 0 s then Err ValueError else match x with Fk a => reduce a s | Bg b => b_to_fock b s end.
  (** mm_einsum.py:296-316 *)
  Definition to_bargmann (x : rep) : B := match x with Fk a => to_barg a | Bg b => b end.
  (** array_ansatz.py:159-226 with its batch_dims_out *)
  Definition f_contract (a b : ansatz) (ia ib io : list nat) : result ansatz :=
    bind (array_contract rO radd rmul (arr a) (arr b) ia ib io) (fun r => Ok (mkA r (length (strings io)))).
  Fixpoint remove_nth {X} (n : nat) (l : list X) : list X :=
    match l, n with [], _ => [] | _ :: t, 0 => t | x :: t, S m => x :: remove_nth m t end.
  (** mm_einsum.py:141-142: pop the larger position, then the smaller one *)
  Definition pop2 {X} (a b : nat) (l : list X) : list X := remove_nth (Nat.min a b) (remove_nth (Nat.max a b) l).

  (** mm_einsum.py:123-144, one contraction *)
  Definition step (out : list nat) (st : list (rep * list nat)) (p : nat * nat) : result (list (rep * list nat)) :=
    let '(a, b) := p in
    match nth_error st a, nth_error st b with
    | Some (xa, ia), Some (xb, ib) =>
        let ca := ints ia in let cb := ints ib in
        let common := filter (fun i => nmem i cb) ca in
        let io := prepare_idx_out (map snd st) a b out in
        bind (if forallb (fun i => fdg i =? 0) common then
                bind (b_contract (to_bargmann xa) (to_bargmann xb) ia ib io) (fun r => Ok (Bg r))
              else if forallb (fun i => negb (fdg i =? 0)) common then
                bind (get_shapes xa xb ca cb) (fun ss =>
                bind (to_fock xa (fst ss)) (fun a' => bind (to_fock xb (snd ss)) (fun b' =>
                bind (f_contract a' b' ia ib io) (fun r => Ok (Fk r)))))
              else Err ValueError)
          (fun r => Ok (pop2 a b st ++ [(r, io)]))
    | _, _ => Err IndexError
    end.
  Fixpoint run (out : list nat) (st : list (rep * list nat)) (path : list (nat * nat)) : result (list (rep * list nat)) :=
    match path with [] => Ok st | p :: t => bind (step out st p) (fun st' => run out st' t) end.

  (** list.index *)
  Fixpoint index_of (x : nat) (l : list nat) : result nat :=
    match l with [] => Err ValueError | y :: t => if x =? y then Ok 0 else bind (index_of x t) (fun i => Ok (S i)) end.
  Definition reorder_batch_r (x : rep) (o : list nat) : result rep :=
    match x with Fk a => bind (reorder_batch a o) (fun r => Ok (Fk r)) | Bg b => bind (b_reorder_batch b o) (fun r => Ok (Bg r)) end.
  Definition reorder_r (x : rep) (o : list nat) : result rep :=
    match x with Fk a => bind (reorder a o) (fun r => Ok (Fk r)) | Bg b => bind (b_reorder b o) (fun r => Ok (Bg r)) end.
  (** mm_einsum.py:51-159 for a linear path *)
  Definition mm_einsum (args : list (rep * list nat)) (output : list nat) (path : list (nat * nat)) : result rep :=
    let st0 := map (fun p => (fst p, strings (snd p) ++ ints (snd p))) args in
    if negb (forallb (fun s => nmem s (flat_map (fun p => strings (snd p)) args)) (strings output)) then Err KeyError else
    let out := strings output ++ ints output in
    bind (run out st0 path) (fun st =>
    match st with
    | [] => Err IndexError
    | (x, ix) :: rest =>
        if negb (length rest =? 0) then Err ValueError else
        bind (if 1 <? length (strings out) then bind (mapM (fun i => index_of i (strings ix)) (strings out)) (reorder_batch_r x) else Ok x) (fun x1 =>
        bind (if 1 <? length (ints out) then bind (mapM (fun i => index_of i (ints ix)) (ints out)) (reorder_r x1) else Ok x1) (fun x2 =>
        Ok (if (0 <? length (ints ix)) && forallb (fun i => fdg i =? 0) (ints ix) then Bg (to_bargmann x2) else x2)))
    end).

  (** ** specification *)
  (** value of an operand when every label l carries the value e l; zero outside of the array *)
  Definition val (e : nat -> nat) (p : ansatz * list nat) : R := amplitude (fst p) (map e (snd p)).
  Definition prodv (ops : list (ansatz * list nat)) (e : nat -> nat) : R := fold_right (fun p acc => rmul (val e p) acc) rI ops.
  (** sizes of the axes that carry label l *)
  Definition cdims (ops : list (ansatz * list nat)) (l : nat) : list nat :=
    flat_map (fun p => match look Nat.eqb (snd p) (shape (arr (fst p))) l with Some d => [d] | None => [] end) ops.
  Fixpoint lmin (l : list nat) : nat := match l with [] => 0 | [x] => x | x :: t => Nat.min x (lmin t) end.
  (** range of label l: the given Fock dimension, else the smallest axis that carries it *)
  Definition fdim (l : nat) : option nat := if isstr l then None else fd l.
  Definition D (ops : list (ansatz * list nat)) (l : nat) : nat := match fdim l with Some d => d | None => lmin (cdims ops l) end.
  (** the labels summed over *)
  Definition inner (ops : list (ansatz * list nat)) (out : list nat) : list nat :=
    filter (fun l => negb (nmem l out)) (nodup Nat.eq_dec (flat_map snd ops)).
  (** the full contraction at the output values k *)
  Definition full (ops : list (ansatz * list nat)) (out k : list nat) : R :=
    sum (box (map (D ops) (inner ops out))) (fun idx => prodv ops (env out k (inner ops out) idx)).

  (** an operand with its labels: batch axes first, one label per axis *)
  Definition wf_op (p : ansatz * list nat) : Prop :=
    NoDup (snd p) /\ length (snd p) = length (shape (arr (fst p))) /\ snd p = strings (snd p) ++ ints (snd p) /\
    bdims (fst p) = length (strings (snd p)) /\
    (forall l, In l (snd p) -> fd l = None -> dim_of (snd p) (shape (arr (fst p))) l <= BIG).
  (** every contraction of the path joins two different operands through at least one Hilbert space index, and none of the
      joined indices has Fock dimension 0 *)
  Fixpoint fock_path (out : list nat) (idxs : list (list nat)) (path : list (nat * nat)) : Prop :=
    match path with
    | [] => length idxs = 1
    | (a, b) :: t => a <> b /\ a < length idxs /\ b < length idxs /\
        (exists i, In i (ints (nth a idxs [])) /\ In i (ints (nth b idxs []))) /\
        (forall i, In i (ints (nth a idxs [])) -> In i (ints (nth b idxs [])) -> fd i <> Some 0) /\
        fock_path out (pop2 a b idxs ++ [prepare_idx_out idxs a b out]) t
    end.

  (** ** lemmas *)
  Definition tot (s : nat -> option nat) (l : nat) : nat := match s l with Some v => v | None => 0 end.
  Lemma prodv_ext : forall ops e e', (forall l, In l (flat_map snd ops) -> e l = e' l) -> prodv ops e = prodv ops e'.
  Proof using.
    induction ops as [|p ops IH]; intros e e' H; simpl; auto. f_equal.
    - unfold val. f_equal. apply map_ext_in. intros l Hl. apply H. simpl. apply in_or_app. now left.
    - apply IH. intros l Hl. apply H. simpl. apply in_or_app. now right.
  Qed.
  Lemma full_nsum : forall ops out k, full ops out k = nsum (inner ops out) (D ops) (fun s => prodv ops (tot (orelse (look Nat.eqb out k) s))).
  Proof using. intros. unfold full, Tensor.nsum. apply sum_ext. intros idx _. apply prodv_ext. intros l _. unfold env, tot, orelse. now destruct (look Nat.eqb out k l). Qed.
  Lemma prodv_perm : forall ops ops' e, Permutation ops ops' -> prodv ops e = prodv ops' e.
  Proof using Rth. intros ops ops' e P. induction P; simpl; auto; [now rewrite IHP|ring|congruence]. Qed.
  Lemma lmin_cons : forall x t, t <> [] -> lmin (x :: t) = Nat.min x (lmin t).
  Proof using. intros x [|y t] H; [congruence|reflexivity]. Qed.
  Lemma lmin_perm : forall l l', Permutation l l' -> lmin l = lmin l'.
  Proof using.
    intros l l' P. induction P; auto.
    - destruct l as [|y l].
      + apply Permutation_nil in P. now subst.
      + destruct l' as [|y' l']; [apply Permutation_sym, Permutation_nil in P; discriminate|]. rewrite !lmin_cons by discriminate. now rewrite IHP.
    - destruct l as [|z l]; [simpl; lia|]. rewrite (lmin_cons y (x :: z :: l)), (lmin_cons x (z :: l)), (lmin_cons x (y :: z :: l)), (lmin_cons y (z :: l)) by discriminate. lia.
    - congruence.
  Qed.
  Lemma cdims_perm : forall ops ops' l, Permutation ops ops' -> Permutation (cdims ops l) (cdims ops' l).
  Proof using.
    intros ops ops' l P. unfold cdims. induction P; simpl; auto.
    - now apply Permutation_app_head.
    - rewrite !app_assoc. apply Permutation_app_tail. apply Permutation_app_comm.
    - eapply Permutation_trans; eauto.
  Qed.
  Lemma D_perm : forall ops ops' l, Permutation ops ops' -> D ops l = D ops' l.
  Proof using. intros. unfold D. destruct (fdim l); auto. apply lmin_perm. now apply cdims_perm. Qed.
  Lemma inner_in : forall ops out l, In l (inner ops out) <-> In l (flat_map snd ops) /\ ~ In l out.
  Proof using.
    intros. unfold inner. rewrite filter_In, nodup_In, negb_true_iff. split; intros [H1 H2]; split; auto.
    - intros C. apply nmem_In in C. congruence.
    - destruct (nmem l out) eqn:E; auto. apply nmem_In in E. contradiction.
  Qed.
  Lemma inner_nodup : forall ops out, NoDup (inner ops out).
  Proof using. intros. apply NoDup_filter. apply NoDup_nodup. Qed.
  Lemma ext_prodv : forall ops s0, Tensor.ext (fun s => prodv ops (tot (orelse s0 s))).
  Proof using. intros ops s0 s t H. apply prodv_ext. intros l _. unfold tot, orelse. destruct (s0 l); auto. now rewrite H. Qed.
  Lemma flat_map_perm_in : forall (ops ops' : list (ansatz * list nat)) l, Permutation ops ops' -> In l (flat_map snd ops) -> In l (flat_map snd ops').
  Proof using. intros ops ops' l P H. apply in_flat_map in H. destruct H as [p [H1 H2]]. apply in_flat_map. exists p. split; auto. eapply Permutation_in; eauto. Qed.
  Lemma full_perm : forall ops ops' out k, Permutation ops ops' -> full ops out k = full ops' out k.
  Proof using Rth.
    intros ops ops' out k P. rewrite !full_nsum.
    rewrite (nsum_perm rO rI radd rmul rsub ropp Rth Nat.eqb Nat.eqb_eq (inner ops out) (inner ops' out)).
    - transitivity (nsum (inner ops' out) (D ops) (fun s => prodv ops' (tot (orelse (look Nat.eqb out k) s)))).
      + apply nsum_ext. intros s. now apply prodv_perm.
      + apply nsum_dim. intros l _. now apply D_perm.
    - apply inner_nodup.
    - apply ext_prodv.
    - apply NoDup_Permutation; try apply inner_nodup. intros l. rewrite !inner_in. split; intros [H1 H2]; split; auto; [apply (flat_map_perm_in ops)|apply (flat_map_perm_in ops')]; auto. now apply Permutation_sym.
  Qed.
  Lemma look_in_box : forall (L : list nat) (dim : nat -> nat) idx l, In idx (box (map dim L)) -> In l L -> exists v, look Nat.eqb L idx l = Some v /\ v < dim l.
  Proof using.
    induction L as [|x L IH]; intros dim idx l Hb Hl; [destruct Hl|]. apply in_box in Hb. inversion Hb; subst. simpl.
    destruct (l =? x) eqn:E; [apply Nat.eqb_eq in E; subst; eauto|]. apply IH; [now apply in_box|]. destruct Hl as [->|Hl]; auto. rewrite Nat.eqb_refl in E. discriminate.
  Qed.
  Lemma nsum_ext_in : forall L dim H G, (forall s, (forall l, In l L -> exists v, s l = Some v /\ v < dim l) -> (forall l, ~ In l L -> s l = None) -> H s = G s) -> nsum L dim H = nsum L dim G.
  Proof using.
    intros L dim H G E. unfold Tensor.nsum. apply sum_ext. intros idx Hi. apply E; [intros l Hl; now apply look_in_box|]. intros l Hl. now apply (look_notin Nat.eqb Nat.eqb_eq).
  Qed.

  Lemma mapM_ok : forall {X Y} (f : X -> result Y) (g : X -> Y) l, (forall x, In x l -> f x = Ok (g x)) -> mapM f l = Ok (map g l).
  Proof using. intros X Y f g. induction l as [|x t IH]; intros H; simpl; auto. rewrite H by now left. simpl. rewrite IH; auto. intros y Hy. apply H. now right. Qed.
  Lemma map_dim_of : forall ix sh, NoDup ix -> length ix = length sh -> sh = map (dim_of ix sh) ix.
  Proof using.
    intros ix sh ND L. apply nth_ext with 0 0; [now rewrite map_length|]. intros i Hi. rewrite <- L in Hi.
    rewrite (nth_indep (map (dim_of ix sh) ix) 0 (dim_of ix sh 0)) by now rewrite map_length. rewrite map_nth. unfold dim_of. now rewrite (look_nth Nat.eqb Nat.eqb_eq).
  Qed.
  Lemma look_dim_of : forall ix sh l, length ix = length sh -> In l ix -> look Nat.eqb ix sh l = Some (dim_of ix sh l).
  Proof using.
    intros ix. induction ix as [|x ix IH]; intros [|d sh] l L H; simpl in L; try lia; [destruct H|]. unfold dim_of. simpl. destruct (l =? x) eqn:E; auto.
    destruct H as [->|H]; [rewrite Nat.eqb_refl in E; discriminate|]. apply IH; auto; lia.
  Qed.
  Lemma dim_of_map : forall ix f l, In l ix -> dim_of ix (map f ix) l = f l.
  Proof using. intros. unfold dim_of. now rewrite (look_map_val Nat.eqb Nat.eqb_eq). Qed.
  Lemma combine_map_r : forall (ix : list nat) (f : nat -> nat), combine ix (map f ix) = map (fun l => (l, f l)) ix.
  Proof using. induction ix as [|x ix IH]; intros; simpl; auto. now rewrite IH. Qed.
  Lemma in_strings : forall x l, In x (strings l) <-> In x l /\ isstr x = true.
  Proof using. intros. apply filter_In. Qed.
  Lemma in_ints : forall x l, In x (ints l) <-> In x l /\ isstr x = false.
  Proof using. intros. unfold ints. rewrite filter_In, negb_true_iff. reflexivity. Qed.
  Lemma inb_map : forall (e f : nat -> nat) ix, (forall l, In l ix -> e l < f l) -> inb (map e ix) (map f ix) = true.
  Proof using. induction ix as [|x ix IH]; intros H; simpl; auto. rewrite IH by (intros; apply H; now right). rewrite (proj2 (Nat.ltb_lt _ _)); auto. apply H. now left. Qed.

  Lemma filter_length_le' : forall (f : nat -> bool) l, length (filter f l) <= length l.
  Proof using. induction l as [|x l IH]; simpl; auto. destruct (f x); simpl; lia. Qed.
  Lemma adim_ok : forall a ix i, wf_op (a, ix) -> In i (ints ix) -> adim a (ints ix) i = Ok (dim_of ix (shape (arr a)) i) /\ (fd i = None -> dim_of ix (shape (arr a)) i <= BIG).
  Proof using.
    intros a ix i [ND [L [SP [BD FB]]]] Hi. cbn [fst snd] in *. apply in_ints in Hi. destruct Hi as [Hi Is].
    assert (LK : look Nat.eqb ix (shape (arr a)) i = Some (dim_of ix (shape (arr a)) i)) by now apply look_dim_of.
    split.
    - unfold adim. rewrite SP in LK at 1. rewrite (shape_split a) in LK at 1. rewrite look_app in LK.
      + rewrite (look_notin Nat.eqb Nat.eqb_eq) in LK; [now rewrite LK|]. rewrite in_strings. intros [_ C]. congruence.
      + rewrite batch_len; auto. unfold proper. rewrite BD, <- L. apply filter_length_le'.
    - intros F. now apply FB.
  Qed.

  (** requested size of axis l of the first operand of a contraction *)
  Definition want (a : ansatz) (ia : list nat) (b : ansatz) (ib : list nat) (l : nat) : nat :=
    match fd l with
    | Some d => d
    | None => if nmem l (ints ib) then Nat.min (dim_of ia (shape (arr a)) l) (dim_of ib (shape (arr b)) l) else dim_of ia (shape (arr a)) l
    end.
  Lemma get_shapes_ok : forall a ia b ib, wf_op (a, ia) -> wf_op (b, ib) ->
    get_shapes (Fk a) (Fk b) (ints ia) (ints ib) = Ok (map (want a ia b ib) (ints ia), map (want b ib a ia) (ints ib)).
  Proof using.
    intros a ia b ib Wa Wb. unfold get_shapes.
    rewrite (mapM_ok _ (want a ia b ib)).
    - cbn [bind]. rewrite (mapM_ok _ (want b ib a ia)); [reflexivity|].
      intros i Hi. unfold want, shape_common, shape_for. destruct (fd i) eqn:Fi; [now destruct (nmem i (ints ia))|].
      destruct (adim_ok b ib i Wb Hi) as [E1 E2]. destruct (nmem i (ints ia)) eqn:N; [|exact E1]. apply nmem_In in N. destruct (adim_ok a ia i Wa N) as [E3 E4].
      rewrite E3. cbn [bind]. rewrite E1. cbn [bind]. f_equal. rewrite (Nat.min_r BIG) by (apply E4; exact Fi). apply Nat.min_comm.
    - intros i Hi. unfold want, shape_common, shape_for. destruct (fd i) eqn:Fi; [now destruct (nmem i (ints ib))|].
      destruct (adim_ok a ia i Wa Hi) as [E1 E2]. destruct (nmem i (ints ib)) eqn:N; [|exact E1]. apply nmem_In in N. destruct (adim_ok b ib i Wb N) as [E3 E4].
      rewrite E1. cbn [bind]. rewrite E3. cbn [bind]. f_equal. now rewrite (Nat.min_r BIG) by (apply E2; exact Fi).
  Qed.
  (** size of axis l after to_fock *)
  Definition red (a : ansatz) (ia : list nat) (b : ansatz) (ib : list nat) (l : nat) : nat :=
    if isstr l then dim_of ia (shape (arr a)) l else want a ia b ib l.
  Lemma wf_proper : forall a ix, wf_op (a, ix) -> proper a.
  Proof using. intros a ix [ND [L [SP [BD FB]]]]. cbn [fst snd] in *. unfold proper. rewrite BD, <- L. apply filter_length_le'. Qed.
  Lemma app_eq_len : forall (x y x' y' : list nat), length x = length x' -> x ++ y = x' ++ y' -> x = x' /\ y = y'.
  Proof using. induction x as [|h x IH]; intros y [|h' x'] y' L H; simpl in *; try lia; auto. injection H as -> H. destruct (IH _ _ _ (eq_add_S _ _ L) H) as [-> ->]. auto. Qed.
  Lemma batch_map : forall a ix, wf_op (a, ix) -> batch_shape a = map (dim_of ix (shape (arr a))) (strings ix) /\ core_shape a = map (dim_of ix (shape (arr a))) (ints ix).
  Proof using.
    intros a ix W. pose proof W as [ND [L [SP [BD FB]]]]. cbn [fst snd] in *. pose proof (map_dim_of _ _ ND L) as M.
    set (f := dim_of ix (shape (arr a))) in *. rewrite SP in M. rewrite map_app in M.
    assert (LB : length (batch_shape a) = length (map f (strings ix))) by (rewrite batch_len by (eapply wf_proper; eauto); now rewrite map_length).
    rewrite (shape_split a) in M. apply app_eq_len in M; auto.
  Qed.
  Lemma reduce_facts : forall a ia b ib a', wf_op (a, ia) -> reduce a (map (want a ia b ib) (ints ia)) = Ok a' ->
    shape (arr a') = map (red a ia b ib) ia /\ forall e, (forall l, In l ia -> e l < red a ia b ib l) -> at_ (arr a') (map e ia) = amplitude a (map e ia).
  Proof using.
    intros a ia b ib a' W E. destruct (C32_reduce rO a _ a' (wf_proper _ _ W) E) as [P' [B' [C' [D' V']]]].
    destruct (batch_map _ _ W) as [BM CM]. pose proof W as [ND [L [SP [BD FB]]]]. cbn [fst snd] in *.
    assert (SH : batch_shape a ++ map (want a ia b ib) (ints ia) = map (red a ia b ib) ia).
    { rewrite SP at 4. rewrite map_app, BM. f_equal; apply map_ext_in; intros l Hl; unfold red; [apply in_strings in Hl|apply in_ints in Hl]; destruct Hl as [_ ->]; reflexivity. }
    assert (SH' : shape (arr a') = map (red a ia b ib) ia) by (rewrite shape_split, B', C'; exact SH).
    split; [exact SH'|]. intros e He. specialize (V' (map e ia)). rewrite SH in V'. rewrite (inb_map e _ ia He) in V'. rewrite <- V'.
    unfold ArrayOps.amplitude. rewrite SH', (inb_map e _ ia He). reflexivity.
  Qed.

  Lemma cdims_cons : forall p ops l, cdims (p :: ops) l = match look Nat.eqb (snd p) (shape (arr (fst p))) l with Some d => [d] | None => [] end ++ cdims ops l.
  Proof using. reflexivity. Qed.
  Lemma D2 : forall a ia b ib l, wf_op (a, ia) -> wf_op (b, ib) -> In l ia ->
    D [(a, ia); (b, ib)] l = match fdim l with Some d => d | None => if nmem l ib then Nat.min (dim_of ia (shape (arr a)) l) (dim_of ib (shape (arr b)) l) else dim_of ia (shape (arr a)) l end.
  Proof using.
    intros a ia b ib l [_ [La _]] [_ [Lb _]] Hl. cbn [fst snd] in *. unfold D. destruct (fdim l); auto. rewrite !cdims_cons. cbn [fst snd cdims flat_map].
    rewrite (look_dim_of ia) by assumption. destruct (nmem l ib) eqn:N.
    - apply nmem_In in N. rewrite (look_dim_of ib) by assumption. reflexivity.
    - rewrite (look_notin Nat.eqb Nat.eqb_eq); [reflexivity|]. intros C. apply nmem_In in C. congruence.
  Qed.
  Lemma D2_sym : forall p q l, D [p; q] l = D [q; p] l.
  Proof using. intros. apply D_perm. apply perm_swap. Qed.
  Lemma cut_E : forall a ia b ib, wf_op (a, ia) -> wf_op (b, ib) ->
    cut_shape ia (map (red a ia b ib) ia) ib (map (red b ib a ia) ib) = map (D [(a, ia); (b, ib)]) ia.
  Proof using.
    intros a ia b ib Wa Wb. unfold cut_shape. rewrite combine_map_r, map_map. apply map_ext_in. intros l Hl. cbn [fst snd].
    rewrite D2 by assumption. unfold fdim, red. destruct (nmem l ib) eqn:N.
    - pose proof N as N'. apply nmem_In in N'. rewrite dim_of_map by assumption. destruct (isstr l) eqn:Is; [reflexivity|]. unfold want.
      destruct (fd l) as [d|]; [apply Nat.min_id|].
      assert (I1 : nmem l (ints ib) = true) by (apply nmem_In, in_ints; split; assumption). assert (I2 : nmem l (ints ia) = true) by (apply nmem_In, in_ints; split; assumption).
      rewrite I1, I2. lia.
    - destruct (isstr l) eqn:Is; [reflexivity|]. unfold want. destruct (fd l) as [d|]; [reflexivity|].
      destruct (nmem l (ints ib)) eqn:I1; [|reflexivity]. apply nmem_In, in_ints in I1. destruct I1 as [I1 _]. apply nmem_In in I1. congruence.
  Qed.
  Lemma D_le_red : forall a ia b ib l, wf_op (a, ia) -> wf_op (b, ib) -> In l ia -> D [(a, ia); (b, ib)] l <= red a ia b ib l.
  Proof using.
    intros a ia b ib l Wa Wb Hl. rewrite D2 by assumption. unfold fdim, red. destruct (isstr l) eqn:Is; [destruct (nmem l ib); lia|].
    unfold want. destruct (fd l); [lia|]. destruct (nmem l ib) eqn:N, (nmem l (ints ib)) eqn:N2; try lia. apply nmem_In in N2. apply in_ints in N2. destruct N2 as [N2 _]. apply nmem_In in N2. congruence.
  Qed.

  Lemma contract_val : forall a ia b ib a' b' io r, wf_op (a, ia) -> wf_op (b, ib) ->
    reduce a (map (want a ia b ib) (ints ia)) = Ok a' -> reduce b (map (want b ib a ia) (ints ib)) = Ok b' ->
    (forall l, In l io -> In l ia \/ In l ib) -> f_contract a' b' ia ib io = Ok r ->
    let E := D [(a, ia); (b, ib)] in
    shape (arr r) = map E io /\ bdims r = length (strings io) /\
    forall k, In k (box (map E io)) -> at_ (arr r) k = nsum (summed ia ib io) E (fun s => let e := tot (orelse (look Nat.eqb io k) s) in rmul (val e (a, ia)) (val e (b, ib))).
  Proof using.
    intros a ia b ib a' b' io r Wa Wb Ea Eb Sub C E.
    destruct (reduce_facts _ _ _ _ _ Wa Ea) as [SA VA]. destruct (reduce_facts _ _ _ _ _ Wb Eb) as [SB VB].
    unfold f_contract, array_contract in C. destruct (negb (length ia =? _)); [discriminate|]. destruct (negb (length ib =? _)); [discriminate|].
    destruct (negb (forallb _ io)); [discriminate|]. cbn [bind] in C. injection C as <-. rewrite SA, SB. rewrite !cut_E by assumption.
    cbn [arr bdims Tensor.einsum shape at_].
    assert (EE : map (D [(b, ib); (a, ia)]) ib = map E ib) by (apply map_ext; intros l; apply D2_sym). rewrite EE. fold E.
    assert (LD : forall l, In l ia \/ In l ib -> label_dim ia (map E ia) ib (map E ib) l = E l).
    { intros l Hl. unfold label_dim. destruct (in_dec Nat.eq_dec l ia) as [I|I].
      - now rewrite (look_map_val Nat.eqb Nat.eqb_eq).
      - rewrite (look_notin Nat.eqb Nat.eqb_eq) by assumption. apply dim_of_map. destruct Hl; [contradiction|assumption]. }
    assert (SL : forall l, In l (summed ia ib io) <-> (In l ia \/ In l ib) /\ ~ In l io).
    { intros l. unfold summed. rewrite in_app_iff, !filter_In, andb_true_iff, !negb_true_iff. 
      assert (NN : forall L, nmem l L = false <-> ~ In l L). { intros L. rewrite <- (nmem_In l L). destruct (nmem l L); split; congruence. }
      rewrite !NN. destruct (in_dec Nat.eq_dec l ia) as [I|I]; split; [intros [[H1 H2]|[H1 [H2 H3]]]; split; auto| intros [[H1|H1] H2]; auto|intros [[H1 H2]|[H1 [H2 H3]]]; split; auto|intros [[H1|H1] H2]; [contradiction|right; auto]]. }
    assert (M1 : map (label_dim ia (map E ia) ib (map E ib)) io = map E io) by (apply map_ext_in; intros l Hl; apply LD; now apply Sub).
    assert (M2 : map (label_dim ia (map E ia) ib (map E ib)) (summed ia ib io) = map E (summed ia ib io)) by (apply map_ext_in; intros l Hl; apply LD; now apply SL).
    rewrite M1, M2. split; [reflexivity|]. split; [reflexivity|]. intros k Hk. unfold Tensor.nsum. apply sum_ext. intros idx Hi.
    set (e := env io k (summed ia ib io) idx).
    assert (Be : forall l, In l ia \/ In l ib -> e l < E l).
    { intros l Hl. unfold e, env. destruct (in_dec Nat.eq_dec l io) as [I|I].
      - destruct (look_in_box io E k l Hk I) as [v [-> Hv]]. exact Hv.
      - rewrite (look_notin Nat.eqb Nat.eqb_eq) by assumption. destruct (look_in_box (summed ia ib io) E idx l Hi) as [v [-> Hv]]; [apply SL; auto|]. exact Hv. }
    assert (TE : forall L, map e L = map (tot (orelse (look Nat.eqb io k) (look Nat.eqb (summed ia ib io) idx))) L).
    { intros L. apply map_ext. intros l. unfold e, env, tot, orelse. now destruct (look Nat.eqb io k l). }
    cbv zeta. unfold val. cbn [fst snd]. rewrite <- !TE. f_equal.
    - apply VA. intros l Hl. eapply Nat.lt_le_trans; [apply Be; auto|now apply D_le_red].
    - apply VB. intros l Hl. eapply Nat.lt_le_trans; [apply Be; auto|]. unfold E. rewrite D2_sym. now apply D_le_red.
  Qed.

  Lemma add_new_in : forall keep l acc x, In x (add_new keep acc l) <-> In x acc \/ (In x l /\ keep x = true).
  Proof using.
    intros keep. induction l as [|y l IH]; intros acc x; unfold add_new in *; simpl; [split; [intros H; left; exact H|intros [H|[[] _]]; exact H]|]. rewrite IH.
    destruct (keep y) eqn:K; simpl.
    - destruct (nmem y acc) eqn:N; simpl.
      + apply nmem_In in N. split; [intros [H|[H1 H2]]; auto|intros [H|[[->|H1] H2]]; auto].
      + rewrite in_app_iff. simpl. split; [intros [[H|[->|[]]]|[H1 H2]]; auto|intros [H|[[->|H1] H2]]; auto].
    - split; [intros [H|[H1 H2]]; auto|intros [H|[[->|H1] H2]]; auto; congruence].
  Qed.
  Lemma add_new_app : forall keep l acc, exists t, add_new keep acc l = acc ++ t /\ (forall x, In x t -> In x l).
  Proof using.
    intros keep. induction l as [|y l IH]; intros acc; unfold add_new in *; simpl; [exists []; rewrite app_nil_r; auto|].
    destruct (keep y && negb (nmem y acc)).
    - destruct (IH (acc ++ [y])) as [t [-> Ht]]. exists (y :: t). split; [now rewrite <- app_assoc|]. intros x [->|H]; auto.
    - destruct (IH acc) as [t [-> Ht]]. exists t. split; auto.
  Qed.
  Lemma add_new_nodup : forall keep l acc, NoDup acc -> NoDup (add_new keep acc l).
  Proof using.
    intros keep. induction l as [|y l IH]; intros acc H; unfold add_new in *; simpl; auto. apply IH. destruct (keep y); simpl; auto.
    destruct (nmem y acc) eqn:N; simpl; auto. apply NoDup_app_intro; auto.
    - constructor; [auto|constructor].
    - intros x Hx [->|[]]. apply nmem_In in Hx. congruence.
  Qed.
  Lemma strings_all : forall l, (forall x, In x l -> isstr x = true) -> strings l = l /\ ints l = [].
  Proof using.
    induction l as [|x l IH]; intros H; simpl; auto. unfold strings, ints in *. simpl. rewrite (H x) by now left. simpl. destruct IH as [-> ->]; [intros; apply H; now right|]. auto.
  Qed.
  Lemma ints_all : forall l, (forall x, In x l -> isstr x = false) -> strings l = [] /\ ints l = l.
  Proof using.
    induction l as [|x l IH]; intros H; simpl; auto. unfold strings, ints in *. simpl. rewrite (H x) by now left. simpl. destruct IH as [-> ->]; [intros; apply H; now right|]. auto.
  Qed.
  Lemma prep_facts : forall idxs a b out, let io := prepare_idx_out idxs a b out in
    NoDup io /\ io = strings io ++ ints io /\
    forall l, In l io <-> (In l (nth a idxs []) \/ In l (nth b idxs [])) /\ (In l (concat (drop2 0 a b idxs)) \/ In l out).
  Proof using isstr fd.
    intros idxs a b out io. unfold io, prepare_idx_out. set (ia := nth a idxs []). set (ib := nth b idxs []). set (others := drop2 0 a b idxs).
    set (kc := fun x => nmem x (flat_map strings others ++ strings out)). set (ki := fun x => nmem x (flat_map ints others ++ ints out)).
    split; [apply add_new_nodup, add_new_nodup; constructor|].
    destruct (add_new_app kc (strings ia ++ strings ib) []) as [t1 [E1 H1]]. rewrite app_nil_l in E1.
    destruct (add_new_app ki (ints ia ++ ints ib) (add_new kc [] (strings ia ++ strings ib))) as [t2 [E2 H2]].
    split.
    - rewrite E2, E1. destruct (strings_all t1) as [A1 A2].
      { intros x Hx. apply H1 in Hx. apply in_app_or in Hx. destruct Hx as [Hx|Hx]; apply in_strings in Hx; apply Hx. }
      destruct (ints_all t2) as [A3 A4].
      { intros x Hx. apply H2 in Hx. apply in_app_or in Hx. destruct Hx as [Hx|Hx]; apply in_ints in Hx; apply Hx. }
      unfold strings, ints in *. rewrite !filter_app, A1, A2, A3, A4, app_nil_r. reflexivity.
    - intros l. rewrite !add_new_in. unfold kc, ki. rewrite !nmem_In, !in_app_iff, !in_strings, !in_ints.
      assert (F1 : In l (flat_map strings others) <-> In l (concat others) /\ isstr l = true).
      { rewrite in_flat_map, in_concat. split; [intros [x [X1 X2]]; apply in_strings in X2; destruct X2; split; eauto|intros [[x [X1 X2]] X3]; exists x; split; auto; apply in_strings; auto]. }
      assert (F2 : In l (flat_map ints others) <-> In l (concat others) /\ isstr l = false).
      { rewrite in_flat_map, in_concat. split; [intros [x [X1 X2]]; apply in_ints in X2; destruct X2; split; eauto|intros [[x [X1 X2]] X3]; exists x; split; auto; apply in_ints; auto]. }
      rewrite F1, F2. simpl. destruct (isstr l); intuition; try discriminate.
  Qed.
  Lemma lmin_app : forall l1 l2, l1 <> [] -> lmin (l1 ++ l2) = lmin (lmin l1 :: l2).
  Proof using.
    induction l1 as [|x l1 IH]; intros l2 H; [congruence|]. destruct l1 as [|y l1]; [reflexivity|].
    change ((x :: y :: l1) ++ l2) with (x :: (y :: l1) ++ l2). rewrite (lmin_cons x ((y :: l1) ++ l2)) by discriminate.
    rewrite IH by discriminate. rewrite (lmin_cons x (y :: l1)) by discriminate. destruct l2 as [|z l2]; [reflexivity|].
    rewrite !(lmin_cons _ (z :: l2)) by discriminate. lia.
  Qed.
  Lemma lmin_le : forall l x, In x l -> lmin l <= x.
  Proof using.
    induction l as [|y l IH]; intros x H; [destruct H|]. destruct l as [|z l]; [destruct H as [->|[]]; simpl; lia|]. rewrite lmin_cons by discriminate.
    destruct H as [->|H]; [lia|]. apply IH in H. lia.
  Qed.
  Lemma cdims_notin : forall ops l, ~ In l (flat_map snd ops) -> cdims ops l = [].
  Proof using.
    induction ops as [|p ops IH]; intros l H; [reflexivity|]. rewrite cdims_cons. simpl in H. rewrite in_app_iff in H.
    rewrite (look_notin Nat.eqb Nat.eqb_eq) by (intros C; apply H; now left). apply IH. intros C. apply H. now right.
  Qed.
  Lemma cdims_app : forall o1 o2 l, cdims (o1 ++ o2) l = cdims o1 l ++ cdims o2 l.
  Proof using. intros. apply flat_map_app. Qed.

  Definition labels (ops : list (ansatz * list nat)) : list nat := flat_map snd ops.
  Section Step.
    Variables (a : ansatz) (ia : list nat) (b : ansatz) (ib : list nat) (rest : list (ansatz * list nat)) (out io : list nat) (a' b' r : ansatz).
    Hypotheses (Wa : wf_op (a, ia)) (Wb : wf_op (b, ib)) (NO : NoDup out).
    Hypotheses (Nio : NoDup io) (Sio : io = strings io ++ ints io).
    Hypothesis Iio : forall l, In l io <-> (In l ia \/ In l ib) /\ (In l (labels rest) \/ In l out).
    Hypotheses (Ra : reduce a (map (want a ia b ib) (ints ia)) = Ok a') (Rb : reduce b (map (want b ib a ia) (ints ib)) = Ok b').
    Hypothesis Cr : f_contract a' b' ia ib io = Ok r.
    Let ops := (a, ia) :: (b, ib) :: rest.
    Let ops' := (r, io) :: rest.
    Let E := D [(a, ia); (b, ib)].
    Lemma Sub : forall l, In l io -> In l ia \/ In l ib.
    Proof using Iio. intros l H. now apply Iio in H. Qed.
    Lemma cv : shape (arr r) = map E io /\ bdims r = length (strings io) /\
      forall k, In k (box (map E io)) -> at_ (arr r) k = nsum (summed ia ib io) E (fun s => let e := tot (orelse (look Nat.eqb io k) s) in rmul (val e (a, ia)) (val e (b, ib))).
    Proof using Wa Wb Iio Ra Rb Cr. exact (contract_val a ia b ib a' b' io r Wa Wb Ra Rb Sub Cr). Qed.
    Lemma pair_nonempty : forall l, In l ia \/ In l ib -> cdims [(a, ia); (b, ib)] l <> [].
    Proof using Wa Wb.
      intros l Hl. destruct Wa as [_ [La _]], Wb as [_ [Lb _]]. cbn [fst snd] in *. rewrite !cdims_cons. cbn [fst snd]. destruct Hl as [Hl|Hl].
      - rewrite (look_dim_of ia) by assumption. discriminate.
      - rewrite (look_dim_of ib) by assumption. destruct (look Nat.eqb ia (shape (arr a)) l); discriminate.
    Qed.
    Lemma look_r : forall l, In l io -> look Nat.eqb io (shape (arr r)) l = Some (E l).
    Proof using Wa Wb Iio Ra Rb Cr. intros l Hl. destruct cv as [-> _]. now apply (look_map_val Nat.eqb Nat.eqb_eq). Qed.
    Lemma D_step : forall l, In l (labels ops') -> D ops' l = D ops l.
    Proof using Wa Wb Iio Ra Rb Cr.
      intros l Hl. unfold D. destruct (fdim l) eqn:Fl; [reflexivity|]. unfold ops'. rewrite cdims_cons. cbn [fst snd].
      change ops with ([(a, ia); (b, ib)] ++ rest). rewrite cdims_app. destruct (in_dec Nat.eq_dec l io) as [I|I].
      - rewrite look_r by assumption. rewrite (lmin_app (cdims [(a, ia); (b, ib)] l)) by (apply pair_nonempty, Sub; exact I). unfold E, D. rewrite Fl. reflexivity.
      - rewrite (look_notin Nat.eqb Nat.eqb_eq) by assumption. rewrite (cdims_notin [(a, ia); (b, ib)]); [reflexivity|].
        simpl in Hl. apply in_app_or in Hl. destruct Hl as [Hl|Hl]; [contradiction|].
        simpl. rewrite app_nil_r, in_app_iff. intros C. apply I, Iio. split; [exact C|left; exact Hl].
    Qed.
    Lemma D_le_E : forall l, In l ia \/ In l ib -> D ops l <= E l.
    Proof using Wa Wb.
      intros l Hl. unfold D, E. unfold D. destruct (fdim l); [lia|]. change ops with ([(a, ia); (b, ib)] ++ rest). rewrite cdims_app.
      rewrite (lmin_app (cdims [(a, ia); (b, ib)] l)) by now apply pair_nonempty. apply lmin_le. left. reflexivity.
    Qed.
    Lemma D_eq_E : forall l, In l ia \/ In l ib -> ~ In l (labels rest) -> D ops l = E l.
    Proof using.
      intros l Hl NL. unfold D, E. unfold D. destruct (fdim l); [reflexivity|]. change ops with ([(a, ia); (b, ib)] ++ rest). rewrite cdims_app.
      rewrite (cdims_notin rest) by assumption. now rewrite app_nil_r.
    Qed.
    Lemma wf_step : wf_op (r, io).
    Proof using Wa Wb Nio Sio Iio Ra Rb Cr.
      destruct cv as [SH [BD _]]. unfold wf_op. cbn [fst snd]. split; [exact Nio|]. split; [rewrite SH; now rewrite map_length|]. split; [exact Sio|]. split; [exact BD|].
      intros l Hl Fl. unfold dim_of. rewrite look_r by assumption. pose proof (Sub l Hl) as [H|H].
      - unfold E. rewrite D2 by assumption. unfold fdim. rewrite Fl. destruct Wa as [_ [_ [_ [_ FB]]]]. specialize (FB l H Fl). cbn [fst snd] in FB.
        destruct (isstr l), (nmem l ib); lia.
      - unfold E. rewrite D2_sym, D2 by assumption. unfold fdim. rewrite Fl. destruct Wb as [_ [_ [_ [_ FB]]]]. specialize (FB l H Fl). cbn [fst snd] in FB.
        destruct (isstr l), (nmem l ia); lia.
    Qed.
    Lemma summed_in : forall l, In l (summed ia ib io) <-> (In l ia \/ In l ib) /\ ~ In l io.
    Proof using.
      intros l. unfold summed. rewrite in_app_iff, !filter_In, andb_true_iff, !negb_true_iff.
      assert (NN : forall L, nmem l L = false <-> ~ In l L). { intros L. rewrite <- (nmem_In l L). destruct (nmem l L); split; congruence. }
      rewrite !NN. destruct (in_dec Nat.eq_dec l ia) as [I|I]; split; [intros [[H1 H2]|[H1 [H2 H3]]]; split; auto| intros [[H1|H1] H2]; auto|intros [[H1 H2]|[H1 [H2 H3]]]; split; auto|intros [[H1|H1] H2]; [contradiction|right; auto]].
    Qed.
    Lemma summed_nodup : NoDup (summed ia ib io).
    Proof using Wa Wb.
      destruct Wa as [Na _], Wb as [Nb _]. cbn [fst snd] in *. unfold summed. apply NoDup_app_intro; try now apply NoDup_filter.
      intros x H1 H2. apply filter_In in H1, H2. destruct H1 as [H1 _], H2 as [_ H2]. apply andb_true_iff in H2. destruct H2 as [_ H2]. apply negb_true_iff in H2. apply nmem_In in H1. congruence.
    Qed.
    Lemma inner_step : Permutation (inner ops out) (inner ops' out ++ summed ia ib io).
    Proof using Wa Wb Iio.
      apply NoDup_Permutation.
      - apply inner_nodup.
      - apply NoDup_app_intro; [apply inner_nodup|apply summed_nodup|]. intros l H1 H2. apply inner_in in H1. apply summed_in in H2. destruct H1 as [H1 H1'], H2 as [H2 H2'].
        simpl in H1. apply in_app_or in H1. destruct H1 as [H1|H1]; [contradiction|]. apply H2', Iio. split; [exact H2|left; exact H1].
      - intros l. rewrite in_app_iff, !inner_in, summed_in. unfold ops, ops'. cbn [flat_map snd]. rewrite !in_app_iff. fold (labels rest). split.
        + intros [H1 H2]. destruct (in_dec Nat.eq_dec l io) as [I|I]; [left; split; [left; exact I|exact H2]|].
          destruct H1 as [H1|[H1|H1]]; [right; split; [left; exact H1|exact I]|right; split; [right; exact H1|exact I]|left; split; [right; exact H1|exact H2]].
        + intros [[[H1|H1] H2]|[H1 H2]]; [|split; [right; right; exact H1|exact H2]|].
          * split; [|exact H2]. apply Sub in H1. destruct H1 as [H1|H1]; [left|right; left]; exact H1.
          * split; [destruct H1 as [H1|H1]; [left|right; left]; exact H1|]. intros C. apply H2, Iio. split; [exact H1|right; exact C].
    Qed.
    Lemma full_step : forall k, (forall l, In l out -> In l (labels ops)) -> In k (box (map (D ops) out)) -> full ops out k = full ops' out k.
    Proof using Rth Wa Wb NO Iio Ra Rb Cr.
      intros k HO Hk. rewrite !full_nsum. set (K := look Nat.eqb out k).
      assert (K1 : forall l, In l out -> exists v, K l = Some v /\ v < D ops l) by (intros l Hl; now apply look_in_box).
      assert (K2 : forall l, ~ In l out -> K l = None) by (intros l Hl; now apply (look_notin Nat.eqb Nat.eqb_eq)).
      rewrite (nsum_perm rO rI radd rmul rsub ropp Rth Nat.eqb Nat.eqb_eq _ _ (D ops) _ (inner_nodup ops out) (ext_prodv ops K) inner_step).
      rewrite (nsum_app rO rI radd rmul rsub ropp Rth Nat.eqb _ _ (D ops) _ (ext_prodv ops K)).
      transitivity (nsum (inner ops' out) (D ops) (fun s => prodv ops' (tot (orelse K s)))).
      2: { apply nsum_dim. intros l Hl. symmetry. apply D_step. apply inner_in in Hl. apply Hl. }
      apply nsum_ext_in. intros s S1 S2.
      set (e0 := tot (orelse K s)).
      assert (ID : forall l, In l (labels ops') -> In l out \/ In l (inner ops' out)).
      { intros l Hl. destruct (in_dec Nat.eq_dec l out); [left; assumption|right; apply inner_in; split; assumption]. }
      assert (KS : forall l, In l (labels ops') -> exists v, orelse K s l = Some v /\ v < D ops l).
      { intros l Hl. unfold orelse. destruct (in_dec Nat.eq_dec l out) as [I|I].
        - destruct (K1 l I) as [v [-> Hv]]. eauto.
        - rewrite K2 by assumption. apply S1. apply inner_in. split; assumption. }
      assert (e0lt : forall l, In l (labels ops') -> e0 l < D ops l).
      { intros l Hl. destruct (KS l Hl) as [v [H1 H2]]. unfold e0, tot. now rewrite H1. }
      assert (SK : forall l, In l (labels ops') -> forall t, orelse K (orelse s t) l = orelse K s l).
      { intros l Hl t. unfold orelse. destruct (K l) eqn:EK; [reflexivity|]. destruct (KS l Hl) as [v [H1 _]]. unfold orelse in H1. rewrite EK in H1. now rewrite H1. }
      unfold ops', ops. cbn [prodv fold_right].
      assert (REST : forall t, prodv rest (tot (orelse K (orelse s t))) = prodv rest e0).
      { intros t. apply prodv_ext. intros l Hl. unfold e0, tot. rewrite SK; [reflexivity|]. simpl. apply in_or_app. right. exact Hl. }
      fold (prodv rest e0).
      transitivity (nsum (summed ia ib io) (D ops) (fun t => rmul (rmul (val (tot (orelse K (orelse s t))) (a, ia)) (val (tot (orelse K (orelse s t))) (b, ib))) (prodv rest e0))).
      { apply nsum_ext. intros t. fold (prodv rest (tot (orelse K (orelse s t)))). rewrite REST. ring. }
      unfold Tensor.nsum. rewrite (sum_scal_r rO rI radd rmul rsub ropp Rth). f_equal.
      fold (nsum (summed ia ib io) (D ops) (fun t => rmul (val (tot (orelse K (orelse s t))) (a, ia)) (val (tot (orelse K (orelse s t))) (b, ib)))).
      destruct cv as [SH [BD V]].
      assert (KB : In (map e0 io) (box (map E io))).
      { apply inb_box. apply inb_map. intros l Hl. eapply Nat.lt_le_trans; [apply e0lt; simpl; apply in_or_app; left; exact Hl|apply D_le_E; now apply Sub]. }
      unfold val at 3. cbn [fst snd]. unfold ArrayOps.amplitude. rewrite SH. rewrite (proj2 (inb_box _ _) KB). rewrite (V _ KB).
      rewrite (nsum_dim rO radd Nat.eqb (summed ia ib io) E (D ops)).
      2: { intros l Hl. apply summed_in in Hl. destruct Hl as [H1 H2]. symmetry. apply D_eq_E; [exact H1|]. intros C. apply H2, Iio. split; [exact H1|left; exact C]. }
      apply nsum_ext_in. intros t T1 T2. cbv zeta.
      assert (EQ : forall l, In l ia \/ In l ib -> tot (orelse K (orelse s t)) l = tot (orelse (look Nat.eqb io (map e0 io)) t) l).
      { intros l Hl. unfold tot at 2. unfold orelse at 3. destruct (in_dec Nat.eq_dec l io) as [I|I].
        - rewrite (look_map_val Nat.eqb Nat.eqb_eq) by assumption. unfold e0, tot. rewrite SK; [reflexivity|]. simpl. apply in_or_app. left. exact I.
        - rewrite (look_notin Nat.eqb Nat.eqb_eq) by assumption. unfold tot, orelse.
          assert (NO' : ~ In l out) by (intros C; apply I, Iio; split; [exact Hl|right; exact C]). rewrite K2 by assumption.
          rewrite S2; [reflexivity|]. rewrite inner_in. unfold ops'. cbn [flat_map snd]. rewrite in_app_iff. intros [[C|C] _]; [contradiction|]. apply I, Iio. split; [exact Hl|left; exact C]. }
      f_equal; unfold val; cbn [fst snd]; f_equal; apply map_ext_in; intros l Hl; apply EQ; auto.
    Qed.
    Lemma labels_step : (forall l, In l out -> In l (labels ops)) -> forall l, In l out -> In l (labels ops').
    Proof using Iio.
      intros HO l Hl. specialize (HO l Hl). unfold ops in HO. simpl in HO. rewrite !in_app_iff in HO. simpl. rewrite in_app_iff.
      destruct HO as [H|[H|H]]; [left; apply Iio; auto|left; apply Iio; auto|right; exact H].
    Qed.
  End Step.

  (** *** the loop *)
  Lemma remove_nth_perm : forall {X} (l : list X) n d, n < length l -> Permutation l (nth n l d :: remove_nth n l).
  Proof using.
    intros X. induction l as [|x l IH]; intros n d H; simpl in H; [lia|]. destruct n as [|n]; simpl; [reflexivity|].
    rewrite (IH n d) at 1 by lia. apply perm_swap.
  Qed.
  Lemma remove_nth_length : forall {X} (l : list X) n, n < length l -> S (length (remove_nth n l)) = length l.
  Proof using. intros X. induction l as [|x l IH]; intros [|n] H; simpl in *; try lia. rewrite IH; lia. Qed.
  Lemma nth_remove_lt : forall {X} (l : list X) n i d, i < n -> nth i (remove_nth n l) d = nth i l d.
  Proof using. intros X. induction l as [|x l IH]; intros [|n] [|i] d H; simpl; try lia; auto. apply IH. lia. Qed.
  Lemma pop2_perm : forall {X} (l : list X) a b d, a <> b -> a < length l -> b < length l -> Permutation l (nth a l d :: nth b l d :: pop2 a b l).
  Proof using.
    intros X l. assert (LT : forall a b d, a < b -> b < length l -> Permutation l (nth b l d :: nth a l d :: remove_nth a (remove_nth b l))).
    { intros a b d H1 H2. rewrite (remove_nth_perm l b d H2) at 1. constructor. rewrite <- (nth_remove_lt l b a d H1). apply remove_nth_perm.
      pose proof (remove_nth_length l b H2). lia. }
    intros a b d N Ha Hb. unfold pop2. destruct (Nat.lt_total a b) as [H|[H|H]]; [|contradiction|].
    - rewrite Nat.min_l, Nat.max_r by lia. eapply Permutation_trans; [apply (LT a b d H Hb)|apply perm_swap].
    - rewrite Nat.min_r, Nat.max_l by lia. apply (LT b a d H Ha).
  Qed.
  Lemma map_remove : forall {X Y} (f : X -> Y) l n, map f (remove_nth n l) = remove_nth n (map f l).
  Proof using. intros X Y f. induction l as [|x l IH]; intros [|n]; simpl; auto. now rewrite IH. Qed.
  Lemma map_pop2 : forall {X Y} (f : X -> Y) l a b, map f (pop2 a b l) = pop2 a b (map f l).
  Proof using. intros. unfold pop2. now rewrite !map_remove. Qed.
  Lemma drop_one : forall {X} (l : list X) i a0 b, a0 < i -> drop2 i a0 (i + b) l = remove_nth b l.
  Proof using.
    intros X. induction l as [|x l IH]; intros i a0 b H; [now destruct b|]. simpl. replace (i =? a0) with false by (symmetry; apply Nat.eqb_neq; lia). simpl.
    destruct b as [|b].
    - rewrite Nat.add_0_r, Nat.eqb_refl.
      clear IH. assert (Z : forall (l : list X) j, i < j -> a0 < j -> drop2 j a0 i l = l).
      { intros l0. induction l0 as [|z l0 IH]; intros j H1 H2; auto. simpl. replace (j =? a0) with false by (symmetry; apply Nat.eqb_neq; lia). replace (j =? i) with false by (symmetry; apply Nat.eqb_neq; lia). simpl. f_equal. apply IH; lia. }
      apply Z; lia.
    - replace (i =? i + S b) with false by (symmetry; apply Nat.eqb_neq; lia). simpl. f_equal. replace (i + S b) with (S i + b) by lia. apply IH. lia.
  Qed.
  Lemma drop2_sym : forall {X} (l : list X) i a b, drop2 i a b l = drop2 i b a l.
  Proof using. intros X. induction l as [|x l IH]; intros i a b; simpl; auto. rewrite orb_comm, (IH (S i) a b). reflexivity. Qed.
  Lemma drop2_pop2 : forall {X} (l : list X) a b, a <> b -> drop2 0 a b l = pop2 a b l.
  Proof using.
    intros X. assert (LT : forall (l : list X) i a b, a < b -> drop2 i (i + a) (i + b) l = remove_nth a (remove_nth b l)).
    { induction l as [|x l IH]; intros i a b H; [now destruct a, b|]. simpl. destruct b as [|b]; [lia|]. destruct a as [|a].
      - rewrite Nat.add_0_r, Nat.eqb_refl. simpl. replace (i + S b) with (S i + b) by lia. apply drop_one. lia.
      - replace (i =? i + S a) with false by (symmetry; apply Nat.eqb_neq; lia). replace (i =? i + S b) with false by (symmetry; apply Nat.eqb_neq; lia). simpl. f_equal.
        replace (i + S a) with (S i + a) by lia. replace (i + S b) with (S i + b) by lia. apply IH. lia. }
    intros l a b N. unfold pop2. destruct (Nat.lt_total a b) as [H|[H|H]]; [|contradiction|].
    - rewrite Nat.min_l, Nat.max_r by lia. apply (LT l 0 a b H).
    - rewrite Nat.min_r, Nat.max_l by lia. rewrite drop2_sym. apply (LT l 0 b a H).
  Qed.
  Definition lift (ops : list (ansatz * list nat)) : list (rep * list nat) := map (fun p => (Fk (fst p), snd p)) ops.
  Definition d0 : ansatz * list nat := (mkA (mkArray [] (fun _ => rO)) 0, []).
  Lemma nth_error_lift : forall ops i, i < length ops -> nth_error (lift ops) i = Some (Fk (fst (nth i ops d0)), snd (nth i ops d0)).
  Proof using.
    intros ops i H. unfold lift. erewrite map_nth_error; [reflexivity|]. now apply nth_error_nth'.
  Qed.
  Lemma map_snd_lift : forall ops, map snd (lift ops) = map snd ops.
  Proof using. intros. unfold lift. rewrite map_map. reflexivity. Qed.

  Lemma step_fock : forall out ops a b st', Forall wf_op ops -> a <> b -> a < length ops -> b < length ops ->
    (exists i, In i (ints (nth a (map snd ops) [])) /\ In i (ints (nth b (map snd ops) []))) ->
    (forall i, In i (ints (nth a (map snd ops) [])) -> In i (ints (nth b (map snd ops) [])) -> fd i <> Some 0) ->
    step out (lift ops) (a, b) = Ok st' ->
    let pa := nth a ops d0 in let pb := nth b ops d0 in let io := prepare_idx_out (map snd ops) a b out in
    exists a' b' r, st' = lift (pop2 a b ops ++ [(r, io)]) /\
      reduce (fst pa) (map (want (fst pa) (snd pa) (fst pb) (snd pb)) (ints (snd pa))) = Ok a' /\
      reduce (fst pb) (map (want (fst pb) (snd pb) (fst pa) (snd pa)) (ints (snd pb))) = Ok b' /\
      f_contract a' b' (snd pa) (snd pb) io = Ok r /\ (forall i, In i (ints (snd pa)) \/ In i (ints (snd pb)) -> fd i <> Some 0).
  Proof using.
    intros out ops a b st' W N Ha Hb [i0 [I1 I2]] NZ H pa pb io.
    assert (Wa : wf_op pa) by (rewrite Forall_forall in W; apply W, nth_In; exact Ha). assert (Wb : wf_op pb) by (rewrite Forall_forall in W; apply W, nth_In; exact Hb).
    assert (NA : nth a (map snd ops) [] = snd pa) by (change [] with (snd d0); apply map_nth). assert (NB : nth b (map snd ops) [] = snd pb) by (change [] with (snd d0); apply map_nth).
    rewrite NA in *. rewrite NB in *. unfold step in H. rewrite !nth_error_lift in H by assumption. fold pa pb in H. rewrite map_snd_lift in H. fold io in H.
    set (common := filter (fun i => nmem i (ints (snd pb))) (ints (snd pa))) in *.
    assert (C0 : In i0 common) by (apply filter_In; split; [exact I1|apply nmem_In; exact I2]).
    assert (CZ : forall i, In i common -> fdg i <> 0).
    { intros i Hi. apply filter_In in Hi. destruct Hi as [H1 H2]. apply nmem_In in H2. specialize (NZ i H1 H2). unfold fdg. destruct (fd i) as [[|d]|]; congruence. }
    destruct (forallb (fun i => fdg i =? 0) common) eqn:FB.
    { exfalso. rewrite forallb_forall in FB. specialize (FB i0 C0). apply Nat.eqb_eq in FB. exact (CZ i0 C0 FB). }
    destruct (forallb (fun i => negb (fdg i =? 0)) common) eqn:FF.
    2: { exfalso. assert (X : forallb (fun i => negb (fdg i =? 0)) common = true); [|congruence]. apply forallb_forall. intros i Hi. apply negb_true_iff, Nat.eqb_neq, CZ, Hi. }
    destruct pa as [a1 ia]. destruct pb as [b1 ib]. cbn [fst snd] in *. rewrite get_shapes_ok in H by assumption. cbn [bind fst snd] in H. unfold to_fock in H.
    destruct (nmem 0 (map (want a1 ia b1 ib) (ints ia))) eqn:Z1; [discriminate|]. destruct (reduce a1 (map (want a1 ia b1 ib) (ints ia))) as [a'|] eqn:Ra; [|discriminate]. cbn [bind] in H.
    destruct (nmem 0 (map (want b1 ib a1 ia) (ints ib))) eqn:Z2; [discriminate|]. destruct (reduce b1 (map (want b1 ib a1 ia) (ints ib))) as [b'|] eqn:Rb; [|discriminate]. cbn [bind] in H.
    destruct (f_contract a' b' ia ib io) as [r|] eqn:Cr; [|discriminate]. cbn [bind] in H. injection H as <-. exists a', b', r.
    split; [unfold lift; rewrite map_app, map_pop2; reflexivity|]. split; [reflexivity|]. split; [reflexivity|]. split; [exact Cr|].
    intros i Hi F0. destruct Hi as [Hi|Hi].
    - assert (X : nmem 0 (map (want a1 ia b1 ib) (ints ia)) = true); [|congruence]. apply nmem_In, in_map_iff. exists i. split; [|exact Hi]. unfold want. now rewrite F0.
    - assert (X : nmem 0 (map (want b1 ib a1 ia) (ints ib)) = true); [|congruence]. apply nmem_In, in_map_iff. exists i. split; [|exact Hi]. unfold want. now rewrite F0.
  Qed.
  Lemma labels_perm : forall ops ops' l, Permutation ops ops' -> In l (labels ops) -> In l (labels ops').
  Proof using. intros. now apply (flat_map_perm_in ops). Qed.
  Lemma labels_concat : forall ops, labels ops = concat (map snd ops).
  Proof using. intros. unfold labels. apply flat_map_concat_map. Qed.

  (** one contraction leaves the full contraction unchanged *)
  Lemma step_inv : forall out ops a b st', NoDup out -> Forall wf_op ops -> a <> b -> a < length ops -> b < length ops ->
    (exists i, In i (ints (nth a (map snd ops) [])) /\ In i (ints (nth b (map snd ops) []))) ->
    (forall i, In i (ints (nth a (map snd ops) [])) -> In i (ints (nth b (map snd ops) [])) -> fd i <> Some 0) ->
    (forall l, In l out -> In l (labels ops)) ->
    step out (lift ops) (a, b) = Ok st' ->
    let io := prepare_idx_out (map snd ops) a b out in
    exists r, let ops' := pop2 a b ops ++ [(r, io)] in st' = lift ops' /\ Forall wf_op ops' /\ (forall l, In l out -> In l (labels ops')) /\
      (forall l, In l (labels ops') -> D ops' l = D ops l) /\ (forall k, In k (box (map (D ops) out)) -> full ops out k = full ops' out k) /\
      (forall i, In i (ints io) -> fd i <> Some 0) /\ (pop2 a b ops = [] -> (forall l, In l io -> In l out) /\ shape (arr r) = map (D ops) io) /\
      shape (arr r) = map (D [nth a ops d0; nth b ops d0]) io.
  Proof using Rth.
    intros out ops a b st' NO W N Ha Hb SH NZ HO H io. destruct (step_fock out ops a b st' W N Ha Hb SH NZ H) as [a' [b' [r [-> [Ra [Rb [Cr NZ']]]]]]].
    set (pa := nth a ops d0) in *. set (pb := nth b ops d0) in *. fold io in Cr. set (rest := pop2 a b ops) in *.
    assert (Wa : wf_op pa) by (rewrite Forall_forall in W; apply W, nth_In; exact Ha). assert (Wb : wf_op pb) by (rewrite Forall_forall in W; apply W, nth_In; exact Hb).
    assert (NA : nth a (map snd ops) [] = snd pa) by (change [] with (snd d0); apply map_nth). assert (NB : nth b (map snd ops) [] = snd pb) by (change [] with (snd d0); apply map_nth).
    assert (PM : Permutation ops (pa :: pb :: rest)) by (apply pop2_perm; assumption).
    destruct (prep_facts (map snd ops) a b out) as [Nio [Sio Iio]]. fold io in Nio, Sio, Iio. rewrite NA, NB in Iio. rewrite drop2_pop2, <- map_pop2, <- labels_concat in Iio by assumption. fold rest in Iio.
    destruct pa as [a1 ia] eqn:Ea. destruct pb as [b1 ib] eqn:Eb. cbn [fst snd] in *. clear Ea Eb.
    assert (PM' : Permutation (rest ++ [(r, io)]) ((r, io) :: rest)) by (apply Permutation_app_comm).
    assert (Wr : wf_op (r, io)) by exact (wf_step a1 ia b1 ib rest out io a' b' r Wa Wb Nio Sio Iio Ra Rb Cr).
    assert (HO' : forall l, In l out -> In l (labels ((a1, ia) :: (b1, ib) :: rest))) by (intros l Hl; eapply labels_perm; [exact PM|now apply HO]).
    assert (DP : forall l, D ops l = D ((a1, ia) :: (b1, ib) :: rest) l) by (intros l; now apply D_perm).
    exists r. cbv zeta. split; [reflexivity|]. split.
    { apply Forall_app. split; [|constructor; [exact Wr|constructor]]. apply Forall_forall. intros p Hp. rewrite Forall_forall in W. apply W. eapply Permutation_in; [apply Permutation_sym, PM|]. right. right. exact Hp. }
    split.
    { intros l Hl. eapply labels_perm; [apply Permutation_sym, PM'|]. eapply labels_step; [exact Iio|exact HO'|exact Hl]. }
    split.
    { intros l Hl. rewrite (D_perm _ _ l PM'), DP. eapply D_step; [exact Wa|exact Wb|exact Iio|exact Ra|exact Rb|exact Cr|]. eapply labels_perm; [exact PM'|exact Hl]. }
    split.
    { intros k Hk. rewrite (full_perm _ _ out k PM), (full_perm _ _ out k PM'). eapply full_step; [exact Wa|exact Wb|exact NO|exact Iio|exact Ra|exact Rb|exact Cr|exact HO'|].
      erewrite map_ext; [exact Hk|]. intros l. symmetry. apply DP. }
    split.
    { intros i Hi. apply NZ'. apply in_ints in Hi. destruct Hi as [Hi Hs]. apply Iio in Hi. destruct Hi as [[Hi|Hi] _]; [left|right]; apply in_ints; split; assumption. }
    destruct (cv a1 ia b1 ib rest out io a' b' r Wa Wb Iio Ra Rb Cr) as [SR _]. split; [|exact SR].
    intros RE. fold rest in RE. split.
    - intros l Hl. apply Iio in Hl. destruct Hl as [_ [C|C]]; [|exact C]. rewrite RE in C. destruct C.
    - rewrite SR. apply map_ext_in. intros l Hl. rewrite DP, RE. reflexivity.
  Qed.
  Lemma run_inv : forall out path ops st', NoDup out -> Forall wf_op ops -> (forall l, In l out -> In l (labels ops)) -> fock_path out (map snd ops) path -> path <> [] ->
    run out (lift ops) path = Ok st' ->
    exists r io, st' = [(Fk r, io)] /\ wf_op (r, io) /\ (forall l, In l io <-> In l out) /\ shape (arr r) = map (D ops) io /\
      (forall i, In i (ints io) -> fd i <> Some 0) /\ forall k, In k (box (map (D ops) out)) -> full ops out k = full [(r, io)] out k.
  Proof using Rth.
    intros out path. induction path as [|[a b] path IH]; intros ops st' NO W HO FP NE H; [congruence|]. clear NE. cbn [run] in H.
    destruct (step out (lift ops) (a, b)) as [st1|] eqn:S1; [|discriminate]. cbn [bind] in H. cbn [fock_path] in FP. destruct FP as [N [Ha [Hb [SH [NZ FP]]]]]. rewrite map_length in Ha, Hb.
    destruct (step_inv out ops a b st1 NO W N Ha Hb SH NZ HO S1) as [r [-> [W' [HO' [D' [F' [NZ' [LAST _]]]]]]]].
    set (io := prepare_idx_out (map snd ops) a b out) in *. rewrite <- map_pop2 in FP. change [io] with (map snd [(r, io)]) in FP. rewrite <- map_app in FP.
    destruct path as [|p path].
    - cbn [run] in H. injection H as <-. cbn [fock_path] in FP. rewrite map_length, app_length in FP. simpl in FP. destruct (pop2 a b ops) as [|x l] eqn:EP; [|simpl in FP; lia].
      destruct (LAST eq_refl) as [L1 L2]. exists r, io. split; [reflexivity|]. split; [now inversion W'|]. split.
      { intros l. split; [apply L1|]. intros Hl. specialize (HO' l Hl). simpl in HO'. now rewrite app_nil_r in HO'. }
      split; [exact L2|]. split; [exact NZ'|]. exact F'.
    - assert (NEp : p :: path <> []) by discriminate. destruct (IH _ st' NO W' HO' FP NEp H) as [r2 [io2 [-> [W2 [I2 [SH2 [NZ2 F2]]]]]]].
      exists r2, io2. split; [reflexivity|]. split; [exact W2|]. split; [exact I2|]. split.
      { rewrite SH2. apply map_ext_in. intros l Hl. apply D'. apply HO'. now apply I2. }
      split; [exact NZ2|]. intros k Hk. rewrite F' by assumption. apply F2. erewrite map_ext_in; [exact Hk|]. intros l Hl. now apply D', HO'.
  Qed.

  (** *** final reordering *)
  Definition ix (l : list nat) (x : nat) : nat := match index_of x l with Ok i => i | Err _ => 0 end.
  Lemma index_spec : forall l x, In x l -> index_of x l = Ok (ix l x) /\ ix l x < length l /\ nth (ix l x) l 0 = x.
  Proof using.
    induction l as [|y l IH]; intros x H; [destruct H|]. unfold ix. simpl. destruct (x =? y) eqn:E.
    - apply Nat.eqb_eq in E. subst. split; [reflexivity|]. split; [lia|reflexivity].
    - destruct H as [->|H]; [rewrite Nat.eqb_refl in E; discriminate|]. destruct (IH x H) as [I1 [I2 I3]]. rewrite I1. cbn [bind]. split; [reflexivity|]. split; [lia|exact I3].
  Qed.
  Lemma ix_nth : forall l i, NoDup l -> i < length l -> ix l (nth i l 0) = i.
  Proof using.
    intros l i ND H. destruct (index_spec l (nth i l 0)) as [_ [I2 I3]]; [now apply nth_In|]. rewrite NoDup_nth in ND. apply (ND _ _ I2 H I3).
  Qed.
  Lemma ix_perm : forall l o, NoDup l -> Permutation o l -> Permutation (map (ix l) o) (seq 0 (length l)).
  Proof using.
    intros l o ND P. assert (E : map (ix l) l = seq 0 (length l)).
    { apply nth_ext with 0 0; [now rewrite map_length, seq_length|]. intros i Hi. rewrite map_length in Hi. rewrite seq_nth by assumption.
      rewrite (nth_indep (map (ix l) l) 0 (ix l 0)) by now rewrite map_length. rewrite map_nth. now apply ix_nth. }
    rewrite <- E. now apply Permutation_map.
  Qed.
  Lemma map_ix : forall (e : nat -> nat) l o, (forall x, In x o -> In x l) -> map (fun i => e (nth i l 0)) (map (ix l) o) = map e o.
  Proof using. intros e l o H. rewrite map_map. apply map_ext_in. intros x Hx. destruct (index_spec l x (H x Hx)) as [_ [_ E]]. now rewrite E. Qed.
  Lemma map_nth_e : forall (e : nat -> nat) l, map (fun i => e (nth i l 0)) (seq 0 (length l)) = map e l.
  Proof using.
    intros e l. apply nth_ext with 0 0; [now rewrite !map_length, seq_length|]. intros i Hi. rewrite map_length, seq_length in Hi.
    rewrite (nth_indep _ 0 (e (nth 0 l 0))) by now rewrite map_length, seq_length. rewrite (map_nth (fun i => e (nth i l 0))). rewrite seq_nth by assumption.
    rewrite (nth_indep (map e l) 0 (e 0)) by now rewrite map_length. now rewrite map_nth.
  Qed.
  Lemma perm_short : forall (l o : list nat), Permutation o l -> ~ 1 < length o -> o = l.
  Proof using.
    intros l [|x [|y o]] P H; simpl in H; [|apply Permutation_length_1_inv in P; congruence|lia]. apply Permutation_nil in P. congruence.
  Qed.
  (** a labelled array: axis sizes given by dim *)
  Definition labelled (a : ansatz) (lb lc : list nat) (dim : nat -> nat) : Prop := shape (arr a) = map dim (lb ++ lc) /\ bdims a = length lb.
  Lemma labelled_facts : forall a lb lc dim, labelled a lb lc dim -> proper a /\ batch_shape a = map dim lb /\ core_shape a = map dim lc.
  Proof using.
    intros a lb lc dim [SH BD]. split.
    - unfold proper. rewrite SH, map_length, app_length, BD. lia.
    - unfold batch_shape, core_shape. rewrite SH, BD, map_app. split.
      + rewrite firstn_app, map_length, Nat.sub_diag. simpl. rewrite app_nil_r. rewrite <- (map_length dim lb). apply firstn_all.
      + rewrite skipn_app, map_length, Nat.sub_diag. simpl. rewrite <- (map_length dim lb), skipn_all. reflexivity.
  Qed.
  Lemma final_batch : forall a lb lc dim ob, labelled a lb lc dim -> NoDup lb -> Permutation ob lb ->
    exists r, (if 1 <? length ob then bind (mapM (fun i => index_of i lb) ob) (reorder_batch_r (Fk a)) else Ok (Fk a)) = Ok (Fk r) /\ labelled r ob lc dim /\
      forall e, at_ (arr r) (map e (ob ++ lc)) = at_ (arr a) (map e (lb ++ lc)).
  Proof using.
    intros a lb lc dim ob LA ND P. destruct (1 <? length ob) eqn:L.
    2: { apply Nat.ltb_ge in L. assert (ob = lb) by (apply perm_short; [exact P|lia]). subst ob. exists a. split; [reflexivity|]. split; [exact LA|]. reflexivity. }
    assert (SUB : forall x, In x ob -> In x lb) by (intros x; now apply Permutation_in).
    rewrite (mapM_ok _ (ix lb)) by (intros x Hx; apply index_spec; now apply SUB). cbn [bind].
    destruct (labelled_facts _ _ _ _ LA) as [PA [BA CA]]. pose proof LA as [SH BD].
    assert (PO : Permutation (map (ix lb) ob) (seq 0 (bdims a))) by (rewrite BD; now apply ix_perm).
    destruct (C52_reorder_batch a _ PA PO) as [r [Er [Br [Cr [Sr Vr]]]]]. exists r. cbn [reorder_batch_r]. rewrite Er. cbn [bind]. split; [reflexivity|].
    assert (LAB : labelled r ob lc dim).
    { split.
      - rewrite shape_split, Sr, Cr, CA, map_app. f_equal. rewrite BA. rewrite <- (map_ix dim lb ob SUB). apply map_ext_in. intros i Hi.
        assert (i < length lb) by (rewrite BD in PO; apply (Permutation_in _ PO) in Hi; apply in_seq in Hi; lia).
        rewrite (nth_indep (map dim lb) 0 (dim 0)) by now rewrite map_length. now rewrite map_nth.
      - rewrite Br, BD. symmetry. now apply Permutation_length. }
    split; [exact LAB|]. intros e. rewrite !map_app. rewrite <- (map_ix e lb ob SUB). rewrite Vr by (rewrite CA, !map_length; reflexivity). rewrite BD, map_nth_e. reflexivity.
  Qed.
  Lemma final_core : forall a lb lc dim oc, labelled a lb lc dim -> NoDup lc -> Permutation oc lc ->
    exists r, (if 1 <? length oc then bind (mapM (fun i => index_of i lc) oc) (reorder_r (Fk a)) else Ok (Fk a)) = Ok (Fk r) /\ labelled r lb oc dim /\
      forall e, at_ (arr r) (map e (lb ++ oc)) = at_ (arr a) (map e (lb ++ lc)).
  Proof using.
    intros a lb lc dim oc LA ND P. destruct (1 <? length oc) eqn:L.
    2: { apply Nat.ltb_ge in L. assert (oc = lc) by (apply perm_short; [exact P|lia]). subst oc. exists a. split; [reflexivity|]. split; [exact LA|]. reflexivity. }
    assert (SUB : forall x, In x oc -> In x lc) by (intros x; now apply Permutation_in).
    rewrite (mapM_ok _ (ix lc)) by (intros x Hx; apply index_spec; now apply SUB). cbn [bind].
    destruct (labelled_facts _ _ _ _ LA) as [PA [BA CA]]. pose proof LA as [SH BD].
    assert (PO : Permutation (map (ix lc) oc) (seq 0 (length (core_shape a)))) by (rewrite CA, map_length; now apply ix_perm).
    destruct (C52_reorder a _ PA PO) as [r [Er [Br [Cr [Sr Vr]]]]]. exists r. cbn [reorder_r]. rewrite Er. cbn [bind]. split; [reflexivity|].
    assert (LAB : labelled r lb oc dim).
    { split; [|now rewrite Br]. rewrite shape_split, Cr, Sr, BA, map_app. f_equal. rewrite <- (map_ix dim lc oc SUB). apply map_ext_in. intros i Hi. unfold axis_dim. rewrite CA.
      assert (i < length lc) by (rewrite CA, map_length in PO; apply (Permutation_in _ PO) in Hi; apply in_seq in Hi; lia).
      rewrite (nth_indep (map dim lc) 0 (dim 0)) by now rewrite map_length. now rewrite map_nth. }
    split; [exact LAB|]. intros e. rewrite !map_app. rewrite <- (map_ix e lc oc SUB). rewrite Vr by (rewrite map_length, BD; reflexivity). rewrite CA, map_length, map_nth_e. reflexivity.
  Qed.

  (** operands with batch labels moved to the front, as the code does first *)
  Definition norm (args : list (ansatz * list nat)) : list (ansatz * list nat) := map (fun p => (fst p, strings (snd p) ++ ints (snd p))) args.
  Lemma ints_app : forall l m, ints (l ++ m) = ints l ++ ints m. Proof using. intros. apply filter_app. Qed.
  Lemma strings_app : forall l m, strings (l ++ m) = strings l ++ strings m. Proof using. intros. apply filter_app. Qed.
  Lemma strings_norm : forall l, strings (strings l ++ ints l) = strings l /\ ints (strings l ++ ints l) = ints l.
  Proof using.
    intros l. rewrite strings_app, ints_app. destruct (strings_all (strings l)) as [-> ->]; [intros x Hx; now apply in_strings in Hx|].
    destruct (ints_all (ints l)) as [-> ->]; [intros x Hx; now apply in_ints in Hx|]. rewrite app_nil_r. auto.
  Qed.

  (** C47: whatever contraction path is taken, if mm_einsum returns, it returns the full contraction: the axes are the output
      labels (batch labels first), with the requested sizes, and every entry is the sum over all other labels of the product of
      all operands *)
  Theorem C47_full : forall args output path x, let ops := norm args in let out := strings output ++ ints output in
    Forall wf_op ops -> NoDup output -> (forall l, In l output -> exists p, In p args /\ In l (snd p)) ->
    fock_path out (map snd ops) path -> path <> [] ->
    mm_einsum (lift args) output path = Ok x ->
    exists r, x = Fk r /\ bdims r = length (strings output) /\ shape (arr r) = map (D ops) out /\
      forall k, In k (box (map (D ops) out)) -> at_ (arr r) k = full ops out k.
  Proof using Rth.
    intros args output path x ops out W NO HO FP NE H. unfold mm_einsum in H.
    destruct (negb (forallb _ (strings output))); [discriminate|]. destruct (strings_norm output) as [SO IO]. fold out in SO, IO, H. rewrite SO, IO in H.
    assert (ST : map (fun p : rep * list nat => (fst p, strings (snd p) ++ ints (snd p))) (lift args) = lift ops) by (unfold lift, ops, norm; rewrite !map_map; reflexivity).
    rewrite ST in H. destruct (run out (lift ops) path) as [st|] eqn:RN; [|discriminate]. cbn [bind] in H.
    assert (NOut : NoDup out).
    { apply NoDup_app_intro; try now apply NoDup_filter. intros y Y1 Y2. apply in_strings in Y1. apply in_ints in Y2. destruct Y1 as [_ Y1], Y2 as [_ Y2]. congruence. }
    assert (HOut : forall l, In l out -> In l (labels ops)).
    { intros l Hl. assert (IL : In l output). { apply in_app_or in Hl. destruct Hl as [Hl|Hl]; [apply in_strings in Hl|apply in_ints in Hl]; apply Hl. }
      destruct (HO l IL) as [p [P1 P2]]. unfold labels. apply in_flat_map. exists (fst p, strings (snd p) ++ ints (snd p)). split; [unfold ops, norm; apply in_map_iff; exists p; auto|].
      cbn [snd]. apply in_or_app. destruct (isstr l) eqn:Is; [left; apply in_strings|right; apply in_ints]; auto. }
    destruct (run_inv out path ops st NOut W HOut FP NE RN) as [r [io [-> [Wr [Iio [SH [NZ F]]]]]]]. cbn [length Nat.eqb negb] in H.
    pose proof Wr as [Nio [Lio [Sio [Bio _]]]]. cbn [fst snd] in *.
    assert (PS : Permutation (strings output) (strings io)).
    { apply NoDup_Permutation; try now apply NoDup_filter. intros l. rewrite !in_strings, Iio. unfold out. rewrite in_app_iff, in_strings, in_ints. split; [intros [X Y]; auto|intros [[[X Y]|[X Y]] Z]; auto]. }
    assert (PI : Permutation (ints output) (ints io)).
    { apply NoDup_Permutation; try now apply NoDup_filter. intros l. rewrite !in_ints, Iio. unfold out. rewrite in_app_iff, in_strings, in_ints. split; [intros [X Y]; auto|intros [[[X Y]|[X Y]] Z]; auto]. }
    assert (LA : labelled r (strings io) (ints io) (D ops)) by (split; [rewrite <- Sio; exact SH|exact Bio]).
    destruct (final_batch r _ _ _ (strings output) LA) as [r1 [E1 [L1 V1]]]; [now apply NoDup_filter|exact PS|]. rewrite E1 in H. cbn [bind] in H.
    destruct (final_core r1 _ _ _ (ints output) L1) as [r2 [E2 [L2 V2]]]; [now apply NoDup_filter|exact PI|]. rewrite E2 in H. cbn [bind] in H.
    assert (NB : (0 <? length (ints io)) && forallb (fun i => fdg i =? 0) (ints io) = false).
    { destruct (ints io) as [|i0 t] eqn:EI; [reflexivity|]. simpl. specialize (NZ i0 (or_introl eq_refl)). unfold fdg at 1. destruct (fd i0) as [[|d]|]; [congruence|reflexivity|reflexivity]. }
    rewrite NB in H. injection H as <-. exists r2. split; [reflexivity|]. destruct L2 as [S2 B2]. split; [exact B2|]. split; [exact S2|].
    intros k Hk. rewrite (F k Hk).
    assert (IN : inner [(r, io)] out = []).
    { destruct (inner [(r, io)] out) as [|z t] eqn:EI; [reflexivity|]. exfalso. assert (Hz : In z (inner [(r, io)] out)) by (rewrite EI; now left).
      apply inner_in in Hz. destruct Hz as [Z1 Z2]. simpl in Z1. rewrite app_nil_r in Z1. apply Z2. now apply Iio. }
    unfold full. rewrite IN. cbn [map box]. rewrite (sum_single rO rI radd rmul rsub ropp Rth). cbn [prodv fold_right].
    set (e := env out k [] []). assert (KE : k = map e out).
    { pose proof (box_length_in _ _ Hk) as LK. rewrite map_length in LK. rewrite (map_dim_of out k NOut (eq_sym LK)) at 1. apply map_ext_in. intros l Hl.
      unfold e, env, dim_of. now rewrite (look_dim_of out k l (eq_sym LK) Hl). }
    rewrite KE at 1. unfold out. rewrite (V2 e), (V1 e). rewrite <- Sio. unfold val. cbn [fst snd]. unfold ArrayOps.amplitude. rewrite SH.
    rewrite inb_map; [ring|]. intros l Hl. apply Iio in Hl. unfold e, env. destruct (look_in_box out (D ops) k l Hk Hl) as [v [-> Hv]]. exact Hv.
  Qed.
  (** C47: two paths that both succeed give the same array *)
  Theorem C47_path_independent : forall args output path path' x x', let ops := norm args in let out := strings output ++ ints output in
    Forall wf_op ops -> NoDup output -> (forall l, In l output -> exists p, In p args /\ In l (snd p)) ->
    fock_path out (map snd ops) path -> path <> [] -> fock_path out (map snd ops) path' -> path' <> [] ->
    mm_einsum (lift args) output path = Ok x -> mm_einsum (lift args) output path' = Ok x' ->
    exists r r', x = Fk r /\ x' = Fk r' /\ bdims r = bdims r' /\ shape (arr r) = shape (arr r') /\ forall k, In k (box (shape (arr r))) -> at_ (arr r) k = at_ (arr r') k.
  Proof using Rth.
    intros args output path path' x x' ops out W NO HO F1 N1 F2 N2 H1 H2.
    destruct (C47_full args output path x W NO HO F1 N1 H1) as [r [-> [B1 [S1 V1]]]]. destruct (C47_full args output path' x' W NO HO F2 N2 H2) as [r' [-> [B2 [S2 V2]]]].
    exists r, r'. split; [reflexivity|]. split; [reflexivity|]. split; [congruence|]. split; [congruence|]. intros k Hk. rewrite S1 in Hk. rewrite V1, V2 by assumption. reflexivity.
  Qed.

  (** *** when it returns *)
  (** every Hilbert space axis is non-empty and at least as large as the requested dimension, which is not zero *)
  Definition fits (p : ansatz * list nat) : Prop := forall l, In l (ints (snd p)) ->
    0 < dim_of (snd p) (shape (arr (fst p))) l /\ forall d, fd l = Some d -> 0 < d <= dim_of (snd p) (shape (arr (fst p))) l.
  Lemma want_fits : forall a ia b ib l, fits (a, ia) -> fits (b, ib) -> In l (ints ia) -> 0 < want a ia b ib l <= dim_of ia (shape (arr a)) l.
  Proof using.
    intros a ia b ib l Fa Fb Hl. destruct (Fa l Hl) as [A1 A2]. cbn [fst snd] in *. unfold want. destruct (fd l) as [d|]; [now apply A2|].
    destruct (nmem l (ints ib)) eqn:N; [|lia]. apply nmem_In in N. destruct (Fb l N) as [B1 B2]. cbn [fst snd] in *. lia.
  Qed.
  Lemma reduce_fits : forall a ia b ib, wf_op (a, ia) -> fits (a, ia) -> fits (b, ib) ->
    nmem 0 (map (want a ia b ib) (ints ia)) = false /\ exists a', reduce a (map (want a ia b ib) (ints ia)) = Ok a'.
  Proof using.
    intros a ia b ib Wa Fa Fb. split.
    - destruct (nmem 0 _) eqn:N; [|reflexivity]. apply nmem_In, in_map_iff in N. destruct N as [l [N1 N2]]. pose proof (want_fits a ia b ib l Fa Fb N2). lia.
    - apply (C32_defined rO). destruct (batch_map a ia Wa) as [_ CM]. rewrite CM. split; [now rewrite !map_length|]. left.
      assert (X : forall L, (forall l, In l L -> In l (ints ia)) -> Forall2 le (map (want a ia b ib) L) (map (dim_of ia (shape (arr a))) L)).
      { induction L as [|l L IH]; intros H; simpl; constructor; [apply want_fits; auto; apply H; now left|apply IH; intros y Hy; apply H; now right]. }
      apply X. auto.
  Qed.
  Lemma step_ok : forall out ops a b, Forall wf_op ops -> Forall fits ops -> a <> b -> a < length ops -> b < length ops ->
    (exists i, In i (ints (nth a (map snd ops) [])) /\ In i (ints (nth b (map snd ops) []))) ->
    (forall i, In i (ints (nth a (map snd ops) [])) -> In i (ints (nth b (map snd ops) [])) -> fd i <> Some 0) ->
    exists st', step out (lift ops) (a, b) = Ok st'.
  Proof using.
    intros out ops a b W F N Ha Hb [i0 [I1 I2]] NZ. set (pa := nth a ops d0). set (pb := nth b ops d0).
    assert (Wa : wf_op pa) by (rewrite Forall_forall in W; apply W, nth_In; exact Ha). assert (Wb : wf_op pb) by (rewrite Forall_forall in W; apply W, nth_In; exact Hb).
    assert (Fa : fits pa) by (rewrite Forall_forall in F; apply F, nth_In; exact Ha). assert (Fb : fits pb) by (rewrite Forall_forall in F; apply F, nth_In; exact Hb).
    assert (NA : nth a (map snd ops) [] = snd pa) by (change [] with (snd d0); apply map_nth). assert (NB : nth b (map snd ops) [] = snd pb) by (change [] with (snd d0); apply map_nth).
    pose proof (prep_facts (map snd ops) a b out) as [_ [_ Iio]].
    rewrite NA, NB in *. unfold step. rewrite !nth_error_lift by assumption. fold pa pb. rewrite map_snd_lift. set (io := prepare_idx_out (map snd ops) a b out) in *.
    set (common := filter (fun i => nmem i (ints (snd pb))) (ints (snd pa))).
    assert (C0 : In i0 common) by (apply filter_In; split; [exact I1|apply nmem_In; exact I2]).
    assert (CZ : forall i, In i common -> fdg i <> 0).
    { intros i Hi. apply filter_In in Hi. destruct Hi as [H1 H2]. apply nmem_In in H2. specialize (NZ i H1 H2). unfold fdg. destruct (fd i) as [[|d]|]; congruence. }
    destruct (forallb (fun i => fdg i =? 0) common) eqn:FB.
    { exfalso. rewrite forallb_forall in FB. specialize (FB i0 C0). apply Nat.eqb_eq in FB. exact (CZ i0 C0 FB). }
    assert (X : forallb (fun i => negb (fdg i =? 0)) common = true) by (apply forallb_forall; intros i Hi; apply negb_true_iff, Nat.eqb_neq, CZ, Hi). rewrite X.
    destruct pa as [a1 ia]. destruct pb as [b1 ib]. cbn [fst snd] in *. rewrite get_shapes_ok by assumption. cbn [bind fst snd]. unfold to_fock.
    destruct (reduce_fits a1 ia b1 ib Wa Fa Fb) as [Z1 [a' Ra]]. destruct (reduce_fits b1 ib a1 ia Wb Fb Fa) as [Z2 [b' Rb]]. rewrite Z1, Ra. cbn [bind]. rewrite Z2, Rb. cbn [bind].
    destruct (reduce_facts _ _ _ _ _ Wa Ra) as [SA _]. destruct (reduce_facts _ _ _ _ _ Wb Rb) as [SB _].
    unfold f_contract, array_contract. rewrite SA, SB, !map_length, !Nat.eqb_refl. cbn [negb].
    assert (Y : forallb (fun l => nmem l (ia ++ ib)) io = true).
    { apply forallb_forall. intros l Hl. apply nmem_In, in_or_app. apply Iio in Hl. apply Hl. }
    rewrite Y. cbn [negb bind]. eexists. reflexivity.
  Qed.
  Lemma run_ok : forall out path ops, NoDup out -> Forall wf_op ops -> Forall fits ops -> (forall l, In l out -> In l (labels ops)) -> fock_path out (map snd ops) path ->
    exists st', run out (lift ops) path = Ok st'.
  Proof using Rth.
    intros out path. induction path as [|[a b] path IH]; intros ops NO W F HO FP; [eexists; reflexivity|]. cbn [run]. cbn [fock_path] in FP. destruct FP as [N [Ha [Hb [SH [NZ FP]]]]]. rewrite map_length in Ha, Hb.
    destruct (step_ok out ops a b W F N Ha Hb SH NZ) as [st1 S1]. rewrite S1. cbn [bind].
    destruct (step_inv out ops a b st1 NO W N Ha Hb SH NZ HO S1) as [r [-> [W' [HO' [D' [F' [NZ' [LAST SR]]]]]]]].
    set (io := prepare_idx_out (map snd ops) a b out) in *. rewrite <- map_pop2 in FP. change [io] with (map snd [(r, io)]) in FP. rewrite <- map_app in FP.
    apply (IH _ NO W'); [|exact HO'|exact FP].
    apply Forall_app. pose proof (pop2_perm ops a b d0 N Ha Hb) as PM. split.
    { apply Forall_forall. intros p Hp. rewrite Forall_forall in F. apply F. eapply Permutation_in; [apply Permutation_sym, PM|]. right. right. exact Hp. }
    constructor; [|constructor]. intros l Hl. cbn [fst snd] in *. rewrite SR. apply in_ints in Hl. destruct Hl as [Hl Is]. rewrite dim_of_map by assumption.
    pose proof (prep_facts (map snd ops) a b out) as [_ [_ Iio]]. fold io in Iio. apply Iio in Hl. destruct Hl as [Hl _].
    set (pa := nth a ops d0) in *. set (pb := nth b ops d0) in *.
    assert (Wa : wf_op pa) by (rewrite Forall_forall in W; apply W, nth_In; exact Ha). assert (Wb : wf_op pb) by (rewrite Forall_forall in W; apply W, nth_In; exact Hb).
    assert (Fa : fits pa) by (rewrite Forall_forall in F; apply F, nth_In; exact Ha). assert (Fb : fits pb) by (rewrite Forall_forall in F; apply F, nth_In; exact Hb).
    assert (NA : nth a (map snd ops) [] = snd pa) by (change [] with (snd d0); apply map_nth). assert (NB : nth b (map snd ops) [] = snd pb) by (change [] with (snd d0); apply map_nth).
    rewrite NA, NB in Hl. clearbody pa pb. destruct pa as [a1 ia]. destruct pb as [b1 ib]. cbn [fst snd] in *.
    assert (GEN : forall x xi y yi, wf_op (x, xi) -> wf_op (y, yi) -> fits (x, xi) -> fits (y, yi) -> In l xi ->
              0 < D [(x, xi); (y, yi)] l /\ (forall d, fd l = Some d -> 0 < d <= D [(x, xi); (y, yi)] l)).
    { intros x xi y yi Wx Wy Fx Fy Hx. assert (LX : In l (ints xi)) by (apply in_ints; auto). destruct (Fx l LX) as [X1 X2]. cbn [fst snd] in *.
      rewrite D2 by assumption. unfold fdim. rewrite Is. split.
      - destruct (fd l) as [d|]; [apply (X2 d eq_refl)|]. destruct (nmem l yi) eqn:Ny; [|exact X1]. apply nmem_In in Ny. destruct (Fy l) as [Y1 _]; [apply in_ints; auto|]. cbn [fst snd] in Y1. lia.
      - intros d Ed. rewrite Ed. destruct (X2 d Ed). lia. }
    destruct Hl as [Hl|Hl]; [now apply GEN|]. rewrite D2_sym. now apply GEN.
  Qed.
  (** C47: it does return when the arrays are at least as large as the requested Fock dimensions *)
  Theorem C47_returns : forall args output path, let ops := norm args in let out := strings output ++ ints output in
    Forall wf_op ops -> Forall fits ops -> NoDup output -> (forall l, In l output -> exists p, In p args /\ In l (snd p)) ->
    fock_path out (map snd ops) path -> path <> [] -> exists x, mm_einsum (lift args) output path = Ok x.
  Proof using Rth.
    intros args output path ops out W F NO HO FP NE.
    assert (ST : map (fun p : rep * list nat => (fst p, strings (snd p) ++ ints (snd p))) (lift args) = lift ops) by (unfold lift, ops, norm; rewrite !map_map; reflexivity).
    assert (NOut : NoDup out).
    { apply NoDup_app_intro; try now apply NoDup_filter. intros y Y1 Y2. apply in_strings in Y1. apply in_ints in Y2. destruct Y1 as [_ Y1], Y2 as [_ Y2]. congruence. }
    assert (HOut : forall l, In l out -> In l (labels ops)).
    { intros l Hl. assert (IL : In l output). { apply in_app_or in Hl. destruct Hl as [Hl|Hl]; [apply in_strings in Hl|apply in_ints in Hl]; apply Hl. }
      destruct (HO l IL) as [p [P1 P2]]. unfold labels. apply in_flat_map. exists (fst p, strings (snd p) ++ ints (snd p)). split; [unfold ops, norm; apply in_map_iff; exists p; auto|].
      cbn [snd]. apply in_or_app. destruct (isstr l) eqn:Is; [left; apply in_strings|right; apply in_ints]; auto. }
    destruct (run_ok out path ops NOut W F HOut FP) as [st RN].
    destruct (run_inv out path ops st NOut W HOut FP NE RN) as [r [io [-> [Wr [Iio [SH [NZ _]]]]]]].
    unfold mm_einsum. rewrite ST. destruct (strings_norm output) as [SO IO]. fold out in SO, IO. cbv zeta. fold out. rewrite SO, IO.
    assert (KE : forallb (fun s => nmem s (flat_map (fun p : rep * list nat => strings (snd p)) (lift args))) (strings output) = true).
    { apply forallb_forall. intros l Hl. apply nmem_In, in_flat_map. apply in_strings in Hl. destruct Hl as [Hl Is]. destruct (HO l Hl) as [p [P1 P2]].
      exists (Fk (fst p), snd p). split; [unfold lift; apply in_map_iff; exists p; auto|]. apply in_strings. auto. }
    rewrite KE. cbn [negb]. rewrite RN. cbn [bind length Nat.eqb negb].
    pose proof Wr as [Nio [Lio [Sio [Bio _]]]]. cbn [fst snd] in *.
    assert (PS : Permutation (strings output) (strings io)).
    { apply NoDup_Permutation; try now apply NoDup_filter. intros l. rewrite !in_strings, Iio. unfold out. rewrite in_app_iff, in_strings, in_ints. split; [intros [X Y]; auto|intros [[[X Y]|[X Y]] Z]; auto]. }
    assert (PI : Permutation (ints output) (ints io)).
    { apply NoDup_Permutation; try now apply NoDup_filter. intros l. rewrite !in_ints, Iio. unfold out. rewrite in_app_iff, in_strings, in_ints. split; [intros [X Y]; auto|intros [[[X Y]|[X Y]] Z]; auto]. }
    assert (LA : labelled r (strings io) (ints io) (D ops)) by (split; [rewrite <- Sio; exact SH|exact Bio]).
    destruct (final_batch r _ _ _ (strings output) LA) as [r1 [E1 [L1 V1]]]; [now apply NoDup_filter|exact PS|]. rewrite E1. cbn [bind].
    destruct (final_core r1 _ _ _ (ints output) L1) as [r2 [E2 [L2 V2]]]; [now apply NoDup_filter|exact PI|]. rewrite E2. cbn [bind]. eexists. reflexivity.
  Qed.
End MM.

(** *** union-assignment paths: mm_einsum.py:38-48.  A set of ids is a list *)
Definition merge (G : list (list nat)) (pq : nat * nat) : list (list nat) := pop2 (fst pq) (snd pq) G ++ [nth (fst pq) G [] ++ nth (snd pq) G []].
(** positions of the sets that contain a or b *)
Definition holding (G : list (list nat)) (a b : nat) : list nat := filter (fun p => nmem a (nth p G []) || nmem b (nth p G [])) (seq 0 (length G)).
Fixpoint ua_go (G : list (list nat)) (ua : list (nat * nat)) : result (list (nat * nat)) :=
  match ua with
  | [] => Ok []
  | (a, b) :: t => match holding G a b with
                   | [p; q] => bind (ua_go (merge G (p, q)) t) (fun r => Ok ((p, q) :: r))
                   | _ => Err ValueError
                   end
  end.
Definition ua_ids (ua : list (nat * nat)) : list nat :=
  let l := flat_map (fun p => [fst p; snd p]) ua in filter (fun i => nmem i l) (seq 0 (S (list_max l))).
Definition ua_to_linear (ua : list (nat * nat)) : result (list (nat * nat)) := ua_go (map (fun i => [i]) (ua_ids ua)) ua.
Lemma ua_go_spec : forall ua G path, NoDup (concat G) -> ua_go G ua = Ok path ->
  length path = length ua /\ forall i a b, nth_error ua i = Some (a, b) ->
    exists p q, nth_error path i = Some (p, q) /\ let Gi := fold_left merge (firstn i path) G in p < q < length Gi /\
      ((In a (nth p Gi []) /\ In b (nth q Gi [])) \/ (In b (nth p Gi []) /\ In a (nth q Gi []))).
Proof.
  induction ua as [|[a b] ua IH]; intros G path ND H; cbn [ua_go] in H.
  { injection H as <-. split; [reflexivity|]. intros i a b X. destruct i; discriminate. }
  destruct (holding G a b) as [|p [|q [|? ?]]] eqn:HO; try discriminate. destruct (ua_go (merge G (p, q)) ua) as [r|] eqn:RE; [|discriminate]. injection H as <-.
  assert (HP : forall x, In x [p; q] <-> x < length G /\ (In a (nth x G []) \/ In b (nth x G []))).
  { intros x. rewrite <- HO. unfold holding. rewrite filter_In, in_seq, orb_true_iff, !nmem_In. split; [intros [X1 X2]; split; [lia|exact X2]|intros [X1 X2]; split; [lia|exact X2]]. }
  assert (PQ : p < q).
  { assert (SS : Sorted.StronglySorted lt (holding G a b)).
    { unfold holding. apply StronglySorted_filter. clear. generalize 0. induction (length G) as [|n IHn]; intros s; simpl; constructor; [apply IHn|]. apply Forall_forall. intros y Hy. apply in_seq in Hy. lia. }
    rewrite HO in SS. inversion SS; subst. inversion H2; subst. assumption. }
  destruct (proj1 (HP p) (or_introl eq_refl)) as [P1 P2]. destruct (proj1 (HP q) (or_intror (or_introl eq_refl))) as [Q1 Q2].
  assert (DJ : forall x, In x (nth p G []) -> In x (nth q G []) -> False).
  { intros x X1 X2. pose proof (pop2_perm G p q [] ltac:(lia) P1 Q1) as PM. assert (PC : Permutation (concat G) (concat (nth p G [] :: nth q G [] :: pop2 p q G))).
    { clear - PM. induction PM; simpl; auto; [now apply Permutation_app_head|rewrite !app_assoc; apply Permutation_app_tail, Permutation_app_comm|eapply Permutation_trans; eauto]. }
    pose proof (Permutation_NoDup PC ND) as N2. simpl in N2. apply (NoDup_app_disj _ _ x N2 X1). apply in_or_app. now left. }
  assert (NDM : NoDup (concat (merge G (p, q)))).
  { unfold merge. cbn [fst snd]. pose proof (pop2_perm G p q [] ltac:(lia) P1 Q1) as PM.
    assert (PC : Permutation (concat G) (concat (pop2 p q G ++ [nth p G [] ++ nth q G []]))).
    { rewrite concat_app. simpl. rewrite app_nil_r. eapply Permutation_trans; [|apply Permutation_app_comm]. rewrite <- app_assoc.
      change (nth p G [] ++ nth q G [] ++ concat (pop2 p q G)) with (concat (nth p G [] :: nth q G [] :: pop2 p q G)).
      clear - PM. induction PM; simpl; auto; [now apply Permutation_app_head|rewrite !app_assoc; apply Permutation_app_tail, Permutation_app_comm|eapply Permutation_trans; eauto]. }
    eapply Permutation_NoDup; [exact PC|exact ND]. }
  destruct (IH _ _ NDM RE) as [L V]. split; [simpl; lia|]. intros i a0 b0 X. destruct i as [|i].
  - injection X as <- <-. exists p, q. split; [reflexivity|]. cbn [firstn fold_left]. cbv zeta. split; [lia|].
    destruct P2 as [P2|P2], Q2 as [Q2|Q2]; [exfalso; eapply DJ; eauto|left; auto|right; auto|exfalso; eapply DJ; eauto].
  - simpl in X. destruct (V i a0 b0 X) as [p' [q' V']]. exists p', q'. exact V'.
Qed.
(** C47: the converted path contracts at every step exactly the two intermediate results that contain the two named operands *)
Theorem C47_union_paths : forall ua path, ua_to_linear ua = Ok path ->
  length path = length ua /\ forall i a b, nth_error ua i = Some (a, b) ->
    exists p q, nth_error path i = Some (p, q) /\ let groups := fold_left merge (firstn i path) (map (fun i => [i]) (ua_ids ua)) in p < q < length groups /\
      ((In a (nth p groups []) /\ In b (nth q groups [])) \/ (In b (nth p groups []) /\ In a (nth q groups []))).
Proof.
  intros ua path H. apply ua_go_spec; [|exact H]. assert (C : forall l : list nat, concat (map (fun i => [i]) l) = l) by (induction l; simpl; congruence).
  rewrite C. unfold ua_ids. apply NoDup_filter, seq_NoDup.
Qed.

(** ** Examples and counterexamples over the integers *)
Section Ex.
  Let zring : ring_theory 0%Z 1%Z Z.add Z.mul Z.sub Z.opp eq := Zth.
  (** label 9 is a batch label; labels 0-3 are Hilbert space indices; the Bargmann side is a unit *)
  Let isstr (l : nat) : bool := l =? 9.
  Let fd2 (l : nat) : option nat := if l =? 1 then Some 2 else None.
  Notation A := (@ArrayOps.ansatz Z).
  Notation mm fd := (mm_einsum 0%Z Z.add Z.mul isstr fd unit (fun _ => tt) (fun _ _ => Err ValueError) (fun _ _ _ _ _ => Ok tt) (fun _ _ => Ok tt) (fun _ _ => Ok tt)).
  Notation lft := (lift unit).
  Definition dig (k : list nat) : Z := fold_left (fun acc i => (10 * acc + Z.of_nat i + 1)%Z) k 0%Z.
  (** a batch of two vectors, a 2x3 matrix, a 3x2 matrix *)
  Definition ex_a : A := mkA (mkArray [2; 2] dig) 1.
  Definition ex_b : A := mkA (mkArray [2; 3] dig) 0.
  Definition ex_c : A := mkA (mkArray [3; 2] dig) 0.
  Definition ex_args : list (A * list nat) := [(ex_a, [9; 0]); (ex_b, [0; 1]); (ex_c, [1; 2])].
  Definition entries (r : result (rep unit)) : list nat * list Z := match r with Ok (Fk _ a) => (shape (arr a), map (at_ (arr a)) (box (shape (arr a)))) | _ => ([], []) end.
  (** the hypotheses of C47_full and C47_returns hold for a chain of three operands, a truncated index and two different paths *)
  Ltac nz := let i := fresh in let H := fresh in intros i H ?; repeat (destruct H as [H|H]; [subst i; cbn; discriminate|]); destruct H.
  Lemma C47_example : let ops := norm isstr ex_args in
    Forall (wf_op isstr fd2) ops /\ Forall (fits isstr fd2) ops /\ NoDup [2; 9] /\ (forall l, In l [2; 9] -> exists p, In p ex_args /\ In l (snd p)) /\
    fock_path isstr fd2 [9; 2] (map snd ops) [(0, 1); (0, 1)] /\ fock_path isstr fd2 [9; 2] (map snd ops) [(2, 1); (1, 0)] /\
    (exists x, mm fd2 (lft ex_args) [2; 9] [(0, 1); (0, 1)] = Ok x) /\
    full 0%Z 1%Z Z.add Z.mul isstr fd2 ops [9; 2] [1; 0] = (21 * (11 * 11 + 12 * 21) + 22 * (21 * 11 + 22 * 21))%Z.
  Proof.
    assert (BG : forall n, n <= 9 -> n <= BIG) by (intros n H; unfold BIG; eapply Nat.le_trans; [exact H|]; apply Nat.le_trans with (10 ^ 1); [simpl; lia|apply Nat.pow_le_mono_r; lia]).
    intros ops. assert (W : Forall (wf_op isstr fd2) ops).
    { assert (G : forall (a : A) ix, NoDup ix -> length ix = length (shape (arr a)) -> ix = strings isstr ix ++ ints isstr ix -> bdims a = length (strings isstr ix) ->
        Forall (fun l => dim_of ix (shape (arr a)) l <= 9) ix -> wf_op isstr fd2 (a, ix)).
      { intros a ix H1 H2 H3 H4 H5. split; [exact H1|]. split; [exact H2|]. split; [exact H3|]. split; [exact H4|]. intros l Hl _. apply BG. rewrite Forall_forall in H5. now apply H5. }
      unfold ops, norm, ex_args. cbn [map fst snd].
      constructor; [|constructor; [|constructor; [|constructor]]]; apply G; try reflexivity; cbn; repeat constructor; simpl; intuition lia. }
    assert (F : Forall (fits isstr fd2) ops).
    { unfold ops, norm, ex_args. cbn [map fst snd]. constructor; [|constructor; [|constructor; [|constructor]]]; intros l H; cbn in H;
        repeat (destruct H as [<-|H]; [split; [cbn; lia|intros d X; cbn in X; inversion X; subst; cbn; lia]|]); destruct H. }
    assert (N : NoDup [2; 9]) by (repeat constructor; simpl; intuition lia).
    assert (HO : forall l, In l [2; 9] -> exists p, In p ex_args /\ In l (snd p)).
    { intros l [<-|[<-|[]]]; [exists (ex_c, [1; 2])|exists (ex_a, [9; 0])]; simpl; auto 6. }
    assert (P1 : fock_path isstr fd2 [9; 2] (map snd ops) [(0, 1); (0, 1)]).
    { cbn. repeat split; try lia; [exists 0; auto|nz|exists 1; auto|nz]. }
    split; [exact W|]. split; [exact F|]. split; [exact N|]. split; [exact HO|]. split; [exact P1|]. split.
    { cbn. repeat split; try lia; [exists 1; auto|nz|exists 0; auto|nz]. }
    split; [|reflexivity].
    exact (C47_returns 0%Z 1%Z Z.add Z.mul Z.sub Z.opp Zth isstr fd2 unit (fun _ => tt) (fun _ _ => Err ValueError) (fun _ _ _ _ _ => Ok tt) (fun _ _ => Ok tt) (fun _ _ => Ok tt)
      ex_args [2; 9] [(0, 1); (0, 1)] W F N HO P1 ltac:(discriminate)).
  Qed.
  Lemma C47_union_example : ua_to_linear [(0, 1); (2, 3); (3, 0)] = Ok [(0, 1); (0, 1); (0, 1)] /\ ua_to_linear [(0, 2); (1, 2)] = Ok [(0, 2); (0, 1)] /\ ua_to_linear [(0, 1); (1, 0)] = Err ValueError.
  Proof. repeat split. Qed.
End Ex.
Section Refuted.
  Context {R : Type} (rO rI : R) (radd rmul : R -> R -> R).
  Notation ansatz := (@ArrayOps.ansatz R).
  Variables (fd : nat -> option nat) (B : Type) (to_barg : ansatz -> B) (b_to_fock : B -> list nat -> result ansatz)
    (b_contract : B -> B -> list nat -> list nat -> list nat -> result B) (b_reorder b_reorder_batch : B -> list nat -> result B).
  Notation mm := (mm_einsum rO radd rmul (fun _ => false) fd B to_barg b_to_fock b_contract b_reorder b_reorder_batch).
  (** two Fock arrays without a common index: whatever fock_dims says, the result is in the Bargmann representation *)
  Theorem C47_refuted_outer : forall (a b : ansatz) x, mm [(Fk B a, [0]); (Fk B b, [1])] [0; 1] [(0, 1)] = Ok x -> exists t, x = Bg B t.
  Proof.
    intros a b x H. unfold mm_einsum in H. cbn in H. destruct (b_contract (to_barg a) (to_barg b) [0] [1] [0; 1]) as [t|]; [|discriminate]. cbn in H.
    destruct (b_reorder t [0; 1]) as [t'|]; [|discriminate]. cbn in H. injection H as <-.
    match goal with |- exists _, (if ?c then _ else _) = _ => destruct c end; eexists; reflexivity.
  Qed.
  (** a single operand is returned as it is: the indices that are not in the output are not summed *)
  Theorem C47_refuted_single : fd 0 = None -> forall a : ansatz, mm [(Fk B a, [0; 1])] [0] [] = Ok (Fk B a).
  Proof. intros F a. unfold mm_einsum. cbn. unfold fdg. rewrite F. reflexivity. Qed.
  (** a pair of equal positions is accepted and silently drops another operand *)
  Theorem C47_refuted_equal_pair : fd 0 = Some 2 -> forall f g : list nat -> R, exists r,
    mm [(Fk B (mkA (mkArray [2] f) 0), [0]); (Fk B (mkA (mkArray [2] g) 0), [0])] [0] [(0, 0)] = Ok (Fk B r) /\
    shape (arr r) = [2] /\ forall i, at_ (arr r) [i] = radd (rmul (f [i]) (f [i])) rO.
  Proof.
    intros F f g. unfold mm_einsum. cbn. unfold fdg. rewrite F. cbn. unfold get_shapes, shape_common. cbn. repeat (rewrite F; cbn). eexists. split; [reflexivity|]. split; [reflexivity|]. reflexivity.
  Qed.
End Refuted.
