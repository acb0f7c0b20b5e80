(** C73: sums of parametrised components *)
From Coq Require Import List Bool Arith Lia String.
Import ListNotations.
From Verif Require Import Base CompSum.

Section C73.
  Variables (V W B Wr : Type) (wr_eqb : Wr -> Wr -> bool) (b_eqb : B -> B -> bool) (w0 : W) (wadd : W -> W -> W) (eval : class -> (string -> list V) -> W).
  (** the assumptions on the types the model is generic in: decidable equality of wires and bounds, a sum of function values, and a function
      of a class that depends on the parameters of that class only *)
  Definition generic : Prop :=
    (forall x y, wr_eqb x y = true <-> x = y) /\ (forall x y, b_eqb x y = true <-> x = y)
    /\ (forall x y z, wadd x (wadd y z) = wadd (wadd x y) z) /\ (forall x, wadd w0 x = x)
    /\ (forall k f g, (forall s, In s (map fst (c_args k ++ c_plain k)) -> f s = g s) -> eval k f = eval k g).
  Notation comp := (comp V B Wr).
  Notation add := (add V B Wr wr_eqb b_eqb).
  Notation total := (total V W B Wr w0 wadd eval).
  Notation term := (term V W B Wr eval).

  (** the sum of two superpositions of components of one class: it is a component of the same class on the same wires with the same trainable
      parameters and bounds, and it represents the sum of the two functions; ValueError when the parameters are trainable in one of the two only
      or have different bounds *)
  Theorem C73_sum (a b : comp) (n m : nat) : generic -> summable (cls _ _ _ a) = true -> cls _ _ _ b = cls _ _ _ a -> same_fn _ _ _ a b = true ->
    wires _ _ _ b = wires _ _ _ a -> superposition _ _ _ n a -> superposition _ _ _ m b ->
    (same_kinds _ _ _ a b -> exists c, add a b = Ok (Some c) /\ cls _ _ _ c = cls _ _ _ a /\ wires _ _ _ c = wires _ _ _ a /\ superposition _ _ _ (n + m) c
        /\ same_kinds _ _ _ c a /\ (forall i, i < n -> term c i = term a i) /\ (forall i, i < m -> term c (n + i) = term b i)
        /\ total c (n + m) = wadd (total a n) (total b m))
    /\ (~ same_kinds _ _ _ a b -> add a b = Err ValueError).
  Proof. intros (G1 & G2 & G3 & G4 & G5). intros. apply (add_correct V W B Wr wr_eqb b_eqb w0 wadd G3 G4 eval G5 G1 G2); assumption. Qed.

  (** a + b_1 + ... + b_k, from left to right *)
  Fixpoint add_all (a : comp) (l : list comp) : result (option comp) :=
    match l with
    | [] => Ok (Some a)
    | b :: r => bind (add a b) (fun c => match c with Some c => add_all c r | None => Ok None end)
    end.
  Fixpoint sums (l : list W) : W := match l with [] => w0 | x :: r => wadd x (sums r) end.
  Theorem C73_sum_list : forall (l : list comp) (a : comp) (n : nat), generic -> (forall x, wadd x w0 = x) -> summable (cls _ _ _ a) = true ->
    c_fn (cls _ _ _ a) <> None -> superposition _ _ _ n a ->
    (forall b, In b l -> cls _ _ _ b = cls _ _ _ a /\ wires _ _ _ b = wires _ _ _ a /\ same_kinds _ _ _ a b /\ superposition _ _ _ 1 b) ->
    exists c, add_all a l = Ok (Some c) /\ cls _ _ _ c = cls _ _ _ a /\ wires _ _ _ c = wires _ _ _ a /\ superposition _ _ _ (n + List.length l) c
      /\ total c (n + List.length l) = wadd (total a n) (sums (map (fun b => total b 1) l)).
  Proof.
    induction l as [|b l IH]; intros a n G G' SK Fn Ha H.
    - exists a. simpl. rewrite Nat.add_0_r, G'. repeat split; try reflexivity; apply Ha.
    - destruct (H b (or_introl eq_refl)) as (Ec & Ew & K & Hb).
      assert (SF : same_fn _ _ _ a b = true).
      { unfold same_fn. rewrite Ec. destruct (c_fn (cls _ _ _ a)); [apply String.eqb_refl|congruence]. }
      destruct (proj1 (C73_sum a b n 1 G SK Ec SF Ew Ha Hb) K) as (c & E & Cc & Cw & Hc & Kc & _ & _ & T).
      simpl. rewrite E. simpl. destruct (IH c (n + 1) G G') as (d & Ed & Cd & Wd & Hd & Td).
      + rewrite Cc. exact SK.
      + rewrite Cc. exact Fn.
      + exact Hc.
      + intros x I. destruct (H x (or_intror I)) as (E1 & E2 & E3 & E4). rewrite Cc, Cw. repeat split; try assumption; try apply E4. unfold same_kinds in *. congruence.
      + exists d. rewrite Ed, Cd, Wd, Cc, Cw. replace (n + 1 + List.length l) with (n + S (List.length l)) in * by lia. repeat split; try reflexivity; try apply Hd.
        rewrite Td, T. symmetry. apply (proj1 (proj2 (proj2 G))).
  Qed.

  (** instances of a lambda-based class do not share their function: their ansatze are added *)
  Theorem C73_lambda (a b : comp) : generic -> c_fn (cls _ _ _ a) = None -> c_fn (cls _ _ _ b) = None -> fn_id _ _ _ a <> fn_id _ _ _ b ->
    wires _ _ _ a = wires _ _ _ b -> add a b = Ok None.
  Proof.
    intros (G1 & _) Fa Fb N E. unfold CompSum.add. rewrite E, (proj2 (G1 _ _) eq_refl). simpl. unfold same_fn. rewrite Fa, Fb. apply Nat.eqb_neq in N. rewrite N. reflexivity.
  Qed.

  (** a keyword argument that is not the name of a parameter *)
  Definition renamed (k : class) : bool := existsb (fun p => negb (existsb (String.eqb (fst p)) (map fst (c_args k ++ c_plain k)))) (c_kwargs k).
  Definition renamed_first (k : class) : bool :=
    match c_kwargs k with p :: _ => negb (existsb (String.eqb (fst p)) (map fst (c_args k ++ c_plain k))) | [] => false end.
  Lemma getattr_none (a : comp) s : map fst (params _ _ _ a) = map fst (c_args (cls _ _ _ a) ++ c_plain (cls _ _ _ a)) ->
    negb (existsb (String.eqb s) (map fst (c_args (cls _ _ _ a) ++ c_plain (cls _ _ _ a)))) = true -> getattr _ _ _ a s = Err AttributeError.
  Proof.
    intros E H. unfold getattr. rewrite (lookup_None (params _ _ _ a)); [reflexivity|]. rewrite E. intros I. apply eqb_existsb in I. rewrite I in H. discriminate.
  Qed.
  (** the sum of two Attenuators (Amplifiers, FockDampings, ...) on the same mode always raises *)
  Theorem C73_refuted_renamed (a b : comp) : generic -> cls _ _ _ b = cls _ _ _ a -> c_fn (cls _ _ _ a) <> None -> wires _ _ _ a = wires _ _ _ b ->
    map fst (params _ _ _ a) = map fst (c_args (cls _ _ _ a) ++ c_plain (cls _ _ _ a)) ->
    (renamed (cls _ _ _ a) = true -> exists e, add a b = Err e) /\ (renamed_first (cls _ _ _ a) = true -> add a b = Err AttributeError).
  Proof.
    intros (G1 & _) Ec Fn Ew Na. unfold CompSum.add. rewrite Ew, (proj2 (G1 _ _) eq_refl). simpl.
    assert (SF : same_fn _ _ _ a b = true) by (unfold same_fn; rewrite Ec; destruct (c_fn (cls _ _ _ a)); [apply String.eqb_refl|congruence]). rewrite SF. split.
    - intros R. unfold renamed in R. apply existsb_exists in R. destruct R as ([s o] & I & R). simpl in R.
      assert (E : exists e, mapM (merge V B Wr b_eqb a b) (map fst (c_kwargs (cls _ _ _ a))) = Err e); [|destruct E as (e & ->); exists e; reflexivity].
      apply (in_map fst) in I. simpl in I. revert I. generalize (map fst (c_kwargs (cls _ _ _ a))). induction l as [|t l IH]; simpl; [tauto|].
      intros [->|I].
      + unfold merge at 1. rewrite (getattr_none a s Na R). simpl. eauto.
      + destruct (merge V B Wr b_eqb a b t) as [y|e]; simpl; [|eauto]. destruct (IH I) as (e & ->). simpl. eauto.
    - intros R. unfold renamed_first in R. destruct (c_kwargs (cls _ _ _ a)) as [|[s o] l]; [discriminate|]. simpl. unfold merge at 1. rewrite (getattr_none a s Na R). reflexivity.
  Qed.

  (** a matrix-valued parameter: the two (constant) matrices are stacked on top of each other, so that the constructor gets a (r + r') x n matrix,
      which is not a superposition of two matrices *)
  Theorem C73_refuted_matrix (a b : comp) (s : string) (n : nat) (ra rb : list (list V)) : generic -> cls _ _ _ b = cls _ _ _ a -> c_fn (cls _ _ _ a) <> None ->
    wires _ _ _ a = wires _ _ _ b -> c_kwargs (cls _ _ _ a) = [(s, Some s)] -> c_args (cls _ _ _ a) = [] -> c_plain (cls _ _ _ a) = [(s, 2)] ->
    params _ _ _ a = [(s, mkParam V B None (Rows V [n] ra))] -> params _ _ _ b = [(s, mkParam V B None (Rows V [n] rb))] -> lin_sup _ _ _ a = false -> lin_sup _ _ _ b = false ->
    exists c, add a b = Ok (Some c) /\ params _ _ _ c = [(s, mkParam V B None (Rows V [n] (ra ++ rb)))] /\ lin_sup _ _ _ c = true.
  Proof.
    intros (G1 & _) Ec Fn Ew Kw Ar Pl Pa Pb La Lb. unfold CompSum.add. rewrite Ew, (proj2 (G1 _ _) eq_refl). simpl.
    assert (SF : same_fn _ _ _ a b = true) by (unfold same_fn; rewrite Ec; destruct (c_fn (cls _ _ _ a)); [apply String.eqb_refl|congruence]). rewrite SF, Kw.
    assert (M : merge V B Wr b_eqb a b s = Ok (s, mkParam V B None (Rows V [n] (ra ++ rb)))).
    { unfold merge, getattr, batch_dims, rank. rewrite Ec, Pa, Pb, Ar, Pl, La, Lb. unfold lookup. simpl find. rewrite String.eqb_refl.
      cbn -[list_eq_dec String.eqb]. rewrite String.eqb_refl. cbn -[list_eq_dec String.eqb]. destruct (list_eq_dec Nat.eq_dec [n] [n]) as [_|N]; [reflexivity|congruence]. }
    cbn -[construct merge]. rewrite M. cbn -[construct merge]. unfold construct. rewrite Ar, Pl. cbn -[String.eqb lookup]. rewrite String.eqb_refl. cbn -[String.eqb lookup].
    eexists. split; [reflexivity|]. unfold lookup. cbn -[String.eqb]. rewrite String.eqb_refl. auto.
  Qed.
End C73.

(** the classes of the library: which sums keep the parametrisation, which are added as ansatze, and which raise *)
Open Scope string_scope.
Theorem C73_catalog :
  map c_name (filter (fun k => summable k && match c_fn k with Some _ => true | None => false end) catalog)
    = ["Coherent"; "DisplacedSqueezed"; "BargmannEigenstate"; "QuadratureEigenstate"; "SqueezedVacuum"; "Thermal"; "TwoModeSqueezedVacuum"; "BSgate"; "Dgate"; "Rgate"; "S2gate"; "Sgate"]
  /\ map c_name (filter (fun k => renamed k && match c_fn k with Some _ => true | None => false end) catalog)
    = ["Attenuator"; "Amplifier"; "FockDamping"; "GDM"; "Identity"; "BtoQ"; "BtoPS"; "BtoChar"]
  /\ map c_name (filter renamed_first (filter (fun k => match c_fn k with Some _ => true | None => false end) catalog))
    = ["Attenuator"; "Amplifier"; "FockDamping"; "GDM"; "Identity"; "BtoQ"]
  /\ map c_name (filter (fun k => match c_fn k with Some _ => false | None => true end) catalog)
    = ["CXgate"; "CZgate"; "Pgate"; "MZgate"; "Ggate"; "Interferometer"; "RealInterferometer"].
Proof. repeat split; reflexivity. Qed.

(** examples: a superposition of three coherent states (wires and bounds are numbers here); the "function" of a coherent state is its alpha squared *)
Definition ex_eval (k : class) (f : string -> list nat) : nat := match c_args k with (s, _) :: _ => match f s with [x] => x * x | _ => 0 end | [] => 0 end.
Definition coh (x : nat) : comp nat nat nat := mkComp nat nat nat coherent 0 5 [("alpha", mkParam nat nat (Some 7) (Scal nat x))] false.
Example C73_example : generic nat nat nat nat Nat.eqb Nat.eqb 0 Nat.add ex_eval
  /\ superposition nat nat nat 1 (coh 2)
  /\ exists c, add_all nat nat nat Nat.eqb Nat.eqb (coh 2) [coh 3; coh 4] = Ok (Some c)
       /\ params _ _ _ c = [("alpha", mkParam nat nat (Some 7) (Rows nat [] [[2]; [3]; [4]]))] /\ total nat nat nat nat 0 Nat.add ex_eval c 3 = 29.
Proof.
  split; [|split].
  - split; [apply Nat.eqb_eq|]. split; [apply Nat.eqb_eq|]. split; [apply Nat.add_assoc|]. split; [reflexivity|].
    intros k f g H. unfold ex_eval. destruct (c_args k) as [|[s r] l] eqn:E; [reflexivity|]. rewrite (H s); [reflexivity|]. simpl. auto.
  - split; [reflexivity|]. left. repeat split. intros s p [I|[]]. injection I as <- <-. exists 2. reflexivity.
  - eexists. split; [reflexivity|]. split; reflexivity.
Qed.
Definition att (x : nat) : comp nat nat nat := mkComp nat nat nat attenuator 0 5 [("transmissivity", mkParam nat nat None (Scal nat x))] false.
Example C73_attenuators : add nat nat nat Nat.eqb Nat.eqb (att 1) (att 2) = Err AttributeError.
Proof. reflexivity. Qed.
