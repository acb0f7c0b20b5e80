(** C61: sums of PolyExpAnsatz (polyexp_ansatz.py, __add__; base.py, __sub__), over the same numbers as PolyExp.v. *)
From Coq Require Import List Arith Lia Field Ring Permutation Bool.
From Verif Require Import Base RootField Tensor Series Vanilla VanillaProps HermAlg PolyExp PolyExpOps.
Import ListNotations.

Section Model.
  Context {K : rootfield}.
  Open Scope rf_scope.
  (** a numpy array: its shape and its entries *)
  Definition nda := (list nat * (list nat -> K))%type.
  (** math.expand_dims(x, axis=0) *)
  Definition expand0 (x : nda) : nda := (1 :: fst x, fun k => snd x (tl k)).
  (** backend_numpy.py:86-87: np.array(x, ndmin=n) puts new axes in front *)
  Definition atleast (n : nat) (x : nda) : nda := (repeat 1 (n - length (fst x))%nat ++ fst x, fun k => snd x (skipn (n - length (fst x))%nat k)).
  Fixpoint inside (k sh : list nat) : bool := match k, sh with [], [] => true | i :: k', d :: sh' => (i <? d) && inside k' sh' | _, _ => false end.
  (** np.pad with zeros at the end of the axes, to the shape sh *)
  Definition padded (x : nda) (sh : list nat) : nda := (sh, fun k => if inside k (fst x) then snd x k else k0).
  (** polyexp_ansatz.py:861-877: zip stops at the shorter shape; np.pad raises unless there is one pair of widths per axis (or a single pair);
      concatenation raises unless the other axes agree *)
  Definition pad_and_combine (x y : nda) : result nda :=
    let m := map (fun '(a, b) => Nat.max a b) (combine (tl (fst x)) (tl (fst y))) in
    if negb (Nat.eqb (length (tl (fst x))) (length (tl (fst y)))) then Err ValueError else
    let x' := padded x (hd 0 (fst x) :: m) in let y' := padded y (hd 0 (fst y) :: m) in
    Ok ((hd 0 (fst x) + hd 0 (fst y))%nat :: m, fun k => if hd 0 k <? hd 0 (fst x) then snd x' k else snd y' ((hd 0 k - hd 0 (fst x))%nat :: tl k)).
  (** the three arrays of an ansatz, with a new first axis unless there is exactly one batch dimension (polyexp_ansatz.py:854-859) *)
  Definition arrA (F : ansatz K) : nda :=
    let x := (bsh F ++ [nvar F; nvar F], fun k => let q := length (bsh F) in aA F (firstn q k) (nth q k 0) (nth (S q) k 0)) in if Nat.eqb (length (bsh F)) 1 then x else expand0 x.
  Definition arrb (F : ansatz K) : nda :=
    let x := (bsh F ++ [nvar F], fun k => let q := length (bsh F) in ab F (firstn q k) (nth q k 0)) in if Nat.eqb (length (bsh F)) 1 then x else expand0 x.
  Definition arrc (F : ansatz K) : nda := let x := (csh F, ac F) in if Nat.eqb (length (bsh F)) 1 then x else expand0 x.
  (** polyexp_ansatz.py:836-892 *)
  Definition add (F G : ansatz K) : result (ansatz K) :=
    if negb (Nat.eqb (ncv F) (ncv G)) then Err ValueError else
    if (negb (Nat.eqb (length (bsh F)) 0) && negb (lin F)) || (negb (Nat.eqb (length (bsh G)) 0) && negb (lin G)) then Err ValueError else
    let n := Nat.max (nder F) (nder G) in
    bind (pad_and_combine (arrA F) (arrA G)) (fun A =>
    bind (pad_and_combine (arrb F) (arrb G)) (fun b =>
    bind (pad_and_combine (atleast (n + 1)%nat (arrc F)) (atleast (n + 1)%nat (arrc G))) (fun c =>
    make (An (removelast (removelast (fst A))) (last (fst A) 0) (fun k i j => snd A (k ++ [i; j])) (fun k i => snd b (k ++ [i])) (fst c) (snd c) true)))).
  (** base.py:275-283 *)
  Definition sub (F G : ansatz K) : result (ansatz K) := bind (neg G) (fun G' => add F G').
End Model.

Section Props.
  Context {K : rootfield}.
  Add Field Kfield : (kft K).
  Open Scope rf_scope.
  Variable ex : K -> K.

  (** Specification: an ansatz that represents one function: no batch but the terms of a superposition *)
  Definition single (F : ansatz K) : Prop := valid F /\ outer F = [] /\ (lin F = false -> bsh F = []).
  Definition terms (F : ansatz K) : nat := if lin F then last (bsh F) 0 else 1.
  Definition key (F : ansatz K) (s : nat) : list nat := if lin F then [s] else [].
  Lemma single_cases : forall F, single F -> (lin F = true /\ bsh F = [terms F]) \/ (lin F = false /\ bsh F = []).
  Proof.
    intros F (V & O & B). unfold outer, terms in *. destruct (lin F) eqn:L; [left|right; auto]. split; [reflexivity|].
    destruct V as (_ & _ & _ & Hl & _). rewrite (app_removelast_last 0 (Hl L)) at 1. now rewrite O.
  Qed.
  Definition tfn (F : ansatz K) (s : nat) (z : list K) : K := fn ex (ncv F) (dsh F) (aA F (key F s)) (ab F (key F s)) (fun d => ac F (key F s ++ d)) z.
  Lemma denote_sum : forall F z, single F -> denote ex F [] z = sumn (terms F) (fun s => tfn F s z).
  Proof.
    intros F z S1. destruct (single_cases F S1) as [[L B]|[L B]]; unfold denote, tfn, terms, key; rewrite L; cbn [app].
    - reflexivity.
    - cbn [sumn]. ring.
  Qed.
  Lemma csh_single : forall F, single F -> csh F = (if lin F then [terms F] else []) ++ dsh F.
  Proof. intros F S1. pose proof S1 as ((Hc & _) & _ & _). rewrite Hc. destruct (single_cases F S1) as [[L B]|[L B]]; rewrite L, B; reflexivity. Qed.

  (** the arrays, with the axis of the terms in front *)
  Lemma arr_single : forall F, single F ->
    arrA F = (terms F :: [nvar F; nvar F], snd (arrA F)) /\ arrb F = (terms F :: [nvar F], snd (arrb F)) /\ arrc F = (terms F :: dsh F, snd (arrc F)) /\
    (forall s i j, snd (arrA F) [s; i; j] = aA F (key F s) i j) /\ (forall s i, snd (arrb F) [s; i] = ab F (key F s) i) /\ (forall s d, snd (arrc F) (s :: d) = ac F (key F s ++ d)).
  Proof.
    intros F S1. pose proof (csh_single F S1) as Hc. destruct (single_cases F S1) as [[L B]|[L B]]; unfold arrA, arrb, arrc, key in *; rewrite Hc, B, L; unfold terms; rewrite L; cbn; auto 10.
  Qed.

  Lemma inside_in : forall k sh, inside k sh = true <-> In k (box sh).
  Proof.
    intros k sh. rewrite in_box. revert sh. induction k as [|i k IH]; intros [|d sh]; cbn [inside]; split; intros H; try discriminate; try (now inversion H); auto.
    - apply andb_true_iff in H. destruct H as [H1 H2]. constructor; [now apply Nat.ltb_lt|now apply IH].
    - inversion H; subst. apply andb_true_iff. split; [now apply Nat.ltb_lt|now apply IH].
  Qed.
  (** a sum over a larger box of a function which vanishes outside the smaller one *)
  Lemma lsum_grow : forall ds ds' (f : list nat -> K), Forall2 le ds ds' -> lsum (box ds') (fun d => if inside d ds then f d else k0) = lsum (box ds) f.
  Proof.
    intros ds ds' f H. revert f. induction H as [|d d' ds ds' Hd H IH]; intros f.
    - cbn [box]. rewrite !lsum_cons, !lsum_nil. reflexivity.
    - rewrite !lsum_box_cons, !lsum_seq0. replace d' with (d + (d' - d))%nat by lia. rewrite sumn_plus. rewrite (sumn_0 (d' - d)).
      + rewrite (sumn_ext d _ (fun i => lsum (box ds) (fun k => f (i :: k)))); [ring|]. intros i Hi. rewrite <- (IH (fun k => f (i :: k))). apply lsum_ext. intros k _. cbn [inside].
        apply Nat.ltb_lt in Hi. now rewrite Hi.
      + intros i Hi. apply lsum_zero. intros k _. cbn [inside]. assert (E : (d + i <? d)%nat = false) by (apply Nat.ltb_ge; lia). now rewrite E.
  Qed.
  Lemma derivative_ext : forall m A A' b b' d, length d = m -> symmetric m A -> (forall i j, i < m -> j < m -> A i j = A' i j) -> (forall i, i < m -> b i = b' i) ->
    derivative m A b d = derivative m A' b' d :> K.
  Proof.
    intros m A A' b b' d Ld Hs HA Hb. pose proof (amp_ext m A A' b b' k1 d) as E. unfold amp, derivative in *. 
    transitivity (k1 * sqf d * expq m A b d); [ring|]. rewrite E; auto. ring.
  Qed.
  Lemma Forall2_length : forall {X Y} (P : X -> Y -> Prop) l m, Forall2 P l m -> length l = length m.
  Proof. intros X Y P l m H. induction H; cbn [length]; congruence. Qed.
  Lemma fn_grow : forall n ds ds' A A' b b' c c' z, Forall2 le ds ds' -> symmetric (n + length ds) A ->
    (forall i j, i < n + length ds -> j < n + length ds -> A' i j = A i j) -> (forall i, i < n + length ds -> b' i = b i) ->
    (forall d, In d (box ds') -> c' d = if inside d ds then c d else k0) -> fn ex n ds' A' b' c' z = fn ex n ds A b c z.
  Proof.
    intros n ds ds' A A' b b' c c' z HF HS HA Hb Hc. unfold fn. cbv zeta. rewrite <- (Forall2_length _ _ _ HF). f_equal.
    - f_equal. f_equal; [f_equal; apply sumn_ext; intros i Hi; apply sumn_ext; intros j Hj; rewrite HA by lia; reflexivity|apply sumn_ext; intros i Hi; rewrite Hb by lia; reflexivity].
    - rewrite <- (lsum_grow ds ds'); auto. apply lsum_ext. intros d Hd. rewrite (Hc d Hd). destruct (inside d ds) eqn:E; [|ring]. f_equal.
      apply inside_in, box_length_in in E. symmetry. apply derivative_ext; auto.
      + intros i j Hi Hj. apply HS; lia.
      + intros i j Hi Hj. symmetry. apply HA; lia.
      + intros i Hi. rewrite Hb by lia. f_equal. apply sumn_ext. intros a Ha. rewrite HA by lia. reflexivity.
  Qed.
  Lemma box_ones : forall m, box (repeat 1 m) = [zeros m].
  Proof. induction m as [|m IH]; [reflexivity|]. cbn [repeat box]. rewrite IH. reflexivity. Qed.
  Lemma fn_const : forall n ds' A A' b b' c c' z, Forall (fun d => 0 < d) ds' ->
    (forall i j, i < n -> j < n -> A' i j = A i j) -> (forall i, i < n -> b' i = b i) ->
    (forall d, In d (box ds') -> c' d = if inside d (repeat 1 (length ds')) then c [] else k0) -> fn ex n ds' A' b' c' z = fn ex n [] A b c z.
  Proof.
    intros n ds' A A' b b' c c' z HP HA Hb Hc. unfold fn. cbv zeta. f_equal.
    - f_equal. f_equal; [f_equal; apply sumn_ext; intros i Hi; apply sumn_ext; intros j Hj; rewrite HA by lia; reflexivity|apply sumn_ext; intros i Hi; rewrite Hb by lia; reflexivity].
    - transitivity (lsum (box (repeat 1 (length ds'))) (fun d => c [] * derivative (length ds') (fun i j => A' (n + i)%nat (n + j)%nat) (fun i => b' (n + i)%nat + sumn n (fun a => A' a (n + i)%nat * nth a z k0)) d)).
      + rewrite <- (lsum_grow (repeat 1 (length ds')) ds').
        * apply lsum_ext. intros d Hd. rewrite (Hc d Hd). destruct (inside _ _); [reflexivity|ring].
        * clear -HP. induction HP; cbn [length repeat]; constructor; auto; lia.
      + rewrite box_ones. cbn [box]. rewrite !lsum_cons, !lsum_nil. unfold derivative. rewrite sqf_zeros, expq_zero. cbn [length]. rewrite (expq_zero 0). cbn [sqf]. ring.
  Qed.

  (** the coefficients of F once the array has n derived axes: shape dF, and the term s is unchanged by padding *)
  Definition fits (F : ansatz K) (n : nat) (dF : list nat) : Prop :=
    fst (atleast (n + 1)%nat (arrc F)) = terms F :: dF /\ length dF = n /\ Forall (fun d => 0 < d) dF /\
    forall s ds' A' b' c' z, s < terms F -> Forall2 le dF ds' ->
      (forall i j, i < nvar F -> j < nvar F -> A' i j = aA F (key F s) i j) -> (forall i, i < nvar F -> b' i = ab F (key F s) i) ->
      (forall d, In d (box ds') -> c' d = if inside d dF then snd (atleast (n + 1)%nat (arrc F)) (s :: d) else k0) -> fn ex (ncv F) ds' A' b' c' z = tfn F s z.
  Lemma nvar_eq : forall F : ansatz K, valid F -> nvar F = (ncv F + nder F)%nat.
  Proof. intros F (_ & H & _). unfold ncv. lia. Qed.
  Lemma key_in : forall F s, single F -> s < terms F -> In (key F s) (box (bsh F)).
  Proof.
    intros F s S1 Hs. unfold key. destruct (single_cases F S1) as [[L B]|[L B]]; rewrite L, B; apply in_box; repeat constructor. exact Hs.
  Qed.
  Lemma fits_same : forall F, single F -> fits F (nder F) (dsh F).
  Proof.
    intros F S1. pose proof S1 as (V & _ & _). destruct (arr_single F S1) as (_ & _ & H3 & _ & _ & H6). pose proof (nvar_eq F V) as Hv.
    assert (Z : (nder F + 1 - length (fst (arrc F)) = 0)%nat) by (rewrite H3; cbn [fst length]; unfold nder; lia).
    unfold fits, atleast. rewrite Z. cbn [fst snd repeat app skipn]. rewrite H3 at 1. cbn [fst]. split; [reflexivity|]. split; [reflexivity|]. split; [apply V|].
    intros s ds' A' b' c' z Hs HF HA Hb Hc. unfold tfn. unfold nder in Hv. apply fn_grow; auto.
    - rewrite <- Hv. apply V. now apply key_in.
    - rewrite <- Hv. exact HA.
    - rewrite <- Hv. exact Hb.
    - intros d Hd. rewrite (Hc d Hd). now rewrite H6.
  Qed.
  Lemma repeat_snoc : forall n (x : nat), repeat x n ++ [x] = x :: repeat x n.
  Proof. intros n x. induction n as [|n IH]; [reflexivity|]. cbn [repeat app]. now rewrite IH. Qed.
  Lemma fits_one : forall F n, single F -> nder F = 0 -> terms F = 1 -> fits F n (repeat 1 n).
  Proof.
    intros F n S1 D1 T1. pose proof S1 as (V & _ & _). destruct (arr_single F S1) as (_ & _ & H3 & _ & _ & H6). pose proof (nvar_eq F V) as Hv. rewrite D1, Nat.add_0_r in Hv.
    assert (E0 : dsh F = []) by (unfold nder in D1; destruct (dsh F); [reflexivity|discriminate]).
    assert (Z : (n + 1 - length (fst (arrc F)) = n)%nat) by (rewrite H3, E0; cbn [fst length]; lia).
    unfold fits, atleast. rewrite Z. cbn [fst snd]. rewrite H3 at 1. cbn [fst]. rewrite E0, T1. split; [apply repeat_snoc|]. split; [apply repeat_length|].
    split; [apply Forall_forall; intros x Hx; apply repeat_spec in Hx; lia|].
    intros s ds' A' b' c' z Hs HF HA Hb Hc. unfold tfn. rewrite E0. pose proof (Forall2_length _ _ _ HF) as L. rewrite repeat_length in L. assert (s = 0) by lia. subst s. apply fn_const.
    - assert (G : forall k ds, Forall2 le (repeat 1 k) ds -> Forall (fun d => 0 < d) ds).
      { induction k as [|k IH]; intros ds H; inversion H; subst; constructor; eauto. }
      now apply (G n).
    - rewrite <- Hv. exact HA.
    - rewrite <- Hv. exact Hb.
    - intros d Hd. rewrite (Hc d Hd), <- L. destruct (inside d (repeat 1 n)) eqn:E; [|reflexivity].
      apply inside_in in E. rewrite box_ones in E. destruct E as [<-|[]]. 
      replace (skipn n (0 :: zeros n)) with [0]; [apply H6|]. clear. unfold zeros. induction n as [|n IH]; [reflexivity|]. exact IH.
  Qed.

  (** C61, the sum: one function on each side, the same number of variables, and either the same number of derived variables or one side
      a single term without derived variables *)
  Theorem C61_add : forall F G, single F -> single G -> ncv F = ncv G ->
    nder F = nder G \/ (nder F = 0 /\ terms F = 1) \/ (nder G = 0 /\ terms G = 1) ->
    exists H, add F G = Ok H /\ single H /\ ncv H = ncv F /\ lin H = true /\ terms H = (terms F + terms G)%nat /\
      forall z, denote ex H [] z = denote ex F [] z + denote ex G [] z.
  Proof.
    intros F G S1 S2 En Hd. set (n := Nat.max (nder F) (nder G)).
    assert (exists dF dG, fits F n dF /\ fits G n dG) as (dF & dG & (f1 & f2 & f3 & f4) & (g1 & g2 & g3 & g4)).
    { destruct (Nat.eq_dec (nder F) (nder G)) as [E|N].
      { exists (dsh F), (dsh G). unfold n. split; [rewrite <- E, Nat.max_id|rewrite E, Nat.max_id]; now apply fits_same. }
      destruct Hd as [E|[[D0 T1]|[D0 T1]]]; [contradiction| |].
      - exists (repeat 1 n), (dsh G). split; [now apply fits_one|]. replace n with (nder G) by (unfold n; lia). now apply fits_same.
      - exists (dsh F), (repeat 1 n). split; [|now apply fits_one]. replace n with (nder F) by (unfold n; lia). now apply fits_same. }
    pose proof S1 as (V1 & _ & _). pose proof S2 as (V2 & _ & _). pose proof (nvar_eq F V1) as Hv1. pose proof (nvar_eq G V2) as Hv2.
    destruct (arr_single F S1) as (a1 & a2 & _ & a4 & a5 & _). destruct (arr_single G S2) as (b1 & b2 & _ & b4 & b5 & _).
    unfold add. rewrite En, Nat.eqb_refl. cbn [negb].
    assert (B : (negb (Nat.eqb (length (bsh F)) 0) && negb (lin F)) || (negb (Nat.eqb (length (bsh G)) 0) && negb (lin G)) = false).
    { destruct (single_cases F S1) as [[-> ->]|[-> ->]]; destruct (single_cases G S2) as [[-> ->]|[-> ->]]; reflexivity. }
    rewrite B. fold n. unfold pad_and_combine. rewrite a1, a2, b1, b2, f1, g1. cbn [fst snd tl hd length Nat.eqb negb combine map bind]. rewrite f2, g2, Nat.eqb_refl. cbn [negb bind].
    set (mx := map (fun '(a, b) => Nat.max a b) (combine dF dG)). cbn [removelast last fst snd padded hd tl app].
    assert (Lm : length mx = n) by (unfold mx; rewrite map_length, combine_length; lia).
    assert (M1 : Forall2 le dF mx).
    { unfold mx. clear -f2 g2. assert (length dF = length dG) by congruence. clear f2 g2. revert dG H. induction dF as [|x l IH]; intros [|y r] H; try discriminate; cbn [combine map]; constructor; [lia|apply IH; now injection H]. }
    assert (M2 : Forall2 le dG mx).
    { unfold mx. clear -f2 g2. assert (length dF = length dG) by congruence. clear f2 g2. revert dG H. induction dF as [|x l IH]; intros [|y r] H; try discriminate; cbn [combine map]; constructor; [lia|apply IH; now injection H]. }
    assert (Pm : Forall (fun d => 0 < d) mx).
    { clear -M1 f3. induction M1; constructor; inversion f3; subst; auto; lia. }
    assert (Nv : Nat.max (nvar F) (nvar G) = (ncv F + n)%nat) by (unfold n; lia).
    match goal with |- exists H, make ?h = Ok H /\ _ => set (H := h) end.
    assert (DH : dsh H = mx) by reflexivity. assert (NH : ncv H = ncv F) by (unfold ncv at 1, nder; rewrite DH, Lm; unfold H; cbn [nvar]; lia).
    assert (TH : terms H = (terms F + terms G)%nat) by reflexivity.
    exists H. split; [apply make_ok; reflexivity|].
    assert (SH : single H).
    { split; [|split; [reflexivity|discriminate]]. split; [reflexivity|]. split; [unfold nder; rewrite DH, Lm; unfold H; cbn [nvar]; lia|]. split; [rewrite DH; exact Pm|]. split; [discriminate|].
      intros k Hk i j Hi Hj. unfold H in Hk; cbn [bsh removelast] in Hk. apply in_box in Hk. inversion Hk as [|s ? t ? Hs Ht]; subst. inversion Ht; subst. cbn [H aA app hd tl inside].
      destruct (s <? terms F) eqn:Es.
      - rewrite !a4. apply Nat.ltb_lt in Es. destruct (i <? nvar F) eqn:Ei; destruct (j <? nvar F) eqn:Ej; cbn [andb]; auto. apply Nat.ltb_lt in Ei, Ej. apply V1; auto. now apply key_in.
      - rewrite !b4. apply Nat.ltb_ge in Es. assert (Et : (s - terms F <? terms G)%nat = true) by (apply Nat.ltb_lt; lia). rewrite Et. cbn [andb].
        destruct (i <? nvar G) eqn:Ei; destruct (j <? nvar G) eqn:Ej; cbn [andb]; auto. apply Nat.ltb_lt in Ei, Ej. apply V2; auto. apply key_in; auto. lia. }
    split; [exact SH|]. split; [congruence|]. split; [reflexivity|]. split; [exact TH|].
    intros z. rewrite !denote_sum by assumption. rewrite TH, sumn_plus. f_equal; apply sumn_ext; intros s Hs.
    - unfold tfn at 1. rewrite NH, DH. apply f4; auto; change (key H s) with [s]; unfold H; cbn [aA ab ac app hd tl inside]; pose proof Hs as Hs'; apply Nat.ltb_lt in Hs'; rewrite Hs'; cbn [andb].
      + intros i j Hi Hj. rewrite a4. apply Nat.ltb_lt in Hi, Hj. now rewrite Hi, Hj.
      + intros i Hi. rewrite a5. apply Nat.ltb_lt in Hi. now rewrite Hi.
      + intros d _. rewrite f1, Hs'. reflexivity.
    - unfold tfn at 1. rewrite NH, DH, En. change (key H (terms F + s)%nat) with [(terms F + s)%nat]. apply g4; auto; unfold H; cbn [aA ab ac app hd tl inside];
      assert (E1 : (terms F + s <? terms F)%nat = false) by (apply Nat.ltb_ge; lia); rewrite E1; replace (terms F + s - terms F)%nat with s by lia; pose proof Hs as Hs'; apply Nat.ltb_lt in Hs'; try rewrite Hs'; cbn [andb].
      + intros i j Hi Hj. rewrite b4. apply Nat.ltb_lt in Hi, Hj. now rewrite Hi, Hj.
      + intros i Hi. rewrite b5. apply Nat.ltb_lt in Hi. now rewrite Hi.
      + intros d _. rewrite g1, Hs'. reflexivity.
  Qed.

  (** C61, the guards *)
  Theorem C61_add_guards : forall F G : ansatz K, ncv F <> ncv G \/ (bsh F <> [] /\ lin F = false) \/ (bsh G <> [] /\ lin G = false) -> add F G = Err ValueError.
  Proof.
    intros F G H. unfold add. destruct (Nat.eqb_spec (ncv F) (ncv G)) as [E|N]; [|reflexivity]. cbn [negb]. destruct H as [H|[[H1 H2]|[H1 H2]]]; [contradiction| |].
    - rewrite H2. destruct (bsh F); [congruence|reflexivity].
    - rewrite H2. destruct (bsh G); [congruence|]. cbn [length Nat.eqb negb andb]. now rewrite orb_true_r.
  Qed.
  (** C61: when the numbers of derived variables differ and the side with fewer has several terms, the sum is refused *)
  Theorem C61_add_rejected : forall F G, single F -> single G -> ncv F = ncv G -> (nder F < nder G /\ terms F <> 1) \/ (nder G < nder F /\ terms G <> 1) ->
    add F G = Err ValueError.
  Proof.
    intros F G S1 S2 En Hd. unfold add. rewrite En, Nat.eqb_refl. cbn [negb].
    assert (B : (negb (Nat.eqb (length (bsh F)) 0) && negb (lin F)) || (negb (Nat.eqb (length (bsh G)) 0) && negb (lin G)) = false).
    { destruct (single_cases F S1) as [[-> ->]|[-> ->]]; destruct (single_cases G S2) as [[-> ->]|[-> ->]]; reflexivity. }
    rewrite B. destruct (arr_single F S1) as (a1 & a2 & a3 & _). destruct (arr_single G S2) as (b1 & b2 & b3 & _).
    unfold pad_and_combine. rewrite a1, a2, b1, b2. cbn [fst snd tl hd length Nat.eqb negb combine map bind].
    match goal with |- bind (if ?q then _ else _) _ = _ => destruct q; [reflexivity|] end. cbn [bind removelast last fst snd].
    unfold make. cbn [csh bsh length firstn fst].
    assert (HF : hd 0 (fst (atleast (Nat.max (nder F) (nder G) + 1)%nat (arrc F))) = if nder F <? nder G then 1 else terms F).
    { unfold atleast. rewrite a3. cbn [fst length]. fold (nder F). destruct (Nat.ltb_spec (nder F) (nder G)).
      - replace (Nat.max (nder F) (nder G) + 1 - S (nder F))%nat with (S (nder G - nder F - 1)) by lia. reflexivity.
      - replace (Nat.max (nder F) (nder G) + 1 - S (nder F))%nat with 0 by lia. reflexivity. }
    assert (HG : hd 0 (fst (atleast (Nat.max (nder F) (nder G) + 1)%nat (arrc G))) = if nder G <? nder F then 1 else terms G).
    { unfold atleast. rewrite b3. cbn [fst length]. fold (nder G). destruct (Nat.ltb_spec (nder G) (nder F)).
      - replace (Nat.max (nder F) (nder G) + 1 - S (nder G))%nat with (S (nder F - nder G - 1)) by lia. reflexivity.
      - replace (Nat.max (nder F) (nder G) + 1 - S (nder G))%nat with 0 by lia. reflexivity. }
    rewrite HF, HG. destruct (list_eq_dec Nat.eq_dec _ _) as [E|_]; [|reflexivity]. exfalso. injection E as E. clear HF HG. destruct (Nat.ltb_spec (nder F) (nder G)); destruct (Nat.ltb_spec (nder G) (nder F)); lia.
  Qed.
  (** C61, the difference *)
  Theorem C61_sub : forall F G, single F -> single G -> ncv F = ncv G ->
    nder F = nder G \/ (nder F = 0 /\ terms F = 1) \/ (nder G = 0 /\ terms G = 1) ->
    exists H, sub F G = Ok H /\ single H /\ ncv H = ncv F /\ forall z, denote ex H [] z = denote ex F [] z - denote ex G [] z.
  Proof.
    intros F G S1 S2 En Hd. pose proof S2 as ((Hc & Hn & Hp & Hl & Hs) & O & Z).
    set (G' := An (bsh G) (nvar G) (aA G) (ab G) (csh G) (fun i => - ac G i) (lin G)).
    assert (NG : neg G = Ok G') by (apply make_ok; exact (valid_csh G Hc)).
    assert (S3 : single G') by (split; [split; [exact Hc|split; [exact Hn|split; [exact Hp|split; [exact Hl|exact Hs]]]]|split; [exact O|exact Z]]).
    destruct (C61_add F G' S1 S3 En Hd) as (H & H1 & H2 & H3 & _ & _ & H6). exists H. unfold sub. rewrite NG. cbn [bind]. split; [exact H1|]. split; [exact H2|]. split; [exact H3|].
    intros z. rewrite H6. rewrite (denote_sum G' z S3), (denote_sum G z S2). change (terms G') with (terms G).
    rewrite (sumn_ext (terms G) (fun s => tfn G' s z) (fun s => tfn G s z * - k1)).
    - rewrite sumn_scal_r. ring.
    - intros s _. unfold tfn. change (ncv G') with (ncv G). change (dsh G') with (dsh G). change (key G' s) with (key G s). apply fn_scale. intros d _. unfold G'. cbn [ac]. ring.
  Qed.

  (** ** where the sum is not a sum *)
  (** one derived variable, coefficient of the first derivative, against two derived variables *)
  Definition oneF : ansatz K := An [] 1 (fun _ _ _ => k0) (fun _ _ => k1) [2] (fun k => if list_eq_dec Nat.eq_dec k [1] then k1 else k0) false.
  Definition twoG : ansatz K := An [] 2 (fun _ _ _ => k0) (fun _ _ => k0) [1; 1] (fun _ => k0) false.
  Lemma fn_zero : forall n ds A b c z, (forall d, In d (box ds) -> c d = k0) -> fn ex n ds A b c z = k0.
  Proof. intros n ds A b c z H. unfold fn. cbv zeta. rewrite lsum_zero; [ring|]. intros d Hd. rewrite H by exact Hd. ring. Qed.
  Theorem C61_add_refuted : ex k0 = k1 -> single oneF /\ single twoG /\ ncv oneF = ncv twoG /\ terms oneF = 1 /\ nder oneF = 1 /\ nder twoG = 2 /\
    exists H, add oneF twoG = Ok H /\ ncv H = 0 /\ denote ex oneF [] [] + denote ex twoG [] [] <> k0 /\ denote ex H [] [] = k0.
  Proof.
    intros EX0.
    assert (S1 : single oneF) by (split; [split; [reflexivity|split; [cbn; lia|split; [repeat constructor|split; [discriminate|intros k _ i j _ _; reflexivity]]]]|split; reflexivity]).
    assert (S2 : single twoG) by (split; [split; [reflexivity|split; [cbn; lia|split; [repeat constructor|split; [discriminate|intros k _ i j _ _; reflexivity]]]]|split; reflexivity]).
    split; [exact S1|]. split; [exact S2|]. do 4 (split; [reflexivity|]).
    assert (Z1 : symmetric (K := K) 1 (fun _ _ => k0)) by (intros i j _ _; reflexivity). assert (Z2 : symmetric (K := K) 2 (fun _ _ => k0)) by (intros i j _ _; reflexivity).
    assert (DA : forall m A b d, derivative m A b d = amp m A b (k1 : K) d) by (intros; unfold derivative, amp; ring).
    assert (Q1 : sq 1 <> (k0 : K)) by (apply sq_neq; discriminate).
    assert (FN : forall ds A b c, (forall i j, A i j = k0) -> fn ex 0 ds A b c [] = lsum (box ds) (fun d => c d * amp (length ds) (fun _ _ => k0) b (k1 : K) d)).
    { intros ds A b c HA. unfold fn. cbv zeta. match goal with |- ex ?e * _ = _ => replace (ex e) with (k1 : K); [|rewrite <- EX0; f_equal; cbn [sumn]; ring] end. cbn [sumn].
      transitivity (lsum (box ds) (fun d => c d * derivative (length ds) (fun i j => A (0 + i)%nat (0 + j)%nat) (fun i => b (0 + i)%nat + k0) d)); [ring|].
      apply lsum_ext. intros d Hd. rewrite DA. f_equal. apply amp_ext; [intros i j _ _; now rewrite !HA|now apply box_length_in|intros i j _ _; apply HA|]. intros i _. cbn [Nat.add]. ring. }
    assert (A0 : forall b, amp 1 (fun _ _ => k0) b (k1 : K) [0] = k1) by (intros b; apply (amp_zero 1)).
    assert (A1 : forall b, amp 1 (fun _ _ => k0) b (k1 : K) [1] = b 0 / sq 1) by (intros b; rewrite (amp_step 1 _ _ Z1 k1 0 [1]) by (unfold at'; simpl; lia); unfold dec, at'; cbn [upd nth pred sumn]; rewrite A0; field; exact Q1).
    assert (A2 : forall b, b 1 = k0 -> amp 2 (fun _ _ => k0) b (k1 : K) [0; 1] = k0).
    { intros b Hb. rewrite (amp_step 2 _ _ Z2 k1 1 [0; 1]) by (unfold at'; simpl; lia). unfold dec, at'. cbn [upd nth pred sumn]. rewrite Hb. field. exact Q1. }
    destruct (add oneF twoG) as [H|] eqn:EA; [|discriminate]. exists H. split; [reflexivity|]. injection EA as <-. split; [reflexivity|]. split.
    - unfold denote, oneF, twoG. cbn [lin]. change (ncv _) with 0 at 1. match goal with |- fn ex 0 ?d1 _ _ _ _ + fn ex _ ?d2 _ _ _ _ <> _ => change d1 with [2]; change d2 with [1; 1] end.
      rewrite (fn_zero _ [1; 1]) by reflexivity. rewrite FN by reflexivity. cbn [box seq flat_map map app length]. rewrite !lsum_cons, lsum_nil. cbn [ac app ab]. rewrite A0, A1. cbn.
      intros E. apply (F_1_neq_0 (kft K)). transitivity (sq 1 * (k0 * k1 + (k1 * (k1 / sq 1) + k0) + k0) : K); [field; exact Q1|]. rewrite E. ring.
    - match goal with |- denote ex ?h _ _ = _ => set (H := h) end. unfold denote. change (lin H) with true. change (last (bsh H) 0) with 2. change (dsh H) with [1; 2]. change (ncv H) with 0. cbn [sumn app].
      assert (AZ : forall s i j, aA H [s] i j = k0) by (intros s i j; cbn; repeat match goal with |- context [if ?b then _ else _] => destruct b end; reflexivity).
      rewrite !FN by (intros i j; apply AZ). change (box [1; 2]) with [[0; 0]; [0; 1]]. rewrite !lsum_cons, !lsum_nil. cbn [length].
      assert (C0 : ac H [0; 0; 0] = k0) by (cbn; reflexivity). assert (C1 : ac H [1; 0; 0] = k0) by (cbn; reflexivity). assert (C2 : ac H [1; 0; 1] = k0) by (cbn; reflexivity).
      rewrite C0, C1, C2, A2; [ring|]. reflexivity.
  Qed.
  (** two superpositions with a batch dimension: the result has a new batch dimension and is not a sum *)
  Definition batF : ansatz K := An [1; 1] 0 (fun _ _ _ => k0) (fun _ _ => k0) [1; 1] (fun _ => k1) true.
  Theorem C61_add_batch_refuted : valid batF /\ outer batF = [1] /\ exists H, add batF batF = Ok H /\ outer H = [2; 1].
  Proof.
    split; [split; [reflexivity|split; [cbn; lia|split; [constructor|split; [discriminate|intros k _ i j _ _; reflexivity]]]]|].
    split; [reflexivity|]. eexists. split; reflexivity.
  Qed.
End Props.

(** a concrete case: two terms with one derived variable each, of different degrees *)
From Coq Require Import Reals.
From Coquelicot Require Import Complex.
From Verif Require Import ComplexRF CExp.
Definition sumF : ansatz CF := An (K := CF) [2] 3 (fun _ i j => if Nat.eqb i j then RtoC 0 else RtoC 1) (fun k i => RtoC (INR (i + hd 0 k))) [2; 3] (fun k => RtoC (INR (list_sum k))) true.
Definition sumG : ansatz CF := An (K := CF) [] 3 (fun _ i j => if Nat.eqb i j then RtoC 1 else RtoC 0) (fun _ i => RtoC (INR i)) [5] (fun k => RtoC (INR (list_sum k))) false.
Theorem C61_add_example : single sumF /\ single sumG /\ ncv sumF = 2 /\ ncv sumG = 2 /\ nder sumF = 1 /\ nder sumG = 1 /\
  exists H, add sumF sumG = Ok H /\ csh H = [3; 5] /\ forall z, denote (K := CF) Cexp H [] z = Cplus (denote (K := CF) Cexp sumF [] z) (denote (K := CF) Cexp sumG [] z).
Proof.
  assert (S1 : single sumF) by (split; [split; [reflexivity|split; [cbn; lia|split; [repeat constructor|split; [discriminate|intros k _ i j _ _; cbn; now rewrite Nat.eqb_sym]]]]|split; [reflexivity|discriminate]]).
  assert (S2 : single sumG) by (split; [split; [reflexivity|split; [cbn; lia|split; [repeat constructor|split; [discriminate|intros k _ i j _ _; cbn; now rewrite Nat.eqb_sym]]]]|split; reflexivity]).
  split; [exact S1|]. split; [exact S2|]. do 4 (split; [reflexivity|]).
  destruct (C61_add (K := CF) Cexp sumF sumG S1 S2 eq_refl (or_introl eq_refl)) as (H & H1 & _ & _ & _ & _ & H6). exists H. split; [exact H1|]. split; [injection H1 as <-; reflexivity|exact H6].
Qed.
Print Assumptions C61_add.
Print Assumptions C61_add_refuted.
Print Assumptions C61_add_example.
