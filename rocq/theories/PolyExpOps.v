(** C57: operations on one PolyExpAnsatz (polyexp_ansatz.py): reorder, multiplication by a number, negation, conjugation,
    the scalar part, decompose_ansatz.  Same numbers and simplifications as PolyExp.v. *)
From Coq Require Import List Arith Lia Field Ring Permutation Bool.
From Verif Require Import Base RootField Tensor Series Vanilla VanillaProps HermAlg PolyExp.
Import ListNotations.

Section Model.
  Context {K : rootfield}.
  Open Scope rf_scope.
  Variable ex : K -> K.
  (** polyexp_ansatz.py:521-535 reorder *)
  Definition reorder (F : ansatz K) (order : list nat) : result (ansatz K) :=
    if negb (Nat.eqb (length order) (ncv F)) then Err ValueError else
    let o := order ++ seq (ncv F) (nder F) in
    if existsb (fun i => nvar F <=? i) o then Err IndexError else
    let ix i := nth i o 0 in
    make (An (bsh F) (length o) (fun k i j => aA F k (ix i) (ix j)) (fun k i => ab F k (ix i)) (csh F) (ac F) (lin F)).
  (** polyexp_ansatz.py:986-991 __mul__ by a number, 1034-1040 __truediv__, 998-999 __neg__ *)
  Definition mul (F : ansatz K) (s : K) : result (ansatz K) := make (An (bsh F) (nvar F) (aA F) (ab F) (csh F) (fun i => ac F i * s) (lin F)).
  Definition truediv (F : ansatz K) (s : K) : result (ansatz K) := make (An (bsh F) (nvar F) (aA F) (ab F) (csh F) (fun i => ac F i / s) (lin F)).
  Definition neg (F : ansatz K) : result (ansatz K) := make (An (bsh F) (nvar F) (aA F) (ab F) (csh F) (fun i => - ac F i) (lin F)).
  (** polyexp_ansatz.py:167-174 conj; [cj] is complex conjugation *)
  Definition conj_ (cj : K -> K) (F : ansatz K) : result (ansatz K) :=
    make (An (bsh F) (nvar F) (fun k i j => cj (aA F k i j)) (fun k i => cj (ab F k i)) (csh F) (fun i => cj (ac F i)) (lin F)).
  (** polyexp_ansatz.py:247-258 scalar *)
  Definition scalar (F : ansatz K) : result (outcome K) :=
    if Nat.eqb (ncv F) 0 && Nat.eqb (nder F) 0 then
      Ok (if lin F then Val (removelast (csh F)) (fun k => sumn (last (csh F) 0) (fun s => ac F (k ++ [s]))) else Val (csh F) (ac F))
    else if Nat.eqb (ncv F) 0 then call ex F [] else call ex F (repeat (Some k0) (ncv F)).
  (** polyexp_ansatz.py:415-469 decompose_ansatz *)
  Definition decompose (F : ansatz K) : result (ansatz K) :=
    if nder F <? ncv F then Ok F else
    let n := ncv F in
    let pulled := repeat (list_sum (dsh F)) n in
    let poly_shape := pulled ++ dsh F in
    let A_core k i j := if i <? n then (if j <? n then k0 else aA F k i j) else aA F k i j in
    let b_core k i := if i <? n then k0 else ab F k i in
    let poly_core k := hermite poly_shape (A_core k) (b_core k) in
    make (An (bsh F) (n + n)
      (fun k i j => if i <? n then (if j <? n then aA F k i j else if Nat.eqb i (j - n) then k1 else k0) else (if j <? n then (if Nat.eqb (i - n) j then k1 else k0) else k0))
      (fun k i => if i <? n then ab F k i else k0)
      (bsh F ++ pulled)
      (fun kl => let k := firstn (length (bsh F)) kl in let l := skipn (length (bsh F)) kl in
        lsum (box (dsh F)) (fun d => entry poly_shape (poly_core k) (l ++ d) * cval F k d))
      (lin F)).
End Model.

Section Props.
  Context {K : rootfield}.
  Add Field Kfield : (kft K).
  Open Scope rf_scope.
  Variable ex : K -> K.

  Lemma make_ok : forall F : ansatz K, firstn (length (bsh F)) (csh F) = bsh F -> make F = Ok F.
  Proof. intros F H. unfold make. destruct (list_eq_dec Nat.eq_dec _ _) as [_|N]; [|contradiction]. now rewrite orb_true_r. Qed.
  Lemma valid_csh : forall F : ansatz K, csh F = bsh F ++ dsh F -> firstn (length (bsh F)) (csh F) = bsh F.
  Proof. intros F H. rewrite H, firstn_app, Nat.sub_diag, firstn_all. cbn [firstn]. now rewrite app_nil_r. Qed.
  Lemma cval_ac : forall (F : ansatz K) k d, csh F = bsh F ++ dsh F -> In k (box (bsh F)) -> length d = nder F -> cval F k d = ac F (k ++ d).
  Proof.
    intros F k d Hc Hk Ld. unfold cval. destruct (csh F) eqn:E; [|reflexivity]. symmetry in Hc. apply app_eq_nil in Hc. destruct Hc as [Hb Hd].
    unfold nder in Ld. rewrite Hd in Ld. rewrite Hb in Hk. cbn [box] in Hk. destruct Hk as [<-|[]]. destruct d; [reflexivity|discriminate].
  Qed.
  (** two ansatze with the same batch whose terms represent proportional functions *)
  Lemma denote_terms : forall F G z z' (s : K), valid F -> bsh G = bsh F -> lin G = lin F ->
    (forall kk, In kk (box (bsh F)) -> fn ex (ncv G) (dsh G) (aA G kk) (ab G kk) (fun d => ac G (kk ++ d)) z' = fn ex (ncv F) (dsh F) (aA F kk) (ab F kk) (fun d => ac F (kk ++ d)) z * s) ->
    forall k, In k (box (outer F)) -> denote ex G k z' = denote ex F k z * s.
  Proof.
    intros F G z z' s (_ & _ & _ & Hl & _) Hb Hl' H k Hk. unfold denote. rewrite Hb, Hl'. unfold outer in Hk. destruct (lin F) eqn:L.
    - rewrite <- sumn_scal_r. apply sumn_ext. intros t Ht. assert (Hkk : In (k ++ [t]) (box (bsh F))) by (rewrite (app_removelast_last 0 (Hl eq_refl)); now apply box_snoc).
      pose proof (H _ Hkk) as M. unfold fn in M |- *. cbv zeta in M |- *.
      rewrite (lsum_ext (box (dsh G)) _ (fun d => ac G ((k ++ [t]) ++ d) * derivative (length (dsh G)) (fun i j => aA G (k ++ [t]) (ncv G + i)%nat (ncv G + j)%nat)
          (fun i => ab G (k ++ [t]) (ncv G + i)%nat + sumn (ncv G) (fun a => aA G (k ++ [t]) a (ncv G + i)%nat * nth a z' k0)) d)) by (intros d _; now rewrite <- app_assoc).
      rewrite M. do 2 f_equal. apply lsum_ext. intros d _. now rewrite <- app_assoc.
    - now apply H.
  Qed.

  (** C57, reorder: the function with its arguments permuted *)
  Theorem C57_reorder : forall F order, valid F -> Permutation order (seq 0 (ncv F)) ->
    exists G, reorder F order = Ok G /\ valid G /\ ncv G = ncv F /\ outer G = outer F /\
      forall p k, In k (box (outer F)) -> denote ex G k (map (nthK p) order) = denote ex F k p.
  Proof.
    intros F order V P. pose proof V as (Hc & Hn & Hp & Hl & Hs).
    assert (Lo : length order = ncv F) by (rewrite (Permutation_length P); apply seq_length).
    assert (Ho : forall i, In i order -> i < ncv F) by (intros i Hi; apply (Permutation_in _ P), in_seq in Hi; lia).
    assert (Hv : nvar F = (ncv F + nder F)%nat) by (unfold ncv; lia).
    set (n := ncv F) in *. set (m := nder F) in *. set (ix := fun i => nth i (order ++ seq n m) 0).
    set (G := An (bsh F) (n + m)%nat (fun k i j => aA F k (ix i) (ix j)) (fun k i => ab F k (ix i)) (csh F) (ac F) (lin F)).
    assert (HR : reorder F order = Ok G).
    { unfold reorder. rewrite Lo. fold n m. rewrite Nat.eqb_refl. cbn [negb].
      assert (E : existsb (fun i => nvar F <=? i) (order ++ seq n m) = false).
      { apply not_true_is_false. intros H. apply existsb_exists in H. destruct H as [i [Hi Q]]. apply Nat.leb_le in Q. apply in_app_or in Hi. destruct Hi as [Hi|Hi]; [apply Ho in Hi|apply in_seq in Hi]; lia. }
      rewrite E, app_length, seq_length, Lo. apply make_ok. exact (valid_csh F Hc). }
    assert (DG : dsh G = dsh F) by reflexivity.
    assert (NG : ncv G = n) by (unfold ncv, nder; rewrite DG; unfold G, m, nder; cbn [nvar]; lia).
    assert (Ib : forall i, i < n + m -> ix i < n + m).
    { intros i Hi. assert (In (ix i) (order ++ seq n m)) by (apply nth_In; rewrite app_length, seq_length; lia). apply in_app_or in H. destruct H as [H|H]; [apply Ho in H|apply in_seq in H]; lia. }
    exists G. split; [exact HR|]. split.
    { split; [exact Hc|]. split; [unfold nder; rewrite DG; unfold G, m, nder; cbn [nvar]; lia|]. split; [exact Hp|]. split; [exact Hl|]. intros k Hk i j Hi Hj. unfold G in *. cbn [aA nvar] in *. apply Hs; auto; rewrite Hv; apply Ib; lia. }
    split; [exact NG|]. split; [reflexivity|].
    intros p k Hk. transitivity (denote ex F k p * k1); [|ring]. apply (denote_terms F G p); auto.
    intros kk Hkk. rewrite NG, DG. fold n. transitivity (fn ex n (dsh F) (aA F kk) (ab F kk) (fun d => ac F (kk ++ d)) p); [|ring].
    unfold G. cbn [aA ab ac]. unfold fn. cbv zeta. set (A := aA F kk). set (b := ab F kk). set (P' := nthK p).
    assert (Ir : forall i, i < n -> ix i = nth i order 0) by (intros i Hi; unfold ix; apply app_nth1; lia).
    assert (Id : forall i, i < m -> ix (n + i)%nat = (n + i)%nat).
    { intros i Hi. unfold ix. rewrite app_nth2 by lia. rewrite Lo. replace (n + i - n)%nat with i by lia. now rewrite seq_nth. }
    assert (LN : forall f : nat -> K -> K, sumn n (fun i => f (nth i order 0) (nth i (map P' order) k0)) = sumn n (fun i => f i (P' i))).
    { intros f. transitivity (lsum order (fun i => f i (P' i))); [unfold P'; rewrite <- (lsum_nth2 order p f), Lo; reflexivity|]. rewrite (lsum_perm _ _ _ P), lsum_seq0. reflexivity. }
    f_equal.
    - f_equal. f_equal; [f_equal|].
      + rewrite (sumn_ext n _ (fun i => (fun i v => sumn n (fun j => v * A i j * P' j)) (nth i order 0) (nth i (map P' order) k0))).
        * rewrite (LN (fun i v => sumn n (fun j => v * A i j * P' j))). reflexivity.
        * intros i Hi. cbv beta. rewrite <- (LN (fun j w => nth i (map P' order) k0 * A (nth i order 0) j * w)). apply sumn_ext. intros j Hj. now rewrite !Ir.
      + transitivity (sumn n (fun i => b i * P' i)); [|reflexivity]. rewrite <- (LN (fun i v => b i * v)). apply sumn_ext. intros i Hi. now rewrite Ir.
    - apply lsum_ext. intros d Hd. f_equal. pose proof (box_length_in _ _ Hd) as Ld.
      assert (AD : forall (A' : nat -> nat -> K) b', derivative (length (dsh F)) A' b' d = amp (length (dsh F)) A' b' k1 d) by (intros; unfold derivative, amp; ring).
      rewrite !AD. fold m in Ld. unfold m, nder in *. apply amp_ext.
      + intros i j Hi Hj. rewrite !Id by assumption. apply Hs; auto; lia.
      + exact Ld.
      + intros i j Hi Hj. now rewrite !Id.
      + intros i Hi. rewrite !Id by assumption. f_equal. transitivity (sumn n (fun a => A a (n + i)%nat * P' a)); [|reflexivity]. rewrite <- (LN (fun a v => A a (n + i)%nat * v)). apply sumn_ext. intros a Ha. now rewrite Ir.
  Qed.

  Lemma fn_scale : forall n ds A b c c' s z, (forall d, In d (box ds) -> c' d = c d * s) -> fn ex n ds A b c' z = fn ex n ds A b c z * s.
  Proof.
    intros n ds A b c c' s z H. unfold fn. cbv zeta. rewrite (lsum_ext (box ds) _ (fun d => c d * derivative (length ds) (fun i j => A (n + i)%nat (n + j)%nat) (fun i => b (n + i)%nat + sumn n (fun a => A a (n + i)%nat * nth a z k0)) d * s)).
    - rewrite lsum_scal_r. ring.
    - intros d Hd. rewrite H by exact Hd. ring.
  Qed.
  Lemma scaled : forall F s (f : K -> K), valid F -> (forall x, f x = x * s) ->
    exists G, make (An (bsh F) (nvar F) (aA F) (ab F) (csh F) (fun i => f (ac F i)) (lin F)) = Ok G /\ valid G /\ ncv G = ncv F /\ outer G = outer F /\
      forall z k, In k (box (outer F)) -> denote ex G k z = denote ex F k z * s.
  Proof.
    intros F s f V Hf. pose proof V as (Hc & Hn & Hp & Hl & Hs). eexists. split; [apply make_ok; exact (valid_csh F Hc)|].
    split; [now repeat split|]. split; [reflexivity|]. split; [reflexivity|]. intros z k Hk. apply denote_terms; auto. intros kk Hkk. apply fn_scale. intros d _. apply Hf.
  Qed.
  (** C57, multiplication and division by a number and negation act on the values *)
  Theorem C57_scale : forall F s, valid F ->
    (exists G, mul F s = Ok G /\ valid G /\ ncv G = ncv F /\ outer G = outer F /\ forall z k, In k (box (outer F)) -> denote ex G k z = denote ex F k z * s) /\
    (s <> k0 -> exists G, truediv F s = Ok G /\ valid G /\ ncv G = ncv F /\ outer G = outer F /\ forall z k, In k (box (outer F)) -> denote ex G k z * s = denote ex F k z) /\
    (exists G, neg F = Ok G /\ valid G /\ ncv G = ncv F /\ outer G = outer F /\ forall z k, In k (box (outer F)) -> denote ex G k z = - denote ex F k z).
  Proof.
    intros F s V. split; [|split].
    - now apply (scaled F s (fun x => x * s)).
    - intros N. destruct (scaled F (k1 / s) (fun x => x / s) V) as [G (H1 & H2 & H3 & H4 & H5)]; [intros; field; exact N|].
      exists G. split; [exact H1|]. split; [exact H2|]. split; [exact H3|]. split; [exact H4|]. intros z k Hk. rewrite H5 by exact Hk. field. exact N.
    - destruct (scaled F (- k1) (fun x => - x) V) as [G (H1 & H2 & H3 & H4 & H5)]; [intros; ring|].
      exists G. split; [exact H1|]. split; [exact H2|]. split; [exact H3|]. split; [exact H4|]. intros z k Hk. rewrite H5 by exact Hk. ring.
  Qed.

  (** C57, scalar: the value at the origin *)
  Theorem C57_scalar : forall F, exponential ex -> valid F -> exists v, scalar ex F = Ok (Val (outer F) v) /\ forall k, In k (box (outer F)) -> v k = denote ex F k (repeat k0 (ncv F)).
  Proof.
    intros F [E0 Ea] V. unfold scalar. destruct (Nat.eqb_spec (ncv F) 0) as [En|En]; [destruct (Nat.eqb_spec (nder F) 0) as [Ed|Ed]|]; cbn [andb].
    - pose proof V as (Hc & Hn & Hp & Hl & Hs). unfold nder in Ed. destruct (dsh F) eqn:Ds; [|discriminate]. rewrite app_nil_r in Hc.
      assert (FN : forall A b c, fn ex 0 [] A b c [] = c []).
      { intros A b c. unfold fn. cbv zeta. cbn [box sumn length]. rewrite lsum_cons, lsum_nil. unfold derivative. cbn [sqf]. rewrite (expq_zero 0). replace (half * k0 + k0) with (@k0 K) by ring. rewrite E0. ring. }
      unfold outer. unfold denote. rewrite En, Ds, Hc. destruct (lin F); eexists; (split; [reflexivity|]); intros k Hk; cbv beta; cbn [repeat].
      + apply sumn_ext. intros s _. now rewrite FN.
      + rewrite FN. now rewrite app_nil_r.
    - destruct (C56_call ex F [] V) as [v H]; [now rewrite En|]. rewrite En. exists v. exact H.
    - destruct (C56_call ex F (repeat k0 (ncv F)) V) as [v H]; [apply repeat_length|]. exists v. assert (MR : map Some (repeat (@k0 K) (ncv F)) = repeat (Some k0) (ncv F)) by (generalize (ncv F); induction n as [|n' IHn]; cbn [repeat map]; [reflexivity|now rewrite IHn]). rewrite MR in H. exact H.
  Qed.
  (** C57, conjugation: the conjugate of the function at the conjugate point; [cj] is any automorphism that fixes the roots of the naturals and commutes with [ex] *)
  Definition conjugation (cj : K -> K) : Prop :=
    (forall x y, cj (x + y) = cj x + cj y) /\ (forall x y, cj (x * y) = cj x * cj y) /\ cj k1 = k1 /\ (forall n, cj (sq n) = sq n) /\ (forall x, cj (ex x) = ex (cj x)).
  Section Conj.
    Variable cj : K -> K.
    Hypothesis HC : conjugation cj.
    Lemma cj_add : forall x y, cj (x + y) = cj x + cj y. Proof. apply HC. Qed.
    Lemma cj_mul : forall x y, cj (x * y) = cj x * cj y. Proof. apply HC. Qed.
    Lemma cj_1 : cj k1 = k1. Proof. apply HC. Qed.
    Lemma cj_sq : forall n, cj (sq n) = sq n. Proof. apply HC. Qed.
    Lemma cj_0 : cj k0 = k0.
    Proof. assert (H : cj k0 + cj k0 = cj k0) by (rewrite <- cj_add; f_equal; ring). transitivity (cj k0 + cj k0 - cj k0); [ring|]. rewrite H. ring. Qed.
    Lemma cj_sum : forall n (f : nat -> K), cj (sumn n f) = sumn n (fun i => cj (f i)).
    Proof. induction n as [|n IH]; intros f; cbn [sumn]; [apply cj_0|]. now rewrite cj_add, IH. Qed.
    Lemma cj_lsum : forall {X} (l : list X) (f : X -> K), cj (lsum l f) = lsum l (fun i => cj (f i)).
    Proof. induction l as [|x l IH]; intros f; [apply cj_0|]. rewrite !lsum_cons. now rewrite cj_add, IH. Qed.
    Lemma cj_half : cj half = half.
    Proof.
      assert (E : (half : K) * (k1 + k1) = k1) by (unfold half; field; apply two_neq).
      assert (E' : cj half * (k1 + k1) = k1).
      { transitivity (cj half * (cj k1 + cj k1)); [now rewrite cj_1|]. rewrite <- cj_add, <- cj_mul, E. apply cj_1. }
      transitivity (half * (cj half * (k1 + k1))); [|rewrite E'; ring].
      transitivity (cj half * (half * (k1 + k1))); [rewrite E; ring|ring].
    Qed.
    Lemma cj_amp : forall D (A : nat -> nat -> K) b k, symmetric D A -> length k = D -> cj (amp D A b k1 k) = amp D (fun i j => cj (A i j)) (fun i => cj (b i)) k1 k.
    Proof.
      intros D A b k S L.
      apply (amp_unique D (fun i j => cj (A i j)) (fun i => cj (b i))) with (f := fun k => cj (amp D A b k1 k)); auto.
      - intros i j Hi Hj. f_equal. now apply S.
      - rewrite amp_zero. apply cj_1.
      - intros k' i L' Hi N. cbv beta. rewrite <- (cj_sq (at' i k')), <- cj_mul, (amp_rec D A b S) by auto. rewrite cj_add, cj_mul, cj_sum. f_equal.
        apply sumn_ext. intros j _. now rewrite !cj_mul, cj_sq.
    Qed.
    Lemma nth_cj : forall z i, nth i (map cj z) k0 = cj (nth i z k0).
    Proof. intros z i. transitivity (nth i (map cj z) (cj k0)); [now rewrite cj_0|apply map_nth]. Qed.
    Lemma fn_cj : forall n ds (A : nat -> nat -> K) b c z, symmetric (n + length ds) A ->
      fn ex n ds (fun i j => cj (A i j)) (fun i => cj (b i)) (fun d => cj (c d)) (map cj z) = cj (fn ex n ds A b c z).
    Proof.
      intros n ds A b c z S. unfold fn. cbv zeta. rewrite cj_mul, cj_lsum.
      assert (CE : forall x, cj (ex x) = ex (cj x)) by apply HC. f_equal.
      - rewrite CE. f_equal. rewrite cj_add, cj_mul, cj_half, !cj_sum. f_equal; [f_equal|]; apply sumn_ext; intros i _.
        + rewrite cj_sum. apply sumn_ext. intros j _. now rewrite !cj_mul, !nth_cj.
        + now rewrite cj_mul, nth_cj.
      - apply lsum_ext. intros d Hd. pose proof (box_length_in _ _ Hd) as Ld. rewrite cj_mul. f_equal.
        assert (AD : forall (A' : nat -> nat -> K) b', derivative (length ds) A' b' d = amp (length ds) A' b' k1 d) by (intros; unfold derivative, amp; ring).
        assert (Sd : symmetric (length ds) (fun i j => A (n + i)%nat (n + j)%nat)) by (intros i j Hi Hj; apply S; lia).
        rewrite !AD, cj_amp by auto. apply amp_ext; auto; [intros i j Hi Hj; cbv beta; f_equal; now apply Sd|]. intros i Hi. rewrite cj_add, cj_sum. f_equal. apply sumn_ext. intros a _. now rewrite cj_mul, nth_cj.
    Qed.
    Theorem C57_conj : forall F, valid F -> exists G, conj_ cj F = Ok G /\ valid G /\ ncv G = ncv F /\ outer G = outer F /\
      forall z k, In k (box (outer F)) -> denote ex G k (map cj z) = cj (denote ex F k z).
    Proof.
      intros F V. pose proof V as (Hc & Hn & Hp & Hl & Hs). eexists. split; [apply make_ok; exact (valid_csh F Hc)|].
      split; [split; [exact Hc|split; [exact Hn|split; [exact Hp|split; [exact Hl|]]]]; intros k Hk i j Hi Hj; cbn; f_equal; now apply Hs|]. split; [reflexivity|]. split; [reflexivity|].
      intros z k Hk. unfold denote, outer in *. cbn [lin bsh aA ab ac].
      assert (FN : forall kk c, In kk (box (bsh F)) -> fn ex (ncv F) (dsh F) (fun i j => cj (aA F kk i j)) (fun i => cj (ab F kk i)) (fun d => cj (c d)) (map cj z) = cj (fn ex (ncv F) (dsh F) (aA F kk) (ab F kk) c z)).
      { intros kk c Hkk. apply fn_cj. intros i j Hi Hj. apply Hs; auto; unfold ncv, nder in *; lia. }
      destruct (lin F) eqn:L.
      - rewrite cj_sum. apply sumn_ext. intros s Hs'. assert (In (k ++ [s]) (box (bsh F))) by (rewrite (app_removelast_last 0 (Hl eq_refl)); now apply box_snoc).
        apply (FN (k ++ [s]) (fun d => ac F (k ++ s :: d))). assumption.
      - apply (FN k (fun d => ac F (k ++ d))). exact Hk.
    Qed.
  End Conj.
  Lemma sum_box : forall ds d, In d (box ds) -> list_sum d + length ds <= list_sum ds.
  Proof.
    induction ds as [|x ds IH]; intros d Hd; apply in_box in Hd; inversion Hd; subst; cbn [list_sum fold_right length]; [lia|].
    apply in_box in H3. specialize (IH _ H3). unfold list_sum in *. lia.
  Qed.
  Lemma box_app_in : forall s1 s2 k l, In k (box s1) -> In l (box s2) -> In (k ++ l) (box (s1 ++ s2)).
  Proof. intros s1 s2 k l H1 H2. apply in_box in H1, H2. apply in_box. now apply Forall2_app. Qed.
  (** C57, decompose_ansatz: the same function with as many derived as continuous variables *)
  Theorem C57_decompose : forall F, valid F -> nder F <> 0 \/ ncv F <> 0 ->
    exists G, decompose F = Ok G /\ valid G /\ ncv G = ncv F /\ outer G = outer F /\ nder G <= ncv F /\
      forall z k, In k (box (outer F)) -> denote ex G k z = denote ex F k z.
  Proof.
    intros F V Z. unfold decompose. cbv zeta. destruct (Nat.ltb_spec (nder F) (ncv F)) as [Lt|Ge]; [exists F; repeat (split; [auto with arith; reflexivity|]); auto with arith|].
    assert (ND : nder F <> 0) by lia. pose proof V as (Hc & Hn & Hp & Hl & Hs). set (n := ncv F) in *. set (m := nder F) in *.
    set (N := list_sum (dsh F)). set (psh := repeat N n ++ dsh F). set (G := An _ _ _ _ _ _ _).
    assert (DG : dsh G = repeat N n) by (unfold dsh, G; cbn [bsh csh]; rewrite skipn_app, Nat.sub_diag, skipn_all; reflexivity).
    assert (NG : nder G = n) by (unfold nder; rewrite DG; apply repeat_length).
    assert (CG : ncv G = n) by (unfold ncv; rewrite NG; unfold G; cbn [nvar]; lia).
    assert (NP : 0 < N).
    { unfold N. unfold m, nder in ND. destruct Hp as [|x ds Hx Hp]; [cbn in ND; lia|]. cbn. lia. }
    exists G. split; [apply make_ok, valid_csh; now rewrite DG|]. split.
    { split; [now rewrite DG|]. split; [rewrite NG; unfold G; cbn [nvar]; lia|]. split; [rewrite DG; apply Forall_forall; intros x Hx; apply repeat_spec in Hx; lia|].
      split; [exact Hl|]. intros k Hk i j Hi Hj. unfold G in *. cbn [aA nvar bsh] in *. assert (Sk := Hs k Hk).
      destruct (Nat.ltb_spec i n); destruct (Nat.ltb_spec j n); auto; [apply Sk; unfold n, ncv in *; lia|now rewrite Nat.eqb_sym|now rewrite Nat.eqb_sym]. }
    split; [exact CG|]. split; [reflexivity|]. split; [rewrite NG; lia|].
    intros z k Hk. transitivity (denote ex F k z * k1); [|ring]. apply (denote_terms F G z z); auto.
    intros kk Hkk. rewrite CG, DG. fold n. transitivity (fn ex n (dsh F) (aA F kk) (ab F kk) (fun d => ac F (kk ++ d)) z); [|ring].
    pose proof (Hs kk Hkk) as Sk. pose proof (box_length_in _ _ Hkk) as Lk.
    set (A := aA F kk) in *. set (b := ab F kk). set (A' := fun i j => if i <? n then (if j <? n then k0 else A i j) else A i j). set (b' := fun i => if i <? n then k0 else b i).
    assert (Vn : nvar F = (n + m)%nat) by (unfold n, ncv, m in *; lia).
    assert (S' : symmetric (n + m) A').
    { intros i j Hi Hj. unfold A'. destruct (Nat.ltb_spec i n); destruct (Nat.ltb_spec j n); auto; apply Sk; lia. }
    unfold fn. cbv zeta. f_equal.
    - f_equal. unfold G. cbn [aA ab]. fold A b. f_equal; [f_equal|]; apply sumn_ext; intros i Hi.
      + apply sumn_ext. intros j Hj. now rewrite !(proj2 (Nat.ltb_lt _ _)) by assumption.
      + now rewrite !(proj2 (Nat.ltb_lt _ _)) by assumption.
    - assert (AD : forall (D : nat) (A0 : nat -> nat -> K) b0 d, derivative D A0 b0 d = amp D A0 b0 k1 d) by (intros; unfold derivative, amp; ring).
      set (zf := fun a => nth a z k0). rewrite repeat_length.
      transitivity (lsum (box (repeat N n)) (fun l => lsum (box (dsh F)) (fun d => ac F (kk ++ d) * (amp n (fun _ _ => k0) zf k1 l * amp (n + m) A' b' k1 (l ++ d))))).
      + apply lsum_ext. intros l Hl'. pose proof (box_length_in _ _ Hl') as Ll. rewrite repeat_length in Ll. rewrite AD.
        rewrite (amp_ext n _ (fun _ _ => k0) _ zf); auto.
        * assert (CA : ac G (kk ++ l) = lsum (box (dsh F)) (fun d => amp (n + m) A' b' k1 (l ++ d) * ac F (kk ++ d))).
          { unfold G. cbn [ac]. rewrite <- Lk, firstn_app, Nat.sub_diag, firstn_all, skipn_app, Nat.sub_diag, skipn_all. cbn [firstn skipn app]. rewrite app_nil_r.
            apply lsum_ext. intros d Hd. pose proof (box_length_in _ _ Hd) as Ld. rewrite cval_ac by auto. f_equal.
            fold psh. unfold hermite. assert (Lp : length psh = (n + m)%nat) by (unfold psh; rewrite app_length, repeat_length; reflexivity).
            rewrite C19_taylor; [rewrite Lp; reflexivity| | | |].
            - split; [rewrite Lp; unfold m; lia|]. unfold psh. apply Forall_app. split; [apply Forall_forall; intros x Hx; apply repeat_spec in Hx; lia|exact Hp].
            - rewrite Lp. exact S'.
            - apply repeat_length.
            - apply in_box. now apply box_app_in. }
          rewrite CA, <- lsum_scal_r. apply lsum_ext. intros d _. ring.
        * intros i j Hi Hj. unfold G. cbn [aA]. rewrite !(proj2 (Nat.ltb_ge _ _)) by lia. reflexivity.
        * intros i j Hi Hj. unfold G. cbn [aA]. rewrite !(proj2 (Nat.ltb_ge _ _)) by lia. reflexivity.
        * intros i Hi. unfold G. cbn [aA ab]. rewrite (proj2 (Nat.ltb_ge (n + i) n)) by lia.
          rewrite (sumn_ext n _ (fun a => (if Nat.eqb a i then k1 else k0) * zf a)).
          -- rewrite (sumn_ext n _ (fun a => if Nat.eqb a i then zf a else k0)) by (intros a _; destruct (Nat.eqb a i); ring). rewrite sumn_delta_mul by exact Hi. ring.
          -- intros a Ha. rewrite (proj2 (Nat.ltb_lt a n)) by exact Ha. replace (n + i - n)%nat with i by lia. reflexivity.
      + rewrite lsum_swap. apply lsum_ext. intros d Hd. pose proof (box_length_in _ _ Hd) as Ld. rewrite lsum_scal. f_equal.
        rewrite AD. rewrite <- (amp_shift n m N A' b' zf S'); auto.
        * apply amp_ext; auto.
          -- intros i j Hi Hj. unfold A'. rewrite !(proj2 (Nat.ltb_ge _ _)) by lia. apply Sk; unfold n, m, nder in *; lia.
          -- intros i j Hi Hj. unfold A'. rewrite !(proj2 (Nat.ltb_ge _ _)) by lia. reflexivity.
          -- intros i Hi. unfold A', b'. rewrite !(proj2 (Nat.ltb_ge _ _)) by lia. rewrite (sumn_ext n _ (fun a => A a (n + i)%nat * zf a)); [unfold zf; ring|].
             intros a Ha. rewrite (proj2 (Nat.ltb_lt _ _)) by lia. reflexivity.
        * intros i j Hi Hj. unfold A'. now rewrite !(proj2 (Nat.ltb_lt _ _)) by assumption.
        * intros i Hi. unfold b'. now rewrite !(proj2 (Nat.ltb_lt _ _)) by assumption.
        * pose proof (sum_box _ _ Hd). unfold N. unfold m, nder in ND. lia.
  Qed.
End Props.

From Coq Require Import Reals Lra.
From Coquelicot Require Import Complex.
From Verif Require Import ComplexRF CExp.
(** the complex numbers: conjugation is complex conjugation *)
Theorem C57_complex : conjugation (K := CF) Cexp Cconj.
Proof.
  split; [|split; [|split; [|split]]].
  - intros [a b] [c d]. cbn. unfold Cconj, Cplus. cbn. f_equal. ring.
  - intros [a b] [c d]. cbn. unfold Cconj, Cmult. cbn. f_equal; ring.
  - cbn. unfold Cconj, RtoC. cbn. f_equal. ring.
  - intros n. cbn. unfold csq, Cconj, RtoC. cbn. f_equal. ring.
  - intros x. symmetry. apply Cexp_conj.
Qed.
(** a concrete case: one continuous and two derived variables, a superposition of two terms, decomposed *)
Definition demo2 : ansatz CF := An (K := CF) [2] 3 (fun _ i j => if Nat.eqb i j then RtoC 0 else RtoC 1) (fun k i => RtoC (INR (i + hd 0 k))) [2; 2; 3] (fun k => RtoC (INR (nth 1 k 0))) true.
Theorem C57_example : valid demo2 /\ ncv demo2 = 1 /\ nder demo2 = 2 /\ Permutation [0] (seq 0 (ncv demo2)) /\
  exists G, decompose demo2 = Ok G /\ nder G = 1 /\ csh G = [2; 5] /\ forall z, denote (K := CF) Cexp G [] z = denote (K := CF) Cexp demo2 [] z.
Proof.
  assert (V : valid demo2).
  { split; [reflexivity|]. split; [cbn; lia|]. split; [repeat constructor|]. split; [discriminate|]. intros k _ i j _ _. cbn. now rewrite Nat.eqb_sym. }
  split; [exact V|]. split; [reflexivity|]. split; [reflexivity|]. split; [cbn; reflexivity|].
  destruct (C57_decompose (K := CF) Cexp demo2 V) as [G (H1 & H2 & H3 & H4 & H5 & H6)]; [left; discriminate|].
  exists G. split; [exact H1|]. injection H1 as <-. split; [reflexivity|]. split; [reflexivity|]. intros z. apply H6. now left.
Qed.
Print Assumptions C57_decompose.
Print Assumptions C57_conj.
Print Assumptions C57_example.
