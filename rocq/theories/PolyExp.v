(** C56: evaluation of PolyExpAnsatz (mrmustard/physics/ansatz/polyexp_ansatz.py).
    Numbers: any field of characteristic 0 with roots of the naturals (RootField.v) and an exponential function [ex];
    C56_complex instantiates the complex numbers and the complex exponential.
    Batch dimensions of the ansatz: all shapes.  Simplification: the points are scalars (numpy broadcasts batched points
    entry by entry), and the triple is given, not generated lazily from a function. *)
From Coq Require Import List Arith Lia Field Ring Permutation Bool.
From Verif Require Import Base RootField Tensor Series Vanilla VanillaProps HermAlg.
Import ListNotations.

Section Model.
  Context {K : rootfield}.
  Open Scope rf_scope.

  (** polyexp_ansatz.py:107-131: A has shape (bsh, nvar, nvar), b (bsh, nvar), c the shape csh *)
  Record ansatz := An { bsh : list nat; nvar : nat; aA : list nat -> nat -> nat -> K; ab : list nat -> nat -> K; csh : list nat; ac : list nat -> K; lin : bool }.
  (** physics/utils.py:110-134 verify_batch_triple, called by the constructor (polyexp_ansatz.py:126) *)
  Definition make (F : ansatz) : result ansatz :=
    if (Nat.eqb (length (csh F)) 0) || (if list_eq_dec Nat.eq_dec (firstn (length (bsh F)) (csh F)) (bsh F) then true else false)
    then Ok F else Err ValueError.
  (** polyexp_ansatz.py:260-265 shape_derived_vars, 198-203 num_derived_vars, 183-189 num_CV_vars *)
  Definition dsh (F : ansatz) : list nat := skipn (length (bsh F)) (csh F).
  Definition nder (F : ansatz) : nat := length (dsh F).
  Definition ncv (F : ansatz) : nat := nvar F - nder F.
  (** entry of c broadcast to the batch (a scalar c is accepted for any batch) *)
  Definition cval (F : ansatz) (k d : list nat) : K := ac F (match csh F with [] => [] | _ => k ++ d end).
  (** math.hermite_renormalized(A, b, ones, shape) (backend_manager.py:643-727): strategies/vanilla/core.py through Vanilla.v *)
  Definition hermite (shape : list nat) (A : nat -> nat -> K) (b : nat -> K) : list K :=
    vanilla (length shape) A b shape k1 (repeat k0 (prod shape)).

  Variable ex : K -> K.
  (** polyexp_ansatz.py:629-646 _compute_exp_part *)
  Definition expo (n : nat) (A : nat -> nat -> K) (b z : nat -> K) : K :=
    half * sumn n (fun i => sumn n (fun j => z i * z j * A i j)) + sumn n (fun i => z i * b i).
  (** polyexp_ansatz.py:648-665 _compute_polynomial_part: b_poly *)
  Definition bpoly (n : nat) (A : nat -> nat -> K) (b z : nat -> K) (i : nat) : K := sumn n (fun a => A a (n + i)%nat * z a) + b (n + i)%nat.
  (** polyexp_ansatz.py:966-971: exp_sum * c, or the einsum of exp_sum, c and the polynomials (617-627) *)
  Definition tval (F : ansatz) (k : list nat) (z : nat -> K) : K :=
    let n := ncv F in let A := aA F k in let b := ab F k in
    if Nat.eqb (nder F) 0 then ex (expo n A b z) * cval F k []
    else lsum (box (dsh F)) (fun d => ex (expo n A b z) * cval F k d * entry (dsh F) (hermite (dsh F) (fun i j => A (n + i)%nat (n + j)%nat) (bpoly n A b z)) d).
  (** polyexp_ansatz.py:973: sum over the last batch axis for linear superpositions *)
  Definition total (F : ansatz) (z : nat -> K) : list nat * (list nat -> K) :=
    if lin F then (removelast (bsh F), fun k => sumn (last (bsh F) 0) (fun s => tval F (k ++ [s]) z)) else (bsh F, fun k => tval F k z).

  Definition nthK (l : list K) (i : nat) : K := nth i l k0.
  (** the value given for variable i *)
  Definition given (zs : list (option K)) (i : nat) : bool := match nth i zs None with Some _ => true | None => false end.
  Definition only (zs : list (option K)) : list K := flat_map (fun o => match o with Some v => [v] | None => [] end) zs.
  (** indices = tuple(i for i, arr in enumerate(z_inputs) if arr is not None) (polyexp_ansatz.py:947) *)
  Definition evaluated (zs : list (option K)) : list nat := filter (given zs) (seq 0 (length zs)).

  (** polyexp_ansatz.py:750-821 _partial_eval; z: the values, e: their indices *)
  Definition partial_eval (F : ansatz) (z : list K) (e : list nat) : result ansatz :=
    if ncv F <=? length e then Err ValueError else
    if existsb (fun i => nvar F <=? i) e then Err IndexError else
    let r := filter (fun i => negb (existsb (Nat.eqb i) e)) (seq 0 (ncv F)) in
    let d := seq (ncv F) (nvar F - ncv F) in
    let rd := r ++ d in
    let ix i := nth i rd 0 in
    make (An (bsh F) (length rd)
      (fun k i j => aA F k (ix i) (ix j))
      (fun k i => ab F k (ix i) + sumn (length e) (fun a => aA F k (nth a e 0) (ix i) * nthK z a))
      (bsh F ++ dsh F)
      (fun kd => let k := firstn (length (bsh F)) kd in
        ex (expo (length e) (fun a b => aA F k (nth a e 0) (nth b e 0)) (fun a => ab F k (nth a e 0)) (nthK z)) * cval F k (skipn (length (bsh F)) kd))
      (lin F)).
  (** the result of a call: the array of values (its shape and entries) or a new ansatz *)
  Inductive outcome := Val (sh : list nat) (v : list nat -> K) | Part (G : ansatz).
  (** polyexp_ansatz.py:921-973 __call__ *)
  Definition call (F : ansatz) (zs : list (option K)) : result outcome :=
    let z := only zs in
    if length z <? ncv F then bind (partial_eval F z (evaluated zs)) (fun G => Ok (Part G)) else
    if negb (Nat.eqb (length z) (ncv F)) then Err ValueError else
    let (sh, v) := total F (nthK z) in Ok (Val sh v).
  (** polyexp_ansatz.py:471-519 eval, for scalar points and the default batch string.  Full evaluation is delegated to __call__. *)
  Definition eval (F : ansatz) (zs : list (option K)) : result outcome :=
    if ncv F <? length zs then Err ValueError else
    if Nat.eqb (length (evaluated zs)) (ncv F) then call F (map Some (only zs)) else bind (partial_eval F (only zs) (evaluated zs)) (fun G => Ok (Part G)).
End Model.
Arguments ansatz : clear implicits.
Arguments outcome : clear implicits.

(** ** Specification: the function represented by an ansatz *)
Section Spec.
  Context {K : rootfield}.
  Open Scope rf_scope.
  Variable ex : K -> K.
  (** sqrt(d!) times the coefficient of y^d in exp(y.A.y/2 + b.y): the renormalised derivative of order d *)
  Definition derivative (m : nat) (A : nat -> nat -> K) (b : nat -> K) (d : list nat) : K := sqf d * expq m A b d.
  (** F(z) = exp(z.A.z/2 + b.z) * sum_d c_d * derivative_d of y |-> exp(y.A'.y/2 + (b' + A''.z).y), where A' and b' are the blocks
      of the derived variables y (the last m variables) and A'' couples them to z *)
  Definition fn (n : nat) (ds : list nat) (A : nat -> nat -> K) (b : nat -> K) (c : list nat -> K) (z : list K) : K :=
    let zf i := nth i z k0 in
    ex (half * sumn n (fun i => sumn n (fun j => zf i * A i j * zf j)) + sumn n (fun i => b i * zf i))
    * lsum (box ds) (fun d => c d * derivative (length ds) (fun i j => A (n + i)%nat (n + j)%nat) (fun i => b (n + i)%nat + sumn n (fun a => A a (n + i)%nat * zf a)) d).
  (** the value of the ansatz at batch position k: the sum over the last batch axis for a linear superposition *)
  Definition denote (F : ansatz K) (k : list nat) (z : list K) : K :=
    if lin F then sumn (last (bsh F) 0) (fun s => fn (ncv F) (dsh F) (aA F (k ++ [s])) (ab F (k ++ [s])) (fun d => ac F (k ++ s :: d)) z)
    else fn (ncv F) (dsh F) (aA F k) (ab F k) (fun d => ac F (k ++ d)) z.
  (** the batch shape seen from outside *)
  Definition outer (F : ansatz K) : list nat := if lin F then removelast (bsh F) else bsh F.
  (** a well-formed ansatz: c has the batch shape of A, derived axes are not empty, A is symmetric, a superposition has an axis for its terms *)
  Definition valid (F : ansatz K) : Prop :=
    csh F = bsh F ++ dsh F /\ nder F <= nvar F /\ Forall (fun d => 0 < d) (dsh F) /\ (lin F = true -> bsh F <> []) /\
    forall k, In k (box (bsh F)) -> symmetric (nvar F) (aA F k).
  (** the variables without a value, in increasing order *)
  Definition missing (zs : list (option K)) (n : nat) : list nat := filter (fun i => negb (given zs i)) (seq 0 n).
  (** the point p has the given values *)
  Definition extends (zs : list (option K)) (p : list K) : Prop := forall i v, nth_error zs i = Some (Some v) -> nth_error p i = Some v.
  (** an exponential *)
  Definition exponential : Prop := ex k0 = k1 /\ forall x y, ex (x + y) = ex x * ex y.
End Spec.

Section Props.
  Context {K : rootfield}.
  Add Field Kfield : (kft K).
  Open Scope rf_scope.
  Variable ex : K -> K.

  (** one term: the code's value is the represented function *)
  Lemma tval_fn : forall F k z, csh F = bsh F ++ dsh F -> nder F <= nvar F -> Forall (fun d => 0 < d) (dsh F) -> In k (box (bsh F)) ->
    symmetric (nvar F) (aA F k) -> tval ex F k (nthK z) = fn ex (ncv F) (dsh F) (aA F k) (ab F k) (fun d => ac F (k ++ d)) z.
  Proof.
    intros F k z Hc Hn Hp Hk Hs. pose proof (box_length_in _ _ Hk) as Lk. unfold tval, fn. cbv zeta.
    assert (Ex : expo (ncv F) (aA F k) (ab F k) (nthK z) = half * sumn (ncv F) (fun i => sumn (ncv F) (fun j => nth i z k0 * aA F k i j * nth j z k0)) + sumn (ncv F) (fun i => ab F k i * nth i z k0)).
    { unfold expo, nthK. f_equal; [f_equal; apply sumn_ext; intros i _; apply sumn_ext; intros j _; ring|apply sumn_ext; intros; ring]. }
    assert (Cv : forall d, length d = nder F -> cval F k d = ac F (k ++ d)).
    { intros d Ld. unfold cval. destruct (csh F) as [|x t] eqn:E; [|reflexivity]. symmetry in Hc. apply app_eq_nil in Hc. destruct Hc as [Hb Hd]. unfold nder in Ld. rewrite Hd in Ld. rewrite Hb in Lk.
      destruct k; [|discriminate]. destruct d; [reflexivity|discriminate]. }
    rewrite Ex. destruct (Nat.eqb_spec (nder F) 0) as [E0|E0].
    - unfold nder in E0. destruct (dsh F) eqn:Ed; [|discriminate]. cbn [box]. rewrite lsum_cons, lsum_nil. rewrite Cv by (unfold nder; now rewrite Ed).
      unfold derivative. cbn [length sqf]. rewrite (expq_zero 0). ring.
    - set (X := ex _). rewrite <- lsum_scal. apply lsum_ext. intros d Hd. pose proof (box_length_in _ _ Hd) as Ld. rewrite Cv by exact Ld. apply in_box in Hd.
      unfold hermite. rewrite (C19_taylor (dsh F)).
      + unfold derivative. assert (Q : forall s, bpoly (ncv F) (aA F k) (ab F k) (nthK z) s = ab F k (ncv F + s)%nat + sumn (ncv F) (fun a => aA F k a (ncv F + s)%nat * nth a z k0)) by (intros; unfold bpoly, nthK; ring).
        transitivity (X * (ac F (k ++ d) * amp (length (dsh F)) (fun i j => aA F k (ncv F + i)%nat (ncv F + j)%nat) (bpoly (ncv F) (aA F k) (ab F k) (nthK z)) k1 d)); [unfold amp; ring|].
        rewrite (amp_ext (length (dsh F)) _ (fun i j => aA F k (ncv F + i)%nat (ncv F + j)%nat) _ (fun s => ab F k (ncv F + s)%nat + sumn (ncv F) (fun a => aA F k a (ncv F + s)%nat * nth a z k0))); auto; [unfold amp; ring|].
        intros i j Hi Hj. apply Hs; unfold ncv, nder in *; lia.
      + split; [unfold nder in E0; lia|exact Hp].
      + intros i j Hi Hj. apply Hs; unfold ncv, nder in *; lia.
      + apply repeat_length.
      + exact Hd.
  Qed.
  Lemma box_snoc : forall (sh : list nat) n k s, In k (box sh) -> s < n -> In (k ++ [s]) (box (sh ++ [n])).
  Proof. intros sh n k s Hk Hs. apply in_box. apply in_box in Hk. apply Forall2_app; [exact Hk|]. repeat constructor. exact Hs. Qed.
  Lemma total_denote : forall F z, valid F -> fst (total ex F (nthK z)) = outer F /\ forall k, In k (box (outer F)) -> snd (total ex F (nthK z)) k = denote ex F k z.
  Proof.
    intros F z (Hc & Hn & Hp & Hl & Hs). unfold total, outer, denote. destruct (lin F) eqn:L; simpl; (split; [reflexivity|]); intros k Hk.
    - assert (Hb : bsh F = removelast (bsh F) ++ [last (bsh F) 0]) by (apply app_removelast_last; auto).
      apply sumn_ext. intros s Hs'. assert (In (k ++ [s]) (box (bsh F))) by (rewrite Hb; now apply box_snoc).
      rewrite tval_fn by auto. unfold fn. cbv zeta. f_equal. apply lsum_ext. intros d _. f_equal. now rewrite <- app_assoc.
    - apply tval_fn; auto.
  Qed.
  Lemma only_some : forall z : list K, only (map Some z) = z.
  Proof. induction z as [|x z IH]; [reflexivity|]. unfold only in *. cbn [map flat_map app]. now rewrite IH. Qed.

  (** C56, full evaluation: calling the ansatz with all its variables returns the represented function at every batch position *)
  Theorem C56_call : forall F z, valid F -> length z = ncv F ->
    exists v, call ex F (map Some z) = Ok (Val (outer F) v) /\ forall k, In k (box (outer F)) -> v k = denote ex F k z.
  Proof.
    intros F z V L. unfold call. rewrite only_some, L, Nat.ltb_irrefl, Nat.eqb_refl. cbn [negb].
    pose proof (total_denote F z V) as [H1 H2]. destruct (total ex F (nthK z)) as [sh v]. cbn [fst snd] in *. subst sh. exists v. auto.
  Qed.

  Lemma evaluated_length : forall zs : list (option K), length (evaluated zs) = length (only zs).
  Proof.
    assert (G : forall (zs pre : list (option K)), length (filter (given (pre ++ zs)) (seq (length pre) (length zs))) = length (only zs)).
    { induction zs as [|o zs IH]; intros pre; [reflexivity|]. cbn [length seq filter]. unfold given at 1. rewrite app_nth2, Nat.sub_diag by lia. cbn [nth].
      specialize (IH (pre ++ [o])). rewrite <- app_assoc, app_length in IH. cbn [app length] in IH. rewrite Nat.add_1_r in IH.
      unfold only. destruct o; cbn [flat_map app length]; [f_equal|]; exact IH. }
    intros zs. exact (G zs []).
  Qed.
  Lemma only_nth : forall (zs : list (option K)) p, extends zs p -> forall a, a < length (only zs) -> nthK (only zs) a = nthK p (nth a (evaluated zs) 0).
  Proof.
    assert (G : forall (zs pre : list (option K)) p, extends (pre ++ zs) p -> forall a, a < length (only zs) ->
       nthK (only zs) a = nthK p (nth a (filter (given (pre ++ zs)) (seq (length pre) (length zs))) 0)).
    { induction zs as [|o zs IH]; intros pre p X a Ha; [simpl in Ha; lia|]. cbn [length seq filter]. unfold given at 1. rewrite app_nth2, Nat.sub_diag by lia. cbn [nth].
      specialize (IH (pre ++ [o]) p). rewrite <- app_assoc, app_length in IH. cbn [app length] in IH. rewrite Nat.add_1_r in IH. specialize (IH X).
      unfold only in *. destruct o as [v|]; cbn [flat_map app length] in *.
      - destruct a as [|a]; cbn [nth].
        + unfold nthK. cbn [nth]. symmetry. apply nth_error_nth. apply X. rewrite nth_error_app2, Nat.sub_diag by lia. reflexivity.
        + unfold nthK in *. cbn [nth]. apply IH. lia.
      - apply IH. exact Ha. }
    intros zs p X a Ha. exact (G zs [] p X a Ha).
  Qed.
  Lemma existsb_evaluated : forall (zs : list (option K)) i, existsb (Nat.eqb i) (evaluated zs) = given zs i.
  Proof.
    intros zs i. unfold evaluated. destruct (given zs i) eqn:G.
    - apply existsb_exists. exists i. split; [|apply Nat.eqb_refl]. apply filter_In. split; [|exact G]. apply in_seq. unfold given in G.
      destruct (Nat.lt_ge_cases i (length zs)); [lia|]. rewrite nth_overflow in G by assumption. discriminate.
    - apply not_true_is_false. intros H. apply existsb_exists in H. destruct H as [x [Hx E]]. apply Nat.eqb_eq in E. subst x. apply filter_In in Hx. destruct Hx. congruence.
  Qed.
  Lemma filter_neg : forall {X} (P : X -> bool) l, Permutation l (filter P l ++ filter (fun x => negb (P x)) l).
  Proof.
    induction l as [|x l IH]; [constructor|]. cbn [filter]. destruct (P x); cbn [negb app]; [now constructor|]. apply Permutation_cons_app. exact IH.
  Qed.
  Lemma sumn_split : forall (zs : list (option K)) n (f : nat -> K), length zs <= n ->
    sumn n f = lsum (evaluated zs) f + lsum (missing zs n) f.
  Proof.
    intros zs n f H. rewrite <- lsum_seq0. rewrite (lsum_perm _ _ _ (filter_neg (given zs) (seq 0 n))), lsum_app. f_equal. f_equal.
    unfold evaluated. replace n with (length zs + (n - length zs))%nat by lia. rewrite seq_app, filter_app.
    assert (Z : filter (given zs) (seq (0 + length zs)%nat (n - length zs)%nat) = []).
    { generalize (n - length zs)%nat. intros q. cbn [Nat.add]. assert (G : forall q a, length zs <= a -> filter (given zs) (seq a q) = []).
      { clear. induction q as [|q IH]; intros a Ha; [reflexivity|]. cbn [seq filter]. unfold given at 1. rewrite nth_overflow by exact Ha. apply IH. lia. }
      now apply G. }
    rewrite Z, app_nil_r. reflexivity.
  Qed.
  Lemma lsum_nth2 : forall (r : list nat) (p : list K) (f : nat -> K -> K),
    sumn (length r) (fun i => f (nth i r 0) (nth i (map (nthK p) r) k0)) = lsum r (fun i => f i (nthK p i)).
  Proof.
    induction r as [|x r IH]; intros p f; [reflexivity|]. cbn [length map]. rewrite sumn_S_l, lsum_cons. cbn [nth]. now rewrite IH.
  Qed.
  (** one term of a partial evaluation *)
  Lemma fn_partial : forall n m ds A b c zs p, exponential ex -> length ds = m -> symmetric (n + m) A -> length zs <= n -> extends zs p ->
    let e := evaluated zs in let r := missing zs n in let ix i := nth i (r ++ seq n m) 0 in
    fn ex (length r) ds (fun i j => A (ix i) (ix j)) (fun i => b (ix i) + sumn (length e) (fun a => A (nth a e 0) (ix i) * nthK (only zs) a))
      (fun d => ex (expo (length e) (fun a b' => A (nth a e 0) (nth b' e 0)) (fun a => b (nth a e 0)) (nthK (only zs))) * c d) (map (nthK p) r)
    = fn ex n ds A b c p.
  Proof.
    intros n m ds A b c zs p [E0 Ea] Lm Sy Hl X e r ix. unfold fn. cbv zeta.
    assert (Hr : forall i, In i r -> i < n) by (intros i Hi; apply filter_In in Hi; destruct Hi as [Hi _]; apply in_seq in Hi; lia).
    assert (He : forall i, In i e -> i < n) by (intros i Hi; apply filter_In in Hi; destruct Hi as [Hi _]; apply in_seq in Hi; lia).
    assert (Ze : forall g : nat -> K -> K, sumn (length e) (fun a => g (nth a e 0) (nthK (only zs) a)) = lsum e (fun a => g a (nthK p a))).
    { intros g. rewrite <- lsum_nth. apply sumn_ext. intros a Ha. f_equal. apply only_nth; auto. unfold e in Ha. now rewrite evaluated_length in Ha. }
    assert (Ir : forall i, i < length r -> ix i = nth i r 0) by (intros i Hi; unfold ix; now apply app_nth1).
    assert (Id : forall i, i < m -> ix (length r + i)%nat = (n + i)%nat).
    { intros i Hi. unfold ix. rewrite app_nth2 by lia. replace (length r + i - length r)%nat with i by lia. now rewrite seq_nth. }
    set (P := nthK p) in *. change (fun i => nth i p k0) with P.
    assert (LN2 : forall f, sumn (length r) (fun i => f (nth i r 0) (nth i (map P r) k0)) = lsum r (fun i => f i (P i))) by (intros; apply lsum_nth2).
    assert (B : forall i, i < n + m -> sumn (length e) (fun a => A (nth a e 0) i * nthK (only zs) a) = lsum e (fun a => A a i * P a)).
    { intros i Hi. apply (Ze (fun a v => A a i * v)). }
    (* the derived variables *)
    assert (HD : forall d, In d (box ds) ->
       derivative (length ds) (fun i j => A (ix (length r + i)%nat) (ix (length r + j)%nat))
         (fun i => b (ix (length r + i)%nat) + sumn (length e) (fun a => A (nth a e 0) (ix (length r + i)%nat) * nthK (only zs) a) + sumn (length r) (fun a => A (ix a) (ix (length r + i)%nat) * nth a (map P r) k0)) d
       = derivative (length ds) (fun i j => A (n + i)%nat (n + j)%nat) (fun i => b (n + i)%nat + sumn n (fun a => A a (n + i)%nat * nth a p k0)) d).
    { intros d Hd. pose proof (box_length_in _ _ Hd) as Ld.
      transitivity (amp (length ds) (fun i j => A (ix (length r + i)%nat) (ix (length r + j)%nat))
         (fun i => b (ix (length r + i)%nat) + sumn (length e) (fun a => A (nth a e 0) (ix (length r + i)%nat) * nthK (only zs) a) + sumn (length r) (fun a => A (ix a) (ix (length r + i)%nat) * nth a (map P r) k0)) k1 d); [unfold amp, derivative; ring|].
      rewrite (amp_ext _ _ (fun i j => A (n + i)%nat (n + j)%nat) _ (fun i => b (n + i)%nat + sumn n (fun a => A a (n + i)%nat * nth a p k0))); [unfold amp, derivative; ring| |exact Ld| |].
      - intros i j Hi Hj. rewrite Lm in Hi, Hj. rewrite !Id by assumption. apply Sy; lia.
      - intros i j Hi Hj. rewrite Lm in Hi, Hj. now rewrite !Id by assumption.
      - intros i Hi. rewrite Lm in Hi. rewrite !Id by assumption. rewrite B by lia.
        rewrite (sumn_ext (length r) _ (fun a => A (nth a r 0) (n + i)%nat * nth a (map P r) k0)) by (intros a Ha; now rewrite Ir).
        rewrite (LN2 (fun a v => A a (n + i)%nat * v)). rewrite (sumn_split zs n _ Hl). fold e. fold r. unfold P, nthK. ring. }
    rewrite (lsum_ext (box ds) _ (fun d => ex (expo (length e) (fun a b' => A (nth a e 0) (nth b' e 0)) (fun a => b (nth a e 0)) (nthK (only zs))) *
        (c d * derivative (length ds) (fun i j => A (n + i)%nat (n + j)%nat) (fun i => b (n + i)%nat + sumn n (fun a => A a (n + i)%nat * nth a p k0)) d))).
    2:{ intros d Hd. rewrite HD by exact Hd. ring. }
    rewrite lsum_scal. match goal with |- ?x * (?y * ?w) = ?u * ?w => transitivity ((x * y) * w); [ring|]; f_equal end.
    rewrite <- Ea. f_equal. unfold expo.
    (* the exponent *)
    rewrite (sumn_ext (length r) (fun i => sumn (length r) (fun j => nth i (map P r) k0 * A (ix i) (ix j) * nth j (map P r) k0)) (fun i => (fun i v => lsum r (fun j => v * A i j * P j)) (nth i r 0) (nth i (map P r) k0))).
    2:{ intros i Hi. rewrite Ir by exact Hi. cbv beta. rewrite <- (LN2 (fun j w => nth i (map P r) k0 * A (nth i r 0) j * w)). apply sumn_ext. intros j Hj. now rewrite Ir. }
    rewrite (LN2 (fun i v => lsum r (fun j => v * A i j * P j))).
    rewrite (sumn_ext (length r) (fun i => (b (ix i) + sumn (length e) (fun a => A (nth a e 0) (ix i) * nthK (only zs) a)) * nth i (map P r) k0) (fun i => (fun i v => (b i + lsum e (fun a => A a i * P a)) * v) (nth i r 0) (nth i (map P r) k0))).
    2:{ intros i Hi. rewrite Ir by exact Hi. cbv beta. rewrite B; [reflexivity|]. assert (nth i r 0 < n) by (apply Hr, nth_In, Hi). lia. }
    rewrite (LN2 (fun i v => (b i + lsum e (fun a => A a i * P a)) * v)).
    rewrite (sumn_ext (length e) (fun i => sumn (length e) (fun j => nthK (only zs) i * nthK (only zs) j * A (nth i e 0) (nth j e 0))) (fun i => (fun i v => lsum e (fun j => v * P j * A i j)) (nth i e 0) (nthK (only zs) i))).
    2:{ intros i Hi. apply (Ze (fun j w => nthK (only zs) i * w * A (nth i e 0) j)). }
    rewrite (Ze (fun i v => lsum e (fun j => v * P j * A i j))). rewrite (Ze (fun i v => v * b i)).
    change (sumn n (fun i => sumn n (fun j => nth i p k0 * A i j * nth j p k0))) with (sumn n (fun i => sumn n (fun j => P i * A i j * P j))).
    change (sumn n (fun i => b i * nth i p k0)) with (sumn n (fun i => b i * P i)).
    rewrite (sumn_split zs n (fun i => sumn n (fun j => P i * A i j * P j)) Hl). rewrite (sumn_split zs n (fun i => b i * P i) Hl). fold e. fold r.
    rewrite (lsum_ext e (fun i => sumn n (fun j => P i * A i j * P j)) (fun i => lsum e (fun j => P i * A i j * P j) + lsum r (fun j => P i * A i j * P j))) by (intros i _; apply (sumn_split zs n _ Hl)).
    rewrite (lsum_ext r (fun i => sumn n (fun j => P i * A i j * P j)) (fun i => lsum e (fun j => P i * A i j * P j) + lsum r (fun j => P i * A i j * P j))) by (intros i _; apply (sumn_split zs n _ Hl)).
    rewrite !lsum_add.
    rewrite (lsum_swap e r (fun i j => P i * A i j * P j)).
    rewrite (lsum_ext r (fun j => lsum e (fun i => P i * A i j * P j)) (fun i => lsum e (fun j => P i * A i j * P j))).
    2:{ intros j Hj. apply lsum_ext. intros i Hi. rewrite (Sy i j) by (pose proof (Hr j Hj); pose proof (He i Hi); lia). ring. }
    rewrite (lsum_ext r (fun i => (b i + lsum e (fun a => A a i * P a)) * P i) (fun i => b i * P i + lsum e (fun j => P i * A i j * P j))).
    2:{ intros i Hi. transitivity (b i * P i + lsum e (fun a => A a i * P a) * P i); [ring|]. f_equal. rewrite <- lsum_scal_r. apply lsum_ext. intros j Hj. rewrite (Sy i j) by (pose proof (Hr i Hi); pose proof (He j Hj); lia). ring. }
    rewrite lsum_add.
    rewrite (lsum_ext e (fun i => lsum e (fun j => P i * P j * A i j)) (fun i => lsum e (fun j => P i * A i j * P j))) by (intros i _; apply lsum_ext; intros j _; ring).
    rewrite (lsum_ext e (fun i => P i * b i) (fun i => b i * P i)) by (intros; ring).
    set (er := lsum r (fun i => lsum e (fun j => P i * A i j * P j))).
    match goal with |- half * ?rr + (?br + er) + (half * ?ee + ?be) = _ => transitivity (half * rr + half * ee + br + be + (half + half) * er); [rewrite half_half; ring|ring] end.
  Qed.

  (** C56, partial evaluation: when some variables have no value the call returns an ansatz in exactly those variables, in their
      order, whose function is the original one with the given values filled in *)
  Theorem C56_some_variables : forall F zs, exponential ex -> valid F -> length zs <= ncv F -> length (only zs) < ncv F ->
    exists G, call ex F zs = Ok (Part G) /\ eval ex F zs = Ok (Part G) /\ valid G /\ ncv G = length (missing zs (ncv F)) /\ outer G = outer F /\ forall p k, length p = ncv F -> extends zs p -> In k (box (outer F)) -> denote ex G k (map (nthK p) (missing zs (ncv F))) = denote ex F k p.
  Proof.
    intros F zs HE (Hc & Hn & Hp & Hl & Hs) Lz Lo.
    set (r := missing zs (ncv F)).
    assert (Hd : (nvar F - ncv F)%nat = nder F) by (unfold ncv; lia). assert (Hv : nvar F = (ncv F + nder F)%nat) by (unfold ncv; lia).
    set (ix := fun i => nth i (r ++ seq (ncv F) (nder F)) 0). set (e := evaluated zs).
    set (G := An (bsh F) (length r + nder F)%nat (fun k i j => aA F k (ix i) (ix j))
      (fun k i => ab F k (ix i) + sumn (length e) (fun a => aA F k (nth a e 0) (ix i) * nthK (only zs) a))
      (bsh F ++ dsh F)
      (fun kd => let k := firstn (length (bsh F)) kd in
        ex (expo (length e) (fun a b => aA F k (nth a e 0) (nth b e 0)) (fun a => ab F k (nth a e 0)) (nthK (only zs))) * cval F k (skipn (length (bsh F)) kd))
      (lin F)).
    assert (PE : partial_eval ex F (only zs) (evaluated zs) = Ok G).
    { unfold partial_eval. rewrite evaluated_length. destruct (Nat.leb_spec (ncv F) (length (only zs))); [lia|].
      assert (Ee : existsb (fun i => nvar F <=? i) (evaluated zs) = false).
      { apply not_true_is_false. intros H'. apply existsb_exists in H'. destruct H' as [i [Hi Q]]. apply Nat.leb_le in Q. apply filter_In in Hi. destruct Hi as [Hi _]. apply in_seq in Hi. unfold ncv in Lz. lia. }
      rewrite Ee, Hd.
      assert (Er : filter (fun i => negb (existsb (Nat.eqb i) (evaluated zs))) (seq 0 (ncv F)) = r) by (unfold r, missing; apply filter_ext; intros i; now rewrite existsb_evaluated).
      rewrite Er, app_length, seq_length. rewrite <- evaluated_length. fold e. unfold make. cbn [csh bsh].
      rewrite firstn_app, Nat.sub_diag, firstn_all. cbn [firstn]. rewrite app_nil_r. destruct (list_eq_dec Nat.eq_dec (bsh F) (bsh F)) as [_|N]; [|congruence]. rewrite orb_true_r. reflexivity. }
    exists G. assert (DG : dsh G = dsh F) by (unfold dsh at 1, G; cbn [csh bsh]; rewrite skipn_app, Nat.sub_diag, skipn_all; reflexivity).
    assert (NG : ncv G = length r) by (unfold ncv, nder; rewrite DG; cbn [nvar]; unfold G, nder; cbn [nvar]; lia).
    repeat split.
    - unfold call. destruct (Nat.ltb_spec (length (only zs)) (ncv F)); [|lia]. now rewrite PE.
    - unfold eval. destruct (Nat.ltb_spec (ncv F) (length zs)); [lia|]. rewrite evaluated_length. destruct (Nat.eqb_spec (length (only zs)) (ncv F)); [lia|]. now rewrite PE.
    - rewrite DG. reflexivity.
    - unfold nder. rewrite DG. unfold G. cbn [nvar]. unfold nder. lia.
    - now rewrite DG.
    - exact Hl.
    - intros k Hk i j Hi Hj. unfold G in *. cbn [aA nvar bsh] in *. apply (Hs k Hk).
      + assert (In (ix i) (r ++ seq (ncv F) (nder F))) by (apply nth_In; rewrite app_length, seq_length; exact Hi).
        apply in_app_or in H. destruct H as [H|H]; [apply filter_In in H; destruct H as [H _]|]; apply in_seq in H; lia.
      + assert (In (ix j) (r ++ seq (ncv F) (nder F))) by (apply nth_In; rewrite app_length, seq_length; exact Hj).
        apply in_app_or in H. destruct H as [H|H]; [apply filter_In in H; destruct H as [H _]|]; apply in_seq in H; lia.
    - exact NG.
    - intros p k Lp X Hk.
      assert (Main : forall kk, In kk (box (bsh F)) -> fn ex (ncv G) (dsh G) (aA G kk) (ab G kk) (fun d => ac G (kk ++ d)) (map (nthK p) r) = fn ex (ncv F) (dsh F) (aA F kk) (ab F kk) (fun d => ac F (kk ++ d)) p).
      { intros kk Hkk. pose proof (box_length_in _ _ Hkk) as Lkk. rewrite DG, NG.
        rewrite <- (fn_partial (ncv F) (nder F) (dsh F) (aA F kk) (ab F kk) (fun d => ac F (kk ++ d)) zs p); auto; [|intros i j Hi Hj; apply Hs; auto; lia].
        unfold fn. cbv zeta. f_equal. apply lsum_ext. intros d Hd'. f_equal. unfold G. cbn [ac]. rewrite <- Lkk. rewrite firstn_app, Nat.sub_diag, firstn_all, skipn_app, Nat.sub_diag, skipn_all. cbn [firstn skipn app]. rewrite app_nil_r.
        f_equal. unfold cval. destruct (csh F) eqn:Ec; [|reflexivity]. symmetry in Hc. apply app_eq_nil in Hc. destruct Hc as [Hb Hd0]. rewrite Hd0 in Hd'. cbn [box] in Hd'. destruct Hd' as [<-|[]]. rewrite Hb in Lkk. destruct kk; [reflexivity|discriminate]. }
      unfold denote. change (lin G) with (lin F). change (bsh G) with (bsh F). unfold outer in Hk. destruct (lin F) eqn:L.
      + apply sumn_ext. intros s Hs'. assert (In (k ++ [s]) (box (bsh F))) by (rewrite (app_removelast_last 0 (Hl eq_refl)); now apply box_snoc).
        pose proof (Main _ H) as M. unfold fn in M |- *. cbv zeta in M |- *.
        rewrite (lsum_ext (box (dsh G)) _ (fun d => ac G ((k ++ [s]) ++ d) * derivative (length (dsh G)) (fun i j => aA G (k ++ [s]) (ncv G + i)%nat (ncv G + j)%nat)
          (fun i => ab G (k ++ [s]) (ncv G + i)%nat + sumn (ncv G) (fun a => aA G (k ++ [s]) a (ncv G + i)%nat * nth a (map (nthK p) r) k0)) d)) by (intros d _; now rewrite <- app_assoc).
        rewrite M. f_equal. apply lsum_ext. intros d _. now rewrite <- app_assoc.
      + now apply Main.
  Qed.
End Props.

Section Facts.
  Context {K : rootfield}.
  Add Field Kfield2 : (kft K).
  Open Scope rf_scope.
  Variable ex : K -> K.

  (** the formula of the documentation: derivatives of order d without renormalisation, d! times the Taylor coefficient *)
  Definition kfact (d : list nat) : K := fold_right (fun x acc => knat (fact x) * acc) k1 d.
  Definition doc_fn (n : nat) (ds : list nat) (A : nat -> nat -> K) (b : nat -> K) (c : list nat -> K) (z : list K) : K :=
    let zf i := nth i z k0 in
    ex (half * sumn n (fun i => sumn n (fun j => zf i * A i j * zf j)) + sumn n (fun i => b i * zf i))
    * lsum (box ds) (fun d => c d * (kfact d * expq (length ds) (fun i j => A (n + i)%nat (n + j)%nat) (fun i => b (n + i)%nat + sumn n (fun a => A a (n + i)%nat * zf a)) d)).
  Lemma sqf_sq : forall d, sqf d * sqf d = kfact d :> K.
  Proof.
    assert (G : forall x, sqfact x * sqfact x = knat (fact x) :> K).
    { induction x as [|x IH]; [cbn [sqfact fact]; rewrite knat_1; ring|]. cbn [sqfact]. change (fact (S x)) with (S x * fact x)%nat. rewrite knat_mul, <- IH, <- (sq_ok K (S x)). ring. }
    induction d as [|x d IH]; [cbn [sqf kfact fold_right]; ring|]. cbn [sqf]. unfold kfact in *. cbn [fold_right]. rewrite <- IH, <- G. ring.
  Qed.
  (** C56: the documented formula holds with the coefficients multiplied by sqrt(d!) *)
  Theorem C56_documented : forall n ds A b c z, doc_fn n ds A b c z = fn ex n ds A b (fun d => c d * sqf d) z.
  Proof.
    intros. unfold doc_fn, fn, derivative. cbv zeta. f_equal. apply lsum_ext. intros d _. rewrite <- sqf_sq. ring.
  Qed.
  (** [eval] rejects a point with too many entries; [__call__] does not: a missing value beyond the last variable is skipped *)
  Theorem C56_eval_too_many : forall F zs, ncv F < length zs -> eval ex F zs = Err ValueError.
  Proof. intros F zs H. unfold eval. now rewrite (proj2 (Nat.ltb_lt _ _) H). Qed.
  Theorem C56_refuted_call_skips : forall F a b, ncv F = 2 -> call ex F [Some a; None; Some b] = call ex F [Some a; Some b].
  Proof. intros F a b H. unfold call. cbn [only flat_map app length]. rewrite H. reflexivity. Qed.
  Theorem C56_call_too_many : forall F zs, ncv F < length (only zs) -> call ex F zs = Err ValueError.
  Proof.
    intros F zs H. unfold call. destruct (Nat.ltb_spec (length (only zs)) (ncv F)); [lia|]. destruct (Nat.eqb_spec (length (only zs)) (ncv F)); [lia|reflexivity].
  Qed.
End Facts.

(** ** the complex numbers *)
From Coq Require Import Reals Lra.
From Coquelicot Require Import Complex.
From Verif Require Import ComplexRF CExp.
Import ListNotations.
Local Open Scope nat_scope.
Local Open Scope list_scope.
Theorem C56_complex : @exponential CF Cexp.
Proof. split; [exact Cexp_0|exact Cexp_add]. Qed.
(** a linear superposition of two functions of two variables with one derived variable of order up to 2 *)
Definition demo (lin : bool) : ansatz CF :=
  @An CF [2] 3 (fun k i j => if Nat.eqb i j then k0 else k1) (fun k i => knat (i + hd 0 k)) [2; 3] (fun kd => knat (list_sum kd)) lin.
Theorem C56_example : valid (demo true) /\ valid (demo false) /\ ncv (demo true) = 2 /\ outer (demo true) = [] /\ outer (demo false) = [2]
  /\ extends [None; Some (k1 : CF)] [k0; k1] /\ missing [None; Some (k1 : CF)] 2 = [0] /\ length (only [None; Some (k1 : CF)]) < ncv (demo true).
Proof.
  assert (V : forall l, valid (demo l)).
  { intros l. split; [reflexivity|]. split; [cbn; lia|]. split; [repeat constructor|]. split; [discriminate|]. intros k _ i j _ _. cbn. now rewrite Nat.eqb_sym. }
  repeat split; try apply V; try (cbn; lia). intros [|[|[|i]]] v H; cbn in *; congruence.
Qed.
(** the documented formula is not what the code computes: F(z) = exp(y) with one derived variable, coefficient of the second derivative *)
Theorem C56_refuted_documentation :
  let A : nat -> nat -> CF := fun _ _ => RtoC 0 in let b : nat -> CF := fun i => if Nat.eqb i 1 then RtoC 1 else RtoC 0 in
  let c : list nat -> CF := fun d => if list_eq_dec Nat.eq_dec d [2] then RtoC 1 else RtoC 0 in
  doc_fn (K := CF) Cexp 1 [3] A b c [RtoC 0] = RtoC 1 /\ fn (K := CF) Cexp 1 [3] A b c [RtoC 0] = RtoC (/ sqrt 2).
Proof.
  intros A b c.
  assert (Sy : @symmetric CF 1 (fun i j => A (1 + i)%nat (1 + j)%nat)) by (intros i j _ _; reflexivity).
  set (b' := fun i : nat => (b (1 + i)%nat + sumn 1 (fun a => A a (1 + i)%nat * nth a [RtoC 0 : CF] k0))%rf : CF).
  assert (B0 : b' 0 = RtoC 1) by (unfold b', A, b; cbn; rewrite !Cmult_0_l, !Cplus_0_r; reflexivity).
  assert (D : forall d, @derivative CF 1 (fun i j => A (1 + i)%nat (1 + j)%nat) b' d = amp (K := CF) 1 (fun i j => A (1 + i)%nat (1 + j)%nat) b' k1 d) by (intros d; unfold derivative, amp; cbn [k1 kmul CF]; rewrite Cmult_1_l; reflexivity).
  assert (S1 : csq 1 = RtoC 1) by (unfold csq; f_equal; simpl; apply sqrt_1).
  assert (Q2 : sqrt 2 <> 0%R) by (apply Rgt_not_eq, sqrt_lt_R0; lra).
  assert (S2 : csq 2 = RtoC (sqrt 2)) by (unfold csq; do 2 f_equal; simpl; lra).
  assert (S2n : RtoC (sqrt 2) <> RtoC 0) by (intros H; apply RtoC_inj in H; auto).
  assert (A0 : amp (K := CF) 1 (fun i j => A (1 + i)%nat (1 + j)%nat) b' k1 [0] = RtoC 1) by apply (amp_zero (K := CF) 1).
  assert (A1 : amp (K := CF) 1 (fun i j => A (1 + i)%nat (1 + j)%nat) b' k1 [1] = RtoC 1).
  { rewrite (amp_step 1 _ _ Sy k1 0 [1]) by (unfold at'; simpl; lia). unfold dec, at'. cbn [upd nth pred sumn]. rewrite A0, B0. unfold A. cbn. rewrite S1. field; intros H; apply RtoC_inj in H; lra. }
  assert (A2 : amp (K := CF) 1 (fun i j => A (1 + i)%nat (1 + j)%nat) b' k1 [2] = RtoC (/ sqrt 2)).
  { rewrite (amp_step 1 _ _ Sy k1 0 [2]) by (unfold at'; simpl; lia). unfold dec, at'. cbn [upd nth pred sumn]. rewrite A1, B0. unfold A. cbn. rewrite S2. rewrite RtoC_inv by exact Q2. field; repeat split; try exact S2n; intros H; injection H; lra. }
  assert (X : forall g, lsum (K := CF) (box [3]) g = (g [0] + (g [1] + (g [2] + k0)))%rf) by reflexivity.
  assert (E0 : Cexp ((half * sumn 1 (fun i => sumn 1 (fun j => nth i [RtoC 0 : CF] k0 * A i j * nth j [RtoC 0 : CF] k0)) + sumn 1 (fun i => b i * nth i [RtoC 0 : CF] k0))%rf : CF) = RtoC 1).
  { replace ((half * sumn 1 (fun i => sumn 1 (fun j => nth i [RtoC 0 : CF] k0 * A i j * nth j [RtoC 0 : CF] k0)) + sumn 1 (fun i => b i * nth i [RtoC 0 : CF] k0))%rf : CF) with (RtoC 0); [apply Cexp_0|]. unfold A, b. cbn. ring. }
  assert (FN : forall c', fn (K := CF) Cexp 1 [3] A b c' [RtoC 0] = (c' [0] * (RtoC 1 : CF) + (c' [1] * (RtoC 1 : CF) + (c' [2] * (RtoC (/ sqrt 2) : CF) + (RtoC 0 : CF))))%rf).
  { intros c'. unfold fn. cbv zeta. rewrite X. match goal with |- kmul (Cexp ?e) _ = _ => replace (Cexp e) with (RtoC 1) by (symmetry; exact E0) end. cbn [length]. fold b'. rewrite !D, A0, A1, A2. cbn [kmul kadd k0 CF]. change (Cmult (RtoC 1) (Cplus (Cmult (c' [0]) (RtoC 1)) (Cplus (Cmult (c' [1]) (RtoC 1)) (Cplus (Cmult (c' [2]) (RtoC (/ sqrt 2))) (RtoC 0)))) = Cplus (Cmult (c' [0]) (RtoC 1)) (Cplus (Cmult (c' [1]) (RtoC 1)) (Cplus (Cmult (c' [2]) (RtoC (/ sqrt 2))) (RtoC 0)))). ring. }
  rewrite C56_documented, !FN. unfold c. cbn [sqf sqfact]. destruct (list_eq_dec _ [0] [2]); [discriminate|]. destruct (list_eq_dec _ [1] [2]); [discriminate|]. destruct (list_eq_dec _ [2] [2]); [|congruence].
  cbn [kmul kadd k0 k1 sq CF]. rewrite S1, S2. split; match goal with |- ?x = ?y => change (@eq C x y) end; [rewrite RtoC_inv by exact Q2; field; exact S2n|ring].
Qed.
Print Assumptions C56_some_variables.
Print Assumptions C56_refuted_documentation.
