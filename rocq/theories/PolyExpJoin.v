(** C58: products of Bargmann ansatze: join_Abc (mrmustard/physics/gaussian_integrals.py:159-350) and PolyExpAnsatz.__and__
    (mrmustard/physics/ansatz/polyexp_ansatz.py:894-919).  Numbers and ansatze as in PolyExp.v; batch strings as in BatchStr.v. *)
From Coq Require Import List Arith Lia Field Ring Permutation Bool.
From Verif Require Import Base RootField Tensor Series Vanilla VanillaProps HermAlg PolyExp PolyExpOps.
From Verif Require BatchStr.
Import ListNotations.
Notation str := (list nat).
Notation memb := BatchStr.memb.

Section Model.
  Context {K : rootfield}.
  Open Scope rf_scope.

  (** str.index *)
  Fixpoint index_of (x : nat) (l : list nat) : nat := match l with [] => 0 | y :: t => if Nat.eqb x y then 0 else S (index_of x t) end.
  (** gaussian_integrals.py:248-259: the sizes of one operand along the output labels, 1 for labels it does not have *)
  Definition spread (batch : list nat) (ins out : str) : result (list nat) :=
    Wires.mapM (fun l => if memb l ins then match nth_error batch (index_of l ins) with Some n => Ok n | None => Err IndexError end else Ok 1) out.
  (** gaussian_integrals.py:238-242 *)
  Definition out_shape (d : list (nat * nat)) (out : str) : result (list nat) :=
    Wires.mapM (fun l => match BatchStr.lookup d l with Some n => Ok n | None => Err ValueError end) out.
  (** can an array of shape sh be broadcast to the shape o *)
  Definition broadcasts (sh o : list nat) : bool := forallb (fun '(s, t) => Nat.eqb s 1 || Nat.eqb s t) (combine sh o).
  (** the entry of an array of shape sh read by a broadcast at index k *)
  Definition clip (sh k : list nat) : list nat := map (fun '(s, i) => if Nat.eqb s 1 then 0 else i) (combine sh k).
  (** math.reshape keeps the row-major order: the index in the old shape of an entry of the new one *)
  Definition reidx (old new : list nat) (k : list nat) : list nat := nth (ravel new k) (box old) [].
  (** gaussian_integrals.py:225-285, 297-347.  The derived axes of c1 and c2 are flattened and restored, which is the identity in row-major order; exp(log c1 + log c2) is c1 c2.
      The flag lin_sup is given by the caller. *)
  Definition join_Abc (F G : ansatz K) (s : str) (l : bool) : result (ansatz K) :=
    bind (BatchStr.parse s) (fun p => match p with
    | ([in1; in2], out) =>
      if negb (Nat.eqb (prod (csh F)) (prod (bsh F) * prod (dsh F))%nat && Nat.eqb (prod (csh G)) (prod (bsh G) * prod (dsh G))%nat) then Err ValueError else
      bind (BatchStr.sizes_spec (bsh G) in2 (rev (combine in1 (bsh F)))) (fun d =>
      bind (out_shape d out) (fun osh =>
      bind (spread (bsh F) in1 out) (fun s1 =>
      bind (spread (bsh G) in2 out) (fun s2 =>
      if negb (Nat.eqb (prod s1) (prod (bsh F)) && Nat.eqb (prod s2) (prod (bsh G))) then Err ValueError else
      if negb (broadcasts s1 osh && broadcasts s2 osh) then Err ValueError else
      let i1 o := reidx (bsh F) s1 (clip s1 o) in
      let i2 o := reidx (bsh G) s2 (clip s2 o) in
      let n1 := ncv F in let n2 := ncv G in
      let ord := seq 0 n1 ++ seq (nvar F) n2 ++ seq n1 (nder F) ++ seq (nvar F + n2) (nder G) in
      let ix i := nth i ord 0 in
      Ok (An osh (nvar F + nvar G)
        (fun o i j => blk (nvar F) (aA F (i1 o)) (aA G (i2 o)) (ix i) (ix j))
        (fun o i => cat (nvar F) (ab F (i1 o)) (ab G (i2 o)) (ix i))
        (osh ++ dsh F ++ dsh G)
        (fun od => let o := firstn (length osh) od in let dd := skipn (length osh) od in
          cval F (i1 o) (firstn (nder F) dd) * cval G (i2 o) (skipn (nder F) dd))
        l)))))
    | _ => Err ValueError
    end).
  (** polyexp_ansatz.py:915-918: the last two batch axes of A and b are merged, and the last two axes of c *)
  Definition merge2 (sh : list nat) : list nat := firstn (length sh - 2)%nat sh ++ [(nth (length sh - 2) sh 0 * nth (length sh - 1) sh 0)%nat].
  Definition merge (T : ansatz K) : ansatz K :=
    An (merge2 (bsh T)) (nvar T) (fun k => aA T (reidx (bsh T) (merge2 (bsh T)) k)) (fun k => ab T (reidx (bsh T) (merge2 (bsh T)) k))
      (merge2 (csh T)) (fun k => ac T (reidx (csh T) (merge2 (csh T)) k)) (lin T).
  (** polyexp_ansatz.py:894-919 __and__ *)
  Definition and_ (F G : ansatz K) : result (ansatz K) :=
    bind (BatchStr.outer_product_batch_str [length (bsh F); length (bsh G)] (Some ((if lin F then [0] else []) ++ (if lin G then [1] else [])))) (fun s =>
    bind (join_Abc F G s (lin F || lin G)) (fun T => make (if lin F && lin G then merge T else T))).
End Model.

Section Props.
  Context {K : rootfield}.
  Add Field Kfield : (kft K).
  Open Scope rf_scope.
  Variable ex : K -> K.
  Hypothesis EX : exponential ex.

  (** one term of the ansatz as a function *)
  Definition term (F : ansatz K) (k : list nat) (z : list K) : K := fn ex (ncv F) (dsh F) (aA F k) (ab F k) (fun d => ac F (k ++ d)) z.

  Section One.
    Variables (n1 n2 : nat) (ds1 ds2 : list nat) (A1 A2 : nat -> nat -> K) (b1 b2 : nat -> K) (c1 c2 : list nat -> K) (z1 z2 : list K).
    Let m1 := length ds1.
    Let m2 := length ds2.
    Let ord := seq 0 n1 ++ seq (n1 + m1) n2 ++ seq n1 m1 ++ seq (n1 + m1 + n2) m2.
    Let ix i := nth i ord 0.
    Hypothesis S1 : symmetric (n1 + m1) A1.
    Hypothesis S2 : symmetric (n2 + m2) A2.
    Hypothesis L1 : length z1 = n1.
    Lemma ix1 : forall i, i < n1 -> ix i = i.
    Proof. intros i Hi. unfold ix, ord. rewrite app_nth1 by now rewrite seq_length. now rewrite seq_nth. Qed.
    Lemma ix2 : forall i, i < n2 -> ix (n1 + i)%nat = (n1 + m1 + i)%nat.
    Proof. intros i Hi. unfold ix, ord. rewrite app_nth2; rewrite seq_length; [|lia]. replace (n1 + i - n1)%nat with i by lia. rewrite app_nth1 by now rewrite seq_length. now rewrite seq_nth. Qed.
    Lemma ix3 : forall i, i < m1 -> ix (n1 + n2 + i)%nat = (n1 + i)%nat.
    Proof. intros i Hi. unfold ix, ord. rewrite app_nth2; rewrite seq_length; [|lia]. rewrite app_nth2; rewrite seq_length; [|lia]. replace (n1 + n2 + i - n1 - n2)%nat with i by lia. rewrite app_nth1 by now rewrite seq_length. now rewrite seq_nth. Qed.
    Lemma ix4 : forall i, i < m2 -> ix (n1 + n2 + m1 + i)%nat = (n1 + m1 + n2 + i)%nat.
    Proof. intros i Hi. unfold ix, ord. rewrite !app_nth2; rewrite ?seq_length; [| lia ..]. replace (n1 + n2 + m1 + i - n1 - n2 - m1)%nat with i by lia. now rewrite seq_nth. Qed.
    Lemma blk11 : forall m A B i j, i < m -> j < m -> blk m A B i j = A i j :> K.
    Proof. intros m A B i j Hi Hj. unfold blk. now rewrite !(proj2 (Nat.ltb_lt _ _)) by assumption. Qed.
    Lemma blk12 : forall m A B i j, i < m -> blk m A B i (m + j)%nat = k0 :> K.
    Proof. intros m A B i j Hi. unfold blk. rewrite (proj2 (Nat.ltb_lt _ _)) by assumption. now rewrite (proj2 (Nat.ltb_ge _ _)) by lia. Qed.
    Lemma blk21 : forall m A B i j, j < m -> blk m A B (m + i)%nat j = k0 :> K.
    Proof. intros m A B i j Hj. unfold blk. rewrite (proj2 (Nat.ltb_ge _ _)) by lia. now rewrite (proj2 (Nat.ltb_lt _ _)) by assumption. Qed.
    Lemma blk22 : forall m A B i j, blk m A B (m + i)%nat (m + j)%nat = B i j :> K.
    Proof. intros m A B i j. unfold blk. rewrite !(proj2 (Nat.ltb_ge _ _)) by lia. f_equal; lia. Qed.
    Lemma cat1 : forall m b b' i, i < m -> cat m b b' i = b i :> K.
    Proof. intros m b b' i Hi. unfold cat. now rewrite (proj2 (Nat.ltb_lt _ _)) by assumption. Qed.
    Lemma cat2 : forall m b b' i, cat m b b' (m + i)%nat = b' i :> K.
    Proof. intros m b b' i. unfold cat. rewrite (proj2 (Nat.ltb_ge _ _)) by lia. f_equal; lia. Qed.
    Lemma nz1 : forall i, i < n1 -> nth i (z1 ++ z2) k0 = nth i z1 k0.
    Proof. intros i Hi. apply app_nth1. lia. Qed.
    Lemma nz2 : forall i, nth (n1 + i) (z1 ++ z2) k0 = nth i z2 k0.
    Proof. intros i. rewrite app_nth2 by lia. f_equal. lia. Qed.
    Lemma fn_join : fn ex (n1 + n2) (ds1 ++ ds2) (fun i j => blk (n1 + m1) A1 A2 (ix i) (ix j)) (fun i => cat (n1 + m1) b1 b2 (ix i))
        (fun d => c1 (firstn m1 d) * c2 (skipn m1 d)) (z1 ++ z2)
      = fn ex n1 ds1 A1 b1 c1 z1 * fn ex n2 ds2 A2 b2 c2 z2.
    Proof.
      unfold fn. cbv zeta. set (P := blk (n1 + m1) A1 A2). set (Q := cat (n1 + m1) b1 b2). set (z := z1 ++ z2).
      match goal with |- ex ?a * ?s = ex ?x * ?s1 * (ex ?y * ?s2) => assert (E1 : a = x + y); [|assert (E2 : s = s1 * s2); [|rewrite E1, (proj2 EX), E2; ring]] end.
      - assert (Q1 : forall i, i < n1 -> sumn (n1 + n2) (fun j => nth i z k0 * P (ix i) (ix j) * nth j z k0) = sumn n1 (fun j => nth i z1 k0 * A1 i j * nth j z1 k0)).
        { intros i Hi. rewrite sumn_plus. rewrite (sumn_0 n2).
          - transitivity (sumn n1 (fun j => nth i z1 k0 * A1 i j * nth j z1 k0) + k0); [f_equal|ring]. apply sumn_ext. intros j Hj. unfold P, z. rewrite !ix1, !nz1, blk11 by (auto; lia). reflexivity.
          - intros j Hj. unfold P. rewrite ix1, ix2, blk12 by (auto; lia). ring. }
        assert (Q2 : forall i, i < n2 -> sumn (n1 + n2) (fun j => nth (n1 + i) z k0 * P (ix (n1 + i)%nat) (ix j) * nth j z k0) = sumn n2 (fun j => nth i z2 k0 * A2 i j * nth j z2 k0)).
        { intros i Hi. rewrite sumn_plus. rewrite (sumn_0 n1).
          - transitivity (k0 + sumn n2 (fun j => nth i z2 k0 * A2 i j * nth j z2 k0)); [f_equal|ring]. apply sumn_ext. intros j Hj. unfold P, z. rewrite !ix2, !nz2, blk22 by (auto; lia). reflexivity.
          - intros j Hj. unfold P. rewrite ix2, (ix1 j), blk21 by (auto; lia). ring. }
        rewrite (sumn_plus n1 n2 (fun i => sumn (n1 + n2) (fun j => nth i z k0 * P (ix i) (ix j) * nth j z k0))), (sumn_ext n1 _ _ Q1), (sumn_ext n2 _ _ Q2).
        rewrite sumn_plus. rewrite (sumn_ext n1 (fun i => Q (ix i) * nth i z k0) (fun i => b1 i * nth i z1 k0)).
        + rewrite (sumn_ext n2 (fun i => Q (ix (n1 + i)%nat) * nth (n1 + i) z k0) (fun i => b2 i * nth i z2 k0)); [ring|].
          intros i Hi. unfold Q, z. now rewrite ix2, cat2, nz2 by auto.
        + intros i Hi. unfold Q, z. now rewrite ix1, cat1, nz1 by (auto; lia).
      - rewrite lsum_box_app, <- lsum_scal_r. apply lsum_ext. intros d Hd. rewrite <- lsum_scal. apply lsum_ext. intros e He.
        pose proof (box_length_in _ _ Hd) as Ld. pose proof (box_length_in _ _ He) as Le. fold m1 in Ld. fold m2 in Le.
        assert (F1 : firstn m1 (d ++ e) = d) by (rewrite <- Ld, firstn_app, Nat.sub_diag, firstn_all; cbn [firstn]; apply app_nil_r).
        assert (F2 : skipn m1 (d ++ e) = e) by (rewrite <- Ld, skipn_app, Nat.sub_diag, skipn_all; reflexivity).
        rewrite F1, F2. rewrite app_length. fold m1 m2.
        assert (AD : forall (D : nat) (A0 : nat -> nat -> K) b0 d, derivative D A0 b0 d = amp D A0 b0 k1 d) by (intros; unfold derivative, amp; ring). rewrite !AD.
        set (B1 := fun i => b1 (n1 + i)%nat + sumn n1 (fun a => A1 a (n1 + i)%nat * nth a z1 k0)).
        set (B2 := fun i => b2 (n2 + i)%nat + sumn n2 (fun a => A2 a (n2 + i)%nat * nth a z2 k0)).
        assert (Sd1 : symmetric m1 (fun i j => A1 (n1 + i)%nat (n1 + j)%nat)) by (intros i j Hi Hj; apply S1; lia).
        assert (Sd2 : symmetric m2 (fun i j => A2 (n2 + i)%nat (n2 + j)%nat)) by (intros i j Hi Hj; apply S2; lia).
        transitivity (c1 d * c2 e * amp (m1 + m2) (blk m1 (fun i j => A1 (n1 + i)%nat (n1 + j)%nat) (fun i j => A2 (n2 + i)%nat (n2 + j)%nat)) (cat m1 B1 B2) k1 (d ++ e)).
        + f_equal. symmetry. apply amp_ext; [now apply blk_sym|rewrite app_length; lia| |].
          * intros i j Hi Hj. destruct (Nat.lt_ge_cases i m1) as [Hi1|Hi1]; destruct (Nat.lt_ge_cases j m1) as [Hj1|Hj1].
            -- unfold P. rewrite !ix3, !blk11 by lia. reflexivity.
            -- replace j with (m1 + (j - m1))%nat by lia. unfold P. rewrite ix3, Nat.add_assoc, ix4 by lia. rewrite <- (Nat.add_assoc (n1 + m1)), !blk12 by lia. reflexivity.
            -- replace i with (m1 + (i - m1))%nat by lia. unfold P. rewrite (ix3 j), Nat.add_assoc, ix4 by lia. rewrite <- (Nat.add_assoc (n1 + m1)), !blk21 by lia. reflexivity.
            -- replace j with (m1 + (j - m1))%nat by lia. replace i with (m1 + (i - m1))%nat by lia. unfold P. rewrite !Nat.add_assoc, !ix4 by lia. rewrite <- !(Nat.add_assoc (n1 + m1)), !blk22. reflexivity.
          * intros i Hi. destruct (Nat.lt_ge_cases i m1) as [Hi1|Hi1].
            -- rewrite cat1 by lia. unfold Q, B1. rewrite ix3, cat1 by lia. f_equal. rewrite sumn_plus. rewrite (sumn_0 n2).
               ++ transitivity (sumn n1 (fun a => A1 a (n1 + i)%nat * nth a z1 k0) + k0); [ring|]. f_equal. apply sumn_ext. intros a Ha. unfold P, z. now rewrite ix1, blk11, nz1 by lia.
               ++ intros a Ha. unfold P. rewrite ix2, blk21 by lia. ring.
            -- replace i with (m1 + (i - m1))%nat by lia. rewrite cat2. unfold Q, B2. rewrite Nat.add_assoc, ix4 by lia. rewrite <- (Nat.add_assoc (n1 + m1)), cat2. f_equal. rewrite sumn_plus. rewrite (sumn_0 n1).
               ++ transitivity (k0 + sumn n2 (fun a => A2 a (n2 + (i - m1))%nat * nth a z2 k0)); [ring|]. f_equal. apply sumn_ext. intros a Ha. unfold P, z. now rewrite ix2, blk22, nz2 by lia.
               ++ intros a Ha. unfold P. rewrite ix1, blk12 by lia. ring.
        + rewrite amp_block by auto. ring.
    Qed.
  End One.
  Lemma index_nth : forall (dim : nat -> nat) ins l, memb l ins = true -> nth_error (map dim ins) (index_of l ins) = Some (dim l).
  Proof.
    intros dim ins l H. apply BatchStr.memb_In in H. induction ins as [|x ins IH]; [destruct H|]. cbn [index_of map]. destruct (Nat.eqb_spec l x) as [->|N]; [reflexivity|].
    cbn [nth_error]. apply IH. destruct H as [->|H]; [contradiction|exact H].
  Qed.
  Lemma spread_ok : forall dim ins out, spread (map dim ins) ins out = Ok (map (fun l => if memb l ins then dim l else 1) out).
  Proof.
    intros dim ins out. unfold spread. induction out as [|l out IH]; [reflexivity|]. cbn [Wires.mapM map]. rewrite IH. destruct (memb l ins) eqn:M; [rewrite index_nth by exact M|]; reflexivity.
  Qed.
  Lemma out_shape_ok : forall dim d out, (forall l n, BatchStr.lookup d l = Some n -> n = dim l) -> (forall l, In l out -> BatchStr.lookup d l <> None) -> out_shape d out = Ok (map dim out).
  Proof.
    intros dim d out H1 H2. unfold out_shape. induction out as [|l out IH]; [reflexivity|]. cbn [Wires.mapM map]. rewrite IH by (intros; apply H2; now right).
    destruct (BatchStr.lookup d l) eqn:E; [|exfalso; apply (H2 l (or_introl eq_refl) E)]. now rewrite (H1 _ _ E).
  Qed.
  Lemma broadcasts_ok : forall dim ins out, broadcasts (map (fun l => if memb l ins then dim l else 1) out) (map dim out) = true.
  Proof.
    intros dim ins out. unfold broadcasts. apply forallb_forall. intros [s t] H. induction out as [|l out IH]; [destruct H|]. cbn [map combine] in H. destruct H as [H|H]; [|auto].
    injection H as <- <-. destruct (memb l ins); rewrite ?Nat.eqb_refl, ?orb_true_r; reflexivity.
  Qed.
  Lemma clip_ok : forall dim env ins out, (forall l, In l out -> env l < dim l) ->
    clip (map (fun l => if memb l ins then dim l else 1) out) (map env out) = map (fun l => if memb l ins then env l else 0) out.
  Proof.
    intros dim env ins out H. unfold clip. induction out as [|l out IH]; [reflexivity|]. cbn [map combine]. rewrite IH by (intros; apply H; now right). f_equal.
    pose proof (H l (or_introl eq_refl)). destruct (memb l ins); [|reflexivity]. destruct (Nat.eqb_spec (dim l) 1); lia.
  Qed.
  Lemma in_order_in : forall s out l, BatchStr.in_order s out -> In l s -> In l out.
  Proof. intros s out l H Hl. unfold BatchStr.in_order in H. rewrite <- H in Hl. now apply filter_In in Hl. Qed.
  Lemma src_ok : forall dim env ins out, BatchStr.in_order ins out -> (forall l, In l out -> env l < dim l) ->
    reidx (map dim ins) (map (fun l => if memb l ins then dim l else 1) out) (clip (map (fun l => if memb l ins then dim l else 1) out) (map env out)) = map env ins.
  Proof.
    intros dim env ins out IO H. rewrite clip_ok by exact H. unfold reidx.
    assert (R : forall a b, ravel a b = BatchStr.ravel a b) by reflexivity. rewrite R, BatchStr.ravel_filter, IO, <- R. apply nth_box.
    assert (G : forall l, In l ins -> env l < dim l) by (intros l Hl; apply H; now apply (in_order_in ins)). clear - G. induction ins as [|l ins IH]; cbn [map]; constructor; [apply G; now left|apply IH; intros; apply G; now right].
  Qed.
  Lemma prod_spread : forall dim ins out, BatchStr.in_order ins out -> prod (map (fun l => if memb l ins then dim l else 1) out) = prod (map dim ins).
  Proof. intros dim ins out IO. change (BatchStr.prod (map (fun l => if memb l ins then dim l else 1) out) = BatchStr.prod (map dim ins)). now rewrite BatchStr.prod_filter, IO. Qed.
  Lemma prod_app : forall a b, prod (a ++ b) = (prod a * prod b)%nat.
  Proof. induction a as [|x a IH]; intros b; cbn [app prod fold_right]; [fold (prod b); lia|]. fold (prod a) (prod (a ++ b)). rewrite IH. lia. Qed.
  Lemma lookup_rev_combine : forall dim s l n, BatchStr.lookup (rev (combine s (map dim s))) l = Some n -> n = dim l.
  Proof.
    intros dim s l n. assert (G : forall x y, In (x, y) (rev (combine s (map dim s))) -> y = dim x).
    { intros x y H. apply in_rev in H. induction s as [|a s IH]; [destruct H|]. cbn [map combine] in H. destruct H as [H|H]; [injection H as <- <-; reflexivity|auto]. }
    revert G. generalize (rev (combine s (map dim s))). intros L G. induction L as [|[x y] L IH]; [discriminate|]. cbn [BatchStr.lookup]. destruct (Nat.eqb_spec l x) as [->|N].
    - intros H. injection H as <-. apply G. now left.
    - apply IH. intros; apply G; now right.
  Qed.
  Lemma lookup_combine : forall dim s l, In l s -> BatchStr.lookup (rev (combine s (map dim s))) l <> None.
  Proof.
    intros dim s l H. assert (G : In (l, dim l) (rev (combine s (map dim s)))).
    { apply -> in_rev. induction s as [|a s IH]; [destruct H|]. cbn [map combine]. destruct H as [->|H]; [now left|right; auto]. }
    revert G. generalize (rev (combine s (map dim s))). intros L G. induction L as [|[x y] L IH]; [destruct G|]. cbn [BatchStr.lookup]. destruct (Nat.eqb_spec l x) as [->|N]; [discriminate|].
    apply IH. destruct G as [G|G]; [congruence|exact G].
  Qed.

  (** C58, join_Abc: when every operand's labels keep their order in the output, the joined ansatz is the product of the two functions,
      at every batch position; [dim] gives the size of a label and [env] the position along it *)
  Theorem C58_join : forall F G in1 in2 out dim lf, valid F -> valid G -> BatchStr.label_chars in1 -> BatchStr.label_chars in2 -> BatchStr.label_chars out ->
    bsh F = map dim in1 -> bsh G = map dim in2 -> BatchStr.in_order in1 out -> BatchStr.in_order in2 out -> incl out (in1 ++ in2) ->
    exists H, join_Abc F G (BatchStr.render [in1; in2] out) lf = Ok H /\ lin H = lf /\ bsh H = map dim out /\ csh H = bsh H ++ dsh F ++ dsh G /\ ncv H = (ncv F + ncv G)%nat /\
      nvar H = (nvar F + nvar G)%nat /\
      (forall env, (forall l, In l out -> env l < dim l) -> symmetric (nvar H) (aA H (map env out)) /\
        forall z1 z2, length z1 = ncv F -> term H (map env out) (z1 ++ z2) = term F (map env in1) z1 * term G (map env in2) z2).
  Proof.
    intros F G in1 in2 out dim lf (C1 & N1 & _ & _ & Y1) (C2 & N2 & _ & _ & Y2) LC1 LC2 LCo B1 B2 O1 O2 I. unfold join_Abc. rewrite BatchStr.parse_render by (auto; discriminate). cbn [bind].
    replace (prod (csh F) =? prod (bsh F) * prod (dsh F)) with true by (symmetry; apply Nat.eqb_eq; rewrite C1 at 1; apply prod_app).
    replace (prod (csh G) =? prod (bsh G) * prod (dsh G)) with true by (symmetry; apply Nat.eqb_eq; rewrite C2 at 1; apply prod_app). cbn [andb negb].
    destruct (BatchStr.sizes_spec_ok dim in2 (rev (combine in1 (map dim in1)))) as [d (D1 & D2 & D3)]; [intros; now apply (lookup_rev_combine dim in1)|].
    rewrite <- B1, <- B2 in D1. rewrite D1. cbn [bind]. rewrite (out_shape_ok dim d out D2).
    2:{ intros l Hl. apply D3. apply I in Hl. apply in_app_or in Hl. destruct Hl as [Hl|Hl]; [right; now apply lookup_combine|now left]. }
    cbn [bind].
    pose proof (spread_ok dim in1 out) as SP1. pose proof (spread_ok dim in2 out) as SP2. rewrite <- B1 in SP1. rewrite <- B2 in SP2. rewrite SP1, SP2. cbn [bind].
    set (s1 := map (fun l => if memb l in1 then dim l else 1) out). set (s2 := map (fun l => if memb l in2 then dim l else 1) out).
    replace (prod s1 =? prod (bsh F)) with true by (symmetry; apply Nat.eqb_eq; rewrite B1; now apply prod_spread).
    replace (prod s2 =? prod (bsh G)) with true by (symmetry; apply Nat.eqb_eq; rewrite B2; now apply prod_spread). cbn [andb negb].
    unfold s1 at 1, s2 at 1. rewrite !broadcasts_ok. cbn [andb negb].
    set (H := An _ _ _ _ _ _ _). assert (DH : dsh H = dsh F ++ dsh G) by (unfold dsh at 1, H; cbn [bsh csh]; rewrite skipn_app, Nat.sub_diag, skipn_all; reflexivity).
    assert (NH : ncv H = (ncv F + ncv G)%nat) by (unfold ncv at 1, nder; rewrite DH, app_length; fold (nder F) (nder G); unfold H, ncv; cbn [nvar]; lia).
    exists H. split; [reflexivity|]. split; [reflexivity|]. split; [reflexivity|]. split; [reflexivity|]. split; [exact NH|]. split; [reflexivity|].
    intros env He.
    assert (I1 : reidx (bsh F) s1 (clip s1 (map env out)) = map env in1) by (rewrite B1; unfold s1; now apply src_ok).
    assert (I2 : reidx (bsh G) s2 (clip s2 (map env out)) = map env in2) by (rewrite B2; unfold s2; now apply src_ok).
    assert (K1 : In (map env in1) (box (bsh F))).
    { rewrite B1. apply in_box. assert (G1 : forall l, In l in1 -> env l < dim l) by (intros l Hl; apply He; now apply (in_order_in in1)). clear - G1. induction in1 as [|l ins IH]; cbn [map]; constructor; [apply G1; now left|apply IH; intros; apply G1; now right]. }
    assert (K2 : In (map env in2) (box (bsh G))).
    { rewrite B2. apply in_box. assert (G1 : forall l, In l in2 -> env l < dim l) by (intros l Hl; apply He; now apply (in_order_in in2)). clear - G1. induction in2 as [|l ins IH]; cbn [map]; constructor; [apply G1; now left|apply IH; intros; apply G1; now right]. }
    specialize (Y1 _ K1). specialize (Y2 _ K2). split.
    - intros i j Hi Hj. unfold H in *. cbn [aA nvar] in *. rewrite I1, I2.
      set (ord := seq 0 (ncv F) ++ seq (nvar F) (ncv G) ++ seq (ncv F) (nder F) ++ seq (nvar F + ncv G) (nder G)).
      assert (LO : length ord = (nvar F + nvar G)%nat) by (unfold ord; rewrite !app_length, !seq_length; unfold ncv; lia).
      assert (BO : forall i, i < nvar F + nvar G -> nth i ord 0 < nvar F + nvar G).
      { intros i' Hi'. assert (X : In (nth i' ord 0) ord) by (apply nth_In; lia). unfold ord in X. unfold ncv in X. repeat (apply in_app_or in X; destruct X as [X|X]); apply in_seq in X; fold ord in X; fold (ncv F) (ncv G) in *; fold ord in X; unfold ncv in *; lia. }
      apply (blk_sym (nvar F) (nvar G)); auto.
    - intros z1 z2 Lz. unfold term. rewrite NH, DH.
      assert (V1 : nvar F = (ncv F + length (dsh F))%nat) by (unfold ncv, nder in *; lia). assert (V2 : nvar G = (ncv G + length (dsh G))%nat) by (unfold ncv, nder in *; lia).
      rewrite <- fn_join; [|rewrite <- V1; exact Y1|rewrite <- V2; exact Y2|exact Lz].
      unfold H. cbn [aA ab ac]. rewrite I1, I2, <- V1. unfold nder. fold (nder F). unfold fn. cbv zeta. f_equal. apply lsum_ext. intros dd Hdd. f_equal.
      replace (length (map dim out)) with (length (map env out)) by now rewrite !map_length.
      rewrite firstn_app, Nat.sub_diag, firstn_all, skipn_app, Nat.sub_diag, skipn_all. cbn [firstn skipn app]. rewrite app_nil_r, I1, I2.
      pose proof (box_length_in _ _ Hdd) as Ldd. rewrite app_length in Ldd.
      rewrite !cval_ac; auto; [unfold nder; rewrite skipn_length; lia|unfold nder; rewrite firstn_length; lia].
  Qed.
  (** ** __and__ *)
  Lemma exists_env : forall (ls vs : list nat), NoDup ls -> length ls = length vs -> exists f : nat -> nat, map f ls = vs.
  Proof.
    induction ls as [|l ls IH]; intros [|v vs] N L; try discriminate; [now exists (fun x => x)|]. inversion N as [|? ? N1 N2]; subst. injection L as L. destruct (IH vs N2 L) as [f Hf].
    exists (fun x => if Nat.eqb x l then v else f x). cbn [map]. rewrite Nat.eqb_refl. f_equal. rewrite <- Hf. apply map_ext_in. intros x Hx. destruct (Nat.eqb_spec x l); [subst; contradiction|reflexivity].
  Qed.
  Lemma app_inj : forall {X} (a b c d : list X), length a = length c -> a ++ b = c ++ d -> a = c /\ b = d.
  Proof. intros X. induction a as [|x a IH]; intros b [|y c] d L E; try discriminate; [auto|]. cbn in E. injection E as -> E. injection L as L. destruct (IH b c d L E). subst. auto. Qed.
  Lemma filter_all : forall s l, incl l s -> filter (fun x => memb x s) l = l.
  Proof. intros s l H. induction l as [|x l IH]; [reflexivity|]. cbn [filter]. rewrite (proj2 (BatchStr.memb_In x s)) by (apply H; now left). f_equal. apply IH. intros y Hy. apply H. now right. Qed.
  Lemma filter_none : forall s l, (forall x, In x l -> ~ In x s) -> filter (fun x => memb x s) l = [].
  Proof.
    intros s l H. induction l as [|x l IH]; [reflexivity|]. cbn [filter]. destruct (memb x s) eqn:M; [apply BatchStr.memb_In in M; exfalso; apply (H x); [now left|exact M]|]. apply IH. intros y Hy. apply H. now right.
  Qed.
  (** the order of the axes of the product: the superposition axes come last *)
  Definition mix {X} (d : X) (l1 l2 : bool) (a b : list X) : list X :=
    if l1 then if l2 then removelast a ++ removelast b ++ [last a d; last b d] else removelast a ++ b ++ [last a d] else a ++ b.
  Lemma map_removelast : forall {X Y} (f : X -> Y) l, map f (removelast l) = removelast (map f l).
  Proof. intros X Y f l. induction l as [|x l IH]; [reflexivity|]. destruct l; [reflexivity|]. cbn [removelast map] in *. now rewrite IH. Qed.
  Lemma map_last : forall {X Y} (f : X -> Y) l d d', l <> [] -> f (last l d) = last (map f l) d'.
  Proof. intros X Y f l d d' H. induction l as [|x l IH]; [congruence|]. destruct l; [reflexivity|]. cbn [last map] in *. apply IH. discriminate. Qed.
  Lemma map_mix : forall (f : nat -> nat) l1 l2 a b, (l1 = true -> a <> []) -> (l2 = true -> b <> []) -> map f (mix 0 l1 l2 a b) = mix 0 l1 l2 (map f a) (map f b).
  Proof.
    intros f l1 l2 a b H1 H2. unfold mix. destruct l1; [destruct l2|]; rewrite !map_app, ?map_removelast; cbn [map]; auto.
    - now rewrite (map_last f a 0 0), (map_last f b 0 0) by auto.
    - now rewrite (map_last f a 0 0) by auto.
  Qed.
  Lemma mix_perm : forall l1 l2 (a b : list nat), (l1 = true -> a <> []) -> (l2 = true -> b <> []) -> Permutation (mix 0 l1 l2 a b) (a ++ b).
  Proof.
    intros l1 l2 a b H1 H2. unfold mix. destruct l1; [|reflexivity]. specialize (H1 eq_refl). transitivity ((removelast a ++ [last a 0]) ++ b); [|rewrite <- app_removelast_last by exact H1; reflexivity]. rewrite <- app_assoc. destruct l2; apply Permutation_app_head.
    - transitivity ([last a 0] ++ (removelast b ++ [last b 0])); [|rewrite <- app_removelast_last by auto; reflexivity]. change [last a 0; last b 0] with ([last a 0] ++ [last b 0]). rewrite !app_assoc. apply Permutation_app_tail. apply Permutation_app_comm.
    - apply Permutation_app_comm.
  Qed.
  Definition ins1 (F G : ansatz K) : str := BatchStr.gen (length (bsh F)) 0.
  Definition ins2 (F G : ansatz K) : str := BatchStr.gen (length (bsh G)) (length (bsh F)).
  Lemma gen_len : forall d o, length (BatchStr.gen d o) = d.
  Proof. intros d o. unfold BatchStr.gen. now rewrite map_length, seq_length. Qed.
  Lemma gen_app : forall d1 d2, BatchStr.gen d1 0 ++ BatchStr.gen d2 d1 = BatchStr.gen (d1 + d2) 0.
  Proof. intros. unfold BatchStr.gen. now rewrite <- map_app, seq_app. Qed.
  Lemma and_string : forall F G, (lin F = true -> bsh F <> []) -> (lin G = true -> bsh G <> []) ->
    BatchStr.outer_product_batch_str [length (bsh F); length (bsh G)] (Some ((if lin F then [0] else []) ++ (if lin G then [1] else [])))
    = Ok (BatchStr.render [ins1 F G; ins2 F G] (mix 0 (lin F) (lin G) (ins1 F G) (ins2 F G))).
  Proof.
    intros F G H1 H2. unfold BatchStr.outer_product_batch_str, BatchStr.outer_spec. cbn [BatchStr.gens]. rewrite Nat.add_0_l. fold (ins1 F G). fold (ins2 F G).
    assert (N1 : lin F = true -> ins1 F G <> []) by (intros L; specialize (H1 L); unfold ins1; intros E; apply (f_equal (@length nat)) in E; rewrite gen_len in E; destruct (bsh F); [congruence|discriminate]).
    assert (N2 : lin G = true -> ins2 F G <> []) by (intros L; specialize (H2 L); unfold ins2; intros E; apply (f_equal (@length nat)) in E; rewrite gen_len in E; destruct (bsh G); [congruence|discriminate]).
    unfold mix. generalize dependent (ins1 F G). generalize dependent (ins2 F G). intros i2 N2 i1 N1. destruct (lin F) eqn:LF; destruct (lin G) eqn:LG; cbn [app BatchStr.strip nth_error BatchStr.set_nth].
    - specialize (N1 eq_refl). specialize (N2 eq_refl). destruct i1 as [|x i1]; [congruence|]. cbn [BatchStr.set_nth nth_error]. destruct i2 as [|y i2]; [congruence|]. cbn [bind BatchStr.set_nth concat app]. f_equal. f_equal.
      rewrite app_nil_r, <- app_assoc. reflexivity.
    - specialize (N1 eq_refl). destruct i1 as [|x i1]; [congruence|]. cbn [bind BatchStr.set_nth concat app]. f_equal. f_equal. now rewrite app_nil_r, <- app_assoc.
    - specialize (N2 eq_refl). destruct i2 as [|y i2]; [congruence|]. cbn [bind BatchStr.set_nth concat app]. f_equal. f_equal. rewrite app_nil_r, <- app_assoc. f_equal. symmetry. now apply app_removelast_last.
    - cbn [bind concat]. now rewrite !app_nil_r.
  Qed.
  Lemma in_order_mix : forall l1 l2 a b, NoDup (a ++ b) -> (l1 = true -> a <> []) -> (l2 = true -> b <> []) -> BatchStr.in_order a (mix 0 l1 l2 a b) /\ BatchStr.in_order b (mix 0 l1 l2 a b).
  Proof.
    intros l1 l2 a b N H1 H2. assert (Dj : forall x, In x a -> ~ In x b) by (intros x Ha Hb; revert Ha Hb; clear - N; induction a as [|y a IH]; [easy|]; cbn in N; inversion N as [|? ? N1 N2]; subst; intros [->|Ha] Hb; [apply N1, in_or_app; now right|auto]).
    assert (Ra : incl (removelast a) a) by (intros x Hx; destruct a as [|y a]; [destruct Hx|]; rewrite (app_removelast_last 0 (l := y :: a)) by discriminate; apply in_or_app; now left).
    assert (Rb : incl (removelast b) b) by (intros x Hx; destruct b as [|y b]; [destruct Hx|]; rewrite (app_removelast_last 0 (l := y :: b)) by discriminate; apply in_or_app; now left).
    assert (La : a <> [] -> In (last a 0) a) by (intros Q; rewrite (app_removelast_last 0 Q) at 2; apply in_or_app; right; now left).
    assert (Lb : b <> [] -> In (last b 0) b) by (intros Q; rewrite (app_removelast_last 0 Q) at 2; apply in_or_app; right; now left).
    assert (Fa : forall l, incl l a -> filter (fun x => memb x b) l = []) by (intros l Hl; apply filter_none; intros x Hx; auto).
    assert (Fb : forall l, incl l b -> filter (fun x => memb x a) l = []) by (intros l Hl; apply filter_none; intros x Hx Hxa; apply (Dj x Hxa); auto).
    assert (I1 : forall (s : list nat) x, In x s -> incl [x] s) by (intros s x Hx y [<-|[]]; exact Hx).
    unfold BatchStr.in_order, mix. destruct l1; [destruct l2|].
    - specialize (H1 eq_refl). specialize (H2 eq_refl). change [last a 0; last b 0] with ([last a 0] ++ [last b 0]). rewrite !filter_app.
      rewrite (filter_all a (removelast a)), (Fb (removelast b)), (filter_all a [last a 0]), (Fb [last b 0]) by auto.
      rewrite (Fa (removelast a)), (filter_all b (removelast b)), (Fa [last a 0]), (filter_all b [last b 0]) by auto. cbn [app]. rewrite <- !app_removelast_last by assumption. auto.
    - specialize (H1 eq_refl). rewrite !filter_app. rewrite (filter_all a (removelast a)), (Fb b), (filter_all a [last a 0]) by (auto using incl_refl). rewrite (Fa (removelast a)), (filter_all b b), (Fa [last a 0]) by (auto using incl_refl).
      cbn [app]. rewrite <- app_removelast_last by assumption. rewrite app_nil_r. auto.
    - rewrite !filter_app. rewrite (filter_all a a), (Fb b), (Fa a), (filter_all b b) by (apply incl_refl). cbn [app]. rewrite app_nil_r. auto.
  Qed.
  (** before merging: the joined ansatz, with the batch axes of both *)
  Lemma and_join : forall F G lf, valid F -> valid G -> let l1 := lin F in let l2 := lin G in
    exists T, join_Abc F G (BatchStr.render [ins1 F G; ins2 F G] (mix 0 l1 l2 (ins1 F G) (ins2 F G))) lf = Ok T /\ lin T = lf /\ bsh T = mix 0 l1 l2 (bsh F) (bsh G) /\
      csh T = bsh T ++ dsh F ++ dsh G /\ ncv T = (ncv F + ncv G)%nat /\ nvar T = (nvar F + nvar G)%nat /\ (forall k, In k (box (bsh T)) -> symmetric (nvar T) (aA T k)) /\
      (forall a b z1 z2, In a (box (bsh F)) -> In b (box (bsh G)) -> length z1 = ncv F -> term T (mix 0 l1 l2 a b) (z1 ++ z2) = term F a z1 * term G b z2).
  Proof.
    intros F G lf V1 V2 l1 l2. pose proof V1 as (_ & _ & _ & H1 & _). pose proof V2 as (_ & _ & _ & H2 & _). set (i1 := ins1 F G). set (i2 := ins2 F G).
    assert (LI1 : length i1 = length (bsh F)) by apply gen_len. assert (LI2 : length i2 = length (bsh G)) by apply gen_len.
    assert (ND : NoDup (i1 ++ i2)) by (unfold i1, i2, ins1, ins2; rewrite gen_app; apply BatchStr.gen_NoDup).
    assert (N1 : l1 = true -> i1 <> []) by (intros L E; rewrite E in LI1; specialize (H1 L); destruct (bsh F); [congruence|discriminate]).
    assert (N2 : l2 = true -> i2 <> []) by (intros L E; rewrite E in LI2; specialize (H2 L); destruct (bsh G); [congruence|discriminate]).
    set (out := mix 0 l1 l2 i1 i2). assert (P : Permutation out (i1 ++ i2)) by now apply mix_perm. assert (NO : NoDup out) by (apply (Permutation_NoDup (Permutation_sym P) ND)).
    destruct (exists_env (i1 ++ i2) (bsh F ++ bsh G) ND) as [dim Hd]; [now rewrite !app_length, LI1, LI2|]. rewrite map_app in Hd. apply app_inj in Hd; [|now rewrite map_length]. destruct Hd as [D1 D2].
    assert (LC1 : BatchStr.label_chars i1) by apply BatchStr.gen_chars. assert (LC2 : BatchStr.label_chars i2) by apply BatchStr.gen_chars.
    assert (LCo : BatchStr.label_chars out).
    { unfold BatchStr.label_chars in *. rewrite Forall_forall in *. intros x Hx. apply (Permutation_in _ P), in_app_or in Hx. destruct Hx; auto. }
    destruct (in_order_mix l1 l2 i1 i2 ND N1 N2) as [O1 O2]. fold out in O1, O2.
    destruct (C58_join F G i1 i2 out dim lf V1 V2 LC1 LC2 LCo (eq_sym D1) (eq_sym D2) O1 O2) as [T (J1 & J2 & J3 & J4 & J5 & J6 & J7)]; [intros x Hx; now apply (Permutation_in _ P)|].
    exists T. split; [exact J1|]. split; [exact J2|]. split; [rewrite J3; unfold out; rewrite map_mix, D1, D2 by auto; reflexivity|]. split; [exact J4|]. split; [exact J5|]. split; [exact J6|]. split.
    - intros k Hk. rewrite J3 in Hk. pose proof (box_length_in _ _ Hk) as Lk. rewrite map_length in Lk. destruct (exists_env out k NO (eq_sym Lk)) as [env He]. rewrite <- He. apply J7.
      rewrite <- He in Hk. apply in_box in Hk. clear - Hk. intros l Hl. induction out as [|x out IH]; [destruct Hl|]. cbn [map] in Hk. inversion Hk; subst. destruct Hl as [->|Hl]; auto.
    - intros a b z1 z2 Ha Hb Lz. pose proof (box_length_in _ _ Ha) as La. pose proof (box_length_in _ _ Hb) as Lb.
      destruct (exists_env (i1 ++ i2) (a ++ b) ND) as [env He]; [now rewrite !app_length, LI1, LI2, La, Lb|]. rewrite map_app in He. apply app_inj in He; [|now rewrite map_length, LI1, La]. destruct He as [E1 E2].
      assert (EO : map env out = mix 0 l1 l2 a b) by (unfold out; rewrite map_mix, E1, E2 by auto; reflexivity). rewrite <- EO, <- E1, <- E2. apply J7; [|exact Lz].
      intros l Hl. apply (Permutation_in _ P), in_app_or in Hl. apply in_box in Ha. apply in_box in Hb. rewrite <- D1, <- E1 in Ha. rewrite <- D2, <- E2 in Hb.
      assert (G1 : forall s, Forall2 lt (map env s) (map dim s) -> In l s -> env l < dim l) by (clear; induction s as [|x s IH]; intros Q Hl; [destruct Hl|]; inversion Q; subst; destruct Hl as [->|Hl]; auto).
      destruct Hl as [Hl|Hl]; [now apply (G1 i1)|now apply (G1 i2)].
  Qed.
  Lemma denote_term : forall F k z, denote ex F k z = if lin F then sumn (last (bsh F) 0) (fun s => term F (k ++ [s]) z) else term F k z.
  Proof.
    intros F k z. unfold denote, term. destruct (lin F); [|reflexivity]. apply sumn_ext. intros s _. unfold fn. cbv zeta. f_equal. apply lsum_ext. intros d _. now rewrite <- app_assoc.
  Qed.
  Lemma sumn_mul : forall a b (f : nat -> K), sumn (a * b) f = sumn a (fun i => sumn b (fun j => f (i * b + j)%nat)).
  Proof. induction a as [|a IH]; intros b f; [reflexivity|]. cbn [sumn]. rewrite <- IH. replace (S a * b)%nat with (a * b + b)%nat by lia. apply sumn_plus. Qed.
  Lemma sumn_prod : forall a b (f g : nat -> K), sumn a f * sumn b g = sumn a (fun i => sumn b (fun j => f i * g j)).
  Proof. intros a b f g. rewrite <- sumn_scal_r. apply sumn_ext. intros i _. now rewrite <- sumn_scal. Qed.
  Lemma ravel_app : forall s1 s2 k1 k2, length k1 = length s1 -> ravel (s1 ++ s2) (k1 ++ k2) = (ravel s1 k1 * prod s2 + ravel s2 k2)%nat.
  Proof. induction s1 as [|d s1 IH]; intros s2 [|x k1] k2 L; try discriminate; [reflexivity|]. cbn [app ravel]. rewrite IH by (injection L; auto). rewrite prod_app. lia. Qed.
  Lemma reidx_merge : forall s L1 L2 k t, length k = length s -> In k (box s) -> (t < L1 * L2)%nat ->
    reidx (s ++ [L1; L2]) (s ++ [(L1 * L2)%nat]) (k ++ [t]) = k ++ [(t / L2)%nat; (t mod L2)%nat].
  Proof.
    intros s L1 L2 k t Lk Hk Ht. unfold reidx. assert (Z : L2 <> 0) by (intros ->; lia). replace (ravel (s ++ [(L1 * L2)%nat]) (k ++ [t])) with (ravel (s ++ [L1; L2]) (k ++ [(t / L2)%nat; (t mod L2)%nat])).
    - apply nth_box. apply Forall2_app; [now apply in_box|]. repeat constructor; [apply Nat.div_lt_upper_bound; lia|now apply Nat.mod_upper_bound].
    - rewrite !ravel_app by exact Lk. cbn [ravel prod fold_right]. pose proof (Nat.div_mod t L2 Z). lia.
  Qed.
  Lemma removelast_box : forall s k, In k (box s) -> s <> [] -> In (removelast k) (box (removelast s)) /\ last k 0 < last s 0.
  Proof.
    intros s k Hk N. pose proof (box_length_in _ _ Hk) as L. assert (Nk : k <> []) by (intros ->; destruct s; [congruence|discriminate]).
    apply in_box in Hk. rewrite (app_removelast_last 0 N), (app_removelast_last 0 Nk) in Hk. apply Forall2_app_inv_l in Hk. destruct Hk as [u [v (F1 & F2 & E)]].
    inversion F2 as [|? ? ? ? F3 F4]; subst. inversion F4; subst. apply app_inj_tail in E. destruct E as [-> ->]. split; [now apply in_box|exact F3].
  Qed.
  Lemma app_box : forall s1 s2 k, In k (box (s1 ++ s2)) -> exists k1 k2, k = k1 ++ k2 /\ In k1 (box s1) /\ In k2 (box s2).
  Proof. intros s1 s2 k H. apply in_box in H. apply Forall2_app_inv_r in H. destruct H as [u [v (H1 & H2 & E)]]. exists u, v. rewrite !in_box. auto. Qed.
  Lemma rl_snoc : forall (l : list nat) x, removelast (l ++ [x]) = l. Proof. intros. apply removelast_last. Qed.
  Lemma last_snoc : forall (l : list nat) x d, last (l ++ [x]) d = x. Proof. intros. apply last_last. Qed.

  (** C58, &: the product F(z1) G(z2) at every pair of batch positions, unless both are superpositions and derived variables are present *)
  Theorem C58_and : forall F G, valid F -> valid G -> (lin F = true -> lin G = true -> nder F = 0 /\ nder G = 0) ->
    exists H, and_ F G = Ok H /\ valid H /\ ncv H = (ncv F + ncv G)%nat /\ outer H = outer F ++ outer G /\
      forall a b z1 z2, In a (box (outer F)) -> In b (box (outer G)) -> length z1 = ncv F -> denote ex H (a ++ b) (z1 ++ z2) = denote ex F a z1 * denote ex G b z2.
  Proof.
    intros F G V1 V2 NB. pose proof V1 as (_ & M1 & P1 & H1 & _). pose proof V2 as (_ & M2 & P2 & H2 & _). unfold and_. rewrite and_string by auto. cbn [bind].
    destruct (and_join F G (lin F || lin G) V1 V2) as [T (J1 & J2 & J3 & J4 & J5 & J6 & J7 & J8)]. rewrite J1. cbn [bind].
    assert (DT : dsh T = dsh F ++ dsh G) by (unfold dsh at 1; rewrite J4, skipn_app, Nat.sub_diag, skipn_all; reflexivity).
    assert (PT : Forall (fun d => 0 < d) (dsh T)) by (rewrite DT; apply Forall_app; auto).
    assert (KT : nder T <= nvar T) by (unfold nder; rewrite DT, app_length; fold (nder F) (nder G); lia).
    assert (SB : forall s k x n, In k (box s) -> x < n -> In (k ++ [x]) (box (s ++ [n]))) by (intros; now apply box_snoc).
    destruct (lin F && lin G) eqn:LL.
    - apply andb_true_iff in LL. destruct LL as [LF LG]. destruct (NB LF LG) as [D1 D2]. unfold nder in D1, D2. assert (E1 : dsh F = []) by (destruct (dsh F); [reflexivity|discriminate]). assert (E2 : dsh G = []) by (destruct (dsh G); [reflexivity|discriminate]).
      rewrite LF, LG in J3, J8. unfold mix in J3, J8. rewrite E1, E2 in J4. rewrite !app_nil_r in J4. set (o1 := removelast (bsh F)) in *. set (o2 := removelast (bsh G)) in *. set (L1 := last (bsh F) 0) in *. set (L2 := last (bsh G) 0) in *.
      assert (BF : bsh F = o1 ++ [L1]) by (apply app_removelast_last; auto). assert (BG : bsh G = o2 ++ [L2]) by (apply app_removelast_last; auto).
      assert (MB : merge2 (bsh T) = (o1 ++ o2) ++ [(L1 * L2)%nat]).
      { unfold merge2. rewrite J3, app_assoc, app_length. cbn [length]. replace (length (o1 ++ o2) + 2 - 2)%nat with (length (o1 ++ o2)) by lia. replace (length (o1 ++ o2) + 2 - 1)%nat with (S (length (o1 ++ o2))) by lia.
        rewrite firstn_app, Nat.sub_diag, firstn_all, !app_nth2 by lia. rewrite Nat.sub_diag. replace (S (length (o1 ++ o2)) - length (o1 ++ o2))%nat with 1 by lia. cbn [firstn nth]. now rewrite app_nil_r. }
      assert (BT : bsh T = (o1 ++ o2) ++ [L1; L2]) by (rewrite J3; apply app_assoc).
      set (H := merge T). assert (BH : bsh H = (o1 ++ o2) ++ [(L1 * L2)%nat]) by exact MB. assert (CH : csh H = bsh H) by (unfold H, merge; cbn [csh bsh]; now rewrite J4).
      assert (DH : dsh H = []) by (unfold dsh; rewrite CH; apply skipn_all).
      assert (LH : lin H = true) by (unfold H, merge; cbn [lin]; rewrite J2, LF; reflexivity).
      assert (DT0 : dsh T = []) by (rewrite DT, E1, E2; reflexivity).
      assert (NH : ncv H = ncv T) by (unfold ncv, nder; rewrite DH, DT0; reflexivity).
      assert (OH : outer H = o1 ++ o2) by (unfold outer; rewrite LH, BH; apply rl_snoc).
      assert (RI : forall k t, In k (box (o1 ++ o2)) -> (t < L1 * L2)%nat -> reidx (bsh T) (merge2 (bsh T)) (k ++ [t]) = k ++ [(t / L2)%nat; (t mod L2)%nat]).
      { intros k t Hk Ht. rewrite MB, BT. apply reidx_merge; auto. now apply box_length_in. }
      assert (TH : forall k t z, In k (box (o1 ++ o2)) -> (t < L1 * L2)%nat -> term H (k ++ [t]) z = term T (k ++ [(t / L2)%nat; (t mod L2)%nat]) z).
      { intros k t z Hk Ht. unfold term. rewrite NH, DH, DT0. unfold H, merge. cbn [aA ab ac]. rewrite J4, RI by assumption. unfold fn. cbv zeta. f_equal. apply lsum_ext. intros d Hd. cbn [box] in Hd. destruct Hd as [<-|[]].
        rewrite !app_nil_r, RI by assumption. reflexivity. }
      exists H. split; [apply make_ok; rewrite CH; apply firstn_all|]. split.
      { split; [now rewrite DH, app_nil_r|]. split; [unfold nder; rewrite DH; cbn; lia|]. split; [rewrite DH; constructor|]. split; [rewrite BH; destruct (o1 ++ o2); discriminate|].
        intros k Hk. rewrite BH in Hk. apply app_box in Hk. destruct Hk as [k' [t' (-> & Hk & Ht)]]. destruct t' as [|t [|]]; apply in_box in Ht; inversion Ht; subst; try (match goal with X : Forall2 _ _ [] |- _ => inversion X end; fail).
        unfold H, merge. cbn [aA nvar]. rewrite RI by assumption. apply J7. rewrite BT. apply in_box. apply Forall2_app; [now apply in_box|]. assert (Z : L2 <> 0) by (intros E; rewrite E in *; lia).
        repeat constructor; [apply Nat.div_lt_upper_bound; lia|now apply Nat.mod_upper_bound]. }
      split; [now rewrite NH|]. split; [rewrite OH; unfold outer; rewrite LF, LG; reflexivity|].
      intros a b z1 z2 Ha Hb Lz. unfold outer in Ha, Hb. rewrite LF in Ha. rewrite LG in Hb. fold o1 in Ha. fold o2 in Hb. rewrite !denote_term, LH, LF, LG, BH, last_snoc. fold L1 L2.
      assert (Hab : In (a ++ b) (box (o1 ++ o2))) by now apply box_app_in.
      rewrite (sumn_ext (L1 * L2) _ (fun t => term T ((a ++ b) ++ [(t / L2)%nat; (t mod L2)%nat]) (z1 ++ z2))) by (intros t Ht; now apply TH).
      rewrite sumn_mul, sumn_prod. apply sumn_ext. intros s Hs. apply sumn_ext. intros t Ht.
      replace ((s * L2 + t) / L2)%nat with s by (apply (Nat.div_unique _ _ s t); lia). replace ((s * L2 + t) mod L2)%nat with t by (apply (Nat.mod_unique _ _ s t); lia).
      rewrite <- (J8 (a ++ [s]) (b ++ [t])); [|rewrite BF; now apply SB|rewrite BG; now apply SB|exact Lz]. rewrite !rl_snoc, !last_snoc. now rewrite <- app_assoc.
    - assert (CT : csh T = bsh T ++ dsh T) by now rewrite DT.
      exists T. split; [apply make_ok, valid_csh; exact CT|]. assert (OT : outer T = outer F ++ outer G /\ (lin T = true -> bsh T <> [])).
      { unfold outer. rewrite J2, J3. unfold mix. destruct (lin F) eqn:LF; destruct (lin G) eqn:LG; try discriminate LL; cbn [orb].
        - rewrite app_assoc, rl_snoc. split; [reflexivity|]. intros _. destruct (removelast (bsh F) ++ bsh G); discriminate.
        - specialize (H2 eq_refl). split; [|destruct (bsh F); [exact (fun _ => H2)|discriminate]]. rewrite removelast_app by exact H2. reflexivity.
        - split; [reflexivity|discriminate]. }
      destruct OT as [OT NT]. split; [split; [exact CT|split; [exact KT|split; [exact PT|split; [exact NT|exact J7]]]]|].
      split; [exact J5|]. split; [exact OT|]. intros a b z1 z2 Ha Hb Lz. rewrite !denote_term, J2, J3. unfold outer in Ha, Hb. unfold mix in J8 |- *. destruct (lin F) eqn:LF; destruct (lin G) eqn:LG; try discriminate LL; cbn [orb].
      + specialize (H1 eq_refl). rewrite app_assoc, last_snoc, <- sumn_scal_r. apply sumn_ext. intros s Hs. rewrite <- (J8 (a ++ [s]) b); [|rewrite (app_removelast_last 0 H1); now apply SB|exact Hb|exact Lz].
        rewrite rl_snoc, last_snoc. now rewrite <- app_assoc.
      + specialize (H2 eq_refl). replace (last (bsh F ++ bsh G) 0) with (last (bsh G) 0) by (rewrite (app_removelast_last 0 H2), app_assoc, !last_snoc; reflexivity). rewrite <- sumn_scal. apply sumn_ext. intros s Hs.
        rewrite <- (J8 a (b ++ [s])); [|exact Ha|rewrite (app_removelast_last 0 H2); now apply SB|exact Lz]. now rewrite <- app_assoc.
      + now apply J8.
  Qed.
  (** two superpositions, derived variables: the axes of c that are merged are the wrong ones.  With more than one term in the second operand the constructor refuses the result *)
  Theorem C58_and_error : forall F G : ansatz K, valid F -> valid G -> lin F = true -> lin G = true -> 0 < (nder F + nder G)%nat -> 0 < last (bsh F) 0 -> last (bsh G) 0 <> 1 ->
    and_ F G = Err ValueError.
  Proof.
    intros F G V1 V2 LF LG ND P1 N1. pose proof V1 as (_ & _ & _ & H1 & _). pose proof V2 as (_ & _ & _ & H2 & _). unfold and_. rewrite and_string by auto. cbn [bind].
    destruct (and_join F G (lin F || lin G) V1 V2) as [T (J1 & _ & J3 & J4 & _)]. rewrite J1. cbn [bind]. rewrite LF, LG in *. cbn [andb]. unfold mix in J3.
    set (o1 := removelast (bsh F)) in *. set (o2 := removelast (bsh G)) in *. set (L1 := last (bsh F) 0) in *. set (L2 := last (bsh G) 0) in *.
    assert (BT : bsh T = (o1 ++ o2) ++ [L1; L2]) by (rewrite J3; apply app_assoc). set (o := o1 ++ o2) in *.
    assert (MB : merge2 (bsh T) = o ++ [(L1 * L2)%nat]).
    { unfold merge2. rewrite BT, app_length. cbn [length]. replace (length o + 2 - 2)%nat with (length o) by lia. replace (length o + 2 - 1)%nat with (S (length o)) by lia.
      rewrite firstn_app, Nat.sub_diag, firstn_all, !app_nth2 by lia. rewrite Nat.sub_diag. replace (S (length o) - length o)%nat with 1 by lia. cbn [firstn nth]. rewrite ?app_nil_r. reflexivity. }
    set (ds := dsh F ++ dsh G) in *. assert (LD : 0 < length ds) by (unfold ds; rewrite app_length; exact ND).
    assert (MC : firstn (S (length o)) (merge2 (csh T)) = o ++ [L1]).
    { rewrite J4, BT, <- app_assoc. unfold merge2. rewrite !app_length. cbn [length app]. cbn [Nat.add]. replace (length o + S (S (length ds)) - 2)%nat with (length o + length ds)%nat by lia.
      assert (FF : forall k n (l r : list nat), k <= n -> n <= length l -> firstn k (firstn n l ++ r) = firstn k l).
      { intros k n l r Q1 Q2. rewrite firstn_app, firstn_length. replace (k - Nat.min n (length l))%nat with 0 by lia. cbn [firstn]. now rewrite app_nil_r, firstn_firstn, Nat.min_l by lia. }
      rewrite FF by (rewrite ?app_length; cbn [length]; lia).
      rewrite firstn_app, firstn_all2 by lia. replace (S (length o) - length o)%nat with 1 by lia. reflexivity. }
    unfold make, merge. cbn [bsh csh]. destruct (Nat.eqb_spec (length (merge2 (csh T))) 0) as [E|_].
    { exfalso. apply (f_equal (@length nat)) in MC. rewrite firstn_length, E, app_length in MC. cbn [length] in MC. lia. }
    cbn [orb]. destruct (list_eq_dec Nat.eq_dec _ _) as [E|_]; [|reflexivity]. exfalso. rewrite MB, app_length in E. cbn [length] in E. rewrite Nat.add_1_r, MC in E. apply app_inj_tail in E. destruct E as [_ E]. nia.
  Qed.
End Props.

(** ** what does not hold *)
Section Refute.
  Context {K : rootfield}.
  Add Field Kfield2 : (kft K).
  Open Scope rf_scope.
  Variable ex : K -> K.
  Hypothesis EX : exponential ex.
  Let EX0 : forall x, x = k0 -> ex x = k1. Proof. intros x ->. apply EX. Qed.
  Lemma k10 : k1 <> (k0 : K). Proof. apply (F_1_neq_0 (kft K)). Qed.

  (** join_Abc reshapes without transposing: with the string "ab,->ba" the entries are read in the wrong order *)
  Definition swF : ansatz K := An [2; 2] 0 (fun _ _ _ => k0) (fun _ _ => k0) [2; 2] (fun k => if list_eq_dec Nat.eq_dec k [0; 1] then k1 else k0) false.
  Definition swG : ansatz K := An [] 0 (fun _ _ _ => k0) (fun _ _ => k0) [] (fun _ => k1) false.
  Theorem C58_join_refuted : valid swF /\ valid swG /\
    exists H, join_Abc swF swG (BatchStr.render [[97; 98]; []] [98; 97]) false = Ok H /\ bsh H = [2; 2] /\
      term ex swF [0; 1] [] * term ex swG [] [] = k1 /\ term ex H [1; 0] [] = k0.
  Proof.
    split; [split; [reflexivity|split; [cbn; lia|split; [constructor|split; [discriminate|intros k _ i j _ _; reflexivity]]]]|].
    split; [split; [reflexivity|split; [cbn; lia|split; [constructor|split; [discriminate|intros k _ i j _ _; reflexivity]]]]|].
    assert (FN : forall A b c, fn ex 0 [] A b c [] = c []).
    { intros A b c. unfold fn. cbv zeta. cbn [box sumn length]. rewrite lsum_cons, lsum_nil. unfold derivative. cbn [sqf]. rewrite (expq_zero 0). rewrite EX0 by ring. ring. }
    eexists. split; [reflexivity|]. split; [reflexivity|]. split; unfold term; [change (ncv swF) with 0; change (ncv swG) with 0; change (dsh swF) with (@nil nat); change (dsh swG) with (@nil nat); rewrite !FN; cbn; ring|].
    unfold ncv, nder, dsh. cbn [bsh csh nvar aA ab ac skipn length]. cbn. rewrite FN. ring.
  Qed.

  (** two superpositions of one term each, with a derived variable each: the product is accepted and is another function *)
  Definition dvF (b1 : K) (d1 : nat) : ansatz K :=
    An [1] 2 (fun _ _ _ => k0) (fun _ i => if Nat.eqb i 1 then b1 else k0) [1; 2] (fun k => if list_eq_dec Nat.eq_dec k [0; d1] then k1 else k0) true.
  Theorem C58_and_refuted : let F := dvF k1 1 in let G := dvF k0 0 in valid F /\ valid G /\
    exists H, and_ F G = Ok H /\ ncv H = (ncv F + ncv G)%nat /\ outer H = outer F ++ outer G /\
      denote ex F [] [k0] * denote ex G [] [k0] <> k0 /\ denote ex H [] [k0; k0] = k0.
  Proof.
    intros F G. assert (V : forall b d, valid (dvF b d)).
    { intros b d. split; [reflexivity|split; [cbn; lia|split; [repeat constructor|split; [discriminate|intros k _ i j _ _; reflexivity]]]]. }
    split; [apply V|]. split; [apply V|].
    assert (Z1 : symmetric (K := K) 1 (fun _ _ => k0)) by (intros i j _ _; reflexivity). assert (Z2 : symmetric (K := K) 2 (fun _ _ => k0)) by (intros i j _ _; reflexivity).
    assert (DA : forall m A b d, derivative m A b d = amp m A b (k1 : K) d) by (intros; unfold derivative, amp; ring).
    assert (S1 : sq 1 * sq 1 = (k1 : K)) by (rewrite sq_ok; apply knat_1).
    assert (Q1 : sq 1 <> (k0 : K)) by (intros E; rewrite E in S1; apply k10; rewrite <- S1; ring).
    assert (FN : forall n ds A b c z, (forall i j, A i j = k0) -> (forall i, nth i z k0 = k0) ->
      fn ex n ds A b c z = lsum (box ds) (fun d => c d * amp (length ds) (fun _ _ => k0) (fun i => b (n + i)%nat) (k1 : K) d)).
    { intros n ds A b c z HA Hz. assert (SZ : forall f : nat -> K, (forall i, f i = k0) -> sumn n f = k0) by (intros f Hf; apply sumn_0; auto).
      unfold fn. cbv zeta. rewrite EX0.
      2:{ transitivity (half * k0 + k0 : K); [f_equal; [f_equal|]; apply SZ; intros i; [apply SZ; intros j|]; rewrite Hz; ring|ring]. }
      transitivity (lsum (box ds) (fun d => c d * derivative (length ds) (fun i j => A (n + i)%nat (n + j)%nat) (fun i => b (n + i)%nat + sumn n (fun a => A a (n + i)%nat * nth a z k0)) d)); [ring|].
      apply lsum_ext. intros d Hd. rewrite DA. f_equal. apply amp_ext; [intros i j _ _; now rewrite !HA|now apply box_length_in|intros i j _ _; apply HA|]. intros i _. rewrite SZ by (intros a; rewrite Hz; ring). ring. }
    assert (A0 : forall b, amp 1 (fun _ _ => k0) b (k1 : K) [0] = k1) by (intros b; apply (amp_zero 1)).
    assert (A1 : forall b, amp 1 (fun _ _ => k0) b (k1 : K) [1] = b 0 / sq 1) by (intros b; rewrite (amp_step 1 _ _ Z1 k1 0 [1]) by (unfold at'; simpl; lia); unfold dec, at'; cbn [upd nth pred sumn]; rewrite A0; field; exact Q1).
    assert (A2 : forall b, b 1 = k0 -> amp 2 (fun _ _ => k0) b (k1 : K) [0; 2] = k0).
    { intros b Hb. rewrite (amp_step 2 _ _ Z2 k1 1 [0; 2]) by (unfold at'; simpl; lia). unfold dec, at'. cbn [upd nth pred sumn]. rewrite Hb. field. apply sq_neq. discriminate. }
    assert (N0 : forall m i, nth i (repeat (k0 : K) m) k0 = k0) by (intros m; induction m; intros [|i]; cbn; auto).
    assert (DF : denote ex F [] [k0] = k1 / sq 1).
    { unfold denote, F. cbn [lin dvF bsh last sumn]. rewrite FN; [|reflexivity|apply (N0 1)]. change (dsh (dvF k1 1)) with [2]. change (ncv (dvF k1 1)) with 1. cbn [box seq flat_map map app length]. rewrite !lsum_cons, lsum_nil. cbn [dvF ac ab app]. cbn. rewrite A0, A1. cbn. field. exact Q1. }
    assert (DG : denote ex G [] [k0] = k1).
    { unfold denote, G. cbn [lin dvF bsh last sumn]. rewrite FN; [|reflexivity|apply (N0 1)]. change (dsh (dvF k0 0)) with [2]. change (ncv (dvF k0 0)) with 1. cbn [box seq flat_map map app length]. rewrite !lsum_cons, lsum_nil. cbn [dvF ac ab app]. cbn. rewrite A0, A1. cbn. field. exact Q1. }
    eexists. split; [reflexivity|]. split; [reflexivity|]. split; [reflexivity|]. split.
    - rewrite DF, DG. intros E. apply k10. transitivity (sq 1 * (k1 / sq 1 * k1) : K); [field; exact Q1|]. rewrite E. ring.
    - match goal with |- denote ex ?h _ _ = _ => set (H := h) end. unfold denote. change (lin H) with true. change (last (bsh H) 0) with 1. change (dsh H) with [1; 4]. change (ncv H) with 2. cbn [sumn app].
      assert (BZ : forall i j, blk 2 (fun _ _ => k0) (fun _ _ => k0) i j = (k0 : K)) by (intros i j; unfold blk; destruct (i <? 2); destruct (j <? 2); reflexivity).
      rewrite FN; [|intros i j; apply BZ|apply (N0 2)].
      change (box [1; 4]) with [[0; 0]; [0; 1]; [0; 2]; [0; 3]]. rewrite !lsum_cons, lsum_nil. cbn [length].
      assert (C0 : ac H [0; 0; 0] = k0) by (cbn; ring). assert (C1 : ac H [0; 0; 1] = k0) by (cbn; ring). assert (C2 : ac H [0; 0; 3] = k0) by (cbn; ring).
      rewrite C0, C1, C2, A2; [ring|]. reflexivity.
  Qed.
End Refute.

(** a concrete case: a superposition of two terms with two derived variables times a batch of two functions with one derived variable *)
From Coquelicot Require Import Complex.
From Verif Require Import ComplexRF CExp.
Theorem C58_example : valid demo2 /\ valid (demo false) /\
  exists H, and_ demo2 (demo false) = Ok H /\ valid H /\ ncv H = 3 /\ outer H = [2] /\
    forall b z1 z2, In b [[0]; [1]] -> length z1 = 1 -> denote (K := CF) Cexp H b (z1 ++ z2) = (denote (K := CF) Cexp demo2 [] z1 * denote (K := CF) Cexp (demo false) b z2)%rf.
Proof.
  destruct C57_example as [V1 _]. destruct C56_example as [_ [V2 _]]. split; [exact V1|]. split; [exact V2|].
  destruct (C58_and (K := CF) Cexp C56_complex demo2 (demo false) V1 V2) as [H (H1 & H2 & H3 & H4 & H5)]; [discriminate|].
  exists H. split; [exact H1|]. split; [exact H2|]. split; [exact H3|]. split; [exact H4|]. intros b z1 z2 Hb Lz. apply (H5 [] b); [now left|exact Hb|exact Lz].
Qed.
Print Assumptions C58_join.
Print Assumptions C58_and.
Print Assumptions C58_and_refuted.
Print Assumptions C58_example.
