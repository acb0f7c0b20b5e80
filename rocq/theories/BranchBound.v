(** Claim C10: the contraction-path search. Model of mrmustard/path/branch_and_bound.py:49-172, 300-328, 330-420,
    466-520. The search is first treated for an arbitrary transition system, then instantiated with the graphs. *)
From Coq Require Import ZArith List Bool Lia Arith.
Require Import Verif.Base Verif.Wires.
Import ListNotations.

Section Search.
  Context {G E : Type} (edges : G -> list E) (ecost : G -> E -> nat) (cost : G -> nat)
          (contract : G -> E -> result G) (size : G -> nat).

  (** cost bound: None is infinity *)
  Definition below (c : nat) (b : option nat) : bool := match b with None => true | Some b => c <? b end.
  (** branch_and_bound.py:351-372 children (the set is modelled by a list, its order is irrelevant because the queue may
      deliver its elements in any order) *)
  Definition children (g : G) (b : option nat) : result (list G) :=
    mapM (contract g) (filter (fun e => below (cost g + ecost g e) b) (edges g)).
  Definition completeb (g : G) : bool := match edges g with [] => true | _ => false end.
  (** branch_and_bound.py:375-398 *)
  Definition grandchildren (g : G) (b : option nat) : result (list G) :=
    bind (children g b) (fun cs =>
    bind (mapM (fun c => if completeb c then Ok [c] else children c b) cs) (fun gs => Ok (concat gs))).
  (** branch_and_bound.py:419-431, the choice of the k-th random edge is [choose k]; None: fuel exhausted *)
  Fixpoint random_solution (fuel : nat) (choose : nat -> nat) (g : G) : option (result G) :=
    match edges g with
    | [] => Some (Ok g)
    | e :: es => match fuel with O => None | S f =>
        match contract g (nth (choose f) (e :: es) e) with
        | Err x => Some (Err x)
        | Ok g' => random_solution f choose g'
        end end
    end.
  Definition bound (best : option G) : option nat := option_map cost best.
  Definition better (r : G) (best : option G) : option G := if below (cost r) (bound best) then Some r else best.
  (** the n_init random solutions, 499-501 *)
  Fixpoint initial (fuel : nat) (choices : list (nat -> nat)) (g : G) (best : option G) : option (result (option G)) :=
    match choices with
    | [] => Some (Ok best)
    | ch :: t => match random_solution fuel ch g with
                 | None => None | Some (Err x) => Some (Err x)
                 | Some (Ok r) => initial fuel t g (better r best)
                 end
    end.
  (** the queue: queue.get() may deliver any element (the pruning of line 524 breaks the heap order, so no order is assumed) *)
  Fixpoint take (i : nat) (l : list G) : option (G * list G) :=
    match l, i with
    | [], _ => None
    | x :: t, O => Some (x, t)
    | x :: t, S i => match take i t with None => Some (x, t) | Some (y, t') => Some (y, x :: t') end
    end.
  (** branch_and_bound.py:507-532 *)
  Fixpoint loop (fuel : nat) (pick : nat -> nat) (best : option G) (queue : list G) : option (result (option G)) :=
    match fuel with O => None | S f =>
      match take (pick f) queue with
      | None => Some (Ok best)
      | Some (cand, rest) =>
        if negb (below (cost cand) (bound best)) then Some (Ok (Some cand))
        else if completeb cand then loop f pick (Some cand) (filter (fun g => cost g <? cost cand) rest)
        else match grandchildren cand (bound best) with
             | Err x => Some (Err x)
             | Ok gs => loop f pick best (rest ++ gs)
             end
      end end.
  (** branch_and_bound.py:466-532 after the heuristics *)
  Definition optimal (fuel : nat) (choices : list (nat -> nat)) (pick : nat -> nat) (g : G) : option (result (option G)) :=
    if completeb g then Some (Ok (Some g)) else
    match initial fuel choices g None with
    | None => None | Some (Err x) => Some (Err x)
    | Some (Ok best) => loop fuel pick best [g]
    end.

  (** ** specification *)
  Inductive reach : G -> G -> Prop :=
  | reach_refl : forall g, reach g g
  | reach_step : forall g e c r, In e (edges g) -> contract g e = Ok c -> reach c r -> reach g r.
  Definition complete (g : G) : Prop := edges g = [].

  Hypothesis cost_contract : forall g e c, In e (edges g) -> contract g e = Ok c -> cost c = cost g + ecost g e.
  Hypothesis size_contract : forall g e c, In e (edges g) -> contract g e = Ok c -> size c < size g.

  Lemma completeb_iff : forall g, completeb g = true <-> complete g.
  Proof using. intros g. unfold completeb, complete. destruct (edges g); split; congruence. Qed.
  Lemma reach_cost : forall g r, reach g r -> cost g <= cost r.
  Proof using cost_contract. intros g r H. induction H; [lia|]. rewrite (cost_contract g e c) in IHreach by assumption. lia. Qed.
  Lemma reach_trans : forall a b c, reach a b -> reach b c -> reach a c.
  Proof using. intros a b c H. induction H; intros K; [exact K|]. econstructor; eauto. Qed.
  Lemma reach_complete : forall g r, complete g -> reach g r -> r = g.
  Proof using. intros g r C H. inversion H; subst; [reflexivity|]. unfold complete in C. rewrite C in H0. destruct H0. Qed.

  Lemma mapM_in : forall {A B} (f : A -> result B) l r, mapM f l = Ok r ->
    (forall x, In x l -> exists y, f x = Ok y /\ In y r) /\ (forall y, In y r -> exists x, In x l /\ f x = Ok y).
  Proof using.
    intros A B f. induction l as [|x t IH]; intros r H; simpl in H.
    - injection H as <-. split; intros ? [].
    - destruct (f x) as [y|] eqn:Ef; [|discriminate]. cbn [bind] in H. destruct (mapM f t) as [ys|]; [|discriminate]. cbn [bind] in H.
      injection H as <-. destruct (IH ys eq_refl) as [I1 I2]. split.
      + intros z [<-|Hz]; [exists y; split; [exact Ef|now left]|]. destruct (I1 z Hz) as [w [Ew Hw]]. exists w. split; [exact Ew|now right].
      + intros w [<-|Hw]; [exists x; split; [now left|exact Ef]|]. destruct (I2 w Hw) as [z [Hz Ez]]. exists z. split; [now right|exact Ez].
  Qed.
  Lemma children_in : forall g b cs, children g b = Ok cs ->
    (forall c, In c cs -> exists e, In e (edges g) /\ contract g e = Ok c /\ below (cost c) b = true)
    /\ (forall e c, In e (edges g) -> contract g e = Ok c -> below (cost c) b = true -> In c cs).
  Proof using cost_contract.
    intros g b cs H. destruct (mapM_in _ _ _ H) as [I1 I2]. split.
    - intros c Hc. destruct (I2 c Hc) as [e [He E1]]. apply filter_In in He. destruct He as [He B]. exists e. split; [exact He|]. split; [exact E1|].
      now rewrite (cost_contract g e c).
    - intros e c He E1 B. destruct (I1 e) as [y [Ey Hy]]; [|congruence]. apply filter_In. split; [exact He|]. now rewrite <- (cost_contract g e c).
  Qed.
  Lemma below_le : forall a c b, a <= c -> below c b = true -> below a b = true.
  Proof using. intros a c [b|] H; [|reflexivity]. unfold below. rewrite !Nat.ltb_lt. lia. Qed.
  Lemma grandchildren_in : forall g b gs, grandchildren g b = Ok gs ->
    (forall x, In x gs -> reach g x /\ below (cost x) b = true)
    /\ (forall r, reach g r -> complete r -> ~ complete g -> below (cost r) b = true -> exists x, In x gs /\ reach x r).
  Proof using cost_contract.
    intros g b gs H. unfold grandchildren in H. destruct (children g b) as [cs|] eqn:Ec; [|discriminate]. cbn [bind] in H.
    destruct (mapM _ cs) as [ll|] eqn:Em; [|discriminate]. cbn [bind] in H. injection H as <-.
    destruct (children_in _ _ _ Ec) as [C1 C2]. destruct (mapM_in _ _ _ Em) as [M1 M2]. split.
    - intros x Hx. apply in_concat in Hx. destruct Hx as [l [Hl Hx]]. destruct (M2 l Hl) as [c [Hc El]].
      destruct (C1 c Hc) as [e [He [Ee B]]]. destruct (completeb c) eqn:K.
      + injection El as <-. destruct Hx as [<-|[]]. split; [|exact B]. econstructor; eauto. constructor.
      + destruct (children_in _ _ _ El) as [D1 _]. destruct (D1 x Hx) as [e2 [He2 [Ee2 B2]]]. split; [|exact B2].
        econstructor; eauto. econstructor; eauto. constructor.
    - intros r R Cr NC B. inversion R as [|? e c ? He Ee R']; subst; [tauto|].
      assert (Bc : below (cost c) b = true) by (apply (below_le _ (cost r)); [now apply reach_cost|exact B]).
      assert (Hc := C2 e c He Ee Bc). destruct (M1 c Hc) as [l [El Hl]]. destruct (completeb c) eqn:K.
      + injection El as <-. exists c. split; [apply in_concat; exists [c]; split; [exact Hl|now left]|exact R'].
      + inversion R' as [|? e2 c2 ? He2 Ee2 R'']; subst.
        * apply completeb_iff in Cr. congruence.
        * destruct (children_in _ _ _ El) as [_ D2]. exists c2. split; [|exact R''].
          apply in_concat. exists l. split; [exact Hl|]. apply (D2 e2 c2); auto. apply (below_le _ (cost r)); [now apply reach_cost|exact B].
  Qed.

  Lemma take_in : forall i q, match take i q with
    | None => q = []
    | Some (c, rest) => In c q /\ (forall x, In x rest -> In x q) /\ (forall x, In x q -> x = c \/ In x rest)
                        /\ forall f : G -> nat, list_sum (map f q) = f c + list_sum (map f rest)
    end.
  Proof using.
    intros i q. revert i. induction q as [|x t IH]; intros i; [now destruct i|]. destruct i as [|i]; simpl.
    - split; [now left|]. split; [auto|]. split; [intros y [->|H]; auto|]. intros. reflexivity.
    - specialize (IH i). destruct (take i t) as [[c rest]|].
      + destruct IH as [H1 [H2 [H3 H4]]]. split; [now right|]. split; [intros y [<-|Hy]; [now left|right; auto]|].
        split; [intros y [->|Hy]; [right; now left|]; destruct (H3 y Hy); [now left|right; now right]|].
        intros f. simpl. rewrite H4. lia.
      + subst t. split; [now left|]. split; [intros y []|]. split; [intros y [->|[]]; now left|]. intros. reflexivity.
  Qed.

  Section Run.
    Context (g0 : G).
    Definition best_ok (best : option G) : Prop := match best with None => True | Some b => reach g0 b /\ complete b end.
    (** every complete contraction cheaper than the current best passes through the queue *)
    Definition qinv (best : option G) (q : list G) : Prop :=
      (forall x, In x q -> reach g0 x /\ below (cost x) (bound best) = true)
      /\ (forall r, reach g0 r -> complete r -> below (cost r) (bound best) = true -> exists x, In x q /\ reach x r).
    Definition optimum (best : option G) : Prop :=
      best_ok best /\ forall r, reach g0 r -> complete r -> below (cost r) (bound best) = false.

    Lemma loop_optimal : forall fuel pick best q res, best_ok best -> qinv best q -> loop fuel pick best q = Some (Ok res) -> optimum res.
    Proof using cost_contract.
      induction fuel as [|f IH]; intros pick best q res BO [Q1 Q2] H; [discriminate|]. simpl in H. pose proof (take_in (pick f) q) as T.
      destruct (take (pick f) q) as [[cand rest]|].
      - destruct T as [T1 [T2 [T3 _]]]. destruct (Q1 cand T1) as [RC BC]. rewrite BC in H. cbn [negb] in H.
        destruct (completeb cand) eqn:K.
        + apply completeb_iff in K. refine (IH pick (Some cand) _ res _ _ H); [split; auto|]. split.
          * intros x Hx. apply filter_In in Hx. destruct Hx as [Hx L]. split; [apply Q1; auto|]. exact L.
          * intros r R C B. change ((cost r <? cost cand) = true) in B. destruct (Q2 r R C) as [x [Hx Rx]].
            { eapply below_le; [|exact BC]. apply Nat.ltb_lt in B. lia. }
            destruct (T3 x Hx) as [->|Hr].
            -- apply (reach_complete cand r K) in Rx. subst r. apply Nat.ltb_lt in B. lia.
            -- exists x. split; [|exact Rx]. apply filter_In. split; [exact Hr|]. apply Nat.ltb_lt. apply Nat.ltb_lt in B. apply reach_cost in Rx. lia.
        + destruct (grandchildren cand (bound best)) as [gs|] eqn:Eg; [|discriminate].
          destruct (grandchildren_in _ _ _ Eg) as [G1 G2]. refine (IH pick best _ res BO _ H). split.
          * intros x Hx. apply in_app_or in Hx. destruct Hx as [Hx|Hx]; [apply Q1; auto|]. destruct (G1 x Hx) as [Rx Bx]. split; [|exact Bx]. eapply reach_trans; eauto.
          * intros r R C B. destruct (Q2 r R C B) as [x [Hx Rx]]. destruct (T3 x Hx) as [->|Hr]; [|exists x; split; [apply in_or_app; now left|exact Rx]].
            destruct (G2 r Rx C) as [y [Hy Ry]]; auto; [intros D; apply completeb_iff in D; congruence|]. exists y. split; [apply in_or_app; now right|exact Ry].
      - injection H as <-. subst q. split; [exact BO|]. intros r R C. destruct (below (cost r) (bound best)) eqn:B; [|reflexivity].
        destruct (Q2 r R C B) as [x [[] _]].
    Qed.
  End Run.

  Lemma random_ok : forall fuel ch g r, random_solution fuel ch g = Some (Ok r) -> reach g r /\ complete r.
  Proof using.
    induction fuel as [|f IH]; intros ch g r H; simpl in H; destruct (edges g) as [|e es] eqn:Eg.
    - injection H as <-. split; [constructor|exact Eg].
    - discriminate.
    - injection H as <-. split; [constructor|exact Eg].
    - set (e0 := match ch f with 0 => e | S m => nth m es e end) in *.
      destruct (contract g e0) as [g'|] eqn:Ec; [|discriminate]. destruct (IH ch g' r H) as [R C]. split; [|exact C].
      econstructor; [|exact Ec|exact R]. rewrite Eg. unfold e0. destruct (ch f) as [|m]; [now left|].
      destruct (Nat.ltb_spec m (length es)); [right; now apply nth_In|rewrite nth_overflow by assumption; now left].
  Qed.
  Lemma initial_ok : forall choices fuel g best res, best_ok g best -> initial fuel choices g best = Some (Ok res) -> best_ok g res.
  Proof using.
    induction choices as [|ch t IH]; intros fuel g best res BO H; simpl in H; [now injection H as <-|].
    destruct (random_solution fuel ch g) as [[r|]|] eqn:Er; try discriminate. apply random_ok in Er.
    eapply IH; [|exact H]. unfold better. destruct (below (cost r) (bound best)); [exact Er|exact BO].
  Qed.

  (** whatever the random initial contractions and whatever the order in which the queue delivers, the result is a complete
      contraction of minimal cost *)
  Theorem search_optimal : forall fuel choices pick g res,
    (forall e, In e (edges g) -> 0 < ecost g e) ->
    optimal fuel choices pick g = Some (Ok res) ->
    (forall b, res = Some b -> reach g b /\ complete b /\ forall r, reach g r -> complete r -> cost b <= cost r)
    /\ (res = None -> forall r, reach g r -> ~ complete r).
  Proof using cost_contract.
    intros fuel choices pick g res POS H. unfold optimal in H. destruct (completeb g) eqn:K.
    - injection H as <-. apply completeb_iff in K. split; [|discriminate]. intros b Eb. injection Eb as <-. split; [constructor|]. split; [exact K|].
      intros r R C. now apply reach_cost.
    - destruct (initial fuel choices g None) as [[best|]|] eqn:Ei; try discriminate.
      assert (BO : best_ok g best) by (eapply (initial_ok choices fuel g None); [exact I|exact Ei]).
      assert (OPT : optimum g res).
      { eapply loop_optimal; [exact BO| |exact H]. split.
        - intros x [<-|[]]. split; [constructor|]. destruct best as [b|]; [|reflexivity]. change ((cost g <? cost b) = true). apply Nat.ltb_lt.
          destruct BO as [R C]. inversion R as [|? e c ? He Ee R']; subst.
          + apply completeb_iff in C. congruence.
          + apply reach_cost in R'. rewrite (cost_contract g e c He Ee) in R'. specialize (POS e He). lia.
        - intros r R C B. exists g. split; [now left|exact R]. }
      destruct OPT as [BR OPT]. split.
      + intros b ->. destruct BR as [R C]. split; [exact R|]. split; [exact C|]. intros r Rr Cr. specialize (OPT r Rr Cr). change ((cost r <? cost b) = false) in OPT. apply Nat.ltb_ge in OPT. exact OPT.
      + intros -> r R C. specialize (OPT r R C). discriminate.
  Qed.

  (** ** termination *)
  Fixpoint tree (n : nat) (g : G) : nat :=
    match n with O => 1 | S n => S (list_sum (map (fun e => match contract g e with Ok c => tree n c | Err _ => 0 end) (edges g))) end.
  Lemma tree_pos : forall n g, 0 < tree n g. Proof using. intros [|n] g; simpl; lia. Qed.
  Lemma tree_mono : forall n m g, n <= m -> tree n g <= tree m g.
  Proof using.
    induction n as [|n IH]; intros m g H; [apply tree_pos|]. destruct m as [|m]; [lia|]. simpl. apply le_n_S.
    induction (edges g) as [|e t IHt]; [simpl; lia|]. simpl. destruct (contract g e) as [c|]; [specialize (IH m c); lia|lia].
  Qed.
  Lemma children_tree : forall g b cs n, children g b = Ok cs -> list_sum (map (tree n) cs) <
     tree (S n) g.
  Proof using.
    intros g b cs n H. unfold children in H. cbn [tree]. apply le_n_S.
    revert cs H. induction (edges g) as [|e t IH]; intros cs H; simpl in *; [injection H as <-; simpl; lia|].
    destruct (below (cost g + ecost g e) b).
    - simpl in H. destruct (contract g e) as [c|] eqn:Ec; [|discriminate]. cbn [bind] in H. destruct (mapM (contract g) _) as [ys|]; [|discriminate].
      cbn [bind] in H. injection H as <-. simpl. specialize (IH ys eq_refl). lia.
    - specialize (IH cs H). lia.
  Qed.
  Lemma list_sum_concat : forall (f : G -> nat) ll, list_sum (map f (concat ll)) = list_sum (map (fun l => list_sum (map f l)) ll).
  Proof using. intros f. induction ll as [|l t IH]; [reflexivity|]. simpl. rewrite map_app, list_sum_app, IH. reflexivity. Qed.
  Lemma grandchildren_tree : forall g b gs n, grandchildren g b = Ok gs -> list_sum (map (tree n) gs) < tree (S (S n)) g.
  Proof using.
    intros g b gs n H. unfold grandchildren in H. destruct (children g b) as [cs|] eqn:Ec; [|discriminate]. cbn [bind] in H.
    destruct (mapM _ cs) as [ll|] eqn:Em; [|discriminate]. cbn [bind] in H. injection H as <-.
    eapply Nat.le_lt_trans; [|apply (children_tree g b cs (S n) Ec)]. rewrite list_sum_concat.
    clear Ec. revert ll Em. induction cs as [|c t IH]; intros ll Em; simpl in Em; [injection Em as <-; simpl; lia|].
    destruct (if completeb c then Ok [c] else children c b) as [l|] eqn:El; [|discriminate]. cbn [bind] in Em.
    destruct (mapM _ t) as [ys|]; [|discriminate]. cbn [bind] in Em. injection Em as <-. simpl. specialize (IH ys eq_refl).
    assert (list_sum (map (tree n) l) <= tree (S n) c).
    { destruct (completeb c); [injection El as <-; simpl; pose proof (tree_mono n (S n) c); simpl in *; lia|].
      apply Nat.lt_le_incl. eapply children_tree; eauto. }
    simpl in *. lia.
  Qed.
  (** the size of the full search tree *)
  Lemma tree_stable : forall n g, size g <= n -> tree (S n) g = tree n g.
  Proof using size_contract.
    induction n as [|n IH]; intros g H; cbn [tree].
    - f_equal. replace (list_sum _) with 0; [reflexivity|]. symmetry.
      assert (X : forall e, In e (edges g) -> match contract g e with Ok c => 1 | Err _ => 0 end = 0).
      { intros e He. destruct (contract g e) eqn:Ec; [|reflexivity]. apply size_contract in Ec; [lia|exact He]. }
      revert X. generalize (edges g). induction l as [|e t IHt]; intros X; [reflexivity|]. simpl. rewrite IHt by (intros; apply X; now right).
      rewrite X by now left. reflexivity.
    - f_equal. f_equal. apply map_ext_in. intros e He. destruct (contract g e) as [c|] eqn:Ec; [|reflexivity]. apply (IH c). apply size_contract in Ec; [lia|exact He].
  Qed.
  Definition weight (g : G) : nat := tree (size g) g.
  Lemma weight_tree : forall n g, size g <= n -> tree n g = weight g.
  Proof using size_contract.
    intros n g H. unfold weight. induction n as [|n IH]; [now replace (size g) with 0 by lia|].
    destruct (Nat.eq_dec (size g) (S n)) as [->|N]; [reflexivity|]. rewrite tree_stable by lia. apply IH. lia.
  Qed.
  Lemma map_sum_ext : forall (f h : G -> nat) l, (forall x, In x l -> f x = h x) -> list_sum (map f l) = list_sum (map h l).
  Proof using. intros. f_equal. now apply map_ext_in. Qed.
  Lemma grandchildren_weight : forall g b gs, grandchildren g b = Ok gs -> list_sum (map weight gs) < weight g.
  Proof using size_contract.
    intros g b gs H. set (n := size g + list_sum (map size gs)).
    pose proof (grandchildren_tree g b gs n H) as L. rewrite (weight_tree (S (S n)) g) in L by (unfold n; lia).
    rewrite (map_sum_ext (tree n) weight) in L; [exact L|]. intros x Hx. apply weight_tree. unfold n.
    assert (size x <= list_sum (map size gs)); [|lia]. clear - Hx. induction gs as [|y t IH]; [destruct Hx|]. simpl. destruct Hx as [->|Hx]; [lia|]. specialize (IH Hx). lia.
  Qed.
  Lemma weight_pos : forall g, 0 < weight g. Proof using. intros. apply tree_pos. Qed.

  Lemma loop_terminates : forall fuel pick best q, list_sum (map weight q) < fuel -> loop fuel pick best q <> None.
  Proof using size_contract.
    induction fuel as [|f IH]; intros pick best q H; [lia|]. simpl. pose proof (take_in (pick f) q) as T.
    destruct (take (pick f) q) as [[cand rest]|]; [|discriminate]. destruct T as [_ [_ [_ T]]]. rewrite (T weight) in H. pose proof (weight_pos cand).
    destruct (negb _); [discriminate|]. destruct (completeb cand).
    - apply IH. assert (list_sum (map weight (filter (fun g => cost g <? cost cand) rest)) <= list_sum (map weight rest)); [|lia].
      clear. induction rest as [|x t IH]; [simpl; lia|]. simpl. destruct (cost x <? cost cand); simpl; lia.
    - destruct (grandchildren cand (bound best)) as [gs|] eqn:Eg; [|discriminate]. apply grandchildren_weight in Eg.
      apply IH. rewrite map_app, list_sum_app. lia.
  Qed.
  Lemma random_terminates : forall fuel ch g, size g < fuel -> random_solution fuel ch g <> None.
  Proof using size_contract.
    induction fuel as [|f IH]; intros ch g H; [lia|]. simpl. destruct (edges g) as [|e es] eqn:Eg; [discriminate|].
    set (e0 := match ch f with 0 => e | S m => nth m es e end). destruct (contract g e0) as [c|] eqn:Ec; [|discriminate].
    apply IH. apply size_contract in Ec; [lia|]. rewrite Eg. unfold e0. destruct (ch f) as [|m]; [now left|].
    destruct (Nat.ltb_spec m (length es)); [right; now apply nth_In|rewrite nth_overflow by assumption; now left].
  Qed.
  Lemma initial_terminates : forall choices fuel g best, size g < fuel -> initial fuel choices g best <> None.
  Proof using size_contract.
    induction choices as [|ch t IH]; intros fuel g best H; simpl; [discriminate|].
    pose proof (random_terminates fuel ch g H). destruct (random_solution fuel ch g) as [[r|]|]; [now apply IH|discriminate|congruence].
  Qed.
  Theorem search_terminates : forall g, exists n, forall fuel choices pick, n <= fuel -> optimal fuel choices pick g <> None.
  Proof using size_contract.
    intros g. exists (S (size g + weight g)). intros fuel choices pick H. unfold optimal. destruct (completeb g); [discriminate|].
    pose proof (initial_terminates choices fuel g None). destruct (initial fuel choices g None) as [[b|]|]; [|discriminate|].
    - apply loop_terminates. simpl. lia.
    - exfalso. apply H0; [lia|reflexivity].
  Qed.
End Search.
