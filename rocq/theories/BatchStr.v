(** mrmustard/physics/utils.py: the einsum-like batch strings *)
From Coq Require Import List Arith Bool Lia Permutation.
From Verif Require Import Base Wires.
Import ListNotations.

(** characters are their code points: ',' = 44, '-' = 45, '>' = 62, 'a' = 97 *)
Notation str := (list nat).
(** utils.py:31-42 generate_batch_str *)
Definition gen (dim offset : nat) : str := map (fun i => 97 + i) (seq offset dim).
(** utils.py:53-57 *)
Fixpoint gens (dims : list nat) (offset : nat) : list str := match dims with [] => [] | d :: t => gen d offset :: gens t (offset + d) end.
Definition comma := 44.
Definition arrow : str := [45; 62].
(** ",".join *)
Fixpoint join (l : list str) : str := match l with [] => [] | [s] => s | s :: t => s ++ comma :: join t end.
Fixpoint set_nth {A} (i : nat) (x : A) (l : list A) : list A := match l, i with [], _ => [] | _ :: t, 0 => x :: t | y :: t, S j => y :: set_nth j x t end.
(** utils.py:61-65 the loop over lin_sup *)
Fixpoint strip (lin : list nat) (strs : list str) (chars : str) : result (list str * str) :=
  match lin with
  | [] => Ok (strs, chars)
  | i :: t => match nth_error strs i with
              | None => Err IndexError
              | Some [] => Err IndexError
              | Some s => strip t (set_nth i (removelast s) strs) (chars ++ [last s 0])
              end
  end.
(** utils.py:45-70 outer_product_batch_str: input specifications and output, before they are joined into one string *)
Definition outer_spec (dims : list nat) (lin_sup : option (list nat)) : result (list str * str) :=
  let strs := gens dims 0 in
  match lin_sup with
  | None => Ok (strs, concat strs)
  | Some l => bind (strip l strs []) (fun '(strs', chars) => Ok (strs, concat strs' ++ chars))
  end.
Definition render (ins : list str) (out : str) : str := join ins ++ arrow ++ out.
Definition outer_product_batch_str (dims : list nat) (lin_sup : option (list nat)) : result str :=
  bind (outer_spec dims lin_sup) (fun '(ins, out) => Ok (render ins out)).
(** utils.py:137-142 zip_batch_strings; max of no arguments raises ValueError *)
Definition zip_spec (dims : list nat) : list str * str := (map (fun d => gen d 0) dims, gen (list_max dims) 0).
Definition zip_batch_strings (dims : list nat) : result str :=
  match dims with [] => Err ValueError | _ => Ok (render (fst (zip_spec dims)) (snd (zip_spec dims))) end.
(** str.split(",") *)
Fixpoint split_comma (s : str) : list str :=
  match s with
  | [] => [[]]
  | c :: t => if Nat.eqb c comma then [] :: split_comma t
              else match split_comma t with [] => [[c]] | x :: l => (c :: x) :: l end
  end.
(** str.split("->") *)
Fixpoint split_arrow (s : str) : list str :=
  match s with
  | [] => [[]]
  | c :: t => match t with
              | c' :: t' => if (Nat.eqb c 45 && Nat.eqb c' 62)%bool then [] :: split_arrow t'
                            else match split_arrow t with [] => [[c]] | x :: l => (c :: x) :: l end
              | [] => [[c]]
              end
  end.
(** input, output = s.split("->") ; input.split(",") *)
Definition parse (s : str) : result (list str * str) :=
  match split_arrow s with [i; o] => Ok (split_comma i, o) | _ => Err ValueError end.
(** utils.py:145-162 lin_sup_batch_str *)
Definition lin_sup_batch_str (s : str) : result str :=
  bind (parse s) (fun '(ins, out) =>
    let m := list_max s in
    let ls := map (fun off => m + off) (seq 1 (length ins)) in
    Ok (render (map (fun '(i, l) => i ++ [l]) (combine ins ls)) (out ++ ls))).

(** arrays in row-major order *)
Record farray (R : Type) := mkF { fshape : list nat; fdata : nat -> R }.
Arguments mkF {R}. Arguments fshape {R}. Arguments fdata {R}.
Definition prod (l : list nat) : nat := fold_right Nat.mul 1 l.
Fixpoint ravel (sh idx : list nat) : nat := match sh, idx with _ :: ds, i :: is => i * prod ds + ravel ds is | _, _ => 0 end.
Definition entry {R} (a : farray R) (idx : list nat) : R := fdata a (ravel (fshape a) idx).
Definition reshape {R} (a : farray R) (sh : list nat) : result (farray R) := if Nat.eqb (prod sh) (prod (fshape a)) then Ok (mkF sh (fdata a)) else Err ValueError.
Fixpoint lookup (l : list (nat * nat)) (x : nat) : option nat := match l with [] => None | (k, v) :: t => if Nat.eqb x k then Some v else lookup t x end.
(** utils.py:92-100 the sizes of the labels *)
Fixpoint sizes_spec (dims : list nat) (spec : str) (d : list (nat * nat)) : result (list (nat * nat)) :=
  match dims, spec with
  | n :: dims', l :: spec' => match lookup d l with
                              | Some m => if Nat.eqb m n then sizes_spec dims' spec' ((l, n) :: d) else Err ValueError
                              | None => sizes_spec dims' spec' ((l, n) :: d)
                              end
  | _, _ => Ok d
  end.
Fixpoint sizes {R} (args : list (farray R)) (specs : list str) (d : list (nat * nat)) : result (list (nat * nat)) :=
  match args, specs with
  | a :: args', s :: specs' => bind (sizes_spec (fshape a) s d) (sizes args' specs')
  | _, _ => Ok d
  end.
Definition memb (x : nat) (l : list nat) : bool := existsb (Nat.eqb x) l.
(** utils.py:102-105 *)
Definition new_shape (d : list (nat * nat)) (spec out : str) : result (list nat) :=
  mapM (fun l => if memb l spec then match lookup d l with Some n => Ok n | None => Err KeyError end else Ok 1) out.
(** utils.py:73-106 reshape_args_to_batch_string *)
Definition reshape_args {R} (args : list (farray R)) (batch_string : str) : result (list (farray R)) :=
  bind (parse batch_string) (fun '(ins, out) =>
    if Nat.eqb (length ins) (length args) then
      bind (sizes args ins []) (fun d =>
        mapM (fun '(a, s) => bind (new_shape d s out) (reshape a)) (combine args ins))
    else Err ValueError).

(** * Specification *)
(** the labels of s appear in out in the same order *)
Definition in_order (s out : str) : Prop := filter (fun l => memb l s) out = s.
Definition label_chars (s : str) : Prop := Forall (fun c => 63 <= c) s.

Lemma memb_In : forall x l, memb x l = true <-> In x l.
Proof. intros x l. unfold memb. rewrite existsb_exists. split; [intros [y [H E]]; apply Nat.eqb_eq in E; now subst|intros H; exists x; split; [exact H|apply Nat.eqb_refl]]. Qed.

Lemma split_arrow_out : forall out, label_chars out -> split_arrow out = [out].
Proof.
  induction out as [|c t IH]; intros H; [reflexivity|]. inversion H as [|? ? H1 H2]; subst. specialize (IH H2). cbn [split_arrow]. destruct t as [|c' t']; [reflexivity|].
  replace (Nat.eqb c 45) with false by (symmetry; apply Nat.eqb_neq; lia). cbn [andb]. now rewrite IH.
Qed.
Lemma split_arrow_in : forall s out, Forall (fun c => c <> 45) s -> label_chars out -> split_arrow (s ++ arrow ++ out) = [s; out].
Proof.
  induction s as [|c s IH]; intros out H Ho.
  - cbn [app arrow split_arrow Nat.eqb andb]. now rewrite split_arrow_out.
  - inversion H as [|? ? H1 H2]; subst. specialize (IH out H2 Ho). cbn [app split_arrow]. destruct (s ++ arrow ++ out) as [|c' t'] eqn:E; [destruct s; discriminate|].
    replace (Nat.eqb c 45) with false by (symmetry; apply Nat.eqb_neq; lia). cbn [andb]. now rewrite IH.
Qed.
Lemma split_comma_one : forall s, label_chars s -> split_comma s = [s].
Proof.
  induction s as [|c s IH]; intros H; [reflexivity|]. inversion H; subst. cbn [split_comma]. unfold comma. replace (Nat.eqb c 44) with false by (symmetry; apply Nat.eqb_neq; lia). now rewrite IH.
Qed.
Lemma split_comma_cons : forall s r, label_chars s -> split_comma (s ++ comma :: r) = s :: split_comma r.
Proof.
  induction s as [|c s IH]; intros r H; [reflexivity|]. inversion H; subst. cbn [app split_comma]. unfold comma in *. replace (Nat.eqb c 44) with false by (symmetry; apply Nat.eqb_neq; lia). now rewrite IH.
Qed.
Lemma split_join : forall ins, ins <> [] -> Forall label_chars ins -> split_comma (join ins) = ins.
Proof.
  induction ins as [|s t IH]; intros N H; [tauto|]. inversion H; subst. destruct t as [|s' t']; [cbn [join]; now apply split_comma_one|].
  change (join (s :: s' :: t')) with (s ++ comma :: join (s' :: t')). rewrite split_comma_cons by assumption. rewrite IH; [reflexivity|discriminate|assumption].
Qed.
Lemma join_no_minus : forall ins, Forall label_chars ins -> Forall (fun c => c <> 45) (join ins).
Proof.
  assert (L : forall s, label_chars s -> Forall (fun c => c <> 45) s) by (intros s H; eapply Forall_impl; [|exact H]; cbv beta; intros; lia).
  induction ins as [|s t IH]; intros H; [constructor|]. inversion H; subst. destruct t as [|s' t']; [cbn [join]; auto|].
  change (join (s :: s' :: t')) with (s ++ comma :: join (s' :: t')). rewrite Forall_app. split; [auto|]. constructor; [unfold comma; lia|auto].
Qed.
Lemma parse_render : forall ins out, ins <> [] -> Forall label_chars ins -> label_chars out -> parse (render ins out) = Ok (ins, out).
Proof. intros ins out N H Ho. unfold parse, render. rewrite split_arrow_in; [now rewrite split_join|now apply join_no_minus|exact Ho]. Qed.

(** subsequences *)
Inductive sub : str -> str -> Prop :=
| sub_nil : forall o, sub [] o
| sub_skip : forall s x o, sub s o -> sub s (x :: o)
| sub_take : forall s x o, sub s o -> sub (x :: s) (x :: o).
Lemma sub_In : forall s o, sub s o -> forall x, In x s -> In x o.
Proof. induction 1; intros y Hy; [destruct Hy|right; auto|destruct Hy as [->|Hy]; [now left|right; auto]]. Qed.
Lemma sub_in_order : forall s o, sub s o -> NoDup o -> in_order s o.
Proof.
  unfold in_order. induction 1 as [o|s x o H IH|s x o H IH]; intros N.
  - induction o as [|y o IH]; [reflexivity|]. simpl. apply IH. now inversion N.
  - inversion N; subst. cbn [filter]. destruct (memb x s) eqn:E; [apply memb_In in E; apply (sub_In _ _ H) in E; tauto|]. now apply IH.
  - inversion N; subst. cbn [filter]. replace (memb x (x :: s)) with true by (symmetry; apply memb_In; now left). f_equal. transitivity (filter (fun l => memb l s) o); [|auto].
    apply filter_ext_in. intros y Hy. unfold memb. cbn [existsb]. replace (Nat.eqb y x) with false; [reflexivity|]. symmetry. apply Nat.eqb_neq. intros ->. tauto.
Qed.
Lemma sub_refl : forall s, sub s s. Proof. induction s; [constructor|now apply sub_take]. Qed.
Lemma sub_app : forall a b c d, sub a b -> sub c d -> sub (a ++ c) (b ++ d).
Proof. induction 1 as [o|s x o H IH|s x o H IH]; intros K; simpl; [|apply sub_skip; auto|apply sub_take; auto]. induction o; simpl; [exact K|now constructor]. Qed.
Lemma sub_concat : forall l i, i < length l -> sub (nth i l []) (concat l).
Proof.
  induction l as [|s l IH]; intros i H; simpl in H; [lia|]. destruct i as [|i]; simpl.
  - rewrite <- (app_nil_r s) at 1. apply sub_app; [apply sub_refl|constructor].
  - apply (sub_app [] s); [constructor|apply IH; lia].
Qed.

Lemma gens_length : forall dims off, length (gens dims off) = length dims. Proof. induction dims; intros; simpl; auto. Qed.
Lemma gens_lengths : forall dims off, map (@length nat) (gens dims off) = dims.
Proof. induction dims as [|d t IH]; intros; simpl; [reflexivity|]. f_equal; [unfold gen; now rewrite map_length, seq_length|apply IH]. Qed.
Lemma gens_concat : forall dims off, concat (gens dims off) = gen (fold_right Nat.add 0 dims) off.
Proof. induction dims as [|d t IH]; intros off; [reflexivity|]. cbn [gens concat fold_right]. rewrite IH. unfold gen. now rewrite seq_app, map_app. Qed.
Lemma gen_NoDup : forall d off, NoDup (gen d off). Proof. intros. unfold gen. apply FinFun.Injective_map_NoDup; [intros x y; lia|apply seq_NoDup]. Qed.
Lemma gen_chars : forall d off, label_chars (gen d off). Proof. intros. apply Forall_forall. intros c H. apply in_map_iff in H. destruct H as [i [<- _]]. lia. Qed.
Lemma gens_chars : forall dims off, Forall label_chars (gens dims off). Proof. induction dims; intros; simpl; constructor; [apply gen_chars|auto]. Qed.

Lemma set_nth_length : forall {A} i (x : A) l, length (set_nth i x l) = length l.
Proof. intros A i x l. revert i. induction l; intros [|i]; simpl; auto. Qed.
Lemma nth_set_nth : forall {A} (d : A) i x l j, i < length l -> nth j (set_nth i x l) d = if Nat.eqb j i then x else nth j l d.
Proof. intros A d i x l. revert i. induction l as [|y l IH]; intros i j H; [simpl in H; lia|]. destruct i as [|i]; destruct j as [|j]; simpl; auto. apply IH. simpl in H. lia. Qed.
Lemma strip_spec : forall lin strs chars, NoDup lin -> (forall i, In i lin -> i < length strs /\ nth i strs [] <> []) ->
  exists strs', strip lin strs chars = Ok (strs', chars ++ map (fun i => last (nth i strs []) 0) lin) /\ length strs' = length strs
    /\ forall j, nth j strs' [] = if memb j lin then removelast (nth j strs []) else nth j strs [].
Proof.
  induction lin as [|i lin IH]; intros strs chars N H.
  - exists strs. simpl. rewrite app_nil_r. repeat split.
  - inversion N; subst. cbn [strip]. destruct (H i (or_introl eq_refl)) as [L NE]. assert (X : @nth_error str strs i = Some (nth i strs [])) by (apply (nth_error_nth' (A := str)); exact L). rewrite X. clear X. destruct (nth i strs []) as [|a s] eqn:E; [tauto|].
    destruct (IH (set_nth i (removelast (a :: s)) strs) (chars ++ [last (a :: s) 0])) as [strs' [E1 [E2 E3]]]; auto.
    { intros k Hk. rewrite set_nth_length. destruct (H k (or_intror Hk)). split; [assumption|]. rewrite nth_set_nth by exact L. destruct (Nat.eqb k i) eqn:Ek; [apply Nat.eqb_eq in Ek; subst; tauto|assumption]. }
    exists strs'. split; [|split; [now rewrite E2, set_nth_length|]].
    + rewrite E1. f_equal. f_equal. rewrite <- app_assoc. f_equal. cbn [map app]. rewrite E. f_equal. apply map_ext_in. intros k Hk. rewrite nth_set_nth by exact L.
      destruct (Nat.eqb k i) eqn:Ek; [apply Nat.eqb_eq in Ek; subst; tauto|reflexivity].
    + intros j. rewrite E3, nth_set_nth by exact L. unfold memb. cbn [existsb]. destruct (Nat.eqb j i) eqn:Ej; [|reflexivity]. apply Nat.eqb_eq in Ej. subst j.
      fold (memb i lin). destruct (memb i lin) eqn:M; [apply memb_In in M; tauto|]. cbn [orb]. now rewrite E.
Qed.
Lemma concat_strip_perm : forall (P : nat -> bool) l s, (forall i, P i = true -> s <= i -> nth (i - s) l [] <> [] \/ length l <= i - s) ->
  Permutation (concat (map (fun '(i, x) => if P i then removelast x else x) (combine (seq s (length l)) l)) ++ map (fun i => last (nth (i - s) l []) 0) (filter P (seq s (length l)))) (concat l).
Proof.
  intros P l. induction l as [|x l IH]; intros s H; [constructor|]. cbn [length seq combine map concat filter].
  assert (IH' := IH (S s)). assert (Hx : forall i, P i = true -> S s <= i -> nth (i - S s) l [] <> [] \/ length l <= i - S s).
  { intros i Pi Hi. specialize (H i Pi ltac:(lia)). replace (i - s) with (S (i - S s)) in H by lia. simpl in H. destruct H; [now left|right; lia]. }
  specialize (IH' Hx). clear IH.
  assert (EM : forall q, (forall i, In i q -> S s <= i) -> map (fun i => last (nth (i - s) (x :: l) []) 0) q = map (fun i => last (nth (i - S s) l []) 0) q).
  { intros q Hq. apply map_ext_in. intros i Hi. specialize (Hq i Hi). replace (i - s) with (S (i - S s)) by lia. reflexivity. }
  assert (Bq : forall i, In i (filter P (seq (S s) (length l))) -> S s <= i) by (intros i Hi; apply filter_In in Hi; destruct Hi as [Hi _]; apply in_seq in Hi; lia).
  destruct (P s) eqn:Ps.
  - cbn [map]. rewrite Nat.sub_diag. cbn [nth]. rewrite EM by exact Bq. destruct (H s Ps (le_n _)) as [NE|Z]; [|rewrite Nat.sub_diag in Z; simpl in Z; lia]. rewrite Nat.sub_diag in NE. cbn [nth] in NE.
    rewrite (app_removelast_last 0 NE) at 3. rewrite <- !app_assoc. apply Permutation_app_head. etransitivity; [apply Permutation_sym, Permutation_middle|]. cbn [app]. apply perm_skip. exact IH'.
  - rewrite EM by exact Bq. rewrite <- app_assoc. apply Permutation_app_head. exact IH'.
Qed.
Lemma nth_concat_perm_nat : forall (lin : list nat) strs strs', NoDup lin -> (forall i, In i lin -> i < length strs /\ nth i strs [] <> []) -> length strs' = length strs ->
  (forall j, nth j strs' [] = if memb j lin then removelast (nth j strs []) else nth j strs []) ->
  Permutation (concat strs' ++ map (fun i => last (nth i strs []) 0) lin) (concat strs).
Proof.
  intros lin strs strs' N H L E.
  assert (S' : strs' = map (fun '(i, x) => if memb i lin then removelast x else x) (combine (seq 0 (length strs)) strs)).
  { apply (nth_ext _ _ [] []); [rewrite map_length, combine_length, seq_length; lia|]. intros j Hj. rewrite L in Hj. rewrite E.
    set (g := fun '(i, x) => if memb i lin then removelast x else x).
    rewrite (nth_indep (map g (combine (seq 0 (length strs)) strs)) [] (g (0, []))) by (rewrite map_length, combine_length, seq_length; lia).
    rewrite (map_nth g), combine_nth by (now rewrite seq_length). unfold g. now rewrite seq_nth. }
  rewrite S'. transitivity (concat (map (fun '(i, x) => if memb i lin then removelast x else x) (combine (seq 0 (length strs)) strs)) ++ map (fun i => last (nth (i - 0) strs []) 0) (filter (fun i => memb i lin) (seq 0 (length strs)))).
  - apply Permutation_app_head. rewrite (map_ext (fun i => last (nth (i - 0) strs []) 0) (fun i => last (nth i strs []) 0)) by (intros i; now rewrite Nat.sub_0_r).
    apply Permutation_map. apply NoDup_Permutation; [exact N|apply NoDup_filter, seq_NoDup|]. intros i. rewrite filter_In, in_seq, memb_In. split; [intros Hi; split; [destruct (H i Hi); lia|exact Hi]|tauto].
  - apply concat_strip_perm. intros i Pi _. left. rewrite Nat.sub_0_r. apply memb_In in Pi. now apply H.
Qed.

(** * C33 *)
(** kron: for every tuple of batch dimensions and every choice of (distinct) linear-superposition operands with at least one
    batch dimension, the string is well formed (it parses back), all input labels are distinct, every label of the inputs occurs once in the
    output, each operand's labels keep their order, and the linear-superposition labels come last, in the order given *)
Theorem C33_kron : forall dims lin, dims <> [] -> NoDup lin -> (forall i, In i lin -> i < length dims /\ nth i dims 0 <> 0) ->
  exists s ins out, outer_product_batch_str dims (Some lin) = Ok s /\ parse s = Ok (ins, out) /\ map (@length nat) ins = dims
    /\ NoDup (concat ins) /\ Permutation out (concat ins) /\ (forall i, i < length ins -> in_order (nth i ins []) out)
    /\ exists o, out = o ++ map (fun i => last (nth i ins []) 0) lin.
Proof.
  intros dims lin Nd N H. assert (H' : forall i, In i lin -> i < length (gens dims 0) /\ nth i (gens dims 0) [] <> []).
  { intros i Hi. destruct (H i Hi) as [L NZ]. split; [now rewrite gens_length|]. intros E. apply NZ. rewrite <- (gens_lengths dims 0). change 0 with (length (@nil nat)) at 2. rewrite map_nth. now rewrite E. }
  destruct (strip_spec lin (gens dims 0) [] N H') as [strs' [E1 [E2 E3]]]. simpl in E1.
  set (ins := gens dims 0) in *. set (ch := map (fun i => last (nth i ins []) 0) lin) in *.
  assert (P : Permutation (concat strs' ++ ch) (concat ins)) by (apply nth_concat_perm_nat; auto).
  assert (ND : NoDup (concat ins)) by (unfold ins; rewrite gens_concat; apply gen_NoDup).
  assert (LC : label_chars (concat ins)) by (unfold ins; rewrite gens_concat; apply gen_chars).
  exists (render ins (concat strs' ++ ch)), ins, (concat strs' ++ ch). split; [unfold outer_product_batch_str, outer_spec; fold ins; rewrite E1; reflexivity|]. split.
  { apply parse_render; [unfold ins; destruct dims; [tauto|discriminate]|apply gens_chars|]. unfold label_chars in *. rewrite Forall_forall in *. intros x Hx. apply LC. now apply (Permutation_in _ P). }
  split; [apply gens_lengths|]. split; [exact ND|]. split; [exact P|]. split; [|now exists (concat strs')].
  intros i Hi. apply sub_in_order; [|apply (Permutation_NoDup (Permutation_sym P) ND)].
  destruct (memb i lin) eqn:M.
  - assert (Mi := proj1 (memb_In _ _) M). rewrite (app_removelast_last 0 (proj2 (H' i Mi))). apply sub_app.
    + specialize (E3 i). rewrite M in E3. rewrite <- E3. apply sub_concat. now rewrite E2.
    + unfold ch. clear - Mi. induction lin as [|k lin IH]; [destruct Mi|]. cbn [map]. destruct Mi as [->|Mi]; [apply sub_take; constructor|apply sub_skip; auto].
  - rewrite <- (app_nil_r (nth i ins [])). apply sub_app; [|constructor]. specialize (E3 i). rewrite M in E3. rewrite <- E3. apply sub_concat. now rewrite E2.
Qed.
Lemma outer_none : forall dims, outer_product_batch_str dims None = outer_product_batch_str dims (Some []).
Proof. intros dims. unfold outer_product_batch_str, outer_spec. cbn [strip bind]. now rewrite app_nil_r. Qed.
(** zip: position j of every operand and of the output carries the same label *)
Theorem C33_zip : forall dims, dims <> [] -> exists s ins out, zip_batch_strings dims = Ok s /\ parse s = Ok (ins, out) /\ map (@length nat) ins = dims
  /\ length out = list_max dims /\ NoDup out /\ (forall i, i < length ins -> in_order (nth i ins []) out)
  /\ (forall i j, i < length ins -> j < nth i dims 0 -> nth j (nth i ins []) 0 = nth j out 0).
Proof.
  intros dims N. exists (render (fst (zip_spec dims)) (snd (zip_spec dims))), (fst (zip_spec dims)), (snd (zip_spec dims)). unfold zip_spec. cbn [fst snd].
  assert (G : forall i, i < length dims -> nth i (map (fun d => gen d 0) dims) [] = gen (nth i dims 0) 0).
  { intros i Hi. rewrite (nth_indep _ [] (gen 0 0)) by (now rewrite map_length). exact (map_nth (fun d => gen d 0) dims 0 i). }
  assert (M : forall i, i < length dims -> nth i dims 0 <= list_max dims).
  { intros i Hi. pose proof (proj1 (list_max_le dims _) (le_n _)) as F. rewrite Forall_forall in F. apply F. now apply nth_In. }
  split; [destruct dims; [tauto|reflexivity]|]. split; [apply parse_render; [destruct dims; [tauto|discriminate]| |apply gen_chars]; apply Forall_forall; intros s Hs; apply in_map_iff in Hs; destruct Hs as [d [<- _]]; apply gen_chars|].
  split; [rewrite map_map; rewrite (map_ext _ (fun x => x)) by (intros d; unfold gen; now rewrite map_length, seq_length); apply map_id|].
  split; [unfold gen; now rewrite map_length, seq_length|]. split; [apply gen_NoDup|]. rewrite map_length.
  assert (Q : forall d j, j < d -> nth j (gen d 0) 0 = 97 + j).
  { intros d j Hj. unfold gen. rewrite (nth_indep _ 0 (97 + 0)) by (now rewrite map_length, seq_length). rewrite (map_nth (fun i => 97 + i)), seq_nth by exact Hj. reflexivity. }
  split.
  - intros i Hi. rewrite G by exact Hi. apply sub_in_order; [|apply gen_NoDup]. specialize (M i Hi). replace (list_max dims) with (nth i dims 0 + (list_max dims - nth i dims 0)) by lia.
    unfold gen. rewrite seq_app, map_app. rewrite <- (app_nil_r (map _ (seq 0 (nth i dims 0)))) at 1. apply sub_app; [apply sub_refl|constructor].
  - intros i j Hi Hj. rewrite G by exact Hi. specialize (M i Hi). rewrite !Q by lia. reflexivity.
Qed.
(** the linear-superposition labels appended to a string are new and distinct, one per operand, and last in the output in operand order *)
Theorem C33_lin_sup : forall ins out, ins <> [] -> Forall label_chars ins -> label_chars out ->
  exists s ls, lin_sup_batch_str (render ins out) = Ok s /\ parse s = Ok (map (fun '(i, l) => i ++ [l]) (combine ins ls), out ++ ls)
    /\ length ls = length ins /\ NoDup ls /\ (forall l, In l ls -> ~ In l out /\ ~ In l (concat ins)).
Proof.
  intros ins out N H Ho. unfold lin_sup_batch_str. rewrite parse_render by assumption. cbn [bind]. set (m := list_max (render ins out)). set (ls := map (fun off => m + off) (seq 1 (length ins))).
  assert (Mx : forall c, In c (render ins out) -> c <= m). { intros c Hc. pose proof (proj1 (list_max_le (render ins out) _) (le_n _)) as F. rewrite Forall_forall in F. now apply F. }
  assert (M62 : 62 <= m) by (apply Mx; unfold render, arrow; apply in_or_app; right; simpl; auto).
  assert (Il : forall l, In l ls -> m < l) by (intros l Hl; apply in_map_iff in Hl; destruct Hl as [k [<- Hk]]; apply in_seq in Hk; lia).
  exists (render (map (fun '(i, l) => i ++ [l]) (combine ins ls)) (out ++ ls)), ls. split; [reflexivity|]. assert (Ll : length ls = length ins) by (unfold ls; now rewrite map_length, seq_length).
  assert (Lc : label_chars ls) by (apply Forall_forall; intros l Hl; apply Il in Hl; lia). split; [|split; [exact Ll|split]].
  - apply parse_render; [destruct ins as [|i ins']; [tauto|]; destruct ls; [discriminate Ll|discriminate]| |unfold label_chars; rewrite Forall_app; now split].
    apply Forall_forall. intros s Hs. apply in_map_iff in Hs. destruct Hs as [[i l] [<- Hil]]. unfold label_chars. rewrite Forall_app. rewrite Forall_forall in H. split; [apply H; exact (in_combine_l _ _ _ _ Hil)|].
    constructor; [|constructor]. apply in_combine_r in Hil. apply Il in Hil. lia.
  - unfold ls. apply FinFun.Injective_map_NoDup; [intros x y; lia|apply seq_NoDup].
  - assert (Ji : forall l, In l (concat ins) -> In l (join ins)).
    { clear. induction ins as [|s t IH]; intros l Hl; [destruct Hl|]. simpl in Hl. apply in_app_or in Hl. destruct t as [|s' t']; [cbn [join]; destruct Hl as [Hl|Hl]; [exact Hl|destruct Hl]|].
      change (join (s :: s' :: t')) with (s ++ comma :: join (s' :: t')). apply in_or_app. destruct Hl; [now left|right; right; now apply IH]. }
    intros l Hl. apply Il in Hl. split; intros K; [assert (l <= m) by (apply Mx; unfold render; apply in_or_app; right; apply in_or_app; now right); lia|].
    apply Ji in K. assert (l <= m) by (apply Mx; unfold render; apply in_or_app; now left). lia.
Qed.

(** reshaping: when each operand's labels keep their order, the reshaped operand broadcasts like an einsum operand *)
Lemma prod_filter : forall (dim : nat -> nat) (p : nat -> bool) out, prod (map (fun l => if p l then dim l else 1) out) = prod (map dim (filter p out)).
Proof. induction out as [|l out IH]; [reflexivity|]. cbn [map filter prod fold_right]. fold (prod (map (fun l => if p l then dim l else 1) out)). rewrite IH. destruct (p l); cbn [map prod fold_right]; fold (prod (map dim (filter p out))); lia. Qed.
Lemma ravel_filter : forall (dim env : nat -> nat) (p : nat -> bool) out,
  ravel (map (fun l => if p l then dim l else 1) out) (map (fun l => if p l then env l else 0) out) = ravel (map dim (filter p out)) (map env (filter p out)).
Proof. induction out as [|l out IH]; [reflexivity|]. cbn [map filter ravel]. rewrite IH, prod_filter. destruct (p l); cbn [map ravel]; lia. Qed.
Lemma sizes_spec_ok : forall dim s d, (forall l n, lookup d l = Some n -> n = dim l) ->
  exists d', sizes_spec (map dim s) s d = Ok d' /\ (forall l n, lookup d' l = Some n -> n = dim l) /\ (forall l, In l s \/ lookup d l <> None -> lookup d' l <> None).
Proof.
  intros dim s. induction s as [|l s IH]; intros d Hd; cbn [map sizes_spec].
  - exists d. split; [reflexivity|]. split; [exact Hd|]. intros l [[]|H]; exact H.
  - assert (Hd' : forall k n, lookup ((l, dim l) :: d) k = Some n -> n = dim k).
    { intros k n. cbn [lookup]. destruct (Nat.eqb k l) eqn:E; [apply Nat.eqb_eq in E; subst; congruence|apply Hd]. }
    destruct (IH _ Hd') as [d' [E1 [E2 E3]]]. exists d'. split; [|split; [exact E2|]].
    + destruct (lookup d l) as [m|] eqn:E; [|exact E1]. rewrite (Hd _ _ E), Nat.eqb_refl. exact E1.
    + intros k Hk. apply E3. cbn [lookup]. destruct (Nat.eqb k l) eqn:E; [right; discriminate|]. destruct Hk as [[->|Hk]|Hk]; [rewrite Nat.eqb_refl in E; discriminate|now left|now right].
Qed.
Lemma sizes_ok : forall {R} dim (args : list (farray R)) ins d, Forall2 (fun a s => fshape a = map dim s) args ins -> (forall l n, lookup d l = Some n -> n = dim l) ->
  exists d', sizes args ins d = Ok d' /\ (forall l n, lookup d' l = Some n -> n = dim l) /\ (forall l, In l (concat ins) \/ lookup d l <> None -> lookup d' l <> None).
Proof.
  intros R dim args ins d H. revert d. induction H as [|a s args ins Ha H IH]; intros d Hd; cbn [sizes].
  - exists d. split; [reflexivity|]. split; [exact Hd|]. intros l [[]|K]; exact K.
  - rewrite Ha. destruct (sizes_spec_ok dim s d Hd) as [d1 [E1 [E2 E3]]]. rewrite E1. cbn [bind]. destruct (IH d1 E2) as [d' [F1 [F2 F3]]]. exists d'. split; [exact F1|]. split; [exact F2|].
    intros l Hl. apply F3. cbn [concat] in Hl. rewrite in_app_iff in Hl. destruct Hl as [[Hl|Hl]|Hl]; [right; apply E3; now left|now left|right; apply E3; now right].
Qed.
Lemma new_shape_ok : forall dim d spec out, (forall l n, lookup d l = Some n -> n = dim l) -> (forall l, In l spec -> lookup d l <> None) ->
  new_shape d spec out = Ok (map (fun l => if memb l spec then dim l else 1) out).
Proof.
  intros dim d spec out H1 H2. unfold new_shape. induction out as [|l out IH]; [reflexivity|]. cbn [mapM map]. destruct (memb l spec) eqn:M.
  - apply memb_In in M. specialize (H2 l M). destruct (lookup d l) as [n|] eqn:E; [|tauto]. rewrite (H1 _ _ E). cbn [bind]. now rewrite IH.
  - cbn [bind]. now rewrite IH.
Qed.
Theorem C33_reshape : forall {R} (dim : nat -> nat) (args : list (farray R)) ins out, ins <> [] -> Forall label_chars ins -> label_chars out ->
  Forall2 (fun a s => fshape a = map dim s) args ins -> (forall s, In s ins -> in_order s out) ->
  exists rs, reshape_args args (render ins out) = Ok rs /\ length rs = length args
    /\ forall i r a s, nth_error rs i = Some r -> nth_error args i = Some a -> nth_error ins i = Some s ->
         fshape r = map (fun l => if memb l s then dim l else 1) out
         /\ forall env : nat -> nat, entry r (map (fun l => if memb l s then env l else 0) out) = entry a (map env s).
Proof.
  intros R dim args ins out N H Ho HA HI. unfold reshape_args. rewrite parse_render by assumption. cbn [bind].
  assert (L : length ins = length args) by (clear - HA; induction HA; simpl; auto). rewrite L, Nat.eqb_refl.
  destruct (sizes_ok dim args ins [] HA) as [d [E1 [E2 E3]]]; [discriminate|]. rewrite E1. cbn [bind].
  assert (ID : forall s, In s ins -> forall l, In l s -> lookup d l <> None). { intros s Hs l Hl. apply E3. left. apply in_concat. now exists s. }
  clear E1 E3 N L H Ho. induction HA as [|a s args ins Ha HA IH].
  - exists []. split; [reflexivity|]. split; [reflexivity|]. intros [|i] r a s; discriminate.
  - destruct IH as [rs [F1 [F2 F3]]]; [intros; apply HI; now right|intros; eapply ID; [right|]; eassumption|].
    cbn [combine mapM]. rewrite (new_shape_ok dim d s out E2 (ID s (or_introl eq_refl))). cbn [bind]. unfold reshape at 1.
    assert (PR : prod (map (fun l => if memb l s then dim l else 1) out) = prod (fshape a)) by (rewrite prod_filter, (HI s (or_introl eq_refl)), Ha; reflexivity).
    rewrite PR, Nat.eqb_refl. cbn [bind]. rewrite F1. cbn [bind]. eexists. split; [reflexivity|]. split; [simpl; now rewrite F2|].
    intros [|i] r a' s' Er Ea Es; [|exact (F3 i r a' s' Er Ea Es)]. injection Er as <-. injection Ea as <-. injection Es as <-. split; [reflexivity|].
    intros env. unfold entry. cbn [fshape fdata]. rewrite ravel_filter, (HI s (or_introl eq_refl)), Ha. reflexivity.
Qed.
(** false when an operand's labels are listed in another order: the data is reshaped without being transposed *)
Theorem C33_refuted_order : let a := mkF [2; 3] (fun i => i) in
  exists r, reshape_args [a] (render [[97; 98]] [98; 97]) = Ok [r] /\ fshape r = [3; 2] /\ entry a [0; 1] = 1 /\ entry r [1; 0] = 2.
Proof. eexists. split; [vm_compute; reflexivity|]. repeat split. Qed.
(** false for no operands: the string "->" parses as one (empty) operand *)
Theorem C33_refuted_no_args : outer_product_batch_str [] None = Ok arrow /\ reshape_args (@nil (farray nat)) arrow = Err ValueError.
Proof. split; reflexivity. Qed.
Theorem C33_example : outer_product_batch_str [2; 1; 3] (Some [0; 1]) = Ok (render [[97; 98]; [99]; [100; 101; 102]] [97; 100; 101; 102; 98; 99])
  /\ lin_sup_batch_str (render [[97]; [97]] [97]) = Ok (render [[97; 98]; [97; 99]] [97; 98; 99]).
Proof. split; reflexivity. Qed.
