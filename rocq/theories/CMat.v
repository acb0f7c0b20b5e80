(** Coquelicot's complex numbers as a mathcomp field, so that 'M[C]_n, determinants, block matrices and their lemmas are available for complex matrices.
    Nothing here models code of /repo. Uses the standard library's ClassicalEpsilon (a choice function on C is part of mathcomp's field structure). *)
From Coq Require Import Reals ClassicalEpsilon FunctionalExtensionality.
From Coquelicot Require Import Complex.
From mathcomp Require Import all_ssreflect all_algebra.
Set Implicit Arguments. Unset Strict Implicit. Unset Printing Implicit Defensive.
Import GRing.Theory.

Lemma C_dec : comparable C.
Proof.
move=> [a b] [c d]. case: (Req_EM_T a c) => [->|H]; last by right; case.
by case: (Req_EM_T b d) => [->|H]; [left|right; case].
Qed.
Definition C_eqMixin := comparableMixin C_dec.
Canonical C_eqType := Eval hnf in EqType C C_eqMixin.
Definition C_find (P : pred C) (n : nat) : option C :=
  match excluded_middle_informative (exists x, P x) with left H => Some (proj1_sig (constructive_indefinite_description _ H)) | right _ => None end.
Lemma C_find1 : forall P n x, C_find P n = Some x -> P x.
Proof. move=> P n x. rewrite /C_find. case: excluded_middle_informative => // H [<-]. exact: (proj2_sig (constructive_indefinite_description _ H)). Qed.
Lemma C_find2 : forall P : pred C, (exists x, P x) -> exists n, C_find P n.
Proof. move=> P H. exists 0%nat. rewrite /C_find. by case: excluded_middle_informative. Qed.
Lemma C_find3 : forall P Q : pred C, P =1 Q -> C_find P =1 C_find Q.
Proof. move=> P Q E n. suff -> : P = Q by []. exact: functional_extensionality. Qed.
Definition C_choiceMixin : choiceMixin C := Choice.Mixin C_find1 C_find2 C_find3.
Canonical C_choiceType := Eval hnf in ChoiceType C C_choiceMixin.
Lemma CaddA : associative Cplus. Proof. move=> x y z. exact: Cplus_assoc. Qed.
Lemma CaddC : commutative Cplus. Proof. move=> x y. exact: Cplus_comm. Qed.
Lemma Cadd0 : left_id (RtoC 0) Cplus. Proof. move=> x. exact: Cplus_0_l. Qed.
Lemma CaddN : left_inverse (RtoC 0) Copp Cplus. Proof. move=> x. rewrite Cplus_comm. exact: Cplus_opp_r. Qed.
Definition C_zmodMixin := ZmodMixin CaddA CaddC Cadd0 CaddN.
Canonical C_zmodType := Eval hnf in ZmodType C C_zmodMixin.
Lemma CmulA : associative Cmult. Proof. move=> x y z. exact: Cmult_assoc. Qed.
Lemma CmulC : commutative Cmult. Proof. move=> x y. exact: Cmult_comm. Qed.
Lemma Cmul1 : left_id (RtoC 1) Cmult. Proof. move=> x. exact: Cmult_1_l. Qed.
Lemma CmulD : left_distributive Cmult Cplus. Proof. move=> x y z. exact: Cmult_plus_distr_r. Qed.
Lemma C1n0 : RtoC 1 != RtoC 0. Proof. apply/eqP. case. exact: R1_neq_R0. Qed.
Definition C_ringMixin := ComRingMixin CmulA CmulC Cmul1 CmulD C1n0.
Canonical C_ringType := Eval hnf in RingType C C_ringMixin.
Canonical C_comRingType := Eval hnf in ComRingType C CmulC.
Lemma CmulV : forall x : C, x != 0%R -> (Cinv x * x)%C = 1%R.
Proof. move=> x /eqP H. exact: Cinv_l. Qed.
Lemma Cinv0 : Cinv 0%R = 0%R.
Proof. rewrite /Cinv /=. congr pair; rewrite /Rdiv; ring. Qed.
Definition C_unitMixin := FieldUnitMixin CmulV Cinv0.
Canonical C_unitRingType := Eval hnf in UnitRingType C C_unitMixin.
Canonical C_comUnitRingType := Eval hnf in [comUnitRingType of C].
Lemma C_field : GRing.Field.mixin_of C_unitRingType. Proof. by []. Qed.
Definition C_idomainMixin := FieldIdomainMixin C_field.
Canonical C_idomainType := Eval hnf in IdomainType C C_idomainMixin.
Canonical C_fieldType := Eval hnf in FieldType C C_field.
(** complex conjugation is a ring morphism *)
Lemma Cconj_rmorph : rmorphism Cconj.
Proof.
split; [by move=> [a b] [c d]; rewrite /GRing.add /GRing.opp /= /Cconj /Cplus /Copp /=; congr pair; ring|].
split; [|by rewrite /Cconj /GRing.one /= /RtoC; congr pair; ring].
by move=> [a b] [c d]; rewrite /GRing.mul /= /Cconj /Cmult /=; congr pair; ring.
Qed.
Canonical Cconj_additive := Additive Cconj_rmorph.
Canonical Cconj_rmorphism := RMorphism Cconj_rmorph.
Lemma CconjK : involutive Cconj.
Proof. move=> [a b]. by rewrite /Cconj /= Ropp_involutive. Qed.
(** mathcomp's operations are Coquelicot's *)
Lemma CaddE (x y : C) : (x + y)%R = Cplus x y. Proof. by []. Qed.
Lemma CmulE (x y : C) : (x * y)%R = Cmult x y. Proof. by []. Qed.
Lemma CoppE (x : C) : (- x)%R = Copp x. Proof. by []. Qed.
Lemma CinvE (x : C) : (x^-1)%R = Cinv x. Proof. by []. Qed.
