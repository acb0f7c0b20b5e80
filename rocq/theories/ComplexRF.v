(** The complex numbers as an instance of the number structure used by the lattice theorems. *)
From Coq Require Import Reals Lra.
From Coquelicot Require Import Coquelicot.
From Verif Require Import RootField.

Definition csq (n : nat) : C := RtoC (sqrt (INR n)).
Definition cnat : nat -> C := fix nat_ n := match n with 0 => RtoC 0 | S m => Cplus (nat_ m) (RtoC 1) end.
Lemma cnat_INR : forall n, cnat n = RtoC (INR n).
Proof. induction n as [|n IH]; [reflexivity|]. rewrite S_INR, RtoC_plus, <- IH. reflexivity. Qed.
Lemma csq_0 : csq 0 = RtoC 0.
Proof. unfold csq. simpl. now rewrite sqrt_0. Qed.
Lemma csq_ok : forall n, Cmult (csq n) (csq n) = cnat n.
Proof. intros n. rewrite cnat_INR. unfold csq. rewrite <- RtoC_mult. f_equal. apply sqrt_sqrt, pos_INR. Qed.
Lemma cchar0 : forall n, cnat (S n) <> RtoC 0.
Proof. intros n. rewrite cnat_INR. intros H. apply RtoC_inj in H. rewrite S_INR in H. pose proof (pos_INR n). lra. Qed.

Definition CF : rootfield := mkRF C (RtoC 0) (RtoC 1) Cplus Cmult Cminus Copp Cdiv Cinv C_field_theory csq csq_0 csq_ok cchar0.
