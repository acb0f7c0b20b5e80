(** Physical stellar decomposition of Gaussian density matrices: claim C74.
    Model of mrmustard/lab/states/dm.py:524-652 (physical_stellar_decomposition), one batch element, no derived variables.  A density matrix on M + n modes is a [ctri M n]:
    its variables are (core bra, other bra, core ket, other ket).  Simplification: the core modes are the first M of the 2M modes; the relabelling of the modes (lines 556-568
    and 631-633: reorder and its inverse) is not modelled, and the test of the number of modes (lines 570-575) is the type. *)
From Coq Require Import Reals Lra Psatz.
From Coquelicot Require Import Complex.
From mathcomp Require Import all_ssreflect all_algebra.
From mathcomp Require Import fingroup perm.
From Verif Require Import CMat Optimizer GateSym BargSym CExp Compose ChanAlg PosDef Channels States ChanPhys.
Require Verif.Base Verif.Stellar.
Set Implicit Arguments. Unset Strict Implicit. Unset Printing Implicit Defensive.
Import GRing.Theory.
Local Open Scope ring_scope.
Delimit Scope R_scope with coqR.
Local Arguments Re : simpl never.
Notation eigh := Stellar.eigh.
Notation gamma := Stellar.gamma.

(** A (bra, ket) block matrix / vector made of a ket part and its conjugate *)
Definition db m k (Z : 'M[C]_(m, k)) : 'M[C]_(m + m, k + k) := block_mx (conj Z) 0 0 Z.
Definition dbv m (z : 'cV[C]_m) : 'cV[C]_(m + m) := col_mx (conj z) z.
(** a component and its adjoint side by side (Ket.dm, ket.py:229-242; U.contract(U.adjoint)): variables (bra, ket) *)
Definition doubled a i (A : 'M[C]_(a + i)) (b : 'cV[C]_(a + i)) (c : C) : ctri a i := CTri (db A) (dbv b) (Cconj c * c).
(** circuit_components_utils/trace_out.py:63-74 TraceOut: A = X on the inputs, b = 0, c = 1 *)
Definition trace_out k : gtri 0 (k + k) := GTri (block_mx 0 0 0 (X k)) 0 1.
(** t / x: only c changes *)
Definition gdiv a i (t : gtri a i) (x : C) : gtri a i := GTri (gA t) (gb t) (gc t / x).
(** Ket.normalize (states/base.py:485-500: self / sqrt(probability)); None: infinite or not a number *)
Definition normalize n (k : ket n) : option (ket n) :=
  match probability k with Some p => if Rlt_dec R0 p then Some (Ket (kA k) (kb k) (kc k / RtoC (sqrt p))) else None | None => None end.
(** ket >> transformation on the first M modes *)
Definition kgthen M n (k : ket (M + n)) (t : triple M) : option (ket (M + n)) :=
  omap (fun g : gtri M n => Ket (gA g) (gb g) (gc g)) (gthen (GTri (kA k) (kb k) (kc k) : gtri M n) (of_triple t)).

Section Model.
Variable M : nat.
Implicit Types (rho : ctri M M).
(** dm.py:577-583: the blocks of A and b in the order (core bra, core ket, other bra, other ket); R = A[2M:, :2M] *)
Definition Am rho : 'M[C]_(M + M) := ulsubmx (group (cA rho)).
Definition An rho : 'M[C]_(M + M) := drsubmx (group (cA rho)).
Definition Rm rho : 'M[C]_(M + M) := dlsubmx (group (cA rho)).
Definition bm rho : 'cV[C]_(M + M) := usubmx (groupv (cb rho)).
Definition bn rho : 'cV[C]_(M + M) := dsubmx (groupv (cb rho)).
(** dm.py:585-586 *)
Definition reduced rho : 'M[C]_(M + M) := An rho - Rm rho *m invmx (Am rho - X M) *m (Rm rho)^T.
Definition r_squared rho : 'M[C]_M := ursubmx (reduced rho).
(** dm.py:587-595 and 599: r_core_transpose = gamma v d; temp = diag(conj r_core, r_core) *)
Definition temp (h : 'M[C]_M) : 'M[C]_(M + M) := block_mx (conj h^T) 0 0 h^T.
(** dm.py:597-614; Aphi_oi with the outputs (bra, ket) first, then the inputs (bra, ket); the code reorders it to the library's order *)
Definition Gphi (h : 'M[C]_M) rho := invmx (temp h) *m Rm rho.
Definition Ain (h : 'M[C]_M) rho := Gphi h rho *m invmx (Am rho - X M) *m (Gphi h rho)^T + X M.
Definition phi0 (h : 'M[C]_M) rho : gtri (M + M) (M + M) := GTri (block_mx (Am rho) (Gphi h rho)^T (Gphi h rho) (Ain h rho)) 0 1.
(** dm.py:619-630 *)
Definition bcore_m (h : 'M[C]_M) rho : 'cV[C]_(M + M) := invmx (Gphi h rho)^T *m bm rho.
Definition bcore_n (h : 'M[C]_M) rho : 'cV[C]_(M + M) := bn rho - temp h *m Ain h rho *m bcore_m h rho.
Definition core0 (h : 'M[C]_M) rho : ket (M + M) :=
  Ket (block_mx 0 h h^T (drsubmx (reduced rho))) (col_mx (dsubmx (bcore_m h rho)) (dsubmx (bcore_n h rho))) 1.
(** dm.py:524-652 for the core modes in the first M positions. (v, d) is what eigh returns for r_squared.  None: some entries are infinite or not numbers (a negative
    eigenvalue, a determinant below the threshold).  Simplification: the displacements of the core modes (lines 637-644), which act on different modes, are applied at once;
    lines 616-617 (a first normalisation of phi, overwritten by lines 645-648) are left out *)
Definition physical (v : 'M[C]_M) (d : 'I_M -> R) rho : Base.result (option (ket (M + M) * ctri M M)) :=
  Base.bind (inv (Am rho - X M)) (fun _ =>
  if [exists j, Rlt_dec (d j) R0] then Base.Ok None else
  let h := gamma v d in
  Base.bind (inv (temp h)) (fun _ =>
  Base.bind (inv (Gphi h rho)^T) (fun _ =>
  let be := dsubmx (bcore_m h rho) in
  let dgate := displacement be in
  match kgthen (core0 h rho) (displacement (- be)), gthen (grp (doubled (tA dgate) (tb dgate) (tc dgate))) (phi0 h rho) with
  | Some k, Some p =>
    match normalize (Ket (kA k) (kb k) 1), gthen (GTri (gA p) (gb p) 1) (trace_out M) with
    | Some k, Some t => Base.Ok (Some (k, ungrp (gdiv (GTri (gA p) (gb p) 1) (gc t))))
    | _, _ => Base.Ok None
    end
  | _, _ => Base.Ok None
  end))).
End Model.

(** ** Specification *)
(** the density matrix of an operator that is Hermitian: exchanging bra and ket is conjugation *)
Definition hermitian a i (rho : ctri a i) : Prop :=
  (cA rho)^T = cA rho /\ conj (cA rho) = X (a + i) *m cA rho *m X (a + i) /\ conj (cb rho) = X (a + i) *m cb rho.
(** A and b vanish on the first M modes: projecting the others on the vacuum leaves the vacuum *)
Definition core_state M n (k : ket (M + n)) : Prop := ulsubmx (kA k) = 0 /\ usubmx (kb k) = 0.
(** tracing the output is the trace of the input: A = X, b = 0, c = 1 *)
Definition trace_preserving a i (phi : ctri a i) : Prop := exists Z, gthen (grp phi) (trace_out a) = Some (GTri (block_mx 0 Z Z^T (X i)) 0 1).
(** the trace (DM.probability, dm.py:101-110) *)
Definition trace M n (rho : ctri M n) : option C := omap (fun z => z.2) (gtrace (st2g (STri (cA rho) (cb rho) (cc rho)))).

(** ** Algebra *)
Lemma X_T n : (X n)^T = X n. Proof. by rewrite /X tr_block_mx !trmx0 !trmx1. Qed.
Lemma conj_X n : conj (X n) = X n. Proof. by rewrite /X map_block_mx !map_mx0 !map_mx1. Qed.
Lemma conj_T m n (A : 'M[C]_(m, n)) : conj A^T = (conj A)^T. Proof. by rewrite map_trmx. Qed.
Lemma dbM m k l (A : 'M[C]_(m, k)) (B : 'M[C]_(k, l)) : db A *m db B = db (A *m B).
Proof. by rewrite /db mulmx_block !mulmx0 !mul0mx !addr0 !add0r conj_mul. Qed.
Lemma dbMv m k (A : 'M[C]_(m, k)) (z : 'cV[C]_k) : db A *m dbv z = dbv (A *m z).
Proof. by rewrite /db /dbv mul_block_col !mul0mx addr0 add0r conj_mul. Qed.
Lemma dbT m k (A : 'M[C]_(m, k)) : (db A)^T = db A^T.
Proof. by rewrite /db tr_block_mx !trmx0 conj_T. Qed.
Lemma db0 m k : db (0 : 'M[C]_(m, k)) = 0. Proof. by rewrite /db map_mx0 block_mx0. Qed.
Lemma db1 m : db (1%:M : 'M[C]_m) = 1%:M. Proof. by rewrite /db map_mx1 -scalar_mx_block. Qed.
Lemma X_dbv m (z : 'cV[C]_m) : X m *m dbv z = dbv (conj z).
Proof. by rewrite /X /dbv mul_block_col !mul0mx !mul1mx addr0 add0r conjmxK. Qed.
Lemma grp_doubled a i (A : 'M[C]_(a + i)) (b : 'cV[C]_(a + i)) c :
  grp (doubled A b c) = GTri (block_mx (db (ulsubmx A)) (db (ursubmx A)) (db (dlsubmx A)) (db (drsubmx A))) (col_mx (dbv (usubmx b)) (dbv (dsubmx b))) (Cconj c * c).
Proof.
rewrite /grp /doubled /=. congr GTri.
- rewrite /group /db !block_mxKul !block_mxKur !block_mxKdl !block_mxKdr. rewrite -!map_ulsubmx -!map_ursubmx -!map_dlsubmx -!map_drsubmx.
  have Z p q r s : ulsubmx (0 : 'M[C]_(p + q, r + s)) = 0 by apply/matrixP => x y; rewrite !mxE.
  have Z2 p q r s : ursubmx (0 : 'M[C]_(p + q, r + s)) = 0 by apply/matrixP => x y; rewrite !mxE.
  have Z3 p q r s : dlsubmx (0 : 'M[C]_(p + q, r + s)) = 0 by apply/matrixP => x y; rewrite !mxE.
  have Z4 p q r s : drsubmx (0 : 'M[C]_(p + q, r + s)) = 0 by apply/matrixP => x y; rewrite !mxE.
  by rewrite !Z !Z2 !Z3 !Z4.
- by rewrite /groupv /dbv !col_mxKu !col_mxKd -!map_usubmx -!map_dsubmx.
Qed.
(** matrices and vectors that are conjugated by exchanging bra and ket *)
Definition herm m k (Z : 'M[C]_(m + m, k + k)) : Prop := conj Z = X m *m Z *m X k.
Definition hermv m (z : 'cV[C]_(m + m)) : Prop := conj z = X m *m z.
Lemma hermM m k l (A : 'M[C]_(m + m, k + k)) (B : 'M[C]_(k + k, l + l)) : herm A -> herm B -> herm (A *m B).
Proof. rewrite /herm => hA hB. rewrite conj_mul hA hB. have -> : X m *m A *m X k *m (X k *m B *m X l) = X m *m A *m (X k *m X k) *m B *m X l by rewrite !mulmxA. by rewrite XX mulmx1 !mulmxA. Qed.
Lemma hermMv m k (A : 'M[C]_(m + m, k + k)) (z : 'cV[C]_(k + k)) : herm A -> hermv z -> hermv (A *m z).
Proof. rewrite /herm /hermv => hA hB. rewrite conj_mul hA hB. have -> : X m *m A *m X k *m (X k *m z) = X m *m A *m (X k *m X k) *m z by rewrite !mulmxA. by rewrite XX mulmx1 !mulmxA. Qed.
Lemma hermD m k (A B : 'M[C]_(m + m, k + k)) : herm A -> herm B -> herm (A + B).
Proof. rewrite /herm => hA hB. by rewrite map_mxD hA hB mulmxDr mulmxDl. Qed.
Lemma hermN m k (A : 'M[C]_(m + m, k + k)) : herm A -> herm (- A).
Proof. rewrite /herm => hA. by rewrite map_mxN hA mulmxN mulNmx. Qed.
Lemma hermvD m (A B : 'cV[C]_(m + m)) : hermv A -> hermv B -> hermv (A + B).
Proof. rewrite /hermv => hA hB. by rewrite map_mxD hA hB mulmxDr. Qed.
Lemma hermvN m (A : 'cV[C]_(m + m)) : hermv A -> hermv (- A).
Proof. rewrite /hermv => hA. by rewrite map_mxN hA mulmxN. Qed.
Lemma hermT m k (A : 'M[C]_(m + m, k + k)) : herm A -> herm A^T.
Proof. rewrite /herm => hA. by rewrite conj_T hA !trmx_mul !X_T mulmxA. Qed.
Lemma hermX m : herm (X m). Proof. by rewrite /herm conj_X XX mul1mx. Qed.
Lemma hermV m (A : 'M[C]_(m + m)) : A \in unitmx -> herm A -> herm (invmx A).
Proof. rewrite /herm => u hA. by rewrite conj_inv hA X_inv. Qed.
Lemma herm_db m k (A : 'M[C]_(m, k)) : herm (db A).
Proof. by rewrite /herm /db /X map_block_mx !map_mx0 conjmxK !mulmx_block ?(mul0mx, mulmx0, mul1mx, mulmx1, addr0, add0r). Qed.
Lemma herm_blocks m k (Z : 'M[C]_(m + m, k + k)) : herm Z -> ulsubmx Z = conj (drsubmx Z) /\ ursubmx Z = conj (dlsubmx Z).
Proof.
rewrite /herm -{1 2}(submxK Z). move: (ulsubmx Z) (ursubmx Z) (dlsubmx Z) (drsubmx Z) => a b c e.
rewrite map_block_mx /X !mulmx_block ?(mul0mx, mulmx0, mul1mx, mulmx1, addr0, add0r) => /eq_block_mx [_ _ -> ->]. by [].
Qed.
Lemma hermv_dbv m (z : 'cV[C]_(m + m)) : hermv z -> z = dbv (dsubmx z).
Proof. rewrite /hermv -{1 2 3}(vsubmxK z). move: (usubmx z) (dsubmx z) => a b. rewrite map_col_mx /X mul_block_col !mul0mx !mul1mx addr0 add0r => /eq_col_mx [_ <-]. by rewrite /dbv. Qed.

Lemma conjPm a i : conj (Pm a i) = Pm a i. Proof. by have := adjPm a i; rewrite /adj => /(congr1 trmx); rewrite !trmxK. Qed.
Lemma XPT a i : X (a + i) *m (Pm a i)^T = (Pm a i)^T *m block_mx (X a) 0 0 (X i).
Proof. have /(congr1 trmx) := PXg a i. rewrite !trmx_mul X_T => ->. congr (_ *m _). by rewrite tr_block_mx !trmx0 !X_T. Qed.
Lemma herm_group a i (rho : ctri a i) : hermitian rho ->
  (group (cA rho))^T = group (cA rho) /\
  conj (group (cA rho)) = block_mx (X a) 0 0 (X i) *m group (cA rho) *m block_mx (X a) 0 0 (X i) /\ conj (groupv (cb rho)) = block_mx (X a) 0 0 (X i) *m groupv (cb rho).
Proof.
case=> S [H Hb]. rewrite group_P groupv_P !trmx_mul trmxK S !conj_mul conj_T conjPm H Hb !mulmxA PXg. do 2 (split=> //).
by rewrite -!mulmxA -XPT !mulmxA.
Qed.
Section Blocks.
Variables (M : nat) (rho : ctri M M).
Hypothesis Hr : hermitian rho.
Lemma grpE : grp rho = GTri (block_mx (Am rho) (Rm rho)^T (Rm rho) (An rho)) (col_mx (bm rho) (bn rho)) (cc rho).
Proof.
rewrite /grp /Am /Rm /An /bm /bn vsubmxK. congr GTri. have [S _] := herm_group Hr. rewrite -{1}(submxK (group (cA rho))). congr block_mx.
by rewrite -{1}S -{1}(submxK (group (cA rho))) tr_block_mx block_mxKur.
Qed.
Lemma sym_Am : (Am rho)^T = Am rho. Proof. have [S _] := herm_group Hr. by rewrite /Am trmx_ulsub S. Qed.
Lemma sym_An : (An rho)^T = An rho. Proof. have [S _] := herm_group Hr. by rewrite /An trmx_drsub S. Qed.
Lemma herm_all : [/\ herm (Am rho), herm (An rho), herm (Rm rho), hermv (bm rho) & hermv (bn rho)].
Proof.
have [_ [H Hb]] := herm_group Hr. move: H Hb. have /(congr1 (@gA _ _)) /= -> := grpE. have /(congr1 (@gb _ _)) /= -> := grpE.
rewrite map_block_mx map_col_mx !mulmx_block mul_block_col ?(mul0mx, mulmx0, addr0, add0r) => /eq_block_mx [h1 _ h3 h4] /eq_col_mx [h5 h6]. by split.
Qed.
Hypothesis uD : Am rho - X M \in unitmx.
Let D := Am rho - X M.
Lemma sym_D : D^T = D. Proof. by rewrite /D linearB /= sym_Am X_T. Qed.
Lemma sym_iD : (invmx D)^T = invmx D. Proof. by rewrite trmx_inv sym_D. Qed.
Lemma herm_D : herm D. Proof. have [h _ _ _ _] := herm_all. exact: hermD h (hermN (hermX M)). Qed.
Lemma herm_iD : herm (invmx D). Proof. exact: hermV uD herm_D. Qed.
Lemma sym_red : (reduced rho)^T = reduced rho.
Proof. by rewrite /reduced linearB /= !trmx_mul trmxK -/D sym_iD sym_An mulmxA. Qed.
Lemma herm_red : herm (reduced rho).
Proof. have [_ hA hR _ _] := herm_all. apply: hermD hA (hermN _). apply: hermM (hermM hR _) (hermT hR). exact: herm_iD. Qed.
Lemma red_blocks : reduced rho = block_mx (conj (drsubmx (reduced rho))) (r_squared rho) (conj (r_squared rho)) (drsubmx (reduced rho)) /\
  (r_squared rho)^T = conj (r_squared rho).
Proof.
have [e1 e2] := herm_blocks herm_red. have E : dlsubmx (reduced rho) = conj (r_squared rho) by rewrite /r_squared e2 conjmxK. split.
- by rewrite -{1}(submxK (reduced rho)) e1 E.
- by rewrite -E /r_squared trmx_ursub sym_red.
Qed.
End Blocks.

(** composition when A vanishes on the contracted outputs *)
Lemma gthen_core k p q (W1 : 'M[C]_(k, p)) (V1 : 'M[C]_p) (T2 : 'M[C]_q) (W2 : 'M[C]_(q, k)) (V2 : 'M[C]_k) o1 i1 o2 i2 c1 c2 : V2^T = V2 ->
  exists c, gthen (GTri (block_mx 0 W1 W1^T V1) (col_mx o1 i1) c1) (GTri (block_mx T2 W2 W2^T V2) (col_mx o2 i2) c2) =
  Some (GTri (block_mx T2 (W2 *m W1) (W2 *m W1)^T (V1 + W1^T *m V2 *m W1)) (col_mx (o2 + W2 *m o1) (i1 + W1^T *m (V2 *m o1 + i2))) c) /\
  (o1 = 0 -> c = c1 * c2).
Proof.
move=> sV. have HK : (1%:M - (0 : 'M[C]_k) *m V2) *m 1%:M = 1%:M by rewrite mul0mx subr0 mul1mx.
eexists. rewrite (gthen_val _ _ _ _ (trmx0 _ _ _) sV HK); first last.
  rewrite mul0mx subr0 det1 C1E Cmod_1. exact: thr_lt1.
split.
- by rewrite ?(trmx1, mulmx0, mul0mx, mulmx1, mul1mx, addr0, add0r).
- move=> ->. rewrite /gQ ?(trmx1, trmx0, mulmx0, mul0mx, mulmx1, mul1mx, addr0, add0r, subr0) det1 invr1 csqrt1 mulr1 mxE mulr0.
  by rewrite Cexp_0 -C1E mulr1.
Qed.
Section Core.
Variables (M : nat) (rho : ctri M M) (h : 'M[C]_M).
Hypotheses (Hr : hermitian rho) (uD : Am rho - X M \in unitmx).
Hypotheses (hh : adj h = h) (hsq : h *m h = r_squared rho) (uT : temp h \in unitmx) (uG : Gphi h rho \in unitmx).
Let D := Am rho - X M.
Let T := temp h.
Let G := Gphi h rho.
Let a := drsubmx (reduced rho).
Let be := dsubmx (bcore_m h rho).
Let tS := sym_Am Hr.
Lemma hT : h^T = conj h. Proof. by rewrite -{1}hh /adj trmxK. Qed.
Lemma tempE : T = db h^T. Proof. by []. Qed.
Lemma tempT : T^T = db h. Proof. by rewrite tempE dbT trmxK. Qed.
Lemma TG : T *m G = Rm rho. Proof. by rewrite /G /Gphi mulKVmx. Qed.
Lemma red_core : reduced rho = db a + T *m X M *m T^T.
Proof.
have [E S] := red_blocks Hr uD. rewrite {1}E tempT tempE /db /X !mulmx_block ?(mul0mx, mulmx0, mulmx1, addr0, add0r) add_block_mx ?(addr0, add0r).
congr block_mx; first by rewrite hT conjmxK hsq. by rewrite hT -conj_mul hsq.
Qed.
Lemma herm_G : herm G. Proof. have [_ _ hR _ _] := herm_all Hr. apply: hermM hR. apply: hermV uT _. exact: herm_db. Qed.
Lemma AinE : Ain h rho = G *m invmx D *m G^T + X M. Proof. by []. Qed.
Lemma sym_Ain : (Ain h rho)^T = Ain h rho. Proof. by rewrite AinE linearD /= (trmx_mul (G *m invmx D) G^T) (trmx_mul G) trmxK X_T (sym_iD Hr) mulmxA. Qed.
Lemma herm_Ain : herm (Ain h rho).
Proof. apply: hermD _ (hermX M). apply: hermM (hermM herm_G _) (hermT herm_G). exact: herm_iD. Qed.
Lemma be_db : bcore_m h rho = dbv be.
Proof. apply: hermv_dbv. have [_ _ _ hb _] := herm_all Hr. apply: hermMv hb. apply: hermV; [by rewrite unitmx_tr|exact: hermT herm_G]. Qed.
Lemma bn_db : bcore_n h rho = dbv (dsubmx (bcore_n h rho)).
Proof.
apply: hermv_dbv. have [_ _ _ _ hb] := herm_all Hr. apply: hermvD hb (hermvN _). apply: hermMv; first by apply: hermM herm_Ain; exact: herm_db.
rewrite be_db /hermv X_dbv. by rewrite /dbv map_col_mx conjmxK.
Qed.
Lemma Gbe : G^T *m dbv be = bm rho. Proof. by rewrite -be_db /bcore_m mulKVmx // unitmx_tr. Qed.
(** the core after the displacements *)
Lemma core_disp : exists c, kgthen (core0 h rho) (displacement (- be)) = Some (Ket (block_mx 0 h h^T a) (col_mx 0 (dsubmx (bcore_n h rho) + h^T *m conj be)) c).
Proof.
have [c [E _]] := gthen_core h a (0 : 'M[C]_M) 1%:M be (dsubmx (bcore_n h rho)) (- be) (- conj (- be)) 1 (tc (displacement (- be))) (trmx0 _ M M).
exists c. rewrite /kgthen /core0 /=. move: E. rewrite trmx1 /of_triple /= -/(X M) => ->. rewrite ?(mul0mx, mulmx0, mul1mx, add0r, addr0) /= addNr. by rewrite map_mxN opprK.
Qed.
(** the channel after the displacements *)
Lemma chan_disp : exists c, gthen (grp (doubled (tA (displacement be)) (tb (displacement be)) (tc (displacement be)))) (phi0 h rho) =
  Some (GTri (block_mx (Am rho) G^T G (Ain h rho)) (col_mx (bm rho) (Ain h rho *m dbv be - X M *m dbv be)) c).
Proof.
have [c [E _]] := gthen_core (1%:M : 'M[C]_(M + M)) 0 (Am rho) G^T (dbv be) (- (X M *m dbv be)) 0 0 (Cconj (tc (displacement be)) * tc (displacement be)) 1 sym_Ain.
exists c. rewrite grp_doubled /phi0 /= /X !block_mxKul !block_mxKur !block_mxKdl !block_mxKdr !col_mxKu !col_mxKd db0 db1 -/(X M).
have -> : dbv (- conj be) = - (X M *m dbv be) by rewrite X_dbv /dbv opp_col_mx map_mxN.
move: E. rewrite trmx1 trmxK col_mx0 ?(mul0mx, mulmx0, mul1mx, mulmx1, add0r, addr0) trmxK Gbe => ->. by rewrite addrC.
Qed.
End Core.

(** ** Traces *)
Lemma cancel4 (V : zmodType) (x y b : V) : x - y + (b - x + y) = b. Proof. by rewrite addrACA addNr addr0 addrC subrK. Qed.
Section Schur.
Variables (p q : nat) (D : 'M[C]_p) (R : 'M[C]_(q, p)) (E : 'M[C]_q) (b1 : 'cV[C]_p) (b2 : 'cV[C]_q).
Hypotheses (uD : D \in unitmx) (sD : D^T = D).
Definition schur := E - R *m invmx D *m R^T.
Definition jv := b2 - R *m invmx D *m b1.
Lemma det_N : \det (block_mx D R^T R E) = \det D * \det schur.
Proof.
have -> : block_mx D R^T R E = block_mx 1%:M 0 (R *m invmx D) 1%:M *m block_mx D R^T 0 schur.
  rewrite mulmx_block ?(mul0mx, mul1mx, mulmx0, addr0) /schur. by rewrite mulmxKV // addrC subrK.
by rewrite det_mulmx det_lblock det_ublock !det1 !mul1r.
Qed.
Lemma quad_N : schur \in unitmx -> (col_mx b1 b2)^T *m invmx (block_mx D R^T R E) *m col_mx b1 b2 = b1^T *m invmx D *m b1 + jv^T *m invmx schur *m jv.
Proof.
move=> uS. have uN : block_mx D R^T R E \in unitmx by rewrite unitmxE det_N unitrM -!unitmxE uD uS.
pose w := invmx schur *m jv. pose u := invmx D *m (b1 - R^T *m w).
have e : block_mx D R^T R E *m col_mx u w = col_mx b1 b2.
  rewrite mul_block_col. congr col_mx; first by rewrite /u mulKVmx // subrK.
  have Sw : schur *m w = jv by rewrite /w mulKVmx. have -> : E = schur + R *m invmx D *m R^T by rewrite /schur subrK.
  rewrite mulmxDl Sw /u mulmxA mulmxBr -(mulmxA (R *m invmx D) R^T) /jv. exact: cancel4.
have e' : invmx (block_mx D R^T R E) *m col_mx b1 b2 = col_mx u w by rewrite -e mulKmx.
have jT : jv^T = b2^T - b1^T *m invmx D *m R^T by rewrite /jv [LHS]linearB /= !trmx_mul trmx_inv sD !mulmxA.
rewrite -mulmxA e' tr_col_mx mul_row_col -(mulmxA jv^T) -/w jT mulmxBl /u mulmxBr mulmxBr !mulmxA -addrA. congr (_ + _). by rewrite addrC.
Qed.
End Schur.
Lemma groupv_ungroupv a i (b : 'cV[C]_((a + a) + (i + i))) : groupv (ungroupv b) = b.
Proof. by rewrite /groupv /ungroupv ?(col_mxKu, col_mxKd) ?vsubmxK. Qed.
Lemma grp_ungrp a i (t : gtri (a + a) (i + i)) : grp (ungrp t) = t.
Proof. case: t => A b c. by rewrite /grp /ungrp /= group_ungroup groupv_ungroupv. Qed.
Lemma PPT a i : Pm a i *m (Pm a i)^T = 1%:M.
Proof.
rewrite /Pm !tr_block_mx !trmx0 !trmx1 !mulmx_block ?(mul0mx, mulmx0, mul1mx, mulmx1, addr0, add0r) !add_block_mx ?(addr0, add0r).
by rewrite !block_mx0 -!scalar_mx_block.
Qed.
Lemma det_sim m n (P : 'M[C]_(m, n)) Q : m = n -> P *m P^T = 1%:M -> \det (P *m Q *m P^T) = \det Q.
Proof. move=> e. case: n / e P Q => P Q H. by rewrite !det_mulmx mulrAC -det_mulmx H det1 mul1r. Qed.
Lemma unit_sim m n (P : 'M[C]_(m, n)) Q : m = n -> P *m P^T = 1%:M -> Q \in unitmx -> invmx (P *m Q *m P^T) = P *m invmx Q *m P^T.
Proof.
move=> e. case: n / e P Q => P Q H uQ. have H' := mulmx1C H.
have E : P *m Q *m P^T *m (P *m invmx Q *m P^T) = 1%:M.
  have -> : P *m Q *m P^T *m (P *m invmx Q *m P^T) = P *m (Q *m (P^T *m P) *m invmx Q) *m P^T by rewrite !mulmxA. by rewrite H' mulmx1 mulmxV // mulmx1.
have uN : P *m Q *m P^T \in unitmx by case/mulmx1_unit: E. by rewrite -[LHS]mulmx1 -E mulKmx.
Qed.
(** the trace in grouped variables *)
Lemma trace_grp a i (r : ctri a i) : let N := group (cA r) - block_mx (X a) 0 0 (X i) in
  trace r = if Rlt_dec threshold (Cmod (\det N)) then Some (cc r * csqrt ((-1) ^+ (a + i) / \det N) * Cexp (- half * ((groupv (cb r))^T *m invmx N *m groupv (cb r)) 0 0)) else None.
Proof.
move=> N. rewrite /trace /gtrace /st2g /= block_mxKul col_mxKu. set Q := cA r - _.
have EN : N = Pm a i *m Q *m (Pm a i)^T.
  rewrite /N /Q group_P mulmxBr mulmxBl. congr (_ - _). by rewrite PXg -mulmxA PPT mulmx1.
have e : (a + a + (i + i) = a + i + (a + i))%N by exact: addnACA.
have dN : \det N = \det Q by rewrite EN (det_sim _ e (PPT a i)).
rewrite dN. case: Rlt_dec => //= Ht. have uQ := thr_unit Ht. congr (Some (_ * Cexp (_ * _))). rewrite groupv_P trmx_mul.
rewrite EN (unit_sim e (PPT a i) uQ).
have -> : (cb r)^T *m (Pm a i)^T *m (Pm a i *m invmx Q *m (Pm a i)^T) *m (Pm a i *m cb r) = (cb r)^T *m ((Pm a i)^T *m Pm a i) *m invmx Q *m ((Pm a i)^T *m Pm a i) *m cb r by rewrite !mulmxA.
by rewrite PP !mulmx1.
Qed.
Lemma trace_schur a i (r : ctri a i) A11 (R : 'M[C]_(i + i, a + a)) A22 b1 b2 c : grp r = GTri (block_mx A11 R^T R A22) (col_mx b1 b2) c ->
  (A11 - X a)^T = A11 - X a -> A11 - X a \in unitmx -> let D := A11 - X a in let S := schur D R (A22 - X i) in let j := jv D R b1 b2 in
  trace r = if Rlt_dec threshold (Cmod (\det D * \det S)) then
    Some (c * csqrt ((-1) ^+ (a + i) / (\det D * \det S)) * Cexp (- half * ((b1^T *m invmx D *m b1) 0 0 + (j^T *m invmx S *m j) 0 0))) else None.
Proof.
case=> EA Eb Ec sD uD D S j. rewrite trace_grp EA Eb Ec.
have -> : block_mx A11 R^T R A22 - block_mx (X a) 0 0 (X i) = block_mx D R^T R (A22 - X i) by rewrite opp_block_mx add_block_mx !oppr0 !addr0.
rewrite det_N //. case: Rlt_dec => // Ht. rewrite quad_N //; first by rewrite mxE.
rewrite unitmxE unitfE. apply/eqP => E. move: Ht. rewrite E mulr0 C0E Cmod_0 => H. have : Rlt R0 threshold by rewrite /threshold; apply: Rinv_0_lt_compat; apply: pow_lt; lra. lra.
Qed.
(** a composition that succeeds is above the threshold *)
Lemma gthen_thr k p q (T1 : 'M[C]_k) (W1 : 'M[C]_(k, p)) V1 (T2 : 'M[C]_q) W2 V2 b1 b2 c1 c2 t : T1^T = T1 -> V2^T = V2 ->
  gthen (GTri (block_mx T1 W1 W1^T V1) b1 c1) (GTri (block_mx T2 W2 W2^T V2) b2 c2) = Some t -> Rlt threshold (Cmod (\det (1%:M - T1 *m V2))).
Proof.
move=> s1 s2. rewrite /gthen /= !block_mxKul !block_mxKdr. case: Rlt_dec => // H _. move: H. rewrite -/(gM T1 V2).
by rewrite -gdet_M CmulE Cmod_mult Cmod_sgn Rmult_1_l.
Qed.

Section Main.
Variables (M : nat) (rho : ctri M M) (h : 'M[C]_M).
Hypotheses (Hr : hermitian rho) (uD : Am rho - X M \in unitmx).
Hypotheses (hh : adj h = h) (hsq : h *m h = r_squared rho) (uT : temp h \in unitmx) (uG : Gphi h rho \in unitmx).
Let D := Am rho - X M.
Let T := temp h.
Let G := Gphi h rho.
Let a := drsubmx (reduced rho).
Let be := dsubmx (bcore_m h rho).
Definition coreA : 'M[C]_(M + M) := block_mx 0 h h^T a.
Definition corei : 'cV[C]_M := dsubmx (bcore_n h rho) + h^T *m conj be.
Definition coreb : 'cV[C]_(M + M) := col_mx 0 corei.
Definition phiA : 'M[C]_((M + M) + (M + M)) := block_mx (Am rho) G^T G (Ain h rho).
Definition phib : 'cV[C]_((M + M) + (M + M)) := col_mx (bm rho) (Ain h rho *m dbv be - X M *m dbv be).
Lemma core_grp c : grp (doubled coreA coreb c) = GTri (block_mx 0 (db h) (db h)^T (db a)) (col_mx 0 (dbv corei)) (Cconj c * c).
Proof. rewrite grp_doubled /coreA /coreb ?(block_mxKul, block_mxKur, block_mxKdl, block_mxKdr) col_mxKu col_mxKd db0 dbT. by rewrite {1}/dbv map_mx0 col_mx0. Qed.
Lemma corei_db : dbv corei = bn rho - T *m Ain h rho *m dbv be + T *m X M *m dbv be.
Proof.
have -> : dbv corei = dbv (dsubmx (bcore_n h rho)) + dbv (h^T *m conj be) by rewrite /dbv add_col_mx -map_mxD.
rewrite -(bn_db Hr uD uT uG) /bcore_n (be_db Hr uT uG) -/be -/T. congr (_ + _). by rewrite -mulmxA X_dbv /T /temp -/(db h^T) dbMv.
Qed.
Lemma corei_j : dbv corei = jv D (Rm rho) (bm rho) (bn rho).
Proof.
rewrite corei_db /jv -(Gbe Hr uT uG) -/be -(TG rho uT) -/T -/G AinE -/D -/G mulmxDr mulmxDl opprD addrA subrK. by rewrite !mulmxA.
Qed.
Lemma recompose c1 c2 : cthen (doubled coreA coreb c1) (ungrp (GTri phiA phib c2)) = Some (CTri (cA rho) (cb rho) (Cconj c1 * c1 * c2)).
Proof.
rewrite /cthen core_grp grp_ungrp /phiA /phib.
have [c [E Ec]] := gthen_core (db h) (db a) (Am rho) G^T 0 (dbv corei) (bm rho) (Ain h rho *m dbv be - X M *m dbv be) (Cconj c1 * c1) c2 (sym_Ain h Hr).
rewrite trmxK in E. rewrite {}E (Ec erefl) /=. congr Some. rewrite -[RHS]ungrp_grp. congr ungrp. have /(congr1 (@gA _ _)) /= EA := grpE Hr. have /(congr1 (@gb _ _)) /= Eb := grpE Hr. rewrite /grp /= EA Eb.
have ER : G^T *m db h = (Rm rho)^T by rewrite -(TG rho uT) (trmx_mul (temp h) (Gphi h rho)) (tempT h).
rewrite ER trmxK ?(mulmx0, mul0mx, addr0, add0r). congr (GTri (block_mx _ _ _ _) (col_mx _ _) _).
- rewrite -(tempT h) trmxK -/T AinE -/D -/G mulmxDr mulmxDl. 
  have -> : T *m (G *m invmx D *m G^T) *m T^T = Rm rho *m invmx D *m (Rm rho)^T by rewrite -(TG rho uT) -/T -/G (trmx_mul T G) !mulmxA.
  rewrite addrCA -(red_core Hr uD hh hsq) -/D addrC /reduced subrK. by [].
- rewrite -(tempT h) trmxK -/T corei_db mulmxBr !mulmxA addrC. exact: cancel4.
Qed.
(** tracing the channel's output *)
Definition trc : C := csqrt (\det (1%:M - Am rho *m X M))^-1 * Cexp (- half * ((bm rho)^T *m invmx D *m bm rho) 0 0).
Lemma trc_nz : Rlt threshold (Cmod (\det (1%:M - Am rho *m X M))) -> trc != 0.
Proof.
move=> Ht. rewrite mulf_neq0 //; last by apply/eqP; exact: Cexp_nz. apply/eqP => E. have := csqrt_sq (\det (1%:M - Am rho *m X M))^-1. rewrite E -CmulE mulr0 => /esym/eqP.
rewrite invr_eq0 => /eqP E0. move: Ht. rewrite E0 C0E Cmod_0 => H. have : Rlt R0 threshold by rewrite /threshold; apply: Rinv_0_lt_compat; apply: pow_lt; lra. lra.
Qed.
Lemma phi_trace c : Rlt threshold (Cmod (\det (1%:M - Am rho *m X M))) ->
  exists Z, gthen (GTri phiA phib c) (trace_out M) = Some (GTri (block_mx 0 Z Z^T (X M)) 0 (c * trc)).
Proof.
move=> Ht. pose K := - (X M *m invmx D).
have HK : (1%:M - Am rho *m X M) *m K = 1%:M.
  rewrite /K mulmxN mulmxBl mul1mx -mulmxA (mulmxA (X M)) XX mul1mx -opprB opprK -mulmxBl. exact: mulmxV.
have XK : X M *m K = - invmx D by rewrite /K mulmxN mulmxA XX mul1mx.
have := gthen_val G^T (Ain h rho) (0 : 'M[C]_0) (0 : 'M[C]_(0, M + M)) (sym_Am Hr) (X_T M) HK (bm rho) 0 (Ain h rho *m dbv be - X M *m dbv be) 0 c 1 Ht.
rewrite /phiA /phib /trace_out trmxK trmx0 col_mx0 => ->. exists (0 *m K *m G^T). congr (Some (GTri (block_mx _ _ _ _) _ _)).
- by rewrite ?(mul0mx, mulmx0, addr0).
- rewrite -(mulmxA G) XK AinE -/G -/D mulmxN mulNmx addrAC addrN add0r. by [].
- rewrite ?(mul0mx, mulmx0, addr0, add0r) XK mulNmx mulmxN AinE -/D -/G mulmxDl addrK -(Gbe Hr uT uG) -/be -/G !mulmxA addrN col_mx0. by [].
- rewrite mulr1 /trc /gQ trmx0 ?(mul0mx, mulmx0, addr0, add0r) XK mulNmx mulmxN mxE mulrN -mulNr mulmxA mulrA. by [].
Qed.
End Main.

Lemma m12 n : (-1 : C) ^+ (n + n) = 1. Proof. by rewrite exprD -expr2 sqrr_sign. Qed.
Lemma detN2 n (Z : 'M[C]_(n + n)) : \det (- Z) = \det Z. Proof. by rewrite -scaleN1r detZ m12 mul1r. Qed.
Lemma halfR g : - half * RtoC g = RtoC (- (g / 2))%coqR. Proof. rewrite /half mulNr CmulE -RtoC_mult CoppE -RtoC_opp. congr RtoC. field. Qed.
Lemma final4 (q t a b c e : C) : q != 0 -> t != 0 -> a * e = q -> b * c = t -> q^-1 / t * (a * b) * (c * e) = 1.
Proof. move=> nq nt Ea Eb. rewrite -mulrA [c * e]mulrC (mulrACA a) Ea Eb mulrACA !mulVf // mul1r. by []. Qed.
Lemma herm_real M (S : 'M[C]_(M + M)) : herm S -> exists x, \det S = RtoC x.
Proof.
move=> H. have : Cconj (\det S) = \det S.
  rewrite -det_map_mx H !det_mulmx mulrAC -det_mulmx XX det1 mul1r. by [].
case: (\det S) => x y [] E. exists x. rewrite /RtoC. congr pair. lra.
Qed.
Lemma quad_real M (S : 'M[C]_(M + M)) j : S \in unitmx -> herm S -> hermv j -> exists g, (j^T *m invmx S *m j) 0 0 = RtoC g.
Proof.
move=> u H Hj. have E : conj (j^T *m invmx S *m j) = j^T *m invmx S *m j.
  rewrite !conj_mul conj_T Hj (hermV u H) trmx_mul X_T. have -> : j^T *m X M *m (X M *m invmx S *m X M) *m (X M *m j) = j^T *m (X M *m X M) *m invmx S *m (X M *m X M) *m j by rewrite !mulmxA.
  by rewrite XX !mulmx1.
have := congr1 (fun Z : 'M[C]_1 => Z 0 0) E. rewrite mxE. case: ((_ *m _) _ _) => x y [] Ey. exists x. rewrite /RtoC. congr pair. lra.
Qed.
Section Traces.
Variables (M : nat) (rho : ctri M M) (h : 'M[C]_M).
Hypotheses (Hr : hermitian rho) (uD : Am rho - X M \in unitmx) (uT : temp h \in unitmx) (uG : Gphi h rho \in unitmx).
(** a state with the core property and the same reduced matrix *)
Variables (r : ctri M M) (Q R1 : 'M[C]_(M + M)).
Hypothesis Eg1 : grp r = GTri (block_mx 0 R1^T R1 Q) (col_mx 0 (dbv (corei rho h))) 1.
Hypothesis Er1 : reduced rho = Q + R1 *m X M *m R1^T.
Lemma core_trace : reduced rho - X M \in unitmx ->
  exists eX x g : R, [/\ \det (X M) = RtoC eX, (eX * eX = 1)%coqR, \det (reduced rho - X M) = RtoC x, x <> R0 &
    let j := jv (Am rho - X M) (Rm rho) (bm rho) (bn rho) in (j^T *m invmx (reduced rho - X M) *m j) 0 0 = RtoC g /\
    trace r = if Rlt_dec threshold (Cmod (RtoC eX * RtoC x)) then Some (csqrt (RtoC (Rinv (Rmult eX x))) * RtoC (exp (- (g / 2))%coqR)) else None].
Proof.
move=> uS. set S := reduced rho - X M in uS *.
have HS : herm S by apply: hermD (herm_red Hr uD) (hermN (hermX M)).
have [x Ex] := herm_real HS. have dX : \det (X M) * \det (X M) = 1 by rewrite -det_mulmx XX det1. have [eX EX] := herm_real (hermX M).
have eX2 : (eX * eX = 1)%coqR by move: dX; rewrite EX CmulE -RtoC_mult => -[].
have eX0 : eX <> R0 by move=> e0; move: eX2; rewrite e0; lra.
have x0 : x <> R0 by move=> e0; move: uS; rewrite unitmxE unitfE Ex e0 eqxx.
have ex0 : (eX * x <> 0)%coqR by apply: Rmult_integral_contrapositive_currified.
set j := jv (Am rho - X M) _ _ _. have Ej : dbv (corei rho h) = j := corei_j Hr uD uT uG.
have Hj : hermv j by rewrite -Ej /hermv X_dbv /dbv map_col_mx conjmxK.
have [g Eq] := quad_real uS HS Hj. exists eX, x, g. split=> //. split=> //.
have sX : (0 - X M)^T = 0 - X M by rewrite sub0r linearN /= X_T.
have uX : 0 - X M \in unitmx by rewrite sub0r unitmxE detN2 unitfE; apply/eqP => E0; move: dX; rewrite E0 mulr0 => /eqP; rewrite eq_sym oner_eq0.
have iX : invmx (0 - X M) = - X M.
  have E1 : (0 - X M) *m (- X M) = 1%:M by rewrite sub0r mulmxN mulNmx opprK XX. by rewrite -[LHS]mulmx1 -E1 mulKmx.
have := trace_schur Eg1 sX uX. cbv zeta.
have -> : schur (0 - X M) R1 (Q - X M) = S by rewrite /schur iX mulmxN mulNmx opprK /S Er1 addrAC.
have -> : jv (0 - X M) R1 0 (dbv (corei rho h)) = j by rewrite /jv mulmx0 subr0 Ej.
rewrite trmx0 !mul0mx mxE sub0r add0r Eq detN2 EX Ex m12 mul1r => ->.
by rewrite div1r CmulE -RtoC_mult CinvE RtoC_inv // halfR Cexp_R.
Qed.
Lemma det_trace : \det (1%:M - Am rho *m X M) = \det (Am rho - X M) * \det (X M).
Proof. by rewrite -det_mulmx mulmxBl XX -opprB detN2. Qed.
(** its trace is positive if the real part is not zero, and dividing by it gives back the constant of a normalised rho *)
Lemma trace_eq p : Rlt threshold (Cmod (\det (1%:M - Am rho *m X M))) -> omap Re (trace r) = Some p -> p <> R0 -> trace rho <> None ->
  trace r = Some (RtoC p) /\ Rlt R0 p /\ trace (CTri (cA rho) (cb rho) ((RtoC p)^-1 / trc rho)) = Some 1.
Proof.
move=> Ht Ep p0 HN.
have uD' := uD. have sD := sym_D Hr. have dE := det_trace. have CT := core_trace. set D := Am rho - X M in sD uD' dE CT *. set S := reduced rho - X M in CT *.
have ES : schur D (Rm rho) (An rho - X M) = S by rewrite /schur /S /reduced addrAC.
have Eg c : grp (CTri (cA rho) (cb rho) c) = GTri (block_mx (Am rho) (Rm rho)^T (Rm rho) (An rho)) (col_mx (bm rho) (bn rho)) c.
  have /(congr1 (@gA _ _)) /= EA := grpE Hr. have /(congr1 (@gb _ _)) /= Eb := grpE Hr. by rewrite /grp /= EA Eb.
have TR c := trace_schur (Eg c) sD uD'. rewrite TR. move: HN. have -> : trace rho = trace (CTri (cA rho) (cb rho) (cc rho)) by case: (rho). rewrite TR -/D ES m12. case: Rlt_dec => // Ht1 _. cbn [is_left].
have uS : S \in unitmx.
  rewrite unitmxE unitfE. apply/eqP => E. move: Ht1. rewrite E mulr0 C0E Cmod_0 => H. have : Rlt R0 threshold by rewrite /threshold; apply: Rinv_0_lt_compat; apply: pow_lt; lra. lra.
have [eX [x [g [EX eX2 Ex x0 [Eq Tc]]]]] := CT uS. rewrite Eq.
have eX0 : eX <> R0 by move=> e0; move: eX2; rewrite e0; lra.
have ex0 : (eX * x <> 0)%coqR by apply: Rmult_integral_contrapositive_currified.
move: Ep. rewrite {}Tc Ex. case: Rlt_dec => //= Ht2 []. pose y := Rinv (Rmult eX x). rewrite -/y => Epy.
have y0 : Rlt R0 y.
  apply: Rnot_le_lt => yn. case: (Req_dec y R0) => [e0|n0].
  - move: Epy. rewrite e0 (csqrt_R _ (Rle_refl _)) sqrt_0 mul0r => E0. by case: p0; rewrite -E0.
  - move: Epy. rewrite csqrt_neg; last lra. rewrite CmulE /Cmult /RtoC /Re /= => E0. by apply: p0; lra.
have Ep' : p = Rmult (sqrt y) (exp (- (g / 2))) by rewrite -Epy (csqrt_R _ (Rlt_le _ _ y0)) CmulE -RtoC_mult.
have pp : Rlt R0 p by rewrite Ep'; apply: Rmult_lt_0_compat; [exact: sqrt_lt_R0|exact: exp_pos].
split; first by rewrite Ep' (csqrt_R _ (Rlt_le _ _ y0)) CmulE -RtoC_mult. split=> //.
have -> : 1 / (\det D * RtoC x) = RtoC y * (\det D * RtoC eX)^-1.
  have -> : RtoC y = RtoC eX / RtoC x.
    rewrite /y CinvE CmulE -RtoC_inv // -RtoC_mult. congr RtoC. rewrite Rinv_mult. have -> : Rinv eX = eX by apply: (Rmult_eq_reg_l eX) => //; rewrite eX2; apply: Rinv_r. by [].
  have ne : RtoC eX != 0 by apply/eqP => -[]. by rewrite div1r !invfM [RHS]mulrC mulrA mulfVK.
rewrite CmulE (csqrt_pos _ _ (Rlt_le _ _ y0)) -!CmulE mulrDr CaddE Cexp_add -CmulE halfR (Cexp_R (- (g / 2))).
have Et : csqrt (\det D * RtoC eX)^-1 * Cexp (- half * ((bm rho)^T *m invmx D *m bm rho) 0 0) = trc rho by rewrite /trc dE EX.
have nt := trc_nz Ht. have np : RtoC p != 0 by apply/eqP => -[].
congr Some. apply: final4 => //. by rewrite Ep' RtoC_mult CmulE.
Qed.
End Traces.
(** equal A and b and equal traces: equal *)
Lemma trace_inj M (rho : ctri M M) c : trace rho = Some 1 -> trace (CTri (cA rho) (cb rho) c) = Some 1 -> CTri (cA rho) (cb rho) c = rho.
Proof.
move=> Et. rewrite /trace. set g := st2g (STri (cA rho) (cb rho) 1).
have X1 x : st2g (STri (cA rho) (cb rho) x) = GTri (gA g) (gb g) (x * gc g) by rewrite /g /st2g /= mulr1.
move: Et. rewrite /trace !X1 !gtrace_scale. case: (gtrace g) => [[[z1 z2] z]|] //=.
have inj (x y : C) : Some x = Some y -> x = y by move=> H; injection H. move=> /inj e1 /inj e2.
have z0 : z != 0 by apply/eqP => e; move: e1; rewrite e mulr0 => /eqP; rewrite eq_sym oner_eq0.
have -> : c = cc rho by apply: (mulIf z0); rewrite e1 e2. by case: (rho).
Qed.
Lemma prob_scale n (A : 'M[C]_n) b s : probability (Ket A b (RtoC s)) = omap (fun p => Rmult (Rmult s s) p) (probability (Ket A b 1)).
Proof.
rewrite /probability /inner /gthen /k2g /kdual /= conjR. case: Rlt_dec => //= H. congr Some. have -> : Cconj (1 : C) = 1 by exact: conjR.
rewrite !mul1r -!mulrA. move: (csqrt _ * _) => z. case: z => x y. rewrite !CmulE /Cmult /RtoC /Re /=. ring.
Qed.
Lemma temp_unit M (h : 'M[C]_M) : (temp h \in unitmx) = (h \in unitmx).
Proof. by rewrite /temp !unitmxE det_ublock -[X in _ * X]det_tr trmxK conj_T det_tr det_map_mx !unitfE mulf_eq0 fmorph_eq0 orbb. Qed.
Section Physical.
Variables (M : nat) (rho : ctri M M) (v : 'M[C]_M) (d : 'I_M -> R).
Hypotheses (Hr : hermitian rho) (He : eigh (r_squared rho) v d).
Let h := gamma v d.
Lemma gam_adj : adj h = h. Proof. by have [] := Stellar.gamma_psd v d. Qed.
Lemma physical_inv core phi : physical v d rho = Base.Ok (Some (core, phi)) ->
  [/\ [/\ Am rho - X M \in unitmx, (forall j, Rle R0 (d j)), temp h \in unitmx & Gphi h rho \in unitmx],
      h *m h = r_squared rho, Rlt threshold (Cmod (\det (1%:M - Am rho *m X M))),
      (exists p, [/\ Rlt R0 p, probability (Ket (coreA rho h) (coreb rho h) 1) = Some p & core = Ket (coreA rho h) (coreb rho h) (RtoC (Rinv (sqrt p)))]) &
      phi = ungrp (GTri (phiA rho h) (phib rho h) (trc rho)^-1)].
Proof.
rewrite /physical /inv. case: ifP => //= uD. case Ex : [exists j, _] => //. have Hd := Stellar.neg_eig Ex. rewrite -/h. case: ifP => //= uT. case: ifP => //= uG'.
have uG : Gphi h rho \in unitmx by rewrite -unitmx_tr.
have hsq : h *m h = r_squared rho by exact: Stellar.gamma_sq He Hd.
have [ck -> /=] := core_disp rho h. have [cp -> /=] := chan_disp Hr uT uG. rewrite /normalize /= -/(coreb rho h).
case Ep : probability => [p|] //. case: Rlt_dec => //= p0.
case Et : gthen => [t|] //. case=> <- <-.
have Ht : Rlt threshold (Cmod (\det (1%:M - Am rho *m X M))).
  have TO : trace_out M = GTri (block_mx 0 (0 : 'M[C]_(0, M + M)) (0 : 'M[C]_(0, M + M))^T (X M)) 0 1 by rewrite trmx0.
  move: Et. rewrite TO -{2}(trmxK (Gphi h rho)). exact: gthen_thr (sym_Am Hr) (X_T M).
split=> //.
- exists p. split=> //. rewrite div1r. congr Ket. by rewrite CinvE RtoC_inv //; apply/Rgt_not_eq/sqrt_lt_R0.
- have [Z E] := phi_trace Hr uD uT uG 1 Ht. move: Et. rewrite /trace_out in E *. rewrite E => -[<-] /=. by rewrite /gdiv /= !mul1r.
Qed.
(** C74: the core followed by the channel has A and b of rho *)
Theorem C74_recompose core phi : physical v d rho = Base.Ok (Some (core, phi)) ->
  exists c, cthen (doubled (kA core) (kb core) (kc core)) phi = Some (CTri (cA rho) (cb rho) c).
Proof.
case/physical_inv => -[uD Hd uT uG] hsq Ht [p [p0 Ep ->]] ->. eexists. exact: recompose Hr uD gam_adj hsq uT uG _ _.
Qed.
(** C74: the channel preserves every trace *)
Theorem C74_trace_preserving core phi : physical v d rho = Base.Ok (Some (core, phi)) -> trace_preserving phi.
Proof.
case/physical_inv => -[uD Hd uT uG] hsq Ht [p [p0 Ep Ec]] ->. rewrite /trace_preserving grp_ungrp.
have [Z E] := phi_trace Hr uD uT uG (trc rho)^-1 Ht. exists Z. by rewrite E mulVf // trc_nz.
Qed.
(** C74: the core has the core property and norm one *)
Theorem C74_core core phi : physical v d rho = Base.Ok (Some (core, phi)) -> core_state core /\ probability core = Some R1.
Proof.
case/physical_inv => -[uD Hd uT uG] hsq Ht [p [p0 Ep ->]] _. rewrite /core_state /= /coreA /coreb block_mxKul col_mxKu -/(coreA rho h) -/(coreb rho h). split; first by split.
rewrite prob_scale Ep /=. congr Some. rewrite -Rinv_mult sqrt_sqrt; last exact: Rlt_le. apply: Rinv_l. lra.
Qed.
(** the channel is completely positive when rho is positive: the matrix that decides it is a congruence of that of rho *)
Lemma G_blocks : h \in unitmx -> ursubmx (Gphi h rho) = invmx h *m ursubmx (Rm rho) /\ ursubmx (Gphi h rho)^T = ursubmx (Rm rho)^T *m invmx h.
Proof.
move=> uh. have tT : h^T = conj h by rewrite -{1}gam_adj /adj trmxK.
have iT : invmx (temp h) = block_mx (invmx h) 0 0 (conj (invmx h)).
  have uT : temp h \in unitmx by rewrite temp_unit. have E : temp h *m block_mx (invmx h) 0 0 (conj (invmx h)) = 1%:M.
    by rewrite /temp tT conjmxK mulmx_block ?(mul0mx, mulmx0, addr0, add0r) -conj_mul mulmxV // map_mx1 -scalar_mx_block.
  by rewrite -[LHS]mulmx1 -E mulKmx.
rewrite /Gphi iT trmx_mul -(submxK (Rm rho)). move: (ulsubmx (Rm rho)) (ursubmx (Rm rho)) (dlsubmx (Rm rho)) (drsubmx (Rm rho)) => r1 r2 r3 r4.
rewrite !tr_block_mx !trmx0 !mulmx_block ?(mul0mx, mulmx0, addr0, add0r) !block_mxKur.
split=> //. congr (_ *m _). by rewrite -conj_T trmx_inv tT conj_inv conjmxK.
Qed.
Theorem C74_completely_positive core phi : physical v d rho = Base.Ok (Some (core, phi)) -> psd (ursubmx (cA rho)) <-> psd (ursubmx (cA phi)).
Proof.
case/physical_inv => -[uD Hd uT uG] hsq Ht _ ->. have uh : h \in unitmx by rewrite -temp_unit. have [e1 e2] := G_blocks uh.
pose S := block_mx (1%:M : 'M[C]_M) 0 0 (invmx h).
have ah : adj (invmx h) = invmx h by rewrite /adj conj_inv trmx_inv -/(adj h) gam_adj.
have aS : adj S = S by rewrite /adj /S map_block_mx tr_block_mx !map_mx0 !trmx0 map_mx1 trmx1 -/(adj (invmx h)) ah.
have eA : ursubmx (cA rho) = block_mx (ursubmx (Am rho)) (ursubmx (Rm rho)^T) (ursubmx (Rm rho)) (ursubmx (An rho)).
  rewrite -{1}[cA rho]ungroup_group /ungroup block_mxKur. have /(congr1 (@gA _ _)) /= -> := grpE Hr. by rewrite block_mxKul block_mxKur block_mxKdl block_mxKdr.
have eI : ursubmx (Ain h rho) = invmx h *m ursubmx (An rho) *m invmx h.
  have EA : An rho = temp h *m Ain h rho *m (temp h)^T + db (drsubmx (reduced rho)).
    have /= Er := red_core Hr uD gam_adj hsq. rewrite /Ain mulmxDr mulmxDl -addrA [_ + db _]addrC -Er /reduced.
    have -> : temp h *m (Gphi h rho *m invmx (Am rho - X M) *m (Gphi h rho)^T) *m (temp h)^T = Rm rho *m invmx (Am rho - X M) *m (Rm rho)^T.
      by rewrite -(TG rho uT) (trmx_mul (temp h) (Gphi h rho)) !mulmxA.
    by rewrite addrC subrK.
  have tT : h^T = conj h by rewrite -{1}gam_adj /adj trmxK.
  rewrite EA /temp tT conjmxK -{2}(submxK (Ain h rho)) tr_block_mx !trmx0 !mulmx_block ?(mul0mx, mulmx0, addr0, add0r) /db add_block_mx block_mxKur addr0.
  have -> : (conj h)^T = h by exact: gam_adj.
  have gen (y z : 'M[C]_M) : y \in unitmx -> z = invmx y *m (y *m z *m y) *m invmx y by move=> uy; rewrite !mulmxA mulVmx // mul1mx mulmxK. exact: gen uh.
have -> : ursubmx (cA (ungrp (GTri (phiA rho h) (phib rho h) (trc rho)^-1))) = S *m ursubmx (cA rho) *m adj S.
  rewrite aS eA /ungrp /= /ungroup block_mxKur /phiA block_mxKul block_mxKur block_mxKdl block_mxKdr e1 e2 eI /S !mulmx_block ?(mul0mx, mulmx0, mul1mx, mulmx1, addr0, add0r). by [].
rewrite psd_conj_iff //. by rewrite unitmxE det_ublock det1 mul1r -unitmxE unitmx_inv.
Qed.
Lemma prob_trace n1 (A : 'M[C]_(n1 + n1)) b : probability (Ket A b 1) = omap Re (trace (doubled A b 1 : ctri n1 n1)).
Proof. rewrite -C59_dm_probability /dm_probability /trace /dm /doubled /db /dbv /=. by case: gtrace. Qed.
Lemma core_grp1 : grp (doubled (coreA rho h) (coreb rho h) 1) = GTri (block_mx 0 (temp h)^T (temp h) (db (drsubmx (reduced rho)))) (col_mx 0 (dbv (corei rho h))) 1.
Proof. rewrite core_grp (tempT h) /temp -/(db h^T) dbT. have -> : Cconj (1 : C) * 1 = 1 by rewrite mulr1; exact: conjR. by []. Qed.
(** C74: if the trace of rho is one, core followed by phi is rho, constants included *)
Theorem C74_equal core phi : physical v d rho = Base.Ok (Some (core, phi)) -> trace rho = Some 1 -> cthen (doubled (kA core) (kb core) (kc core)) phi = Some rho.
Proof.
case/physical_inv => -[uD Hd uT uG] hsq Ht [p [p0 Ep ->]] -> Et. rewrite (recompose Hr uD gam_adj hsq uT uG) conjR. congr Some. apply: trace_inj => //.
move: Ep. rewrite prob_trace => Ep. have [||_ [_ H]] := trace_eq Hr uD uT uG core_grp1 (red_core Hr uD gam_adj hsq) Ht Ep; [lra|by rewrite Et|].
rewrite -H. congr (trace (CTri _ _ (_ / _))). rewrite CmulE -RtoC_mult -Rinv_mult sqrt_sqrt; last exact: Rlt_le. by rewrite CinvE RtoC_inv //; lra.
Qed.
(** C74: it returns numbers when R and A - X are invertible on the core modes, the eigenvalues are positive and both traces are above the threshold *)
Theorem C74_returns x : Am rho - X M \in unitmx -> Rm rho \in unitmx -> (forall j, Rlt R0 (d j)) -> Rlt threshold (Cmod (\det (1%:M - Am rho *m X M))) ->
  \det (1%:M - reduced rho *m X M) = RtoC x -> Rlt threshold x -> exists core phi, physical v d rho = Base.Ok (Some (core, phi)).
Proof.
move=> uD uR Hp Ht Ex Hx. have Hd j : Rle R0 (d j) by apply: Rlt_le. have t0 : Rlt R0 threshold by rewrite /threshold; apply: Rinv_0_lt_compat; apply: pow_lt; lra.
have uh : h \in unitmx.
  case: He => -[_ U2] _. have [u1 u2] := mulmx1_unit U2. rewrite /h /gamma !unitmx_mul u1 u2 andbT /= unitmxE det_diag unitfE. apply/prodf_neq0 => j _. rewrite mxE.
  apply/eqP => /(congr1 (@fst R R)) /= E. have := sqrt_lt_R0 _ (Hp j). rewrite E. exact: Rlt_irrefl.
have uT : temp h \in unitmx by rewrite temp_unit. have uG : Gphi h rho \in unitmx by rewrite /Gphi unitmx_mul unitmx_inv uT uR.
have hsq : h *m h = r_squared rho by exact: Stellar.gamma_sq He Hd.
have Er : \det (1%:M - reduced rho *m X M) = \det (reduced rho - X M) * \det (X M) by rewrite -det_mulmx (mulmxBl (reduced rho)) XX -opprB detN2.
have uS : reduced rho - X M \in unitmx by rewrite unitmxE unitfE; apply/eqP => E0; move: Er; rewrite Ex E0 mul0r => -[]; lra.
have [eX [y [g [EX eX2 Ey y0 [Eq Tc]]]]] := core_trace Hr uD uT uG core_grp1 (red_core Hr uD gam_adj hsq) uS.
have Exy : x = Rmult eX y by move: Er; rewrite Ex EX Ey CmulE -RtoC_mult => -[->]; ring.
rewrite /physical /inv uD /= (Stellar.eig_nn Hd) -/h uT /= unitmx_tr uG /=.
have [ck -> /=] := core_disp rho h. have [cp -> /=] := chan_disp Hr uT uG. rewrite /normalize /= -/(corei rho h) -/(coreb rho h) -/(coreA rho h) prob_trace Tc.
case: (Rlt_dec threshold (Cmod (RtoC eX * RtoC y))) => [Hq|H]; last by case: H; rewrite CmulE -RtoC_mult -Exy Cmod_R Rabs_pos_eq //; lra.
rewrite /= -Exy (csqrt_R _ (Rlt_le _ _ (Rinv_0_lt_compat _ (Rlt_trans _ _ _ t0 Hx)))) CmulE -RtoC_mult.
case: Rlt_dec => [Hq2|H]; last first.
  case: H. apply: Rmult_lt_0_compat; last exact: exp_pos. apply: sqrt_lt_R0. apply: Rinv_0_lt_compat. exact: Rlt_trans t0 Hx.
have [Z E] := phi_trace Hr uD uT uG 1 Ht. rewrite /phiA /phib in E. rewrite E. by eexists; eexists.
Qed.
(** it raises LinAlgError when the correlations between core and other modes are not of full rank, or an eigenvalue vanishes *)
Theorem C74_singular : Rm rho \notin unitmx -> (forall j, Rle R0 (d j)) -> physical v d rho = Base.Err Base.LinAlgError.
Proof.
move=> /negbTE uR Hd. rewrite /physical /inv. case: ifP => //= uD. rewrite (Stellar.eig_nn Hd). case: ifP => //= uT. by rewrite unitmx_tr /Gphi unitmx_mul unitmx_inv uT uR.
Qed.
(** the constant of rho is ignored: a multiple of a state of trace one is decomposed into the state itself *)
Theorem C74_unnormalised k core phi : trace rho = Some 1 -> physical v d (CTri (cA rho) (cb rho) k) = Base.Ok (Some (core, phi)) ->
  cthen (doubled (kA core) (kb core) (kc core)) phi = Some rho.
Proof. move=> Et E. exact: C74_equal. Qed.
End Physical.

(** ** Examples *)
Lemma hermitian_ungrp a i (g : gtri (a + a) (i + i)) : (gA g)^T = gA g -> conj (gA g) = block_mx (X a) 0 0 (X i) *m gA g *m block_mx (X a) 0 0 (X i) ->
  conj (gb g) = block_mx (X a) 0 0 (X i) *m gb g -> hermitian (ungrp g).
Proof.
move=> S H Hb. have EA : ungroup (gA g) = (Pm a i)^T *m gA g *m Pm a i.
  rewrite -{2}(group_ungroup (gA g)) group_P. have -> : (Pm a i)^T *m (Pm a i *m ungroup (gA g) *m (Pm a i)^T) *m Pm a i = (Pm a i)^T *m Pm a i *m ungroup (gA g) *m ((Pm a i)^T *m Pm a i) by rewrite !mulmxA.
  by rewrite PP mulmx1 mul1mx.
have Eb : ungroupv (gb g) = (Pm a i)^T *m gb g by rewrite -{2}(groupv_ungroupv (gb g)) groupv_P mulmxA PP mul1mx.
rewrite /hermitian /= EA Eb. split; first by rewrite !trmx_mul trmxK S mulmxA.
rewrite !conj_mul conj_T conjPm H Hb !mulmxA XPT. split=> //. by rewrite -!mulmxA PXg.
Qed.
Definition qr : C := RtoC (3 / 10)%coqR.
Definition qq : C := RtoC (4 / 25)%coqR.
(** a two-mode squeezed vacuum with losses on the second mode *)
Definition ex_rho : ctri 1 1 := ungrp (GTri (block_mx 0 qr%:M qr%:M (qq *: X 1)) 0 (RtoC (3 / 4)%coqR)).
Lemma ex_hermitian : hermitian ex_rho.
Proof.
have cq : Cconj qq = qq by exact: conjR. have cr : Cconj qr = qr by exact: conjR.
apply: hermitian_ungrp => /=.
- by rewrite tr_block_mx trmx0 !tr_scalar_mx linearZ /= X_T.
- rewrite map_block_mx map_mx0 !map_scalar_mx /= cr map_mxZ /= cq conj_X !mulmx_block ?(mul0mx, mulmx0, addr0, add0r) -!scalemxAr -!scalemxAl XX mul1mx.
  by rewrite !mul_mx_scalar -!scalemxAl XX scalemx1.
- by rewrite map_mx0 mulmx0.
Qed.
Lemma ex_blocks : [/\ Am ex_rho = 0, Rm ex_rho = qr%:M & An ex_rho = qq *: X 1].
Proof. by rewrite /Am /Rm /An /ex_rho /ungrp /= !group_ungroup block_mxKul block_mxKdl block_mxKdr. Qed.
Lemma iX1 n : invmx (0 - X n) = - X n /\ 0 - X n \in unitmx.
Proof. have E1 : (0 - X n) *m (- X n) = 1%:M by rewrite sub0r mulmxN mulNmx opprK XX. have [u _] := mulmx1_unit E1. split=> //. by rewrite -[LHS]mulmx1 -E1 mulKmx. Qed.
Lemma ex_reduced : reduced ex_rho = RtoC (1 / 4)%coqR *: X 1.
Proof.
have [e1 e2 e3] := ex_blocks. have [e4 _] := iX1 1. rewrite /reduced e1 e2 e3 e4 tr_scalar_mx mulmxN mulNmx opprK mul_mx_scalar mul_scalar_mx scalerA -scalerDl.
congr (_ *: _). rewrite /qq /qr CmulE CaddE -RtoC_mult -RtoC_plus. congr RtoC. field.
Qed.
Lemma scaleX (z : C) n : \det (z *: X n) = z ^+ (n + n) * (-1) ^+ n. Proof. by rewrite detZ det_X. Qed.
Lemma ex_trace : trace ex_rho = Some 1.
Proof.
have [i1 u1] := iX1 1. have sX : (0 - X 1)^T = 0 - X 1 by rewrite sub0r linearN /= X_T.
have E : grp ex_rho = GTri (block_mx 0 (qr%:M)^T qr%:M (qq *: X 1)) (col_mx 0 0) (RtoC (3 / 4)%coqR) by rewrite /ex_rho grp_ungrp tr_scalar_mx col_mx0.
rewrite (trace_schur E sX u1) /=.
have -> : schur (0 - X 1) qr%:M (qq *: X 1 - X 1) = RtoC (- (3 / 4))%coqR *: X 1.
  have [e1 e2 e3] := ex_blocks. have H := ex_reduced. rewrite /reduced e1 e2 e3 in H. rewrite /schur addrAC H -[X in _ - X]scale1r -scalerBl. congr (_ *: _).
  rewrite C1E CoppE CaddE -RtoC_opp -RtoC_plus. congr RtoC. field.
have -> : jv (0 - X 1) qr%:M 0 0 = 0 by rewrite /jv mulmx0 subr0.
rewrite sub0r detN2 scaleX det_X trmx0 !mul0mx !mxE addr0 mulr0 Cexp_0 -C1E mulr1 expr1 m12.
have -> : -1 * (RtoC (- (3 / 4))%coqR ^+ (1 + 1) * -1) = RtoC (9 / 16)%coqR.
  rewrite mulrCA mulrNN !mulr1 expr2 CmulE -RtoC_mult. congr RtoC. field.
have H : Rlt R0 (9 / 16)%coqR by lra. case: Rlt_dec => [Ht|H1]; last first.
  case: H1. rewrite Cmod_R Rabs_pos_eq; last lra. apply: Stellar.thr_small. lra.
rewrite div1r CinvE -RtoC_inv; last lra. rewrite csqrt_R; last by apply/Rlt_le/Rinv_0_lt_compat. rewrite CmulE -RtoC_mult. congr Some.
rewrite C1E. congr RtoC. rewrite (@Stellar.sqrt_sq _ (4 / 3)%coqR); [field|lra|field].
Qed.
Theorem C74_example : let d := fun _ => (1 / 4)%coqR in
  [/\ hermitian ex_rho, eigh (r_squared ex_rho) 1%:M d, trace ex_rho = Some 1, psd (ursubmx (cA ex_rho)) &
      exists core phi, physical 1%:M d ex_rho = Base.Ok (Some (core, phi)) /\ cthen (doubled (kA core) (kb core) (kc core)) phi = Some ex_rho /\
        kA core = block_mx 0 half%:M half%:M 0 /\ psd (ursubmx (cA phi))].
Proof.
move=> d. have [e1 e2 e3] := ex_blocks. have er := ex_reduced. have Hh := ex_hermitian. have Ht := ex_trace.
have Er : r_squared ex_rho = (RtoC (1 / 4)%coqR)%:M by rewrite /r_squared er /X scale_block_mx block_mxKur scalemx1.
have D1 (x : R) : diag_mx (\row_(j < 1) RtoC x) = (RtoC x)%:M by apply/matrixP => i j; rewrite !mxE.
have a1 : adj (1%:M : 'M[C]_1) = 1%:M by rewrite /adj map_mx1 trmx1.
have He : eigh (r_squared ex_rho) 1%:M d by split; [split; rewrite a1 mul1mx|rewrite Er a1 mulmx1 mul1mx /d D1].
have Hp : psd (ursubmx (cA ex_rho)).
  have -> : ursubmx (cA ex_rho) = block_mx 0 0 0 (RtoC (2 / 5)%coqR *: 1%:M *m adj (RtoC (2 / 5)%coqR *: 1%:M)).
    rewrite /ex_rho /ungrp /= /ungroup block_mxKur block_mxKul block_mxKur block_mxKdl block_mxKdr.
    have -> : ursubmx (qr%:M : 'M[C]_(1 + 1)) = 0 by apply/matrixP => i j; rewrite !mxE eq_lrshift.
    have -> : ursubmx (0 : 'M[C]_(1 + 1)) = 0 by apply/matrixP => i j; rewrite !mxE.
    congr block_mx. rewrite /X scale_block_mx block_mxKur !scalemx1 /adj map_scalar_mx /= conjR tr_scalar_mx -scalar_mxM. congr (_ %:M). rewrite /qq CmulE -RtoC_mult. congr RtoC. field.
  apply/psd_diag. split; last exact: psd_gram. have := psd_gram (0 : 'M[C]_(1, 1)). by rewrite mul0mx.
have Eg : gamma 1%:M d = half%:M.
  rewrite /gamma a1 mulmx1 mul1mx /d D1. congr (_ %:M). rewrite /half. congr RtoC. apply: Stellar.sqrt_sq; [lra|field].
have [_ u1] := iX1 1.
have H4 : RtoC (1 / 4)%coqR *: X 1 *m X 1 = (RtoC (1 / 4)%coqR)%:M by rewrite -scalemxAl XX scalemx1.
have [core [phi E]] : exists core phi, physical 1%:M d ex_rho = Base.Ok (Some (core, phi)).
  apply: (C74_returns Hh He (x := (9 / 16)%coqR)).
  - by rewrite e1.
  - rewrite e2 unitmxE det_scalar unitrX // unitfE. apply/eqP => -[]. lra.
  - move=> j. rewrite /d. lra.
  - rewrite e1 mul0mx subr0 det1 C1E Cmod_1. exact: thr_lt1.
  - rewrite er H4 -raddfB det_scalar expr2 C1E CoppE CaddE -RtoC_opp -RtoC_plus CmulE -RtoC_mult. congr RtoC. field.
  - apply: Stellar.thr_small. lra.
split=> //. exists core, phi. split=> //. split; first exact: C74_equal E Ht. split; last by apply/(C74_completely_positive Hh He E).
have [_ _ _ [p [_ _ ->]] _] := physical_inv Hh He E. rewrite /= /coreA Eg er tr_scalar_mx /X scale_block_mx block_mxKdr scaler0. by [].
Qed.
(** twice that state has the same decomposition, so core >> phi is not the state decomposed *)
Theorem C74_unnormalised_refuted : let rho2 := CTri (cA ex_rho) (cb ex_rho) (RtoC 2 * cc ex_rho) in let d := fun _ => (1 / 4)%coqR in
  exists core phi, [/\ hermitian rho2, eigh (r_squared rho2) 1%:M d, trace rho2 = Some (RtoC 2), physical 1%:M d rho2 = Base.Ok (Some (core, phi)) &
    cthen (doubled (kA core) (kb core) (kc core)) phi <> Some rho2].
Proof.
move=> rho2 d. have [Hh He Ht _ [core [phi [E [Ec _]]]]] := C74_example. exists core, phi. split=> //.
- rewrite /trace. have -> : st2g (STri (cA rho2) (cb rho2) (cc rho2)) = GTri (gA (st2g (STri (cA ex_rho) (cb ex_rho) (cc ex_rho)))) (gb (st2g (STri (cA ex_rho) (cb ex_rho) (cc ex_rho)))) (RtoC 2 * gc (st2g (STri (cA ex_rho) (cb ex_rho) (cc ex_rho)))) by [].
  rewrite gtrace_scale. move: Ht. rewrite /trace. case: gtrace => [[z1 z]|] //= H. have -> : z = 1 by injection H. by rewrite mulr1.
- rewrite Ec => H. have : cc ex_rho = RtoC 2 * cc ex_rho by exact: (congr1 (fun o : option (ctri 1 1) => if o is Some r then cc r else 0) H). rewrite /ex_rho /= CmulE -RtoC_mult => -[]. lra.
Qed.
