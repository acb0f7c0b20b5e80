(** Saving and loading circuits: mrmustard/utils/serialize.py, Circuit.serialize/deserialize (lab/circuits.py:86-99, 268-282),
    CircuitComponent._serialize/_deserialize (lab/circuit_components.py:308-328, 818-845), ansatz to_dict/from_dict. C34.
    Simplifications: file names have a nonempty stem without directory part; the contents of arrays and floating point numbers are opaque
    (numpy's savez/load and json preserve them); Python tuples and lists are identified (json turns the former into the latter). *)
From Coq Require Import List Arith Bool Lia String Ascii Decimal DecimalString DecimalNat.
From Verif Require Import Base Wires ParamSet.
Import ListNotations.
Open Scope string_scope.
Open Scope list_scope.
Open Scope nat_scope.

Section S.
(** opaque floating point numbers and array contents *)
Variable Flt Dat : Type.

(** values json can write *)
Inductive json := JNull | JBool (b : bool) | JNat (n : nat) | JFlt (x : Flt) | JStr (s : string) | JArr (l : list json) | JObj (d : list (string * json)).
(** numpy arrays: 0-dimensional integers and everything else *)
Inductive arr := AInt (n : nat) | AData (x : Dat).
(** values in the dictionary handed to `deserialize` *)
Inductive pyval := PJ (j : json) | PA (a : arr).

(** ** Files *)
Inductive ext := Json | Npz | Zip.
Definition path := (string * ext)%type.
Inductive content := FJson (d : dict json) | FNpz (d : dict arr) | FZip (members : list (path * content)).
Definition fsys := path -> option content.
Definition ext_eqb (a b : ext) : bool := match a, b with Json, Json | Npz, Npz | Zip, Zip => true | _, _ => false end.
Definition path_eqb (p q : path) : bool := String.eqb (fst p) (fst q) && ext_eqb (snd p) (snd q).
Definition write (p : path) (c : option content) (fs : fsys) : fsys := fun q => if path_eqb q p then c else fs q.

(** serialize.py:56-60: ".json" is appended unless present; the model works with the stem. An absent or empty name gives a generated one *)
Fixpoint drop_json (s : string) : string :=
  match s with
  | EmptyString => EmptyString
  | String c r => if String.eqb s ".json" then EmptyString else String c (drop_json r)
  end.
Definition stem_of (generated : string) (filename : option string) : string :=
  match filename with None => generated | Some s => if String.eqb s "" then generated else drop_json s end.

(** serialize.py:30-87 *)
Definition save (cls backend version : string) (stem : string) (do_zip : bool) (arrays : dict arr) (data : dict json) (fs : fsys) : result path * fsys :=
  let data1 := dset "version" (JStr version) (dset "class" (JStr cls) data) in
  match arrays with
  | [] => (Ok (stem, Json), write (stem, Json) (Some (FJson (dset "arrays" (JBool false) data1))) fs)
  | _ =>
    if existsb (fun k => existsb (String.eqb k) (map fst data1)) (map fst arrays) then (Err ValueError, fs)
    else
      let npz := FNpz arrays in
      let js := FJson (dset "backend" (JStr backend) (dset "arrays" (JBool true) data1)) in
      let fs1 := write (stem, Json) (Some js) (write (stem, Npz) (Some npz) fs) in
      if do_zip then (Ok (stem, Zip), write (stem, Npz) None (write (stem, Json) None (write (stem, Zip) (Some (FZip [((stem, Json), js); ((stem, Npz), npz)])) fs1)))
      else (Ok (stem, Json), fs1)
  end.

(** d.pop(k) *)
Definition dpop {A} (k : string) (d : dict A) : result (A * dict A) :=
  match dget k d with Some v => Ok (v, filter (fun p => negb (String.eqb (fst p) k)) d) | None => Err KeyError end.
Definition truthy (j : json) : bool := match j with JBool b => b | JNull => false | JNat 0 => false | _ => true end.
Definition json_is (s : string) (j : json) : bool := match j with JStr t => String.eqb t s | _ => false end.
Definition extract (members : list (path * content)) (fs : fsys) : fsys := fold_left (fun f m => write (fst m) (Some (snd m)) f) members fs.

(** serialize.py:90-133, up to `cls.deserialize(data)`: the class name and the dictionary it is given. A missing file is reported as RuntimeError *)
Definition load_data (backend : string) (file : path) (remove_after : bool) (fs : fsys) : result (json * dict pyval) * fsys :=
  let stem := fst file in
  let was_zipped := match snd file with Zip => true | _ => false end in
  let opened := match snd file with
                | Zip => match fs file with Some (FZip ms) => Some (extract ms fs, (stem, Json)) | _ => None end
                | _ => Some (fs, file)
                end in
  match opened with
  | None => (Err RuntimeError, fs)
  | Some (fs1, jf) =>
    match fs1 jf with
    | Some (FJson data) =>
      match bind (dpop "class" data) (fun '(c, d1) => bind (dpop "version" d1) (fun '(_, d2) => bind (dpop "arrays" d2) (fun '(a, d3) => Ok (c, a, d3)))) with
      | Err e => (Err e, fs1)
      | Ok (c, a, d3) =>
        let finish (d : dict pyval) (f : fsys) :=
          if remove_after || was_zipped then
            let f1 := write jf None f in
            (Ok (c, d), if remove_after && was_zipped then write (stem, Zip) None f1 else f1)
          else (Ok (c, d), f) in
        if truthy a then
          match dpop "backend" d3 with
          | Err e => (Err e, fs1)
          | Ok (bk, d4) =>
            if negb (json_is backend bk) then (Err TypeError, if was_zipped then write jf None (write (stem, Npz) None fs1) else fs1)
            else match fs1 (stem, Npz) with
                 | Some (FNpz arrs) =>
                     finish (dmerge (map (fun p => (fst p, PJ (snd p))) d4) (map (fun p => (fst p, PA (snd p))) arrs))
                            (if remove_after || was_zipped then write (stem, Npz) None fs1 else fs1)
                 | _ => (Err RuntimeError, fs1)
                 end
          end
        else finish (map (fun p => (fst p, PJ (snd p))) d3) fs1
      end
    | _ => (Err RuntimeError, fs1)
    end
  end.

(** ** Components *)
(** the data of an ansatz: polyexp_ansatz.py:106-130, array_ansatz.py:59-66 *)
Inductive ansatz := PolyExp (A b c : arr) (lin_sup : bool) | ArrayAn (a : arr) (batch_dims : nat).
(** a parameter: name, value and, for a variable, its bounds *)
Record param := mkP { pn : string; pv : arr; pb : option (option Flt * option Flt) }.
(** A component: class, name, the six mode sets of its wires, ansatz and parameters (constants before variables, as in all_parameters) *)
Record comp := mkC { ccls : string; cname : string; cwires : list (list nat); can : ansatz; cpar : list param }.

(** A class is abstract (its constructor takes ansatz, wires and a name) or built in. A built-in constructor takes modes and, for each parameter,
    its value and possibly *_trainable and *_bounds (e.g. sgate.py:84-123; ggate.py:53-58 has no bounds argument) *)
Record pspec := mkS { sname : string; strainable : bool; sbounds : bool; sdefault : option arr; sdefb : option Flt * option Flt }.
Inductive pyclass :=
| Abstract
| BuiltIn (modes_key : string) (specs : list pspec) (bname : string) (wires_of : list nat -> list (list nat)) (ansatz_of : list nat -> list (string * arr) -> ansatz).
Variable classes : string -> option pyclass.
(** the modes spanned by the wires, as a sorted list *)
Definition ins_mode (m : nat) (l : list nat) : list nat := if existsb (Nat.eqb m) l then l else m :: l.
Definition modes_of (w : list (list nat)) : list nat := isort BinInt.Z.of_nat (fold_right ins_mode [] (List.concat w)).

(** the serialized modes are the modes of the wires, sorted *)
Lemma C34_modes_sorted : forall w, Sorted.StronglySorted (key_le BinInt.Z.of_nat) (modes_of w) /\ forall m, In m (modes_of w) <-> exists g, In g w /\ In m g.
Proof using.
  intros w. split; [apply isort_sorted|]. intros m. unfold modes_of. rewrite isort_in. rewrite <- in_concat.
  induction (List.concat w) as [|x l IH]; [reflexivity|]. cbn [fold_right]. unfold ins_mode at 1. destruct (existsb (Nat.eqb x) _) eqn:E.
  - rewrite IH. split; [now right|]. intros [->|H]; [|exact H]. apply existsb_exists in E. destruct E as (y & Hy & E). apply Nat.eqb_eq in E. subst y. now apply IH.
  - cbn [In]. now rewrite IH.
Qed.

Definition jnum (o : option Flt) : json := match o with Some x => JFlt x | None => JNull end.
Definition of_jnum (j : json) : option Flt := match j with JFlt x => Some x | _ => None end.
Definition jmodes (l : list nat) : json := JArr (map JNat l).
Definition of_jnat (j : json) : nat := match j with JNat n => n | _ => 0 end.
Definition of_jmodes (j : json) : list nat := match j with JArr l => map of_jnat l | _ => [] end.

(** array_ansatz.py:286-287, polyexp_ansatz.py:582-584: lin_sup is not written *)
Definition ansatz_cls (a : ansatz) : string := match a with PolyExp _ _ _ _ => "PolyExpAnsatz" | ArrayAn _ _ => "ArrayAnsatz" end.
Definition to_dict (a : ansatz) : dict arr :=
  match a with PolyExp A b c _ => [("A", A); ("b", b); ("c", c)] | ArrayAn x n => [("array", x); ("batch_dims", AInt n)] end.
(** from_dict: cls( **data ); lin_sup defaults to False; unknown keywords are a TypeError *)
Definition get_arr (k : string) (d : dict pyval) : result arr := match dget k d with Some (PA a) => Ok a | _ => Err TypeError end.
Definition from_dict (acls : string) (d : dict pyval) : result ansatz :=
  if String.eqb acls "PolyExpAnsatz" then
    if forallb (fun p => existsb (String.eqb (fst p)) ["A"; "b"; "c"]) d then
      bind (get_arr "A" d) (fun A => bind (get_arr "b" d) (fun b => bind (get_arr "c" d) (fun c => Ok (PolyExp A b c false))))
    else Err TypeError
  else if String.eqb acls "ArrayAnsatz" then
    if forallb (fun p => existsb (String.eqb (fst p)) ["array"; "batch_dims"]) d then
      bind (get_arr "array" d) (fun a => bind (get_arr "batch_dims" d) (fun n => match n with AInt k => Ok (ArrayAn a k) | _ => Err TypeError end))
    else Err TypeError
  else Err AttributeError.

(** circuit_components.py:818-845 *)
Definition serialize1 (c : comp) : result (dict json * dict arr) :=
  match classes (ccls c) with
  | None => Err AttributeError
  | Some Abstract =>
      Ok ([("class", JStr (ccls c)); ("name", JStr (cname c)); ("wires", JArr (map jmodes (cwires c))); ("ansatz_cls", JStr (ansatz_cls (can c)))], to_dict (can c))
  | Some (BuiltIn mk _ _ _ _) =>
      Ok (dmerge [("class", JStr (ccls c)); (mk, jmodes (modes_of (cwires c)))]
                 (flat_map (fun p => match pb p with
                                     | Some (lo, hi) => [(pn p ++ "_bounds", JArr [jnum lo; jnum hi]); (pn p ++ "_trainable", JBool true)]%string
                                     | None => [] end) (cpar c)),
          map (fun p => (pn p, pv p)) (cpar c))
  end.

(** the constructor of a built-in class applied to keywords; [accepted] are its argument names *)
Definition accepted (mk : string) (specs : list pspec) : list string :=
  mk :: flat_map (fun s => sname s :: (if strainable s then [sname s ++ "_trainable"]%string else []) ++ (if sbounds s then [sname s ++ "_bounds"]%string else [])) specs.
Definition is_true_j (o : option pyval) : bool := match o with Some (PJ j) => truthy j | Some (PA _) => true | None => false end.
Definition bounds_of (def : option Flt * option Flt) (o : option pyval) : option Flt * option Flt :=
  match o with Some (PJ (JArr [lo; hi])) => (of_jnum lo, of_jnum hi) | _ => def end.
(** make_parameter for one argument *)
Definition param_of (kw : dict pyval) (s : pspec) : result param :=
  let trainable := strainable s && is_true_j (dget (sname s ++ "_trainable")%string kw) in
  let bnd := if sbounds s then bounds_of (sdefb s) (dget (sname s ++ "_bounds")%string kw) else sdefb s in
  match (match dget (sname s) kw with Some (PA a) => Some a | _ => sdefault s end) with
  | Some a => Ok (mkP (sname s) a (if trainable then Some bnd else None))
  | None => Err TypeError
  end.
Definition is_var (p : param) : bool := match pb p with Some _ => true | None => false end.
(** the order of all_parameters: constants, then variables *)
Definition grouped (ps : list param) : list param := filter (fun p => negb (is_var p)) ps ++ filter is_var ps.
Definition construct (cls mk : string) (specs : list pspec) (bname : string) wires_of ansatz_of (kw : dict pyval) : result comp :=
  if forallb (fun p => existsb (String.eqb (fst p)) (accepted mk specs)) kw then
    match dget mk kw with
    | Some (PJ (JArr l)) =>
        let ms := map of_jnat l in
        bind (mapM (param_of kw) specs) (fun ps =>
          Ok (mkC cls bname (wires_of ms) (ansatz_of ms (map (fun p => (pn p, pv p)) ps)) (grouped ps)))
    | _ => Err TypeError
    end
  else Err TypeError.

(** circuit_components.py:308-328; _from_attributes (330-358) keeps the six abstract classes and CircuitComponent *)
Definition deserialize1 (cls : string) (d : dict pyval) : result comp :=
  match classes cls with
  | None => Err AttributeError
  | Some k =>
    match dget "ansatz_cls" d with
    | Some (PJ (JStr acls)) =>
        bind (dpop "ansatz_cls" d) (fun '(_, d1) => bind (dpop "wires" d1) (fun '(w, d2) => bind (dpop "name" d2) (fun '(n, d3) =>
        match w, n with
        | PJ (JArr ws), PJ (JStr nm) => bind (from_dict acls d3) (fun a => Ok (mkC cls nm (map of_jmodes ws) a []))
        | _, _ => Err TypeError
        end)))
    | _ =>
        match k with
        | Abstract => Err TypeError
        | BuiltIn mk specs bname wires_of ansatz_of => construct cls mk specs bname wires_of ansatz_of d
        end
    end
  end.

(** ** Circuits *)
Record circuit := mkCirc { comps : list comp; cpath : list (nat * nat) }.
(** f"{k}:{i}" *)
Definition tag (k : string) (i : nat) : string := (k ++ ":" ++ NilEmpty.string_of_uint (Nat.to_uint i))%string.
(** k.split(":") *)
Fixpoint split_colon (s : string) : list string :=
  match s with
  | EmptyString => [EmptyString]
  | String c r => if Ascii.eqb c ":" then EmptyString :: split_colon r
                  else match split_colon r with x :: l => String c x :: l | [] => [String c EmptyString] end
  end.
(** int(i) *)
Definition parse_nat (s : string) : option nat := option_map Nat.of_uint (NilEmpty.uint_of_string s).
Fixpoint set_at {A} (i : nat) (f : A -> A) (l : list A) : option (list A) :=
  match l, i with [], _ => None | x :: t, 0 => Some (f x :: t) | x :: t, S j => option_map (cons x) (set_at j f t) end.
Definition jpath (p : list (nat * nat)) : json := JArr (map (fun q => JArr [JNat (fst q); JNat (snd q)]) p).
Definition of_jpath (j : json) : list (nat * nat) :=
  match j with JArr l => map (fun q => match q with JArr [a; b] => (of_jnat a, of_jnat b) | _ => (0, 0) end) l | _ => [] end.

(** circuits.py:268-282. `components, data = list(zip( *[...] ))` cannot be unpacked for an empty circuit *)
Fixpoint tagged (i : nat) (l : list (dict arr)) : dict arr := match l with [] => [] | d :: r => map (fun p => (tag (fst p) i, snd p)) d ++ tagged (S i) r end.
Definition serialize (backend version stem : string) (c : circuit) (fs : fsys) : result path * fsys :=
  match mapM serialize1 (comps c) with
  | Err e => (Err e, fs)
  | Ok [] => (Err ValueError, fs)
  | Ok l => save "Circuit" backend version stem true (dmerge [] (tagged 0 (map snd l)))
              [("path", jpath (cpath c)); ("components", JArr (map (fun p => JObj (fst p)) l))] fs
  end.

(** circuits.py:86-99; [put] is lines 91-93 *)
Definition put (acc : result (list (dict pyval))) (kv : string * pyval) : result (list (dict pyval)) :=
  bind acc (fun ds =>
    match split_colon (fst kv) with
    | [k; i] => match parse_nat i with
                | Some n => match set_at n (dset k (snd kv)) ds with Some ds' => Ok ds' | None => Err IndexError end
                | None => Err ValueError end
    | _ => Err ValueError
    end).
Definition deserialize (data : dict pyval) : result circuit :=
  bind (dpop "components" data) (fun '(cs, d1) => bind (dpop "path" d1) (fun '(p, d2) =>
  match cs, p with
  | PJ (JArr objs), PJ jp =>
      let dicts := map (fun o => match o with JObj d => map (fun q => (fst q, PJ (snd q))) d | _ => [] end) objs in
      bind (fold_left put d2 (Ok dicts)) (fun ds =>
      bind (mapM (fun d => bind (dpop "class" d) (fun '(c, d') => match c with PJ (JStr cls) => deserialize1 cls d' | _ => Err TypeError end)) ds) (fun cs' =>
      Ok (mkCirc cs' (of_jpath jp))))
  | _, _ => Err TypeError
  end)).
(** load(path) for circuits *)
Definition load (backend : string) (file : path) (remove_after : bool) (fs : fsys) : result circuit * fsys :=
  let (r, fs') := load_data backend file remove_after fs in
  (bind r (fun '(c, d) => if json_is "Circuit" c then deserialize d else Err AttributeError), fs').

(** ** Specification *)
(** what a user observes of a component: class, name, wires and ansatz, and the parameters of built-in ones *)
Definition same_comp (c c' : comp) : Prop :=
  ccls c' = ccls c /\ cname c' = cname c /\ cwires c' = cwires c /\ can c' = can c /\ (classes (ccls c) <> Some Abstract -> cpar c' = cpar c).
Definition same_circuit (c c' : circuit) : Prop := Forall2 same_comp (comps c) (comps c') /\ cpath c' = cpath c.
Fixpoint no_colon (s : string) : Prop := match s with EmptyString => True | String c r => c <> ":"%char /\ no_colon r end.
(** a component of an abstract class, not a linear superposition *)
Definition plain_abstract (c : comp) : Prop :=
  classes (ccls c) = Some Abstract /\ match can c with PolyExp _ _ _ l => l = false | ArrayAn _ _ => True end.
(** a component as its class builds it from modes [ms] and parameters [ps]; trainable parameters have both extra arguments *)
Definition good_class (mk : string) (specs : list pspec) : Prop :=
  NoDup ("class" :: "ansatz_cls" :: accepted mk specs) /\ Forall (fun s => no_colon (sname s)) specs.
Definition built (cls : string) (ms : list nat) (ps : list param) (c : comp) : Prop :=
  exists mk specs bname w a, classes cls = Some (BuiltIn mk specs bname w a) /\ good_class mk specs /\
    Forall2 (fun s p => pn p = sname s /\ (pb p <> None -> strainable s = true /\ sbounds s = true)) specs ps /\
    modes_of (w ms) = ms /\ c = mkC cls bname (w ms) (a ms (map (fun p => (pn p, pv p)) ps)) (grouped ps).
Definition good_comp (c : comp) : Prop := plain_abstract c \/ exists ms ps, built (ccls c) ms ps c.

(** ** Tags *)
Lemma split_nocolon : forall s, no_colon s -> split_colon s = [s].
Proof using.
  induction s as [|c s IH]; simpl; [reflexivity|]. intros [H1 H2]. rewrite (IH H2). destruct (Ascii.eqb_spec c ":"); [congruence|reflexivity].
Qed.
Lemma split_app : forall k s, no_colon k -> split_colon (k ++ ":" ++ s) = k :: split_colon s.
Proof using.
  induction k as [|c k IH]; intros s; simpl; [reflexivity|]. intros [H1 H2]. destruct (Ascii.eqb_spec c ":"); [congruence|].
  change (k ++ String ":" s)%string with (k ++ ":" ++ s)%string. now rewrite IH.
Qed.
Lemma digits_nocolon : forall d, no_colon (NilEmpty.string_of_uint d).
Proof using. induction d; simpl; auto; split; auto; discriminate. Qed.
Lemma split_tag : forall k i, no_colon k -> split_colon (tag k i) = [k; NilEmpty.string_of_uint (Nat.to_uint i)].
Proof using. intros k i H. unfold tag. rewrite split_app by exact H. now rewrite split_nocolon by apply digits_nocolon. Qed.
Lemma parse_digits : forall i, parse_nat (NilEmpty.string_of_uint (Nat.to_uint i)) = Some i.
Proof using. intros i. unfold parse_nat. rewrite NilEmpty.usu. simpl. now rewrite Unsigned.of_to. Qed.
Lemma tag_inj : forall k i k' i', no_colon k -> no_colon k' -> tag k i = tag k' i' -> k = k' /\ i = i'.
Proof using.
  intros k i k' i' H H' E. apply (f_equal split_colon) in E. rewrite !split_tag in E by assumption. injection E as E1 E2.
  split; [exact E1|]. apply (f_equal parse_nat) in E2. rewrite !parse_digits in E2. congruence.
Qed.
Lemma tag_colon : forall k i s, no_colon k -> no_colon s -> tag k i <> s.
Proof using. intros k i s H H' E. apply (f_equal split_colon) in E. rewrite split_tag, split_nocolon in E by assumption. discriminate. Qed.

(** ** Dictionaries *)
Lemma dget_app : forall {A} k (d1 d2 : dict A), dget k (d1 ++ d2) = match dget k d1 with Some v => Some v | None => dget k d2 end.
Proof using. induction d1 as [|[k0 v0] d1 IH]; intros d2; simpl; [reflexivity|]. destruct (String.eqb k k0); [reflexivity|apply IH]. Qed.
Lemma dget_map : forall {A B} (f : A -> B) k (d : dict A), dget k (map (fun p => (fst p, f (snd p))) d) = option_map f (dget k d).
Proof using. induction d as [|[k0 v0] d IH]; simpl; [reflexivity|]. destruct (String.eqb k k0); [reflexivity|exact IH]. Qed.
Lemma keys_map : forall {A B} (f : A -> B) (d : dict A), map fst (map (fun p => (fst p, f (snd p))) d) = map fst d.
Proof using. intros. rewrite map_map. reflexivity. Qed.
Lemma dmerge_nil : forall {A} (d : dict A), NoDup (map fst d) -> dmerge [] d = d.
Proof using. intros A d H. now rewrite dmerge_disjoint. Qed.
Lemma filter_fresh : forall {A} k (d : dict A), ~ In k (map fst d) -> filter (fun p => negb (String.eqb (fst p) k)) d = d.
Proof using.
  induction d as [|[k0 v0] d IH]; simpl; intros H; [reflexivity|]. destruct (String.eqb_spec k0 k); [exfalso; apply H; now left|]. simpl. rewrite IH; [reflexivity|]. intros X. apply H. now right.
Qed.
Lemma pop_head : forall {A} k (v : A) d, ~ In k (map fst d) -> dpop k ((k, v) :: d) = Ok (v, d).
Proof using. intros. unfold dpop. simpl. rewrite String.eqb_refl. simpl. now rewrite filter_fresh. Qed.
Lemma pop_second : forall {A} k k1 (v1 v : A) d, k1 <> k -> ~ In k (map fst d) -> dpop k ((k1, v1) :: (k, v) :: d) = Ok (v, (k1, v1) :: d).
Proof using.
  intros A k k1 v1 v d N H. unfold dpop. simpl. destruct (String.eqb_spec k k1); [congruence|]. rewrite String.eqb_refl. destruct (String.eqb_spec k1 k); [congruence|]. simpl. now rewrite filter_fresh.
Qed.

(** ** One component *)
Lemma of_jmodes_jmodes : forall l, of_jmodes (jmodes l) = l.
Proof using. intros l. unfold jmodes, of_jmodes. rewrite map_map. simpl. apply map_id. Qed.
Lemma of_jpath_jpath : forall l, of_jpath (jpath l) = l.
Proof using. intros l. unfold jpath, of_jpath. rewrite map_map. erewrite map_ext; [apply map_id|]. now intros [a b]. Qed.
Definition extra_keys (p : param) : dict json :=
  match pb p with Some (lo, hi) => [(pn p ++ "_bounds", JArr [jnum lo; jnum hi]); (pn p ++ "_trainable", JBool true)]%string | None => [] end.
Definition pkeys (p : param) : list string := pn p :: map fst (extra_keys p).
Definition skeys (s : pspec) : list string := sname s :: (if strainable s then [sname s ++ "_trainable"]%string else []) ++ (if sbounds s then [sname s ++ "_bounds"]%string else []).
Lemma perm_grouped : forall ps, Permutation.Permutation (grouped ps) ps.
Proof using.
  induction ps as [|p ps IH]; [constructor|]. unfold grouped in *. simpl. destruct (is_var p); simpl.
  - etransitivity; [symmetry; apply Permutation.Permutation_middle|]. now constructor.
  - now constructor.
Qed.
Lemma NoDup_flat : forall (specs : list pspec) (ps : list param),
  Forall2 (fun s p => incl (pkeys p) (skeys s) /\ NoDup (pkeys p)) specs ps -> NoDup (flat_map skeys specs) ->
  NoDup (flat_map pkeys ps) /\ incl (flat_map pkeys ps) (flat_map skeys specs).
Proof using.
  induction 1 as [|s p specs ps [H1 H2] HF IH]; intros ND; cbn [flat_map]; [split; [constructor|intros x []]|].
  cbn [flat_map] in ND. apply NoDup_app_iff in ND. destruct ND as [N1 [N2 N3]]. destruct (IH N2) as [I1 I2]. split.
  - apply NoDup_app_iff. split; [exact H2|]. split; [exact I1|]. intros x X1 X2. apply (N3 x); auto.
  - intros x X. apply in_app_or in X. apply in_or_app. destruct X; [left|right]; auto.
Qed.
Lemma NoDup_keys_sub : forall s p, pn p = sname s -> (pb p <> None -> strainable s = true /\ sbounds s = true) -> NoDup (skeys s) -> incl (pkeys p) (skeys s) /\ NoDup (pkeys p).
Proof using.
  intros s p E H ND. unfold pkeys, extra_keys. destruct (pb p) as [[lo hi]|] eqn:Eb; simpl.
  - destruct H as [H1 H2]; [discriminate|]. revert ND. unfold skeys. rewrite H1, H2. simpl. rewrite E. intros ND. split.
    + intros x [X|[X|[X|[]]]]; simpl; auto.
    + inversion ND as [|? ? N1 N2]; subst. inversion N2 as [|? ? N3 N4]; subst. constructor; [|constructor; [|constructor; [|constructor]]].
      * intros [X|[X|[]]]; apply N1; simpl; auto.
      * intros [X|[]]. apply N3. simpl. auto.
      * intros [].
  - rewrite E. split; [intros x [X|[]]; left; exact X|]. constructor; [intros []|constructor].
Qed.
Lemma flat_perm : forall ps, Permutation.Permutation (map fst (flat_map extra_keys ps) ++ map pn ps) (flat_map pkeys ps).
Proof using.
  induction ps as [|p ps IH]; [constructor|]. simpl. rewrite map_app. etransitivity; [symmetry; apply Permutation.Permutation_middle|]. unfold pkeys. simpl. constructor.
  rewrite <- app_assoc. now apply Permutation.Permutation_app_head.
Qed.
Lemma Forall2_nth_In : forall {A B} (P : A -> B -> Prop) l l', Forall2 P l l' -> forall x, In x l -> exists y, In y l' /\ P x y.
Proof using. induction 1; intros z Hz; [destruct Hz|]. destruct Hz as [<-|Hz]; [exists y; split; [now left|assumption]|]. destruct (IHForall2 z Hz) as [w [W1 W2]]. exists w. split; [now right|exact W2]. Qed.
Lemma Forall2_weaken : forall {A B} (P Q : A -> B -> Prop), (forall x y, P x y -> Q x y) -> forall l l', Forall2 P l l' -> Forall2 Q l l'.
Proof using. induction 2; constructor; auto. Qed.
Lemma Forall2_mapM : forall {A B} (f : A -> result B) l l', Forall2 (fun x y => f x = Ok y) l l' -> mapM f l = Ok l'.
Proof using. induction 1; simpl; [reflexivity|]. rewrite H, IHForall2. reflexivity. Qed.

Lemma roundtrip1 : forall c, good_comp c -> exists rest da, serialize1 c = Ok (("class", JStr (ccls c)) :: rest, da) /\
  NoDup ("class" :: map fst rest ++ map fst da) /\ Forall no_colon (map fst da) /\
  exists c', deserialize1 (ccls c) (map (fun p => (fst p, PJ (snd p))) rest ++ map (fun p => (fst p, PA (snd p))) da) = Ok c' /\ same_comp c c'.
Proof using.
  intros c [[Hc Hl]|[ms [ps [mk [specs [bname [w [a [Hc [[ND NC] [HF [Hm E]]]]]]]]]]]].
  - destruct c as [cls nm ws an par]. simpl in *. unfold serialize1. simpl. rewrite Hc. eexists _, _. split; [reflexivity|]. split; [|split].
    + destruct an; simpl; repeat constructor; simpl; intros X; repeat (destruct X as [X|X]; try discriminate X); exact X.
    + destruct an; simpl; repeat constructor; discriminate.
    + unfold deserialize1. rewrite Hc. destruct an as [A b cc l|x n]; simpl; rewrite map_map; eexists; (split; [reflexivity|]);
        (split; [reflexivity|]); (split; [reflexivity|]); (split; [simpl; erewrite map_ext; [apply map_id|apply of_jmodes_jmodes]|]); (split; [simpl; congruence|simpl; congruence]).
  - set (J := flat_map extra_keys (grouped ps)). set (V := map (fun p => (pn p, pv p)) (grouped ps)).
    assert (KV : map fst V = map pn (grouped ps)) by (unfold V; rewrite map_map; reflexivity).
    assert (ND2 : NoDup (mk :: flat_map skeys specs)) by (inversion ND as [|? ? _ X]; inversion X; assumption).
    assert (HK : NoDup (flat_map pkeys ps) /\ incl (flat_map pkeys ps) (flat_map skeys specs)).
    { apply NoDup_flat; [|inversion ND2; assumption]. inversion ND2 as [|? ? _ N2]; subst. clear - HF N2. induction HF as [|s p specs ps [H1 H2] HF IH]; constructor.
      - cbn [flat_map] in N2. apply NoDup_app_iff in N2. apply NoDup_keys_sub; tauto.
      - apply IH. cbn [flat_map] in N2. apply NoDup_app_iff in N2. tauto. }
    destruct HK as [K1 K2].
    assert (P : Permutation.Permutation (map fst J ++ map fst V) (flat_map pkeys ps)).
    { rewrite KV. unfold J. etransitivity; [apply flat_perm|]. apply Permutation.Permutation_flat_map, perm_grouped. }
    assert (NDJ : NoDup (mk :: map fst J ++ map fst V)).
    { constructor.
      - intros X. apply (Permutation.Permutation_in _ P) in X. apply K2 in X. inversion ND2; contradiction.
      - eapply Permutation.Permutation_NoDup; [symmetry; exact P|exact K1]. }
    assert (Inacc : forall x, In x (mk :: map fst J ++ map fst V) -> In x (accepted mk specs)).
    { intros x [X|X]; [now left|]. right. apply K2. now apply (Permutation.Permutation_in _ P). }
    assert (Nclass : ~ In "class" (mk :: map fst J ++ map fst V)).
    { intros X. apply Inacc in X. inversion ND as [|? ? N1 N2]; subst. apply N1. now right. }
    assert (Nacls : ~ In "ansatz_cls" (mk :: map fst J ++ map fst V)).
    { intros X. apply Inacc in X. inversion ND as [|? ? N1 N2]; subst. inversion N2; contradiction. }
    exists ((mk, jmodes ms) :: J), V. split; [|split; [|split]].
    + unfold serialize1. rewrite E. cbn [ccls cwires cpar]. rewrite Hc, Hm. f_equal. f_equal.
      rewrite dmerge_disjoint; [reflexivity|]. simpl. constructor.
      * intros X. apply Nclass. destruct X as [X|X]; [now left|]. right. apply in_or_app. now left.
      * inversion NDJ as [|? ? N1 N2]; subst. constructor; [intros X; apply N1, in_or_app; now left|]. apply NoDup_app_iff in N2. apply N2.
    + constructor; [exact Nclass|exact NDJ].
    + rewrite KV. apply Forall_forall. intros x Hx. apply in_map_iff in Hx. destruct Hx as [p [<- Hp]]. apply (Permutation.Permutation_in _ (perm_grouped ps)) in Hp.
      rewrite Forall_forall in NC. clear - HF NC Hp. induction HF as [|s q specs ps [H1 H2] HF IH]; [destruct Hp|]. destruct Hp as [<-|Hp].
      * rewrite H1. apply NC. now left.
      * apply IH; [|exact Hp]. intros y Hy. apply NC. now right.
    + set (D := map (fun p => (fst p, PJ (snd p))) ((mk, jmodes ms) :: J) ++ map (fun p => (fst p, PA (snd p))) V).
      assert (KD : map fst D = mk :: map fst J ++ map fst V) by (unfold D; rewrite map_app, !keys_map; reflexivity).
      assert (NDD : NoDup (map fst D)) by (rewrite KD; exact NDJ).
      assert (GD : forall k v, In (k, v) D -> dget k D = Some v) by (intros k v; now apply dget_In).
      assert (HJ : forall p, In p ps -> forall k v, In (k, v) (extra_keys p) -> dget k D = Some (PJ v)).
      { intros p Hp k v Hkv. apply GD. unfold D. apply in_or_app. left. apply in_map_iff. exists (k, v). split; [reflexivity|]. right. unfold J. apply in_flat_map. exists p.
        split; [|exact Hkv]. apply (Permutation.Permutation_in _ (Permutation.Permutation_sym (perm_grouped ps))). exact Hp. }
      assert (HV : forall p, In p ps -> dget (pn p) D = Some (PA (pv p))).
      { intros p Hp. apply GD. unfold D. apply in_or_app. right. apply in_map_iff. exists (pn p, pv p). split; [reflexivity|]. unfold V. apply in_map_iff. exists p. split; [reflexivity|].
        apply (Permutation.Permutation_in _ (Permutation.Permutation_sym (perm_grouped ps))). exact Hp. }
      assert (HM : dget mk D = Some (PJ (jmodes ms))) by (apply GD; left; reflexivity).
      assert (HT : forall s p, In (s, p) (combine specs ps) -> pb p = None -> strainable s = true -> dget (sname s ++ "_trainable")%string D = None).
      { intros s p Hsp Hb Hs. apply dget_none. rewrite KD. intros X. pose proof (Inacc _ X) as _. destruct X as [X|X].
        - inversion ND2 as [|? ? N1 N2]. apply N1. rewrite X. apply in_flat_map. exists s. split; [eapply in_combine_l, Hsp|]. unfold skeys. rewrite Hs. simpl. auto.
        - apply (Permutation.Permutation_in _ P) in X. apply in_flat_map in X. destruct X as [q [Hq X]].
          clear - HF Hsp Hb Hs Hq X ND2. inversion ND2 as [|? ? _ N2]; subst. clear ND2.
          induction HF as [|s0 p0 specs ps [H1 H2] HF IH]; [destruct Hq|].
          cbn [flat_map] in N2. pose proof N2 as N2'. apply NoDup_app_iff in N2'. destruct N2' as [A1 [A2 A3]].
          assert (Q : forall q0, In q0 ps -> incl (pkeys q0) (flat_map skeys specs)).
          { intros q0 Hq0. destruct (NoDup_flat specs ps) as [_ Z].
            - clear - HF A2. induction HF as [|s p specs ps [H1 H2] HF IH]; constructor.
              + cbn [flat_map] in A2. apply NoDup_app_iff in A2. apply NoDup_keys_sub; tauto.
              + apply IH. cbn [flat_map] in A2. apply NoDup_app_iff in A2. tauto.
            - exact A2.
            - intros x Hx. apply Z. apply in_flat_map. now exists q0. }
          destruct (NoDup_keys_sub s0 p0 H1 H2 A1) as [B1 B2].
          destruct Hsp as [Hsp|Hsp]; [injection Hsp as -> ->|].
          + destruct Hq as [<-|Hq].
            * unfold pkeys, extra_keys in X. rewrite Hb in X. simpl in X. destruct X as [X|[]]. rewrite H1 in X. unfold skeys in A1. rewrite Hs in A1. simpl in A1. inversion A1 as [|? ? Z _]. apply Z. left. symmetry. exact X.
            * apply (A3 (sname s ++ "_trainable")%string); [unfold skeys; rewrite Hs; simpl; auto|]. now apply (Q q Hq).
          + destruct Hq as [<-|Hq]; [|now apply IH].
            apply (A3 (sname s ++ "_trainable")%string); [now apply B1|]. apply in_flat_map. exists s. split; [eapply in_combine_l, Hsp|]. unfold skeys. rewrite Hs. simpl. auto. }
      eexists. split; [unfold deserialize1; rewrite E; cbn [ccls]; rewrite Hc; fold D; assert (X : dget "ansatz_cls" D = None) by (apply dget_none; rewrite KD; exact Nacls); rewrite X; unfold construct|].
      * assert (X1 : forallb (fun p => existsb (String.eqb (fst p)) (accepted mk specs)) D = true).
        { apply forallb_forall. intros [k v] Hkv. apply existsb_exists. exists k. split; [|apply String.eqb_refl]. apply Inacc. rewrite <- KD. apply in_map_iff. now exists (k, v). }
        rewrite X1, HM. unfold jmodes at 1. cbv zeta. rewrite map_map. cbn [of_jnat]. rewrite map_id.
        assert (X2 : mapM (param_of D) specs = Ok ps).
        { apply Forall2_mapM. assert (Z : Forall2 (fun s p => (pn p = sname s /\ (pb p <> None -> strainable s = true /\ sbounds s = true)) /\ In (s, p) (combine specs ps) /\ In p ps) specs ps).
          { clear - HF. induction HF; constructor; [split; [assumption|split; left; reflexivity]|]. eapply Forall2_weaken; [|exact IHHF]. simpl. intros s p (X1 & X2 & X3). auto. }
          eapply Forall2_weaken; [|exact Z]. simpl. intros s p [[E1 E2] [I1 I2]]. unfold param_of. rewrite <- E1, (HV p I2). destruct p as [n v b]. simpl in *. destruct b as [[lo hi]|].
          - destruct E2 as [T1 T2]; [discriminate|]. rewrite T1, T2. rewrite (HJ _ I2 (n ++ "_trainable")%string (JBool true)) by (simpl; auto).
            rewrite (HJ _ I2 (n ++ "_bounds")%string (JArr [jnum lo; jnum hi])) by (simpl; auto). simpl. destruct lo, hi; reflexivity.
          - destruct (strainable s) eqn:Es; simpl; [|reflexivity]. rewrite E1, (HT s _ I1); simpl; auto. }
        rewrite X2. simpl. reflexivity.
      * rewrite E. repeat split; simpl; auto.
Qed.

(** ** Circuits *)
Definition toJ (d : dict json) : dict pyval := map (fun p => (fst p, PJ (snd p))) d.
Definition toA (d : dict arr) : dict pyval := map (fun p => (fst p, PA (snd p))) d.
Lemma set_at_app : forall {A} (f : A -> A) pre x post, set_at (List.length pre) f (pre ++ x :: post) = Some (pre ++ f x :: post).
Proof using. induction pre as [|y pre IH]; intros x post; simpl; [reflexivity|]. now rewrite IH. Qed.
Lemma put_one : forall d pre x post, Forall no_colon (map fst d) ->
  fold_left put (toA (map (fun p => (tag (fst p) (List.length pre), snd p)) d)) (Ok (pre ++ x :: post)) = Ok (pre ++ dmerge x (toA d) :: post).
Proof using.
  induction d as [|[k v] d IH]; intros pre x post H; [reflexivity|]. inversion H as [|? ? H1 H2]; subst.
  cbn [toA map fold_left fst snd]. unfold put at 2. cbn [bind fst snd]. rewrite split_tag by exact H1. rewrite parse_digits, set_at_app. unfold toA in IH. rewrite IH by exact H2. reflexivity.
Qed.
Lemma put_all : forall l xs pre, Forall (fun d => Forall no_colon (map fst d)) l -> List.length xs = List.length l ->
  fold_left put (toA (tagged (List.length pre) l)) (Ok (pre ++ xs)) = Ok (pre ++ map (fun p => dmerge (fst p) (toA (snd p))) (combine xs l)).
Proof using.
  induction l as [|d l IH]; intros [|x xs] pre HF HL; try discriminate HL; [reflexivity|]. inversion HF as [|? ? H1 H2]; subst.
  cbn [tagged]. unfold toA at 1. rewrite map_app, fold_left_app. fold (toA (map (fun p : string * arr => (tag (fst p) (List.length pre), snd p)) d)). rewrite put_one by exact H1.
  specialize (IH xs (pre ++ [dmerge x (toA d)]) H2 ltac:(simpl in HL; lia)). rewrite app_length, Nat.add_1_r in IH. rewrite <- !app_assoc in IH. simpl in IH. unfold toA in IH |- *. rewrite IH. reflexivity.
Qed.
Lemma tagged_keys : forall l i x, In x (map fst (tagged i l)) -> exists j d k, nth_error l j = Some d /\ In k (map fst d) /\ x = tag k (i + j).
Proof using.
  induction l as [|d l IH]; intros i x H; [destruct H|]. cbn [tagged] in H. rewrite map_app in H. apply in_app_or in H. destruct H as [H|H].
  - rewrite map_map in H. cbn [fst] in H. apply in_map_iff in H. destruct H as [p [<- Hp]]. exists 0, d, (fst p). split; [reflexivity|]. split; [now apply in_map|]. now rewrite Nat.add_0_r.
  - destruct (IH _ _ H) as [j [d' [k [H1 [H2 H3]]]]]. exists (S j), d', k. split; [exact H1|]. split; [exact H2|]. now rewrite H3, Nat.add_succ_comm.
Qed.
Lemma tagged_NoDup : forall l i, Forall (fun d => NoDup (map fst d) /\ Forall no_colon (map fst d)) l -> NoDup (map fst (tagged i l)).
Proof using.
  induction l as [|d l IH]; intros i HF; [constructor|]. inversion HF as [|? ? [H1 H2] H3]; subst. cbn [tagged]. rewrite map_app. apply NoDup_app_iff. split; [|split; [apply IH; exact H3|]].
  - rewrite map_map. cbn [fst]. rewrite <- map_map with (g := fun k => tag k i). clear - H1 H2. induction H1 as [|k ks N1 N2 IH]; [constructor|]. inversion H2 as [|? ? Q1 Q2]; subst. simpl. constructor; [|auto].
    intros X. apply in_map_iff in X. destruct X as [k' [E Hk']]. apply tag_inj in E; [|rewrite Forall_forall in Q2; now apply Q2|assumption]. destruct E as [-> _]. contradiction.
  - intros x X Y. rewrite map_map in X. cbn [fst] in X. apply in_map_iff in X. destruct X as [p [<- Hp]]. destruct (tagged_keys _ _ _ Y) as [j [d' [k [E1 [E2 E3]]]]].
    rewrite Forall_forall in H2. rewrite Forall_forall in H3. apply tag_inj in E3; [lia|apply H2; now apply in_map|]. destruct (H3 d' (nth_error_In _ _ E1)) as [_ Z]. rewrite Forall_forall in Z. now apply Z.
Qed.

Definition payload (version backend : string) (arrays : dict arr) (data : dict json) : dict json :=
  let d := dset "version" (JStr version) (dset "class" (JStr "Circuit") data) in
  match arrays with [] => dset "arrays" (JBool false) d | _ => dset "backend" (JStr backend) (dset "arrays" (JBool true) d) end.

(** the dictionary written for a circuit, and what deserialize makes of it *)
Definition cdata (c : circuit) (l : list (dict json * dict arr)) : dict json := [("path", jpath (cpath c)); ("components", JArr (map (fun p => JObj (fst p)) l))].
Lemma serialize_list : forall cs, Forall good_comp cs -> exists l, mapM serialize1 cs = Ok l /\
  Forall2 (fun c p => exists rest, fst p = ("class", JStr (ccls c)) :: rest /\ NoDup ("class" :: map fst rest ++ map fst (snd p)) /\ Forall no_colon (map fst (snd p)) /\
    exists c', deserialize1 (ccls c) (toJ rest ++ toA (snd p)) = Ok c' /\ same_comp c c') cs l.
Proof using.
  induction 1 as [|c cs Hc HF IH]; [now exists []|]. destruct IH as [l [E1 E2]]. destruct (roundtrip1 c Hc) as [rest [da [A1 [A2 [A3 A4]]]]].
  exists ((("class", JStr (ccls c)) :: rest, da) :: l). split; [simpl; rewrite A1, E1; reflexivity|]. constructor; [|exact E2]. exists rest. simpl. auto.
Qed.
Lemma deserialize_all : forall (cs : list comp) (l : list (dict json * dict arr)),
  Forall2 (fun c p => exists rest, fst p = ("class", JStr (ccls c)) :: rest /\ NoDup ("class" :: map fst rest ++ map fst (snd p)) /\ Forall no_colon (map fst (snd p)) /\
    exists c', deserialize1 (ccls c) (toJ rest ++ toA (snd p)) = Ok c' /\ same_comp c c') cs l ->
  exists cs', mapM (fun d => bind (dpop "class" d) (fun '(c, d') => match c with PJ (JStr cls) => deserialize1 cls d' | _ => Err TypeError end))
      (map (fun p => dmerge (fst p) (toA (snd p))) (combine (map (fun o => match o with JObj d => toJ d | _ => [] end) (map (fun p => JObj (fst p)) l)) (map snd l))) = Ok cs' /\
    Forall2 same_comp cs cs'.
Proof using.
  induction 1 as [|c [dj da] cs l [rest [E [ND [NC [c' [D S]]]]]] HF IH]; [exists []; split; constructor|].
  destruct IH as [cs' [E1 E2]]. exists (c' :: cs'). split; [|now constructor]. cbn [map combine mapM fst snd] in *. rewrite E1. subst dj.
  replace (dmerge (toJ (("class", JStr (ccls c)) :: rest)) (toA da)) with (("class", PJ (JStr (ccls c))) :: toJ rest ++ toA da).
  - rewrite pop_head; [|unfold toJ, toA; rewrite map_app, !keys_map; inversion ND; assumption]. cbn [bind]. rewrite D. reflexivity.
  - rewrite dmerge_disjoint; [reflexivity|]. unfold toJ, toA. cbn [map]. simpl. rewrite map_app, !keys_map. exact ND.
Qed.

(** what the saved files say *)
Definition stored (backend : string) (c : circuit) (p : path) (fs : fsys) : Prop :=
  exists l version, mapM serialize1 (comps c) = Ok l /\ let arrays := tagged 0 (map snd l) in
    match arrays with
    | [] => p = (fst p, Json) /\ fs p = Some (FJson (payload version backend arrays (cdata c l)))
    | _ => p = (fst p, Zip) /\ fs p = Some (FZip [((fst p, Json), FJson (payload version backend arrays (cdata c l))); ((fst p, Npz), FNpz arrays)])
    end.
Lemma path_eqb_spec : forall p q, reflect (p = q) (path_eqb p q).
Proof using.
  intros [s e] [s' e']. unfold path_eqb. simpl. destruct (String.eqb_spec s s') as [->|N]; simpl; [|constructor; congruence].
  destruct e, e'; simpl; constructor; congruence.
Qed.
Lemma write_same : forall p c fs, write p c fs p = c.
Proof using. intros. unfold write. destruct (path_eqb_spec p p); congruence. Qed.
Lemma write_other : forall p q c fs, q <> p -> write p c fs q = fs q.
Proof using. intros. unfold write. destruct (path_eqb_spec q p); congruence. Qed.

Lemma good_arrays : forall cs l, Forall2 (fun c p => exists rest, fst p = ("class", JStr (ccls c)) :: rest /\ NoDup ("class" :: map fst rest ++ map fst (snd p)) /\ Forall no_colon (map fst (snd p)) /\
    exists c', deserialize1 (ccls c) (toJ rest ++ toA (snd p)) = Ok c' /\ same_comp c c') cs l ->
  Forall (fun d => NoDup (map fst d) /\ Forall no_colon (map fst d)) (map snd l).
Proof using.
  induction 1 as [|c [dj da] cs l [rest [E [ND [NC _]]]] HF IH]; [constructor|]. constructor; [|exact IH]. cbn [snd] in *. split; [|exact NC].
  inversion ND as [|? ? _ N]; subst. apply NoDup_app_iff in N. apply N.
Qed.
Lemma tagged_fresh : forall l i s, Forall (fun d => NoDup (map fst d) /\ Forall no_colon (map fst d)) l -> no_colon s -> ~ In s (map fst (tagged i l)).
Proof using.
  intros l i s HF Hs X. destruct (tagged_keys _ _ _ X) as [j [d [k [E1 [E2 E3]]]]]. rewrite Forall_forall in HF. destruct (HF d (nth_error_In _ _ E1)) as [_ Z]. rewrite Forall_forall in Z.
  apply (tag_colon k (i + j) s); auto.
Qed.
Lemma serialize_stored : forall backend version stem c fs p fs', Forall good_comp (comps c) -> serialize backend version stem c fs = (Ok p, fs') ->
  stored backend c p fs' /\ fst p = stem /\ (forall q, fst q <> stem -> fs' q = fs q).
Proof using.
  intros backend version stem c fs p fs' HG H. destruct (serialize_list _ HG) as [l [E1 E2]]. unfold serialize in H. rewrite E1 in H. destruct l as [|x l]; [discriminate H|].
  set (L := x :: l) in *. pose proof (good_arrays _ _ E2) as HA. rewrite dmerge_nil in H by now apply tagged_NoDup.
  assert (OV : existsb (fun k => existsb (String.eqb k) (map fst (dset "version" (JStr version) (dset "class" (JStr "Circuit") (cdata c L))))) (map fst (tagged 0 (map snd L))) = false).
  { destruct (existsb _ _) eqn:X; [|reflexivity]. exfalso. apply existsb_exists in X. destruct X as [k [X1 X2]]. apply existsb_exists in X2. destruct X2 as [k' [X2 X3]]. apply String.eqb_eq in X3. subst k'.
    simpl in X2. assert (NK : no_colon k) by (repeat (destruct X2 as [<-|X2]; [simpl; repeat split; discriminate|]); destruct X2).
    exact (tagged_fresh _ _ _ HA NK X1). }
  unfold save in H. change [("path", jpath (cpath c)); ("components", JArr (map (fun p => JObj (fst p)) L))] with (cdata c L) in H. rewrite OV in H.
  destruct (tagged 0 (map snd L)) as [|y ys] eqn:ET.
  - injection H as <- <-. split; [|split; [reflexivity|]].
    + exists L, version. split; [exact E1|]. cbv zeta. rewrite ET. split; [reflexivity|]. apply write_same.
    + intros q Hq. apply write_other. intros ->. now apply Hq.
  - injection H as <- <-. split; [|split; [reflexivity|]].
    + exists L, version. split; [exact E1|]. cbv zeta. rewrite ET. split; [reflexivity|]. cbn [fst]. rewrite !write_other by discriminate. apply write_same.
    + intros q Hq. rewrite !write_other; [reflexivity|intros ->; now apply Hq ..].
Qed.

Lemma deserialize_stored : forall c l, Forall good_comp (comps c) -> mapM serialize1 (comps c) = Ok l ->
  exists c', deserialize (dmerge (toJ (cdata c l)) (toA (tagged 0 (map snd l)))) = Ok c' /\ same_circuit c c'.
Proof using.
  intros c l HG HL. destruct (serialize_list _ HG) as [l' [E1 E2]]. rewrite HL in E1. injection E1 as <-. pose proof (good_arrays _ _ E2) as HA.
  assert (F : forall s, no_colon s -> ~ In s (map fst (toA (tagged 0 (map snd l))))) by (intros s Hs; unfold toA; rewrite keys_map; now apply tagged_fresh).
  assert (FN : NoDup (map fst (toA (tagged 0 (map snd l))))) by (unfold toA; rewrite keys_map; now apply tagged_NoDup).
  rewrite dmerge_disjoint.
  2:{ unfold cdata. unfold toJ. cbn [map fst snd app]. constructor; [intros [X|X]; [discriminate X|]; revert X; apply F; simpl; repeat split; discriminate|]. constructor; [apply F; simpl; repeat split; discriminate|exact FN]. }
  unfold deserialize. unfold cdata, toJ. cbn [map fst snd].
  match goal with |- context [dpop "components" ([?a; ?b] ++ ?r)] => change ([a; b] ++ r) with (a :: b :: r) end.
  rewrite pop_second; [|discriminate|apply F; simpl; repeat split; discriminate]. cbn [bind]. rewrite pop_head by (apply F; simpl; repeat split; discriminate). cbn [bind].
  set (dicts := map (fun o => match o with JObj d => map (fun q => (fst q, PJ (snd q))) d | _ => [] end) (map (fun p => JObj (fst p)) l)).
  pose proof (put_all (map snd l) dicts [] ltac:(eapply Forall_impl; [|exact HA]; simpl; tauto) ltac:(unfold dicts; now rewrite !map_length)) as PA_. 
  match goal with |- context [fold_left put ?x ?y] => match type of PA_ with _ = ?r => assert (PB : fold_left put x y = r) by exact PA_ end end.
  destruct (deserialize_all _ _ E2) as [cs' [D1 D2]]. unfold toJ in D1. rewrite PB. cbn [bind]. exists (mkCirc cs' (of_jpath (jpath (cpath c)))). split; [|split; [exact D2|apply of_jpath_jpath]].
  match goal with |- bind ?m ?k = _ => assert (PC : m = Ok cs') by exact D1; rewrite PC end. reflexivity.
Qed.
Lemma load_stored : forall backend c p rm fs, Forall good_comp (comps c) -> stored backend c p fs ->
  exists c', fst (load backend p rm fs) = Ok c' /\ same_circuit c c' /\
    (if rm then forall e, (e = Zip -> snd p = Zip) -> (e = Npz -> snd p = Zip) -> snd (load backend p rm fs) (fst p, e) = None else stored backend c p (snd (load backend p rm fs))) /\
    (forall q, fst q <> fst p -> snd (load backend p rm fs) q = fs q).
Proof using.
  intros backend [cs pth] [stem e] rm fs HG [l [version [E1 E2]]]. cbn [fst snd] in *. destruct (deserialize_stored _ _ HG E1) as [c' [D1 D2]]. exists c'.
  cbv zeta in E2. destruct (tagged 0 (map snd l)) as [|y ys] eqn:ET.
  - destruct E2 as [E2 E3]. injection E2 as ->. unfold load, load_data. cbn [fst snd]. rewrite E3. unfold payload. 
    cbn [dset String.eqb Ascii.eqb Bool.eqb cdata]. cbv [dpop dget]. cbn [String.eqb Ascii.eqb Bool.eqb filter fst negb bind truthy].
    destruct rm; cbn [orb andb fst snd bind json_is String.eqb Ascii.eqb Bool.eqb].
    + split; [exact D1|]. split; [exact D2|]. split.
      * intros e' He He'. destruct e'; [apply write_same| |]; exfalso; [specialize (He' eq_refl)|specialize (He eq_refl)]; discriminate.
      * intros q Hq. apply write_other. intros ->. now apply Hq.
    + split; [exact D1|]. split; [exact D2|]. split; [|reflexivity]. exists l, version. split; [exact E1|]. cbv zeta. rewrite ET. split; [reflexivity|exact E3].
  - destruct E2 as [E2 E3]. injection E2 as ->. unfold load, load_data. cbn [fst snd]. rewrite E3. unfold extract. cbn [fold_left fst snd].
    rewrite write_other by discriminate. rewrite write_same. unfold payload.
    cbn [dset String.eqb Ascii.eqb Bool.eqb cdata]. cbv [dpop dget]. cbn [String.eqb Ascii.eqb Bool.eqb filter fst negb bind truthy json_is].
    rewrite String.eqb_refl. cbn [negb]. rewrite write_same. rewrite Bool.orb_true_r. cbn [fst snd bind json_is String.eqb Ascii.eqb Bool.eqb].
    split; [exact D1|]. split; [exact D2|]. destruct rm; cbn [andb]; split.
    + intros e' _ _. destruct e'; [rewrite write_other by discriminate; apply write_same|rewrite !write_other by discriminate; apply write_same|apply write_same].
    + intros q Hq. rewrite !write_other; [reflexivity|intros ->; now apply Hq ..].
    + exists l, version. split; [exact E1|]. cbv zeta. rewrite ET. split; [reflexivity|]. cbn [fst]. rewrite !write_other by discriminate. exact E3.
    + intros q Hq. rewrite !write_other; [reflexivity|intros ->; now apply Hq ..].
Qed.
(** C34: what is saved can be loaded, with or without removing the files *)
Theorem C34_roundtrip : forall backend version stem c fs p fs' rm, comps c <> [] -> Forall good_comp (comps c) -> serialize backend version stem c fs = (Ok p, fs') ->
  exists c', fst (load backend p rm fs') = Ok c' /\ same_circuit c c'.
Proof using.
  intros backend version stem c fs p fs' rm _ HG H. destruct (serialize_stored _ _ _ _ _ _ _ HG H) as [HS _]. destruct (load_stored backend c p rm fs' HG HS) as [c' [H1 [H2 _]]]. eauto.
Qed.
(** saving such a circuit always succeeds *)
Theorem C34_saves : forall backend version stem c fs, comps c <> [] -> Forall good_comp (comps c) -> exists p fs', serialize backend version stem c fs = (Ok p, fs').
Proof using.
  intros backend version stem c fs HN HG. destruct (serialize_list _ HG) as [l [E1 E2]]. unfold serialize. rewrite E1. destruct l as [|x l]; [inversion E2; congruence|].
  set (L := x :: l) in *. pose proof (good_arrays _ _ E2) as HA. rewrite dmerge_nil by now apply tagged_NoDup. unfold save.
  destruct (tagged 0 (map snd L)) as [|y ys] eqn:ET; [eauto|]. rewrite <- ET.
  destruct (existsb _ (map fst (tagged 0 (map snd L)))) eqn:X; [|eauto]. exfalso. apply existsb_exists in X. destruct X as [k [X1 X2]]. apply existsb_exists in X2. destruct X2 as [k' [X2 X3]].
  apply String.eqb_eq in X3. subst k'. simpl in X2. assert (NK : no_colon k) by (repeat (destruct X2 as [<-|X2]; [simpl; repeat split; discriminate|]); destruct X2).
  exact (tagged_fresh _ _ _ HA NK X1).
Qed.

(** ** Histories *)
(** what else may happen between saving and loading: other saves (of anything), loads of anything *)
Inductive op :=
| OSave (cls backend version stem : string) (do_zip : bool) (arrays : dict arr) (data : dict json)
| OLoad (backend : string) (file : path) (remove_after : bool).
Definition run1 (o : op) (fs : fsys) : fsys :=
  match o with
  | OSave cls bk v s z a d => snd (save cls bk v s z a d fs)
  | OLoad bk f rm => snd (load_data bk f rm fs)
  end.
Definition run (os : list op) (fs : fsys) : fsys := fold_left (fun f o => run1 o f) os fs.
(** it uses another name, or loads this very file without removing it *)
Definition harmless (p : path) (o : op) : Prop :=
  match o with OSave _ _ _ s _ _ _ => s <> fst p | OLoad _ f rm => fst f <> fst p \/ (f = p /\ rm = false) end.
(** archives contain the two files named after them *)
Definition own_zips (fs : fsys) : Prop := forall s ms, fs (s, Zip) = Some (FZip ms) -> Forall (fun m => fst (fst m) = s /\ snd (fst m) <> Zip) ms.
Lemma extract_other : forall ms fs q, Forall (fun m => fst m <> q) ms -> extract ms fs q = fs q.
Proof using. unfold extract. induction ms as [|m ms IH]; intros fs q H; [reflexivity|]. inversion H as [|? ? H1 H2]; subst. simpl. rewrite IH by exact H2. apply write_other. congruence. Qed.
Lemma extract_stem : forall s ms fs q, Forall (fun m => fst (fst m) = s /\ snd (fst m) <> Zip) ms -> fst q <> s \/ snd q = Zip -> extract ms fs q = fs q.
Proof using.
  intros s ms fs q H Hq. apply extract_other. eapply Forall_impl; [|exact H]. intros m [M1 M2] E. subst q. destruct Hq; contradiction.
Qed.
Lemma save_frame : forall cls bk v s z a d fs q, fst q <> s -> snd (save cls bk v s z a d fs) q = fs q.
Proof using.
  intros. unfold save. destruct a; [simpl; apply write_other; intros ->; now apply H|]. destruct (existsb _ _); [reflexivity|].
  destruct z; cbn [snd]; rewrite !write_other; try reflexivity; intros ->; now apply H.
Qed.
Ltac wr := repeat (rewrite write_other by (first [discriminate | (let X := fresh in intros X; subst; simpl in *; congruence)])).
Lemma load_frame : forall bk f rm fs q, own_zips fs -> fst q <> fst f \/ (snd f = Zip /\ snd q = Zip /\ rm = false) \/ (rm = false /\ snd f <> Zip) -> snd (load_data bk f rm fs) q = fs q.
Proof using.
  intros bk [s e] rm fs q HZ HQ. cbn [fst snd] in HQ. unfold load_data. cbn [fst snd].
  assert (W : forall e' c fs0, (e' = Zip -> rm = true) -> (e' <> Zip -> rm = true \/ e = Zip) -> write (s, e') c fs0 q = fs0 q).
  { intros e' c fs0 K1 K2. apply write_other. intros ->. cbn [fst snd] in HQ. destruct HQ as [HQ|[[A1 [A2 A3]]|[A1 A2]]]; [now apply HQ|subst; specialize (K1 eq_refl); discriminate|].
    subst rm. destruct e'; [destruct K2 as [K2|K2]; congruence|destruct K2 as [K2|K2]; congruence|specialize (K1 eq_refl); discriminate]. }
  destruct (match e with Zip => _ | _ => _ end) as [[fs1 jf]|] eqn:EO; [|reflexivity].
  assert (Q1 : fs1 q = fs q /\ (exists e', jf = (s, e') /\ e' <> Zip \/ jf = (s, e') /\ e' = e /\ e <> Zip)).
  { destruct e; [injection EO as <- <-; split; [reflexivity|]; exists Json; left; split; [reflexivity|discriminate]|injection EO as <- <-; split; [reflexivity|]; exists Npz; left; split; [reflexivity|discriminate]|].
    destruct (fs (s, Zip)) as [[|?|ms]|] eqn:EZ; try discriminate EO. injection EO as <- <-. split; [|exists Json; left; split; [reflexivity|discriminate]].
    apply (extract_stem s); [now apply HZ|]. destruct HQ as [HQ|[[_ [HQ _]]|[_ HQ]]]; [now left|now right|congruence]. }
  destruct Q1 as [Q1 [e' Q2]]. assert (Q3 : jf = (s, e') /\ e' <> Zip) by (destruct Q2 as [[A B]|[A [B C]]]; subst; auto). clear Q2. destruct Q3 as [-> NE].
  assert (RW : rm || match e with Zip => true | _ => false end = true -> rm = true \/ e = Zip) by (destruct rm, e; simpl; auto; discriminate).
  destruct (fs1 (s, e')) as [[data|?|?]|]; try exact Q1.
  destruct (bind _ _) as [[[c a] d3]|]; [|exact Q1].
  assert (FIN : forall d f, f q = fs q -> snd (if rm || match e with Zip => true | _ => false end then
       let f1 := write (s, e') None f in (Ok (c, d) : result (json * dict pyval), if rm && match e with Zip => true | _ => false end then write (s, Zip) None f1 else f1) else (Ok (c, d), f)) q = fs q).
  { intros d f Hf. destruct (rm || _) eqn:ER; [|exact Hf]. cbn [snd]. destruct (rm && _) eqn:EA.
    - apply andb_prop in EA. destruct EA as [EA _]. rewrite W; [|intros _; exact EA|congruence]. rewrite W; [exact Hf|congruence|intros _; now left].
    - rewrite W; [exact Hf|congruence|intros _; now apply RW]. }
  destruct (truthy a).
  - destruct (dpop "backend" d3) as [[bkv d4]|]; [|exact Q1]. destruct (negb _).
    + destruct e; cbn [snd]; [exact Q1|exact Q1|]. rewrite W; [|congruence|intros _; now right]. rewrite W; [exact Q1|discriminate|intros _; now right].
    + destruct (fs1 (s, Npz)) as [[?|arrs|?]|]; try exact Q1. apply FIN. destruct (rm || _) eqn:ER; [|exact Q1]. rewrite W; [exact Q1|discriminate|intros _; now apply RW].
  - apply FIN, Q1.
Qed.
Lemma own_save : forall cls bk v s z a d fs, own_zips fs -> own_zips (snd (save cls bk v s z a d fs)).
Proof using.
  intros cls bk v s z a d fs H s' ms. unfold save. destruct a as [|x a]; [simpl; rewrite write_other by discriminate; apply H|]. destruct (existsb _ _); [apply H|].
  destruct z; cbn [snd]; rewrite ?write_other by discriminate; [|apply H]. unfold write at 1. destruct (path_eqb_spec (s', Zip) (s, Zip)) as [E|E].
  - injection E as ->. intros X. injection X as <-. repeat constructor; discriminate.
  - rewrite ?write_other by discriminate. apply H.
Qed.
Lemma load_zip_other : forall bk f rm fs s', own_zips fs -> (snd (load_data bk f rm fs) (s', Zip) = fs (s', Zip)) \/ snd (load_data bk f rm fs) (s', Zip) = None.
Proof using.
  intros bk [s e] rm fs s' HZ. unfold load_data. cbn [fst snd].
  destruct (match e with Zip => _ | _ => _ end) as [[fs1 jf]|] eqn:EO; [|now left].
  assert (Q1 : fs1 (s', Zip) = fs (s', Zip)).
  { destruct e; [injection EO as <- <-; reflexivity|injection EO as <- <-; reflexivity|]. destruct (fs (s, Zip)) as [[|?|ms]|] eqn:EZ; try discriminate EO. injection EO as <- <-.
    apply (extract_stem s); [now apply HZ|now right]. }
  assert (W : forall p f, f (s', Zip) = fs (s', Zip) \/ f (s', Zip) = None -> write p None f (s', Zip) = fs (s', Zip) \/ write p None f (s', Zip) = None).
  { intros p f. unfold write. destruct (path_eqb _ _); auto. }
  destruct (fs1 jf) as [[data|?|?]|]; try (left; exact Q1).
  destruct (bind _ _) as [[[c a] d3]|]; [|left; exact Q1].
  destruct (truthy a).
  - destruct (dpop "backend" d3) as [[bkv d4]|]; [|left; exact Q1]. destruct (negb _).
    + destruct e; cbn [snd]; [left; exact Q1|left; exact Q1|]. apply W, W. now left.
    + destruct (fs1 (s, Npz)) as [[?|arrs|?]|]; try (left; exact Q1). destruct (rm || _); cbn [snd]; [|now left]. destruct (rm && _); [apply W|]; apply W, W; now left.
  - destruct (rm || _); cbn [snd]; [|now left]. destruct (rm && _); [apply W|]; apply W; now left.
Qed.
Lemma own_run1 : forall o fs, own_zips fs -> own_zips (run1 o fs).
Proof using.
  intros [cls bk v s z a d|bk f rm] fs H; [now apply own_save|]. intros s' ms X. simpl in X. destruct (load_zip_other bk f rm fs s' H) as [E|E]; rewrite E in X; [now apply H|discriminate].
Qed.
(** C34, histories: a saved circuit stays loadable as long as its name is not used for another file and it is not removed *)
Theorem C34_history : forall backend version stem c fs p fs1 ops rm, comps c <> [] -> Forall good_comp (comps c) -> own_zips fs ->
  serialize backend version stem c fs = (Ok p, fs1) -> Forall (harmless p) ops ->
  exists c', fst (load backend p rm (run ops fs1)) = Ok c' /\ same_circuit c c'.
Proof using.
  intros backend version stem c fs p fs1 ops rm _ HG HZ H HO. destruct (serialize_stored _ _ _ _ _ _ _ HG H) as [HS [Hp _]].
  assert (Z1 : own_zips fs1).
  { unfold serialize in H. destruct (mapM serialize1 (comps c)) as [[|x l]|]; [discriminate| |discriminate].
    match type of H with save ?a ?b ?c ?d ?e ?f ?g ?h = _ => pose proof (own_save a b c d e f g h HZ) as X; rewrite H in X; exact X end. }
  assert (I : own_zips (run ops fs1) /\ stored backend c p (run ops fs1)).
  { clear H. revert fs1 HS Z1. induction HO as [|o ops Ho HO IH]; intros fs1 HS Z1; [auto|]. simpl. apply IH; [|now apply own_run1].
    assert (E : run1 o fs1 p = fs1 p).
    { destruct o as [cls bk v s z a d|bk f r]; simpl in Ho |- *; [apply save_frame; congruence|]. apply load_frame; [exact Z1|]. destruct Ho as [Ho|[-> ->]]; [left; congruence|]. right.
      destruct (snd p) eqn:Ep; [right|right|left]; repeat split; congruence. }
    destruct HS as [l [v [S1 S2]]]. exists l, v. split; [exact S1|]. cbv zeta in *. rewrite E. exact S2. }
  destruct (load_stored backend c p rm _ HG (proj2 I)) as [c' [H1 [H2 _]]]. eauto.
Qed.
(** C34: loading with remove_after leaves no file behind; without it the saved file stays *)
Theorem C34_cleanup : forall backend version stem c fs p fs', comps c <> [] -> Forall good_comp (comps c) -> serialize backend version stem c fs = (Ok p, fs') ->
  (forall e, (e = Zip -> snd p = Zip) -> (e = Npz -> snd p = Zip) -> snd (load backend p true fs') (fst p, e) = None) /\
  snd (load backend p false fs') p = fs' p /\ (forall rm q, fst q <> fst p -> snd (load backend p rm fs') q = fs' q).
Proof using.
  intros backend version stem c fs p fs' _ HG H. destruct (serialize_stored _ _ _ _ _ _ _ HG H) as [HS _]. destruct (load_stored backend c p true fs' HG HS) as [_ [_ [_ [A B]]]].
  destruct (load_stored backend c p false fs' HG HS) as [_ [_ [_ [A' B']]]]. split; [exact A|]. split; [|intros [] q Hq; [now apply B|now apply B']].
  destruct HS as [l [v [S1 S2]]]. destruct A' as [l' [v' [S1' S2']]]. rewrite S1 in S1'. injection S1' as <-. cbv zeta in *. unfold load in *.
  destruct p as [s e]. cbn [fst snd] in *. destruct (tagged 0 (map snd l)) eqn:ET; destruct S2 as [E S2]; destruct S2' as [E' S2']; injection E as ->.
  - unfold load_data. cbn [fst snd]. rewrite S2. unfold payload. cbn [dset String.eqb Ascii.eqb Bool.eqb cdata]. cbv [dpop dget]. cbn [String.eqb Ascii.eqb Bool.eqb filter fst negb bind truthy orb andb snd]. exact S2.
  - unfold load_data. cbn [fst snd]. rewrite S2. unfold extract. cbn [fold_left fst snd].
    rewrite write_other by discriminate. rewrite write_same. unfold payload.
    cbn [dset String.eqb Ascii.eqb Bool.eqb cdata]. cbv [dpop dget]. cbn [String.eqb Ascii.eqb Bool.eqb filter fst negb bind truthy json_is].
    rewrite String.eqb_refl. cbn [negb]. rewrite write_same. cbn [orb andb snd]. rewrite !write_other by discriminate. exact S2.
Qed.
(** C34: a circuit saved under one backend is refused by another, and the file stays *)
Theorem C34_backend : forall backend backend' version stem c fs p fs' rm, backend <> backend' -> comps c <> [] -> Forall good_comp (comps c) ->
  serialize backend version stem c fs = (Ok p, fs') -> snd p = Zip -> fst (load backend' p rm fs') = Err TypeError /\ snd (load backend' p rm fs') p = fs' p.
Proof using.
  intros backend backend' version stem c fs p fs' rm N _ HG H Hp. destruct (serialize_stored _ _ _ _ _ _ _ HG H) as [[l [v [S1 S2]]] _]. cbv zeta in S2. destruct p as [s e]. cbn [fst snd] in *. subst e.
  destruct (tagged 0 (map snd l)) eqn:ET; destruct S2 as [E S2]; [discriminate E|]. unfold load, load_data. cbn [fst snd]. rewrite S2. unfold extract. cbn [fold_left fst snd].
  rewrite write_other by discriminate. rewrite write_same. unfold payload.
  cbn [dset String.eqb Ascii.eqb Bool.eqb cdata]. cbv [dpop dget]. cbn [String.eqb Ascii.eqb Bool.eqb filter fst negb bind truthy json_is].
  destruct (String.eqb_spec backend backend'); [contradiction|]. cbn [negb fst snd bind]. rewrite !write_other by discriminate. split; [reflexivity|exact S2].
Qed.
End S.

(** ** Examples and counterexamples: numbers and array contents are natural numbers *)
Section Ex.
Let Flt := nat. Let Dat := nat.
(** sgate.py:84-123 (bounds default (0, None) for r), ggate.py:53-58 (no bounds argument), vacuum.py:62-72 (no parameter) *)
Definition ex_classes (s : string) : option (pyclass Flt Dat) :=
  if String.eqb s "Ket" then Some (Abstract _ _)
  else if String.eqb s "Sgate" then
    Some (BuiltIn _ _ "mode" [mkS _ _ "r" true true (Some (AInt _ 0)) (Some 0, None); mkS _ _ "phi" true true (Some (AInt _ 0)) (None, None)] "Sgate"
           (fun ms => [[]; []; ms; ms; []; []]) (fun ms ps => PolyExp _ (AData _ (List.length ps)) (AInt _ 0) (AInt _ 1) false))
  else if String.eqb s "Ggate" then
    Some (BuiltIn _ _ "modes" [mkS _ _ "symplectic" true false None (None, None)] "Ggate"
           (fun ms => [[]; []; ms; ms; []; []]) (fun ms ps => PolyExp _ (AData _ 5) (AInt _ 0) (AInt _ 1) false))
  else if String.eqb s "Vacuum" then
    Some (BuiltIn _ _ "modes" [] "Vac" (fun ms => [[]; []; ms; []; []; []]) (fun ms ps => PolyExp _ (AInt _ 0) (AInt _ 0) (AInt _ 1) false))
  else None.
Notation good := (good_comp Flt Dat ex_classes).
Notation ser := (serialize Flt Dat ex_classes "numpy" "1.0").
Notation ld := (load Flt Dat ex_classes "numpy").
Notation mkc := (mkC Flt Dat).
Definition no_files : fsys Flt Dat := fun _ => None.
(** a ket on mode 1 and a squeezing gate with trainable r in [0, 3] *)
Definition ex_ket : comp Flt Dat := mkc "Ket" "psi" [[]; []; [1]; []; []; []] (PolyExp _ (AData _ 7) (AData _ 8) (AData _ 9) false) [].
Definition ex_sgate : comp Flt Dat := mkc "Sgate" "Sgate" [[]; []; [1]; [1]; []; []] (PolyExp _ (AData _ 2) (AInt _ 0) (AInt _ 1) false)
  [mkP _ _ "phi" (AData _ 4) None; mkP _ _ "r" (AData _ 3) (Some (Some 0, Some 3))].
Definition ex_circuit : circuit Flt Dat := mkCirc _ _ [ex_ket; ex_sgate] [(0, 1)].
Lemma ex_good : Forall good (comps _ _ ex_circuit).
Proof.
  constructor; [left; split; reflexivity|]. constructor; [|constructor]. right. exists [1], [mkP _ _ "r" (AData _ 3) (Some (Some 0, Some 3)); mkP _ _ "phi" (AData _ 4) None].
  unfold built. do 5 eexists. split; [reflexivity|]. split; [|split; [|split; reflexivity]].
  - split; [|repeat constructor; discriminate]. simpl. repeat constructor; simpl; intros X; repeat (destruct X as [X|X]; [discriminate X|]); exact X.
  - repeat constructor; simpl; auto.
Qed.
Lemma C34_example : Forall good (comps _ _ ex_circuit) /\ own_zips _ _ no_files /\ fst (ser "c" ex_circuit no_files) = Ok ("c", Zip) /\
  fst (ld ("c", Zip) false (snd (ser "c" ex_circuit no_files))) = Ok ex_circuit.
Proof. split; [exact ex_good|]. split; [intros s ms X; discriminate X|]. split; reflexivity. Qed.

(** a linear superposition (e.g. a cat state, Coherent + Coherent) comes back as a batch of states: lin_sup is not saved *)
Theorem C34_refuted_superposition : exists c c' p fs, ser "c" (mkCirc _ _ [c] []) no_files = (Ok p, fs) /\ fst (ld p false fs) = Ok (mkCirc _ _ [c'] []) /\
  ccls _ _ c = "Ket" /\ can _ _ c = PolyExp _ (AData _ 7) (AData _ 8) (AData _ 9) true /\ can _ _ c' = PolyExp _ (AData _ 7) (AData _ 8) (AData _ 9) false.
Proof.
  exists (mkc "Ket" "cat" [[]; []; [1]; []; []; []] (PolyExp _ (AData _ 7) (AData _ 8) (AData _ 9) true) []), (mkc "Ket" "cat" [[]; []; [1]; []; []; []] (PolyExp _ (AData _ 7) (AData _ 8) (AData _ 9) false) []).
  eexists _, _. split; [reflexivity|]. repeat split; reflexivity.
Qed.
(** a Ggate with a trainable symplectic matrix is saved, but its constructor does not take the saved bounds *)
Definition ex_ggate : comp Flt Dat := mkc "Ggate" "Ggate" [[]; []; [1]; [1]; []; []] (PolyExp _ (AData _ 5) (AInt _ 0) (AInt _ 1) false) [mkP _ _ "symplectic" (AData _ 6) (Some (None, None))].
Theorem C34_refuted_trainable : exists p fs, ser "c" (mkCirc _ _ [ex_ggate] []) no_files = (Ok p, fs) /\ fst (ld p false fs) = Err TypeError /\
  deserialize1 Flt Dat ex_classes "Ggate" [("modes", PJ _ _ (jmodes _ [1])); ("symplectic", PA _ _ (AData _ 6)); ("symplectic_trainable", PJ _ _ (JBool _ true))] = Ok ex_ggate.
Proof. eexists _, _. split; [reflexivity|]. split; reflexivity. Qed.
(** a gate converted with to_fock keeps its class, so the conversion is lost *)
Theorem C34_refuted_converted : exists c c' p fs, ser "c" (mkCirc _ _ [c] []) no_files = (Ok p, fs) /\ fst (ld p false fs) = Ok (mkCirc _ _ [c'] []) /\
  c = mkc "Sgate" "Sgate" (cwires _ _ ex_sgate) (ArrayAn _ (AData _ 11) 0) (cpar _ _ ex_sgate) /\ can _ _ c' = can _ _ ex_sgate.
Proof. exists (mkc "Sgate" "Sgate" (cwires _ _ ex_sgate) (ArrayAn _ (AData _ 11) 0) (cpar _ _ ex_sgate)). eexists ex_sgate, _, _. split; [reflexivity|]. split; [reflexivity|]. split; reflexivity. Qed.
(** the empty circuit cannot be saved *)
Theorem C34_refuted_empty : forall cl bk v stem fs path, serialize Flt Dat cl bk v stem (mkCirc _ _ [] path) fs = (Err ValueError, fs).
Proof. reflexivity. Qed.
(** saving a second circuit under the same name can destroy the first file although the two paths differ *)
Definition ex_vac : comp Flt Dat := mkc "Vacuum" "Vac" [[]; []; [0]; []; []; []] (PolyExp _ (AInt _ 0) (AInt _ 0) (AInt _ 1) false) [].
Theorem C34_refuted_same_name : exists p1 fs1 p2 fs2, ser "c" (mkCirc _ _ [ex_vac] []) no_files = (Ok p1, fs1) /\ ser "c" ex_circuit fs1 = (Ok p2, fs2) /\ p1 <> p2 /\
  fst (ld p1 false fs1) = Ok (mkCirc _ _ [ex_vac] []) /\ fst (ld p1 false fs2) = Err RuntimeError.
Proof. do 4 eexists. split; [reflexivity|]. split; [reflexivity|]. split; [discriminate|]. split; reflexivity. Qed.
(** generic data: a key named "backend" is overwritten and does not come back *)
Theorem C34_refuted_backend_key : exists p fs, save Flt Dat "D" "numpy" "1.0" "d" true [("x", AData _ 1)] [("backend", JNat _ 5); ("k", JNat _ 2)] no_files = (Ok p, fs) /\
  fst (load_data Flt Dat "numpy" p false fs) = Ok (JStr _ "D", [("k", PJ _ _ (JNat _ 2)); ("x", PA _ _ (AData _ 1))]).
Proof. eexists _, _. split; reflexivity. Qed.
End Ex.
