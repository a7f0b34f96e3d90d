(** Option validation: qmeq/builder/validation.py 4-67, qmeq/builder/builder_base.py 110-127, 164-189,
    qmeq/builder/builder_elph.py 93-96 and the approach classes imported at the top of both builder modules. *)
From Coq Require Import String Ascii List ZArith Bool QArith.
Import ListNotations.
Open Scope string_scope.
Local Notation length := List.length.

(** Hashable Python values as far as the validators can tell them apart. *)
Inductive PyVal := PInt (z : Z) | PBool (b : bool) | PFloat (q : Q) | PStr (s : string) | PNone.
(** [v == z] for an integer literal: numbers compare by value, True == 1 and False == 0 *)
Definition py_eqz (v : PyVal) (z : Z) : bool :=
  match v with
  | PInt y => (y =? z)%Z
  | PBool b => ((if b then 1 else 0) =? z)%Z
  | PFloat q => Qeq_bool q (inject_Z z)
  | _ => false
  end.
Definition py_inz (v : PyVal) (l : list Z) : bool := existsb (py_eqz v) l.

(** [kerntype]: a string, or an Approach class with its own [kerntype] attribute (builder_base.py 125-127).
    A class is never equal to a string. *)
Inductive KT := KName (s : string) | KClass (attr : string).
Definition str_in (s : string) (l : list string) : bool := existsb (String.eqb s) l.
Definition kt_in (k : KT) (l : list string) : bool := match k with KName s => str_in s l | KClass _ => false end.

(** lines 6-7 *)
Definition kerntypes : list string :=
  ["Pauli"; "Lindblad"; "Redfield"; "1vN"; "2vN"; "pyPauli"; "pyLindblad"; "pyRedfield"; "py1vN"; "py2vN"; "pyRTD"; "RTD"].
(** lines 4-13 *)
Definition validate_kerntype (k : KT) : KT :=
  match k with
  | KName s => if str_in s kerntypes then k else KName "Pauli"
  | KClass _ => k
  end.
(** lines 16-25 *)
Definition validate_itype (itype : PyVal) (k : KT) : PyVal :=
  if negb (kt_in k ["RTD"; "pyRTD"]) then
    if negb (py_inz itype [0; 1; 2; 3]%Z) then PInt 0 else itype
  else if negb (py_eqz itype 1) then PInt 1 else itype.
(** lines 28-32 *)
Definition validate_itype_ph (itype_ph : PyVal) : PyVal :=
  if negb (py_inz itype_ph [0; 2]%Z) then PInt 0 else itype_ph.
(** lines 34-38; never called *)
Definition validate_mfreeq (k : KT) (mfreeq : bool) : bool :=
  if mfreeq && kt_in k ["RTD"; "pyRTD"] then false else mfreeq.
(** lines 40-67; None is Python's None, other non-string values behave like unknown names *)
Definition opt_is (o : option string) (s : string) : bool := match o with Some x => String.eqb x s | None => false end.
Definition validate_indexing (indexing symmetry : option string) (k : KT) : string * option string :=
  let '(indexing, symmetry) :=
    match indexing with
    | None =>
        if opt_is symmetry "spin" && kt_in k ["pyRTD"; "RTD"] then ("charge", None)
        else if opt_is symmetry "spin" && negb (kt_in k ["py2vN"; "2vN"]) then ("ssq", symmetry)
        else ("charge", symmetry)
    | Some i => (i, symmetry)
    end in
  let indexing := if negb (str_in indexing ["Lin"; "charge"; "sz"; "ssq"]) then "charge" else indexing in
  let indexing := if negb (str_in indexing ["Lin"; "charge"]) && kt_in k ["py2vN"; "2vN"] then "charge" else indexing in
  let indexing := if negb (String.eqb indexing "charge") && kt_in k ["pyRTD"; "RTD"] then "charge" else indexing in
  (indexing, symmetry).

(** *** BuilderBase *)
Record Options := mkOptions {
  op_itype : PyVal; op_kern : KT; op_indexing : option string; op_symmetry : option string; op_mfreeq : bool }.
(** builder_base.py 110-116, in that order; mfreeq is not looked at *)
Definition validate_data (o : Options) : Options :=
  let itype := validate_itype (op_itype o) (op_kern o) in
  let kern := validate_kerntype (op_kern o) in
  let '(ix, sym) := validate_indexing (op_indexing o) (op_symmetry o) kern in
  mkOptions itype kern (Some ix) sym (op_mfreeq o).

(** builder_base.py 121-127: [kerntype[0].capitalize() + kerntype[1:]] looked up in the module's globals; the result is
    the kerntype of the approach (with compiled modules).  None = KeyError or IndexError. *)
Definition upper (c : ascii) : ascii :=
  if (97 <=? N_of_ascii c)%N && (N_of_ascii c <=? 122)%N then ascii_of_N (N_of_ascii c - 32)%N else c.
Definition capitalised (s : string) : option string :=
  match s with EmptyString => None | String c r => Some (String (upper c) r) end.
Fixpoint lookup (s : string) (l : list (string * string)) : option string :=
  match l with [] => None | (k, v) :: r => if String.eqb s k then Some v else lookup s r end.
(** builder_base.py 31-47 *)
Definition base_globals : list (string * string) :=
  [("PyPauli", "pyPauli"); ("PyLindblad", "pyLindblad"); ("PyRedfield", "pyRedfield"); ("Py1vN", "py1vN");
   ("Py2vN", "py2vN"); ("PyRTD", "pyRTD"); ("Pauli", "Pauli"); ("Lindblad", "Lindblad"); ("Redfield", "Redfield");
   ("1vN", "1vN"); ("2vN", "2vN"); ("RTD", "RTD")].
(** builder_elph.py 15-28 *)
Definition elph_globals : list (string * string) :=
  [("PyPauli", "pyPauli"); ("PyLindblad", "pyLindblad"); ("PyRedfield", "pyRedfield"); ("Py1vN", "py1vN");
   ("Py2vN", "py2vN"); ("Pauli", "Pauli"); ("Lindblad", "Lindblad"); ("Redfield", "Redfield");
   ("1vN", "1vN"); ("2vN", "2vN")].
Definition approach_of (globals : list (string * string)) (k : KT) : option string :=
  match k with
  | KName s => match capitalised s with Some c => lookup c globals | None => None end
  | KClass attr => Some attr
  end.

(** What a built system holds: the approach in use and the options it was built with. *)
Record Built := mkBuilt {
  bt_approach : string; bt_itype : PyVal; bt_indexing : string; bt_symmetry : option string; bt_mfreeq : bool }.
Definition build (globals : list (string * string)) (o : Options) : option Built :=
  let v := validate_data o in
  match approach_of globals (op_kern v), op_indexing v with
  | Some a, Some ix => Some (mkBuilt a (op_itype v) ix (op_symmetry v) (op_mfreeq v))
  | _, _ => None
  end.
(** builder_base.py 178-189: no validation; the indexing object keeps [indexing] and [symmetry] (164-172) *)
Definition set_kerntype (globals : list (string * string)) (b : Built) (k : KT) : option Built :=
  match k with
  | KName s =>
      if String.eqb (bt_approach b) s then Some b
      else option_map (fun a => mkBuilt a (bt_itype b) (bt_indexing b) (bt_symmetry b) (bt_mfreeq b)) (approach_of globals k)
  | KClass a => Some (mkBuilt a (bt_itype b) (bt_indexing b) (bt_symmetry b) (bt_mfreeq b))
  end.
