(** The declarations of parameters and results in the signatures that library functions must have.

    Source: reg = /repo/projects/pt1/python/torch_mlir/jit_ir_importer/build_tools/registry.py; see RegistryModel for the signatures
    that are put together from them.  Python's [repr] of a string is modelled for texts of printable characters, newlines and tabs. *)
From Coq Require Import Ascii String Bool Arith List.
From Verif Require Import GenTextModel.
Import ListNotations.
Open Scope string_scope.
Open Scope list_scope.
Open Scope nat_scope.

(** Python's [w in s] *)
Fixpoint occurs (w s : text) : bool := starts w s || match s with [] => false | _ :: r => occurs w r end.
Fixpoint text_eqb (a b : text) : bool :=
  match a, b with [], [] => true | x :: a, y :: b => Ascii.eqb x y && text_eqb a b | _, _ => false end.
Definition apostrophe : ascii := "'"%char.
Definition repr (s : text) : text :=
  let has c := existsb (Ascii.eqb c) s in
  let q := if has apostrophe && negb (has quotation) then quotation else apostrophe in
  let escape c := if Ascii.eqb c backslash then txt "\\" else if Ascii.eqb c newline then txt "\n" else if Ascii.eqb c (ascii_of_nat 9) then txt "\t"
                  else if Ascii.eqb c q then [backslash; c] else [c] in
  [q] ++ flat_map escape s ++ [q].

(** An argument or a result: its name, its Python type, and its default value if it has one. *)
Record attr := { a_name : text; pytype : text; default_debug : option text }.
(** _rename_python_keyword_parameter_name, reg l.22-25 *)
Definition rename (name : text) : text := if text_eqb name (txt "from") then txt "from_" else name.
(** _get_default_value, reg l.28-52 *)
Definition get_default_value (arg : attr) : text :=
  match default_debug arg with
  | Some default_list =>
      let default_debug :=
        if occurs (txt "List") (pytype arg) then
          if text_eqb default_list (txt "[]") then txt "()" else replace (txt "]") (txt ",)") (replace (txt "[") (txt "(") default_list)
        else if text_eqb (pytype arg) (txt "str") then replace (txt "'") [quotation] (repr default_list)
        else default_list in
      txt " = " ++ default_debug
  | None => []
  end.
(** _pytype_to_fn_pytype_common, reg l.54-69 *)
Definition pytype_common (p : text) : text :=
  if occurs (txt "number") p then replace (txt "number") (txt "Union[int, float, complex]") p
  else if text_eqb p (txt "Device") then txt "device"
  else if text_eqb p (txt "Optional[Device]") then txt "Optional[device]"
  else if text_eqb p (txt "Generator") then txt "Any"
  else if text_eqb p (txt "Optional[Generator]") then txt "Any"
  else p.
(** _pytype_to_shape_fn_pytype, reg l.72-91 *)
Definition pytype_shape (p : text) : text :=
  if occurs (txt "number") p then replace (txt "number") (txt "float") p
  else if occurs (txt "Tensor") p then replace (txt "Tensor") (txt "List[int]") p
  else pytype_common p.
(** _pytype_to_dtype_fn_pytype, reg l.94-103 *)
Definition pytype_dtype (p : text) : text :=
  if occurs (txt "Tensor") p then replace (txt "Tensor") (txt "Tuple[int, int]") p else pytype_common p.
(** The declarations that the signatures of shape, dtype and decomposition functions are made of, reg l.235-242, l.257-273 and l.287-294
    (_pytype_to_decomposition_fn_pytype, reg l.106-108, is _pytype_to_fn_pytype_common) *)
Definition shape_parameter (a : attr) : text := rename (a_name a) ++ txt ": " ++ pytype_shape (pytype a) ++ get_default_value a.
Definition shape_result (a : attr) : text := pytype_shape (pytype a).
Definition dtype_parameter (a : attr) : text :=
  if occurs (txt "Tensor") (pytype a) then rename (a_name a) ++ txt "_rank_dtype: " ++ pytype_dtype (pytype a) ++ get_default_value a
  else rename (a_name a) ++ txt ": " ++ pytype_dtype (pytype a) ++ get_default_value a.
Definition dtype_result (a : attr) : text :=
  if text_eqb (pytype a) (txt "number") || text_eqb (pytype a) (txt "Tensor") then txt "int" else pytype_dtype (pytype a).
Definition decomposition_parameter (a : attr) : text := rename (a_name a) ++ txt ": " ++ pytype_common (pytype a) ++ get_default_value a.
Definition decomposition_result (a : attr) : text := pytype_common (pytype a).
