(** The registry of operators, the names of library functions, and what is generated from them.

    Sources: reg, libgen and ods = registry.py, library_generator.py and torch_ods_gen.py in
    /repo/projects/pt1/python/torch_mlir/jit_ir_importer/build_tools/; reify = /repo/lib/Dialect/Torch/Transforms/ReifyAbstractInterpCalculationsUtils.cpp.
    [None] is an exception. *)
From Coq Require Import Ascii String Bool Arith List.
From Verif Require Import Prelude.
Import ListNotations.
Open Scope string_scope.
Open Scope list_scope.
Open Scope nat_scope.

(** Characters: ASCII, and the two others that occur in names of functions, 〇 and 〡. *)
Inductive char := Ch (a : ascii) | Circle | Bar.
Definition text := list char.
Definition txt (s : string) : text := map Ch (list_ascii_of_string s).
Definition char_eqb (a b : char) : bool :=
  match a, b with Ch x, Ch y => Ascii.eqb x y | Circle, Circle | Bar, Bar => true | _, _ => false end.
Fixpoint text_eqb (a b : text) : bool :=
  match a, b with [], [] => true | x :: a, y :: b => char_eqb x y && text_eqb a b | _, _ => false end.
Definition dot : char := Ch "."%char.
Definition underscore : char := Ch "_"%char.
Definition colon : char := Ch ":"%char.
(** Python's split at a character and join. *)
Fixpoint split (c : char) (s : text) : list text :=
  match s with
  | [] => [[]]
  | x :: r => if char_eqb x c then [] :: split c r else match split c r with [] => [[x]] | h :: t => (x :: h) :: t end
  end.
Fixpoint join (sep : text) (l : list text) : text :=
  match l with [] => [] | [x] => x | x :: r => x ++ sep ++ join sep r end.
(** The first and last part of [name.partition("::")] *)
Fixpoint partition (s : text) : text * text :=
  match s with
  | x :: (y :: r) as t => if char_eqb x colon && char_eqb y colon then ([], r) else let (a, b) := partition t in (x :: a, b)
  | x :: t => let (a, b) := partition t in (x :: a, b)
  | [] => ([], [])
  end.

(** An argument or a result: its type, and whether it is written to if there is alias information. *)
Record sig_attr := { a_type : text; alias_info : option bool }.
(** JitOperator, reg l.111-129 *)
Record operator := { namespace : text; unqualified_name : text; overload_name : text; is_vararg : bool; is_varret : bool;
                     arguments : list sig_attr; returns : list sig_attr }.
Definition jit_operator (name overload : text) (vararg varret : bool) (args rets : list sig_attr) : operator :=
  let (ns, unqual) := partition name in
  {| namespace := ns; unqualified_name := unqual; overload_name := overload; is_vararg := vararg; is_varret := varret; arguments := args; returns := rets |}.
Definition nonempty (t : text) : bool := negb (length t =? 0).
(** create_unique_key, reg l.131-161 *)
Definition unique_key (o : operator) : text :=
  let overload := if nonempty (overload_name o) then txt "." ++ overload_name o else [] in
  let arg_str := if is_vararg o then txt "..." else join (txt ", ") (map a_type (arguments o)) in
  let ret_str := if is_varret o then txt "..." else join (txt ", ") (map a_type (returns o)) in
  namespace o ++ txt "::" ++ unqualified_name o ++ overload ++ txt " : (" ++ arg_str ++ txt ") -> (" ++ ret_str ++ txt ")".
(** triple, reg l.163-171 *)
Definition triple (o : operator) : text * text * text := (namespace o, unqualified_name o, overload_name o).
(** get_mlir_names, reg l.173-200 *)
Definition op_name_atoms (o : operator) : list text :=
  [namespace o; unqualified_name o] ++ (if nonempty (overload_name o) then [overload_name o] else []).
Definition op_name (o : operator) : text := join [dot] (op_name_atoms o).
Definition upper (c : char) : char :=
  match c with Ch a => let n := nat_of_ascii a in if (97 <=? n) && (n <=? 122) then Ch (ascii_of_nat (n - 32)) else c | _ => c end.
Definition uppercase_first_letter (s : text) : text := match s with [] => [] | x :: r => upper x :: r end.
Fixpoint lstrip (s : text) : text := match s with x :: r => if char_eqb x underscore then lstrip r else s | [] => [] end.
Definition cpp_class_name (o : operator) : text :=
  let atoms := flat_map (fun atom => map (fun s => if nonempty s then s else [underscore]) (split underscore atom)) (op_name_atoms o) in
  lstrip (concat (map uppercase_first_letter atoms) ++ txt "Op").
(** _get_function_signature, reg l.202-224. [decls]: the text of the parameters and of the result, which depend on the kind. *)
Inductive kind := KShape | KDtype | KDecomposition | KValueSemantics.
Definition kind_name (k : kind) : text :=
  txt (match k with KShape => "shape" | KDtype => "dtype" | KDecomposition => "decomposition" | KValueSemantics => "has_value_semantics" end).
Definition def_name (k : kind) (o : operator) : text := join [Circle] (split dot (op_name o)) ++ [Bar] ++ kind_name k.
Definition result_text (rets : list text) : text :=
  match rets with [] => txt "None" | [r] => r | _ => txt "Tuple[" ++ join (txt ", ") rets ++ txt "]" end.
Section Signatures.
Context (decls : kind -> operator -> list text * list text).
Definition signature (k : kind) (o : operator) : text :=
  let (ps, rs) := decls k o in
  txt "def " ++ def_name k o ++ txt "(" ++ join (txt ", ") (filter nonempty ps) ++ txt ") -> " ++ result_text (filter nonempty rs) ++ txt ":".

(** Registry, reg l.417-437: a dictionary keeps the last value stored. *)
Definition triple_eqb (a b : text * text * text) : bool :=
  text_eqb (fst (fst a)) (fst (fst b)) && text_eqb (snd (fst a)) (snd (fst b)) && text_eqb (snd a) (snd b).
Fixpoint store {K} (eqb : K -> K -> bool) (d : list (K * operator)) (k : K) (o : operator) : list (K * operator) :=
  match d with [] => [(k, o)] | (k', o') :: r => if eqb k k' then (k, o) :: r else (k', o') :: store eqb r k o end.
Fixpoint fetch {K} (eqb : K -> K -> bool) (d : list (K * operator)) (k : K) : option operator :=
  match d with [] => None | (k', o) :: r => if eqb k k' then Some o else fetch eqb r k end.
Record registry := { by_unique_key : list (text * operator); by_triple : list (text * text * text * operator) }.
Definition make_registry (ops : list operator) : registry :=
  {| by_unique_key := fold_left (fun d o => store text_eqb d (unique_key o) o) ops [];
     by_triple := fold_left (fun d o => store triple_eqb d (triple o) o) ops [] |}.
Definition get_item (r : registry) (key : text) : option operator := fetch text_eqb (by_unique_key r) key.
Definition get_by_triple (r : registry) (key : list text) : option operator :=
  match key with [a; b; c] => fetch triple_eqb (by_triple r) (a, b, c) | _ => None end.

(** _verify_signature_matches_registry, libgen l.196-229: the name of the function and its first line starting with [def]. *)
Definition kind_of (t : text) : option kind :=
  if text_eqb t (txt "shape") then Some KShape else if text_eqb t (txt "dtype") then Some KDtype
  else if text_eqb t (txt "decomposition") then Some KDecomposition else if text_eqb t (txt "has_value_semantics") then Some KValueSemantics else None.
Definition verify (r : registry) (name : text) (def_line : option text) : option unit :=
  do line <- def_line;
  assert existsb (char_eqb Bar) line;
  match split Bar name with
  | [function_name; function_kind] =>
      let atoms := split Circle function_name in
      let atoms := if length atoms =? 2 then atoms ++ [[]] else atoms in
      do o <- get_by_triple r atoms;
      do k <- kind_of function_kind;
      assert text_eqb line (signature k o); Some tt
  | _ => None
  end.
End Signatures.
(** generate_library, libgen l.257-281: the name of the MLIR function made from a Python one called [ns〇name[〇overload]〡kind]. *)
Definition library_symbol (name : text) : option text :=
  match split Bar name with
  | [f; k] => Some (txt "__torch_mlir_" ++ k ++ txt "_fn." ++ map (fun c => match c with Circle => dot | _ => c end) f)
  | _ => None
  end.
(** getLibraryFunctionPrefix and the lookup of wrapWithCalculateOpIfLibraryFunctionAvailable, reify l.22-33 and l.75-89. *)
Definition library_function_prefix (k : kind) : option text :=
  match k with
  | KShape => Some (txt "__torch_mlir_shape_fn.")
  | KDtype => Some (txt "__torch_mlir_dtype_fn.")
  | KValueSemantics => Some (txt "__torch_mlir_has_value_semantics_fn.")
  | KDecomposition => None
  end.
Fixpoint strip_prefix (p s : text) : option text :=
  match p, s with [], _ => Some s | x :: p, y :: s => if char_eqb x y then strip_prefix p s else None | _, _ => None end.
(** [operator_attr]: the name attribute of a torch.operator. *)
Definition looked_up (k : kind) (mlir_name : text) (operator_attr : option text) : option text :=
  do p <- library_function_prefix k;
  let name := match strip_prefix (txt "valsem.") mlir_name with Some r => r | None => mlir_name end in
  let name := match operator_attr with Some a => a | None => name end in
  Some (p ++ name).

(** is_readonly, reg l.397-414 *)
Definition is_readonly (o : operator) : bool :=
  forallb (fun x => match alias_info x with Some true => false | _ => true end) (arguments o ++ returns o).
(** has_value_semantics, reg l.363-395 *)
Definition has_value_semantics (o : operator) : bool :=
  if negb (is_readonly o) then false
  else if is_vararg o || is_varret o then false
  else if existsb (fun x => match alias_info x with Some _ => true | None => false end) (arguments o ++ returns o) then false
  else if text_eqb (unique_key o) (txt "prim::unchecked_cast : (t) -> (t)") then false
  else if text_eqb (unique_key o) (txt "aten::__is__ : (t1, t2) -> (bool)") || text_eqb (unique_key o) (txt "aten::__isnot__ : (t1, t2) -> (bool)") then false
  else true.

(** emit_op, ods l.237-268: the traits of an operator. *)
Definition op_traits (o : operator) (traits : list text) : list text :=
  traits ++ [txt "AllowsTypeRefinement"] ++ (if has_value_semantics o then [txt "HasValueSemantics"] else []) ++ (if is_readonly o then [txt "ReadOnly"] else []).
(** emit_with_mutating_variants, ods l.276-295: the operator and its in-place variant, with their traits. *)
Definition emit_with_mutating_variants (r : registry) (key : text) (traits : list text) : option ((operator * list text) * (operator * list text)) :=
  do o <- get_item r key;
  let is_functional := text_eqb (overload_name o) (txt "functional") in
  do v <- get_by_triple r [namespace o; unqualified_name o ++ [underscore]; if negb is_functional then overload_name o else []];
  Some ((o, op_traits o traits), (v, op_traits v (if negb is_functional then [txt "IsTrailingUnderscoreInplaceVariant"] else []))).
