(** Model of FxImporter.import_frozen_program and of the function types and results it
    declares, python/torch_mlir/extras/fx_importer.py (fx below). A raised exception is
    [None]. Simplifications: tensors are object ids as in FxGraphModel; child modules
    (l.991-998) are imported separately (FxNameModel); reading [.meta] of an argument that
    has been replaced by a tensor is not represented in [n_arg0_fp]. *)
From Coq Require Import String ZArith Bool List.
From Verif Require Import Prelude FxGraphModel.
Import ListNotations.
Open Scope Z_scope.

(** The parts of torch.export.ExportedProgram read by import_frozen_program (fx l.942-977):
    graph, [constants] ([None]: no such attribute), state_dict, and the three maps of the
    graph signature from input names to state names. *)
Record exported := Exported {
  x_graph : graph;
  x_constants : option (list (string * lit));
  x_state : list (string * lit);
  x_lifted : list (string * string);
  x_buffers : list (string * string);
  x_params : list (string * string) }.

(** [arg_replacements[input_name] = source[state_name]] over one map of the signature
    (fx l.955-977); a missing state name raises AssertionError. The newest entry is in
    front. *)
Definition lift (source : list (string * lit)) (sig : list (string * string))
    (acc : list (string * lit)) : option (list (string * lit)) :=
  foldM (fun acc p => do v <- sget source (snd p); Some ((fst p, v) :: acc)) sig acc.
(** fx l.942-977. *)
Definition replacements (x : exported) : option (list (string * lit)) :=
  do c <- match x_constants x with
          | None => Some []
          | Some k => lift k (x_lifted x) []
          end;
  do b <- lift (x_state x) (x_buffers x) c;
  lift (x_state x) (x_params x) b.

(** Node.replace_all_uses_with(value): every occurrence of the node in arguments. *)
Fixpoint replace_uses (name : string) (v : lit) (a : arg) : arg :=
  match a with
  | ANode m => if String.eqb m name then ALit v else a
  | ALit _ => a
  | AList l => AList (map (replace_uses name v) l)
  | ATuple l => ATuple (map (replace_uses name v) l)
  end.
Definition with_args (f : arg -> arg) (n : node) : node :=
  Nd (n_name n) (n_op n) (map f (n_args n)) (map (fun p => (fst p, f (snd p))) (n_kwargs n))
     (n_ty n) (n_tys n) (n_scalar n) (n_zeros n) (n_arg0_fp n).
(** fx l.983-989: one placeholder with a replacement that is not None is replaced
    everywhere and erased. *)
Definition is_placeholder (n : node) : bool :=
  match n_op n with Placeholder => true | _ => false end.
Definition freeze_one (reps : list (string * lit)) (g : graph) (n : node) : graph :=
  if is_placeholder n then
    match sget reps (n_name n) with
    | None | Some LNone => g
    | Some v =>
        filter (fun m => negb (String.eqb (n_name m) (n_name n)))
          (map (with_args (replace_uses (n_name n) v)) g)
    end
  else g.
Definition freeze (reps : list (string * lit)) (g : graph) : graph :=
  fold_left (freeze_one reps) g g.

(** import_frozen_program, fx l.904-1005. *)
Definition import_frozen (registry : string -> option schema) (x : exported)
  : option (list op * option (list val)) :=
  do reps <- replacements x;
  import_stateless registry (freeze reps (x_graph x)).

(** Type of one declared result, fx l.1120-1137: None, tensors and scalars by the value;
    anything else must be a node (its metadata is read). SCALAR_TYPE_TO_TORCH_MLIR_TYPE
    (fx l.319-329) has no entry for dtypes, layouts and devices, whose [.meta] is then
    missing. *)
Definition result_type (g : graph) (a : arg) : option ty :=
  match a with
  | ALit LNone => Some TyNone
  | ALit (LTensor _ _) => Some TyVTensor
  | ALit (LBool _) => Some TyBool
  | ALit (LInt _) => Some TyInt
  | ALit (LFloat _) => Some TyFloat
  | ALit (LStr _) => Some TyStr
  | ALit (LEnum _) | ALit (LDevice _) => None
  | ANode n => obind (find_node g n) n_ty
  | AList _ | ATuple _ => None
  end.
Definition output_args (n : node) : option (list arg) :=
  match nth_error (n_args n) 0 with
  | None => None
  | Some (AList l) | Some (ATuple l) => Some l
  | Some a => Some [a]
  end.
(** _graph_to_function_meta, fx l.1092-1142: declared operand and result types. Several
    output nodes would add up their results. *)
Definition function_type (g : graph) : option (list ty * list ty) :=
  foldM (fun acc n =>
    match n_op n with
    | Placeholder => do t <- n_ty n; Some (fst acc ++ [t], snd acc)
    | Output => do l <- output_args n; do ts <- mapM (result_type g) l;
                Some (fst acc, snd acc ++ ts)
    | _ => Some acc
    end) g ([], []).
