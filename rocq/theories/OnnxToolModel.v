(** The ONNX import tool: python/torch_mlir/tools/import_onnx/__main__.py (om), main l.33-55 and load_onnx_model l.58-155.

    Simplified: paths are absolute lists of names; a file system says for each path whether it is a directory or a file; the functions of the onnx package are parameters, which may fail with an exception; a function that fails writes no file. A model is its list of nodes, which may hold the nodes of subgraphs in their attributes, and the rest. *)
From Coq Require Import Bool ZArith String List.
From Verif Require Import Prelude.
Import ListNotations.
Open Scope string_scope.
Open Scope list_scope.

Definition path := list string.
Definition parent (p : path) : path := removelast p.
Fixpoint within (d p : path) : bool :=
  match d, p with
  | [], _ => true
  | x :: d, y :: p => String.eqb x y && within d p
  | _ :: _, [] => false
  end.
Inductive entry (C : Type) := Directory | File (c : C).
Arguments Directory {C}.
Arguments File {C}.
Definition fs (C : Type) := path -> option (entry C).
Inductive exn := ValueError | OtherError | FileExists | NotFound | LoadError | ConvertError | ToolError.
Inductive node := Node (domain op : string) (subgraphs : list node).
Record model (R : Type) := { nodes : list node; others : R }.
Arguments nodes {R}.
Arguments others {R}.
(** om l.158-218 *)
Record arguments := { input_file : path; output_file : option string; no_verify : bool; data_prop : bool; clear_domain : bool; keep_temps : bool; temp_dir : option path; data_dir : option path; opset_version : option Z; no_allowlist : bool }.

Section Tool.
Context {C R : Type}.
(** the onnx package: load without external data, external data from a directory, convert_version, check_model, infer_shapes, save with external data, infer_shapes_path *)
Context (load_only : fs C -> path -> option (model R)) (load_external : fs C -> model R -> path -> option (model R)) (convert : model R -> Z -> option (model R)).
Context (check : model R -> option exn) (infer : bool -> model R -> model R + exn) (save : fs C -> model R -> path -> option (fs C)) (infer_path : bool -> fs C -> path -> path -> option (fs C)).
(** shutil.rmtree with ignore_errors (om l.75): a path that is no directory stays *)
Definition rmtree (d : path) (f : fs C) : fs C :=
  match f d with
  | Some Directory => fun p => if within d p then None else f p
  | _ => f
  end.
Definition path_eqb (a b : path) : bool := within a b && within b a.
(** Path.mkdir(exist_ok=True), om l.76 *)
Definition mkdir (d : path) (f : fs C) : fs C + exn :=
  match f d with
  | Some Directory => inl f
  | Some (File _) => inr FileExists
  | None => match f (parent d) with
            | Some Directory => inl (fun p => if path_eqb d p then Some Directory else f p)
            | _ => inr NotFound
            end
  end.
(** om l.73-74 *)
Definition input_dir (a : arguments) : path := parent (input_file a).
Definition or_else (o : option path) (p : path) : path := match o with Some d => d | None => p end.
Definition temp_of (a : arguments) : path := or_else (temp_dir a) (input_dir a) ++ ["onnx-importer-temp"].
(** om l.80-84 *)
Definition load_raw (a : arguments) (f : fs C) : option (model R) :=
  do m <- load_only f (input_file a) ; load_external f m (or_else (data_dir a) (input_dir a)).
(** om l.95-97 *)
Definition clear_node (n : node) : node := match n with Node _ op subs => Node "" op subs end.
(** om l.86-98: the model and whether it was changed *)
Definition prepare (a : arguments) (m : model R) : option (model R * bool) :=
  do (m1, changed) <- match opset_version a with
                      | None | Some Z0 => Some (m, false)
                      | Some v => do m1 <- convert m v ; Some (m1, true)
                      end ;
  if clear_domain a then Some ({| nodes := map clear_node (nodes m1) ; others := others m1 |}, true) else Some (m1, changed).
(** om l.102-109 *)
Inductive attempt := Inferred (m : model R) | Raised (e : exn) | TooBig.
Definition in_memory (dp : bool) (m : model R) : attempt :=
  match check m with
  | Some ValueError => TooBig
  | Some e => Raised e
  | None => match infer dp m with inl r => Inferred r | inr ValueError => TooBig | inr e => Raised e end
  end.
(** om l.58-155 *)
Definition load_onnx_model (a : arguments) (f0 : fs C) : fs C * (model R + exn) :=
  let temp := temp_of a in
  let f1 := rmtree temp f0 in
  match mkdir temp f1 with
  | inr e => (f1, inr e)
  | inl f2 =>
      match load_raw a f2 with
      | None => (f2, inr LoadError)
      | Some raw =>
          match prepare a raw with
          | None => (f2, inr ConvertError)
          | Some (m, modified) =>
              match in_memory (data_prop a) m with
              | Inferred r => (f2, inl r)
              | Raised e => (f2, inr e)
              | TooBig =>
                  let raw_file := temp ++ ["raw.onnx"] in
                  let inferred_file := temp ++ ["inferred.onnx"] in
                  match (if modified : bool then save f2 m raw_file else Some f2) with
                  | None => (f2, inr ToolError)
                  | Some f3 =>
                      match infer_path (data_prop a) f3 (if modified then raw_file else input_file a) inferred_file with
                      | None => (f3, inr ToolError)
                      | Some f4 =>
                          match (do r <- load_only f4 inferred_file ; load_external f4 r (if modified then temp else or_else (data_dir a) (input_dir a))) with
                          | None => (f4, inr LoadError)
                          | Some r => (if keep_temps a then f4 else rmtree temp f4, inl r)
                          end
                      end
                  end
              end
          end
      end
  end.
(** om l.33-55: what is done with the model; importing gives a module or fails, and so may its verification *)
Inductive effect (X : Type) := Verified (x : X) | Written (file : option string) (x : X) (assume_verified : bool).
Arguments Verified {X}.
Arguments Written {X}.
Definition main {X} (import : bool -> model R -> option X) (verifies : X -> bool) (a : arguments) (f0 : fs C) : fs C * list (effect X) * bool :=
  match load_onnx_model a f0 with
  | (f, inr _) => (f, [], false)
  | (f, inl m) =>
      match import (negb (no_allowlist a)) m with
      | None => (f, [], false)
      | Some x =>
          if negb (no_verify a) && negb (verifies x) then (f, [], false)
          else (f, (if no_verify a then [] else [Verified x]) ++
                   [Written (match output_file a with Some o => if (o =? "")%string || (o =? "-")%string then None else Some o | None => None end) x (negb (no_verify a))], true)
      end
  end.
End Tool.
Arguments Verified {X}.
Arguments Written {X}.
