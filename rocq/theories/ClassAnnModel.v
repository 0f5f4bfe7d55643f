(** Annotations of classes: which attributes and methods of a TorchScript program are exported, and what is known of arguments.

    Sources: ann = /repo/projects/jit_ir_common/csrc/jit_ir_importer/class_annotator.cpp, annh = class_annotator.h beside it, bind =
    /repo/projects/pt1/python/torch_mlir/csrc/jit_ir_importer/class_annotator_pybind.cpp, tsa =
    /repo/projects/pt1/python/torch_mlir/jit_ir_importer/torchscript_annotations.py.  [None] is an exception.
    A class type is the tree of its attributes, so no class has itself as an attribute; functions have numbers.  The maps are lists whose
    first entry for a key counts.  The printed form (toString) is left out. *)
From Coq Require Import ZArith Bool String List.
From Verif Require Import Prelude.
Import ListNotations.
Open Scope string_scope.
Open Scope list_scope.
Open Scope nat_scope.

(** c10::ClassType: qualified name, attributes (with a class if they are submodules) and methods *)
Record jit_method := { f_name : string; f_id : nat; num_inputs : nat }.
Inductive class := Class (name : string) (attributes : list (string * option class)) (methods : list jit_method).
Definition class_name (c : class) : string := match c with Class n _ _ => n end.
Definition attributes (c : class) : list (string * option class) := match c with Class _ l _ => l end.
Definition methods (c : class) : list jit_method := match c with Class _ _ l => l end.

(** ArgAnnotation, MethodAnnotation, ClassAnnotation and AttributeAnnotation (a boolean), annh l.27-122 *)
Record arg_annotation := { shape : option (list Z); dtype : option Z; value_semantics : bool }.
Record method_annotation := { is_exported : bool; arg_annotations : option (list arg_annotation) }.
Record class_annotation := { attribute_annotations : list bool; method_annotations : list method_annotation }.
(** ClassAnnotator, annh l.132-191: the annotations by class name, and where the annotation of a function is *)
Record annotator := { class_annotations : list (string * class_annotation); function_to_method : list (nat * (string * nat)) }.
Definition fresh_annotator : annotator := {| class_annotations := []; function_to_method := [] |}.

Fixpoint lookup_s {A} (l : list (string * A)) (k : string) : option A :=
  match l with [] => None | (x, v) :: r => if String.eqb x k then Some v else lookup_s r k end.
Fixpoint lookup_id {A} (l : list (nat * A)) (k : nat) : option A :=
  match l with [] => None | (x, v) :: r => if x =? k then Some v else lookup_id r k end.

(** ClassAnnotation::ClassAnnotation, ann l.38-42 *)
Definition new_annotation (c : class) : class_annotation :=
  {| attribute_annotations := repeat true (length (attributes c));
     method_annotations := repeat {| is_exported := true; arg_annotations := None |} (length (methods c)) |}.
(** getOrCreateClassAnnotation, ann l.139-153 *)
Fixpoint index_functions (l : list jit_method) (name : string) (i : nat) (m : list (nat * (string * nat))) : list (nat * (string * nat)) :=
  match l with [] => m | f :: r => index_functions r name (S i) ((f_id f, (name, i)) :: m) end.
Definition get_or_create (st : annotator) (c : class) : annotator * class_annotation :=
  match lookup_s (class_annotations st) (class_name c) with
  | Some a => (st, a)
  | None =>
      let a := new_annotation c in
      ({| class_annotations := (class_name c, a) :: class_annotations st;
          function_to_method := index_functions (methods c) (class_name c) 0 (function_to_method st) |}, a)
  end.
(** What the references that getOrCreateClassAnnotation returns are used for: changing the annotations of the class. *)
Definition put (st : annotator) (name : string) (a : class_annotation) : annotator :=
  {| class_annotations := (name, a) :: class_annotations st; function_to_method := function_to_method st |}.

(** exportNoneRecurse and exportNone, ann l.71-92 *)
Fixpoint export_none (st : annotator) (c : class) : annotator :=
  let '(st, a) := get_or_create st c in
  let a := {| attribute_annotations := map (fun _ => false) (attribute_annotations a);
              method_annotations := map (fun m => {| is_exported := false; arg_annotations := arg_annotations m |}) (method_annotations a) |} in
  let st := put st (class_name c) a in
  match c with
  | Class _ attrs _ =>
      (fix children (l : list (string * option class)) (st : annotator) : annotator :=
         match l with
         | [] => st
         | (_, Some child) :: r => children r (export_none st child)
         | (_, None) :: r => children r st
         end) attrs st
  end.

(** getClassAtPath, ann l.214-234 *)
Fixpoint class_at_path (c : class) (path : list string) : option class :=
  match path with
  | [] => Some c
  | x :: r => match lookup_s (attributes c) x with Some (Some child) => class_at_path child r | _ => None end
  end.
Definition find_method (c : class) (name : string) : option jit_method := find (fun m => String.eqb (f_name m) name) (methods c).
(** The annotations of the properties that [named] picks are changed by [f]. *)
Fixpoint mark {X A} (named : X -> bool) (f : A -> A) (l : list X) (annotations : list A) : list A :=
  match l, annotations with
  | x :: l, a :: annotations => (if named x then f a else a) :: mark named f l annotations
  | _, _ => annotations
  end.
(** exportPath, ann l.94-133 *)
Definition export_path (st : annotator) (root : class) (path : list string) : option annotator :=
  match rev path with
  | [] => None
  | last :: front =>
      do c <- class_at_path root (rev front);
      assert match lookup_s (attributes c) last, find_method c last with None, None => false | _, _ => true end;
      let '(st, a) := get_or_create st c in
      Some (put st (class_name c)
        {| attribute_annotations := mark (fun x => String.eqb (fst x) last) (fun _ => true) (attributes c) (attribute_annotations a);
           method_annotations := mark (fun m => String.eqb (f_name m) last) (fun m => {| is_exported := true; arg_annotations := arg_annotations m |}) (methods c) (method_annotations a) |})
  end.
(** annotateArgs and fillArgAnnotations, ann l.155-212; getMethod throws if there is none. *)
Definition annotate_args (st : annotator) (root : class) (path : list string) (args : list arg_annotation) : option annotator :=
  match rev path with
  | [] => None
  | last :: front =>
      do c <- class_at_path root (rev front);
      do f <- find_method c last;
      let '(st, a) := get_or_create st c in
      assert length args =? num_inputs f;
      Some (put st (class_name c)
        {| attribute_annotations := attribute_annotations a;
           method_annotations := mark (fun m => String.eqb (f_name m) last) (fun m => {| is_exported := is_exported m; arg_annotations := Some args |}) (methods c) (method_annotations a) |})
  end.
(** getMethodAnnotationForFunction, ann l.239-246 *)
Definition annotation_for_function (st : annotator) (f : nat) : option method_annotation :=
  do p <- lookup_id (function_to_method st) f;
  do a <- lookup_s (class_annotations st) (fst p);
  nth_error (method_annotations a) (snd p).
(** getArgAnnotations, bind l.29-50: entries are [None] or triples *)
Definition get_arg_annotations (l : list (option (option (list Z) * option Z * bool))) : list arg_annotation :=
  map (fun e => match e with Some (s, d, v) => {| shape := s; dtype := d; value_semantics := v |} | None => {| shape := None; dtype := None; value_semantics := false |} end) l.

(** * Extraction from Python modules *)
(** What decorators left on a method: annotations.export and annotations.annotate_args *)
Record decorated := { has_export : bool; has_args : option (list (option (option (list Z) * option Z * bool))) }.
(** A module: the name of its class, its methods, its children, and whether it is itself the scripted module. *)
Inductive pymodule := Module (py_class : string) (py_methods : list (string * decorated)) (children : list (string * pymodule)) (is_script : bool).
(** torch.jit.ScriptModule: original_name, the class type, the names of the ScriptMethods in __dict__, and attributes that are modules *)
Inductive scripted := Scripted (original_name : string) (type : class) (script_methods : list string) (submodules : list (string * scripted)).
(** _recursively_extract_annotations, tsa l.29-53 *)
Fixpoint extract_methods (l : list string) (type : class) (py_methods : list (string * decorated)) (st : annotator) : option annotator :=
  match l with
  | [] => Some st
  | name :: r =>
      do d <- lookup_s py_methods name;
      do st <- (if has_export d then export_path st type [name] else Some st);
      do st <- (match has_args d with Some a => annotate_args st type [name] (get_arg_annotations a) | None => Some st end);
      extract_methods r type py_methods st
  end.
Fixpoint recursively_extract (m : pymodule) (s : scripted) (st : annotator) : option annotator :=
  match m, s with
  | Module cls ms children is_script, Scripted original type script_methods submodules =>
      assert String.eqb cls original || is_script;
      do st <- extract_methods script_methods type ms st;
      (fix recurse (l : list (string * pymodule)) (st : annotator) : option annotator :=
         match l with
         | [] => Some st
         | (name, child) :: r =>
             do scripted_child <- lookup_s submodules name;
             do st <- recursively_extract child scripted_child st;
             recurse r st
         end) children st
  end.
(** extract_annotations, tsa l.56-63 *)
Definition extract_annotations (m : pymodule) (s : scripted) (st : annotator) : option annotator :=
  match s with Scripted _ type _ _ => recursively_extract m s (export_none st type) end.
