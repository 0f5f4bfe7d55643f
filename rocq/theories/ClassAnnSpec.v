(** What annotations say about the classes of a program. *)
From Coq Require Import ZArith Bool String List.
From Verif Require Import ClassAnnModel.
Import ListNotations.
Open Scope string_scope.
Open Scope list_scope.
Open Scope nat_scope.

(** The classes of one compilation unit: names are unique, functions belong to one method, attributes have different names. *)
Record world (U : class -> Prop) : Prop := {
  closed : forall c n d, U c -> In (n, Some d) (attributes c) -> U d;
  named : forall c d, U c -> U d -> class_name c = class_name d -> c = d;
  functions : forall c d i j f g, U c -> U d -> nth_error (methods c) i = Some f -> nth_error (methods d) j = Some g -> f_id f = f_id g -> c = d /\ i = j;
  attribute_names : forall c, U c -> NoDup (map fst (attributes c));
  method_names : forall c, U c -> NoDup (map f_name (methods c)) }.
(** Classes inside a class, and the one at the end of a path *)
Inductive below : class -> class -> Prop :=
| below_self c : below c c
| below_child c n d e : In (n, Some d) (attributes c) -> below d e -> below c e.
Inductive leads : class -> list string -> class -> Prop :=
| leads_here c : leads c [] c
| leads_child c n d r e : In (n, Some d) (attributes c) -> leads d r e -> leads c (n :: r) e.

(** The annotation of a class; a class without one has all exported and nothing known. *)
Definition view (st : annotator) (c : class) : class_annotation :=
  match find (fun p => String.eqb (fst p) (class_name c)) (class_annotations st) with
  | Some p => snd p
  | None => {| attribute_annotations := map (fun _ => true) (attributes c); method_annotations := map (fun _ => {| is_exported := true; arg_annotations := None |}) (methods c) |}
  end.
Definition has_attribute (c : class) (n : string) : Prop := In n (map fst (attributes c)).
Definition has_method (c : class) (n : string) : Prop := In n (map f_name (methods c)).
Definition exported_attribute (st : annotator) (c : class) (n : string) : Prop :=
  exists i x, nth_error (attributes c) i = Some (n, x) /\ nth_error (attribute_annotations (view st c)) i = Some true.
Definition method_is (st : annotator) (c : class) (n : string) (e : bool) (a : option (list arg_annotation)) : Prop :=
  exists i f, nth_error (methods c) i = Some f /\ f_name f = n /\ nth_error (method_annotations (view st c)) i = Some {| is_exported := e; arg_annotations := a |}.
Definition exported_method (st : annotator) (c : class) (n : string) : Prop := exists a, method_is st c n true a.
Definition known_arguments (st : annotator) (c : class) (n : string) (a : option (list arg_annotation)) : Prop := exists e, method_is st c n e a.

(** An annotator that describes the classes: an entry for each attribute and method, and functions are found. *)
Record describes (U : class -> Prop) (st : annotator) : Prop := {
  sizes : forall c, U c -> length (attribute_annotations (view st c)) = length (attributes c) /\ length (method_annotations (view st c)) = length (methods c);
  places : forall c i f, U c -> nth_error (methods c) i = Some f ->
    forall p, (find (fun p => fst p =? f_id f) (function_to_method st) = Some p <-> In (class_name c) (map fst (class_annotations st)) /\ p = (f_id f, (class_name c, i))) }.

(** The modules of a program, with their scripted modules *)
Inductive paired : pymodule -> scripted -> pymodule -> scripted -> Prop :=
| paired_self m s : paired m s m s
| paired_child cls ms children b orig t names subs n c d m' s' :
    In (n, c) children -> In (n, d) subs -> paired c d m' s' -> paired (Module cls ms children b) (Scripted orig t names subs) m' s'.
Definition type_of (s : scripted) : class := match s with Scripted _ t _ _ => t end.
Definition py_methods_of (m : pymodule) : list (string * decorated) := match m with Module _ l _ _ => l end.
Definition script_methods_of (s : scripted) : list string := match s with Scripted _ _ l _ => l end.
(** A method of the class is decorated in one of the modules. *)
Definition exports (m : pymodule) (s : scripted) (c : class) (n : string) : Prop :=
  exists m' s' d, paired m s m' s' /\ type_of s' = c /\ In n (script_methods_of s') /\ In (n, d) (py_methods_of m') /\ has_export d = true.
Definition annotates (m : pymodule) (s : scripted) (c : class) (n : string) (a : list (option (option (list Z) * option Z * bool))) : Prop :=
  exists m' s' d, paired m s m' s' /\ type_of s' = c /\ In n (script_methods_of s') /\ In (n, d) (py_methods_of m') /\ has_args d = Some a.
(** One entry per argument: unknown, or the shape, dtype and flag that are given *)
Definition given (e : option (option (list Z) * option Z * bool)) (a : arg_annotation) : Prop :=
  match e with
  | None => shape a = None /\ dtype a = None /\ value_semantics a = false
  | Some (s, d, v) => shape a = s /\ dtype a = d /\ value_semantics a = v
  end.
(** The scripted program mirrors the module: classes agree in name, methods exist, children are there, names are unique. *)
Inductive mirrors : pymodule -> scripted -> Prop :=
| mirrored cls ms children b orig t names subs :
    (cls = orig \/ b = true) -> NoDup (map fst ms) -> NoDup (map fst subs) ->
    (forall n, In n names -> has_method t n /\ In n (map fst ms)) ->
    (forall n d a f, In n names -> In (n, d) ms -> has_args d = Some a -> In f (methods t) -> f_name f = n -> length a = num_inputs f) ->
    (forall n c, In (n, c) children -> exists d, In (n, d) subs /\ mirrors c d) ->
    mirrors (Module cls ms children b) (Scripted orig t names subs).
