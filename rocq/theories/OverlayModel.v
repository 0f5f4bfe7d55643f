(** Model of utils/bazel/overlay_directories.py (below: ovl), which fuses two directories with symbolic links.
    A raised OSError is [None]. Directories do not change while the script runs, apart from the target, which lies
    outside of them. Paths are lists of names relative to the directory: joining with "." and abspath only
    change their spelling. The order of a directory is the order of its list. *)
From Coq Require Import Bool String List.
From Verif Require Import Prelude.
Import ListNotations.
Open Scope string_scope.
Open Scope list_scope.

(** What a name stands for in a directory: a file with some contents, a directory, a symbolic link with what it leads
    to, and one that leads nowhere. *)
Inductive node := File (c : string) | Dir (es : list (string * node)) | Link (n : node) | Broken.
Definition path := list string.
(** Following symbolic links. *)
Fixpoint follow (n : node) : option node :=
  match n with File c => Some (File c) | Dir es => Some (Dir es) | Link m => follow m | Broken => None end.
Definition entry (x : string) (es : list (string * node)) : option node :=
  option_map snd (find (fun e => String.eqb (fst e) x) es).
(** What the system finds at a path. *)
Fixpoint lookup (n : node) (p : path) : option node :=
  match p with
  | [] => follow n
  | x :: r => match follow n with
              | Some (Dir es) => match entry x es with Some c => lookup c r | None => None end
              | _ => None
              end
  end.

(** The target: directories that were made, links to the same path in one of the sources, and what was there before. *)
Inductive side := Overlay | Source.
Inductive made := Made | Linked (s : side) | Old.
Definition target := path -> option made.
Definition path_dec : forall p q : path, {p = q} + {p <> q} := list_eq_dec string_dec.
Definition put (t : target) (p : path) (m : made) : target := fun q => if path_dec p q then Some m else t q.

(** os.walk from the top, ovl l.75: every directory that is not a link, with the names of its directories (links to directories
    among them) and of its other entries. *)
Definition is_dir (n : node) : bool := match follow n with Some (Dir _) => true | _ => false end.
Definition dirs (es : list (string * node)) : list string := map fst (filter (fun e => is_dir (snd e)) es).
Definition files (es : list (string * node)) : list string := map fst (filter (fun e => negb (is_dir (snd e))) es).
Fixpoint walk (p : path) (n : node) : list (path * list string * list string) :=
  match n with
  | Dir es => (p, dirs es, files es) :: flat_map (fun e => walk (p ++ [fst e]) (snd e)) es
  | _ => []
  end.

Section Fuse.
(** The overlay and the source directory. *)
Variables overlay src : node.
Definition tree (s : side) : node := match s with Overlay => overlay | Source => src end.
(** os.path.exists on a path of the target. *)
Definition exists_ (t : target) (p : path) : bool :=
  match t p with
  | None => false
  | Some (Linked s) => match lookup (tree s) p with Some _ => true | None => false end
  | Some _ => true
  end.
(** _symlink_abs, ovl l.69-71. *)
Definition symlink (s : side) (t : target) (p : path) : option target :=
  if exists_ t p then Some t
  else match t p with Some _ => None | None => Some (put t p (Linked s)) end.
(** os.mkdir. *)
Definition mkdir (t : target) (p : path) : option target :=
  match t p, t (removelast p) with None, Some Made => Some (put t p Made) | _, _ => None end.
(** os.listdir. *)
Definition listdir (n : node) (p : path) : option (list string) :=
  match lookup n p with Some (Dir es) => Some (map fst es) | _ => None end.
(** The body of the loop, ovl l.75-96. *)
Definition visit (t : target) (w : path * list string * list string) : option target :=
  let '(root, ds, fs) := w in
  do t <- match root with [] => Some t | _ => mkdir t root end;
  do t <- foldM (fun t f => symlink Overlay t (root ++ [f])) fs t;
  do names <- listdir src root;
  foldM (fun t e => if existsb (String.eqb e) ds then Some t else symlink Source t (root ++ [e])) names t.
(** The target before, with some names in it. *)
Definition before (names : list string) : target := fun p =>
  match p with
  | [] => Some Made
  | [x] => if existsb (String.eqb x) names then Some Old else None
  | _ => None
  end.
(** main, ovl l.74-96. *)
Definition main (names : list string) : option target := foldM visit (walk [] overlay) (before names).
End Fuse.
