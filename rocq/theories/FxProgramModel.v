(** Model of FxImporter.import_program, python/torch_mlir/extras/fx_importer.py:614-879:
    the lookaside tables built from the ExportedProgram's signature, the function's
    prologue (constants, user inputs, lazy parameters and buffers, producer hooks), the
    body, and the returned values. [rewrite_as_strided] (l.646) is modelled in
    AsStridedModel; child modules (l.860-862) in FxMiscModel. Exceptions are [None]. *)
From Coq Require Import String ZArith Bool List.
From Verif Require Import Prelude FxGraphModel.
Import ListNotations.
Open Scope list_scope.

(** torch.export.graph_signature: argument and spec classes (l.669-675). *)
Inductive iarg := ITensor (n : string) | ISymInt (n : string) | IConst (n : string) (v : lit)
| IOther.
Inductive ikind := IUser | IConstTensor | IParam | IBuffer | IUnknown.
Record ispec := IS { i_kind : ikind; i_arg : iarg; i_target : string; i_persistent : bool }.
Inductive oarg := OTensor (n : string) | OSymInt (n : string) | OConst (v : lit) | OOther.
Inductive okind := OUser | OBufferMutation | OInputMutation | OUnknown.
Record ospec := OS { os_kind : okind; os_arg : oarg; os_target : string }.
Record program := Prog { pg_graph : graph; pg_ins : list ispec; pg_outs : list ospec;
  pg_state : list (string * lit); pg_consts : list (string * lit) }.

(** A Python dict: insertion order, assignment to an existing key keeps its place. *)
Fixpoint dset {A} (l : list (string * A)) (k : string) (v : A) : list (string * A) :=
  match l with
  | [] => [(k, v)]
  | (k', x) :: r => if String.eqb k' k then (k', v) :: r else (k', x) :: dset r k v
  end.

(** [sig.user_inputs_to_mutate] (torch.export.graph_signature): producer -> input, a dict
    built from the output specs in order. *)
Definition user_inputs_to_mutate (outs : list ospec) : list (string * string) :=
  fold_left (fun d o => match os_kind o, os_arg o with
                        | OInputMutation, OTensor p => dset d p (os_target o)
                        | _, _ => d end) outs [].
(** l.684-688. *)
Definition mutated_user_inputs (outs : list ospec) : list (string * string) :=
  fold_left (fun d kv => dset d (snd kv) (fst kv)) (user_inputs_to_mutate outs) [].
(** l.723-724: target -> producer. *)
Definition buffer_producers (outs : list ospec) : list (string * string) :=
  fold_left (fun d o => match os_kind o, os_arg o with
                        | OBufferMutation, OTensor p => dset d (os_target o) p
                        | _, _ => d end) outs [].

(** l.649-659: the lookaside tables. *)
Definition is_placeholder (n : node) : bool :=
  match n_op n with Placeholder => true | _ => false end.
Definition is_producer (n : node) : bool :=
  match n_op n with Placeholder | Call _ => true | _ => false end.
Definition find_ph (g : graph) (n : string) : option node :=
  find (fun x => is_placeholder x && String.eqb (n_name x) n) g.
Definition find_prod (g : graph) (n : string) : option node :=
  find (fun x => is_producer x && String.eqb (n_name x) n) g.

(** l.698-722: user outputs ([None] for a constant), and the constants keyed by the index
    of the output spec. *)
Fixpoint user_outputs (g : graph) (i : nat) (outs : list ospec)
  : option (list (option string) * list (nat * lit)) :=
  match outs with
  | [] => Some ([], [])
  | o :: r =>
      match os_kind o with
      | OUser =>
          match os_arg o with
          | OTensor n | OSymInt n =>
              do nd <- find_prod g n;
              do _ <- n_ty nd;
              do (us, cs) <- user_outputs g (S i) r;
              Some (Some n :: us, cs)
          | OConst v =>
              do (us, cs) <- user_outputs g (S i) r;
              Some (None :: us, (i, v) :: cs)
          | OOther => None
          end
      | _ => user_outputs g (S i) r
      end
  end.

(** l.727-813: what the input specs ask for. *)
Record tables := Tb { t_user : list (string * ty); t_cin : list (string * lit);
  t_cten : list (string * lit); t_par : list (string * lit);
  t_buf : list (string * (lit * (string * option string))) }.
(** node_val_to_type(node, mutable=True): a tensor becomes !torch.tensor. *)
Definition mut_ty (t : ty) : ty := match t with TyVTensor => TyTensor | _ => t end.
Definition add_input (p : program) (t : tables) (s : ispec) : option tables :=
  let g := pg_graph p in
  match i_kind s, i_arg s with
  | IUser, ITensor n | IUser, ISymInt n =>
      do nd <- find_ph g n;
      do ty <- n_ty nd;
      let mutable := match sget (mutated_user_inputs (pg_outs p)) n with
                     | Some _ => true | None => false end in
      Some (Tb (t_user t ++ [(n, if mutable then mut_ty ty else ty)]) (t_cin t) (t_cten t)
               (t_par t) (t_buf t))
  | IUser, IConst n v =>
      do _ <- find_ph g n;
      Some (Tb (t_user t) (dset (t_cin t) n v) (t_cten t) (t_par t) (t_buf t))
  | IUser, IOther => None
  | IConstTensor, ITensor n =>
      do _ <- find_ph g n;
      do v <- sget (pg_consts p) (i_target s);
      Some (Tb (t_user t) (t_cin t) (dset (t_cten t) n v) (t_par t) (t_buf t))
  | IParam, ITensor n =>
      do v <- match sget (pg_state p) (i_target s) with
              | Some v => Some v
              | None => if i_persistent s then None else Some LNone
              end;
      do nd <- find_ph g n;
      do _ <- n_ty nd;
      Some (Tb (t_user t) (t_cin t) (t_cten t) (dset (t_par t) n v) (t_buf t))
  | IBuffer, ITensor n =>
      do v <- sget (if i_persistent s then pg_state p else pg_consts p) (i_target s);
      do nd <- find_ph g n;
      do _ <- n_ty nd;
      Some (Tb (t_user t) (t_cin t) (t_cten t) (t_par t)
               (dset (t_buf t) n (v, (i_target s,
                  sget (buffer_producers (pg_outs p)) (i_target s)))))
  | _, _ => None
  end.
Definition input_tables (p : program) : option tables :=
  foldM (add_input p) (pg_ins p) (Tb [] [] [] [] []).

(** import_constant, l.1527-1531. *)
Definition import_constant (s : st) (c : string * lit) : option st :=
  do (v, s1) <- import_literal (snd c) s; bind (fst c) 0 (BVal v) s1.
(** l.1498-1525, 842-853: one user input; a mutated one is copied and its producer gets an
    overwrite hook. *)
Definition set_hook (n : string) (h : hook) (s : st) : st := set_hooks (dset (s_hooks s) n h) s.
Definition import_user_input (p : program) (s : st) (x : (string * ty) * val) : option st :=
  let '((n, _), arg) := x in
  match sget (mutated_user_inputs (pg_outs p)) n with
  | Some producer =>
      do nd <- find_ph (pg_graph p) n;
      do ty <- n_ty nd;
      let '(c, s1) := emit1 KCopy [arg] ty s in
      do s2 <- bind n 0 (BVal c) s1;
      Some (set_hook producer (HOverwrite (vid arg)) s2)
  | None => bind n 0 (BVal arg) s
  end.
(** l.1533-1541. *)
Definition import_param (s : st) (x : string * lit) : option st :=
  bind (fst x) 0 (BLazy (snd x)) s.
(** l.1543-1568. *)
Definition import_buffer (s : st) (x : string * (lit * (string * option string)))
  : option st :=
  let '(n, (v, (target, producer))) := x in
  do s1 <- bind n 0 (BLazy v) s;
  Some (match producer with Some q => set_hook q (HStore target) s1 | None => s1 end).

(** l.836-857. *)
Definition prologue (p : program) (t : tables) (s : st) : option st :=
  do s1 <- foldM import_constant (t_cten t) s;
  do s2 <- foldM import_constant (t_cin t) s1;
  do s3 <- foldM (import_user_input p) (combine (t_user t) (mkvals 0 (map snd (t_user t)))) s2;
  do s4 <- foldM import_param (t_par t) s3;
  foldM import_buffer (t_buf t) s4.

(** return_node_values, l.1570-1581: [i] is the position among the returned values. *)
Fixpoint return_values (consts : list (nat * lit)) (i : nat) (l : list (option string))
    (s : st) : option (list val * st) :=
  match l with
  | [] => Some ([], s)
  | x :: r =>
      do (v, s1) <- match x with
                    | Some n => resolve n 0 s
                    | None => do kv <- find (fun c => Nat.eqb (fst c) i) consts;
                              import_literal (snd kv) s
                    end;
      do (vs, s2) <- return_values consts (S i) r s1;
      Some (v :: vs, s2)
  end.

(** l.614-879. The function: argument types, body, returned values. *)
Definition import_program (registry : string -> option schema) (p : program)
  : option (list ty * list op * list val) :=
  let g := pg_graph p in
  do (outs, consts) <- user_outputs g 0 (pg_outs p);
  do t <- input_tables p;
  let tys := map snd (t_user t) in
  do s0 <- prologue p t (empty_st (length tys));
  do (_, s1) <- import_nodes (g_attr g) (g_scalar g) registry g true (filter is_producer g) [] s0;
  do (vs, s2) <- return_values consts 0 outs s1;
  Some (tys, s_ops s2, vs).
