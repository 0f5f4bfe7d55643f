(** Model of GraphNodeImporter._import_hop_flex_attention, python/torch_mlir/extras/
    fx_importer.py l.1935-2072 (fx below). A raised exception is [None]. Float literals are
    bit patterns; [to_float] is Python's float() on numbers. *)
From Coq Require Import String ZArith Bool List.
From Verif Require Import Prelude FxGraphModel.
Import ListNotations.
Open Scope Z_scope.

(** Arguments of the call: ordinary FX arguments, or the dict of kernel options with the
    truth values of its entries. *)
Inductive farg := FArg (a : arg) | FDict (d : list (string * bool)).
(** [fn_vals]: [value_info_to_type(v) for v in meta["val"]] if meta["val"] is a list or tuple
    ([Some None] = one of them raises). *)
Record fnode := FN { fn_name : string; fn_args : list farg; fn_ty : option ty;
  fn_vals : option (list (option ty)) }.

(** The emitted torch.hop_flex_attention: symbols of the two functions. *)
Record symbols := Sym { score_mod_fn : option string; mask_mod_fn : option string }.

Section Flex.
Variable attr_of : string -> option (option lit).
Variable get_attr_target : string -> option string.   (* target of a get_attr node *)
Variable submodule : string -> option nat.             (* getattr(root_module, target, None) *)
Variable func_name : nat -> option string.             (* _graph_module_to_func_name[id(m)] *)
Variable to_float : lit -> Z.

(** The symbol of a function argument, fx l.1973-1985 and 1995-2005: nodes must be get_attr;
    a missing module gives no symbol; a module without a function is a KeyError. *)
Definition callee (a : arg) : option (option string) :=
  match a with
  | ANode n =>
      do t <- get_attr_target n;
      match submodule t with
      | None => Some None
      | Some m => do f <- func_name m; Some (Some f)
      end
  | _ => Some None
  end.
(** The mask function is the last element of a tuple, fx l.1990-2005. *)
Definition mask_callee (a : arg) : option (option string) :=
  match a with
  | ATuple l => do e <- pyidx l (-1); callee e
  | _ => Some None
  end.
(** fx l.2007-2024. *)
Definition import_scale (a : arg) (s : st) : option (val * st) :=
  match a with
  | ALit LNone => Some (emit1 (KConst LNone) [] TyNone s)
  | ALit (LBool _ as l) | ALit (LInt _ as l) | ALit (LFloat _ as l) =>
      Some (emit1 (KConst (LFloat (to_float l))) [] TyFloat s)
  | _ => import_arg attr_of None a s
  end.
Definition option_set (d : list (string * bool)) (k : string) : bool :=
  match sget d k with Some b => b | None => false end.
Definition flex_types (n : fnode) : option (list ty * bool) :=
  match fn_vals n with
  | Some vs => if (2 <=? length vs)%nat then do ts <- mapM (fun x => x) vs; Some (ts, true)
               else do t <- fn_ty n; Some ([t], false)
  | None => do t <- fn_ty n; Some ([t], false)
  end.

Definition import_flex (n : fnode) (s : st) : option (st * symbols) :=
  match firstn 7 (fn_args n) with
  | [FArg q; FArg k; FArg v; FArg score; FArg mask; FArg scale; FDict opts] =>
      do (qv, s1) <- import_arg attr_of None q s;
      do (kv, s2) <- import_arg attr_of None k s1;
      do (vv, s3) <- import_arg attr_of None v s2;
      do f <- callee score;
      do m <- mask_callee mask;
      do (sv, s4) <- import_scale scale s3;
      do (tys, multi) <- flex_types n;
      let s5 := if multi : bool then set_multi (fn_name n :: s_multi s4) s4 else s4 in
      let '(lse, s6) := emit1 (KConst (LBool (option_set opts "OUTPUT_LOGSUMEXP"))) [] TyBool s5 in
      let '(mx, s7) := emit1 (KConst (LBool (option_set opts "OUTPUT_MAX"))) [] TyBool s6 in
      let '(rs, s8) := emit (KTorch "torch.hop_flex_attention") [qv; kv; vv; sv; lse; mx] tys s7 in
      do s9 <- bind_results (fn_name n) 0 rs s8;
      Some (s9, Sym f m)
  | _ => None
  end.
End Flex.
