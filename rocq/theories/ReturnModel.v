(** lib/Dialect/Torch/Transforms/RefinePublicReturn.cpp (rp): the pass that makes public functions return values of the most precise type, and copyTensorToType of lib/Dialect/Torch/IR/TorchOps.cpp (to).

    Simplified: the sizes and dtype of a tensor type are one number (0: none); bodies are sequences of operations, of which those that the pass looks through and the overwriting of contents are distinguished; the operations that the pass makes get the next free numbers. Locations and the text of errors are not modelled. *)
From Coq Require Import Bool PeanoNat List.
From Verif Require Import Prelude.
Import ListNotations.
Open Scope nat_scope.

Inductive ty := VTensor (info : nat) | NTensor (info : nat) | OtherTy (n : nat).
Definition value := (nat * ty)%type.
Inductive op :=
| Cast (r v : value)
| CopyToNon (r v : value)
| CopyToVal (r v : value)
| Derefine (r v : value)
| Overwrite (v target : value)
| Other (k : nat) (rs args : list value).
Record function := { public : bool; external : bool; called : bool; arguments : list value; body : list op; returns : list (list value); result_types : list ty }.

Definition results (o : op) : list value :=
  match o with Cast r _ | CopyToNon r _ | CopyToVal r _ | Derefine r _ => [r] | Overwrite _ _ => [] | Other _ rs _ => rs end.
Definition operands (o : op) : list value :=
  match o with Cast _ v | CopyToNon _ v | CopyToVal _ v | Derefine _ v => [v] | Overwrite v t => [v; t] | Other _ _ args => args end.
Definition mentions (v : value) (l : list value) : bool := existsb (fun u => fst u =? fst v) l.
(** getDefiningOp *)
Definition defining (l : list op) (v : value) : option op := find (fun o => mentions v (results o)) l.
(** The number of operations that use a value, the return among them *)
Definition users (l : list op) (ret : list value) (v : value) : nat :=
  List.length (filter (fun o => mentions v (operands o)) l) + (if mentions v ret then 1 else 0).

(** The loop of rewriteSignature, rp l.68-88 *)
Fixpoint see_through (fuel : nat) (l : list op) (ret : list value) (v : value) : value :=
  match fuel with
  | 0 => v
  | S fuel =>
      match defining l v with
      | Some (Cast _ w) | Some (Derefine _ w) => see_through fuel l ret w
      | Some (CopyToNon r w) => if users l ret r =? 1 then see_through fuel l ret w else v
      | _ => v
      end
  end.

(** copyTensorToType, to l.98-120; [next] is the next free number *)
Definition info_of (t : ty) : option nat := match t with VTensor n | NTensor n => Some n | OtherTy _ => None end.
Definition with_info (t : ty) (n : nat) : ty := match t with VTensor _ => VTensor n | NTensor _ => NTensor n | OtherTy k => OtherTy k end.
Definition is_non_value (t : ty) : bool := match t with NTensor _ => true | _ => false end.
Definition copy_tensor_to_type (new_type : ty) (v : value) (next : nat) : option (list op * value * nat) :=
  do n <- info_of (snd v);
  do n' <- info_of new_type;
  let '(ops, v, next) := if n =? n' then ([], v, next) else let r := (next, with_info (snd v) n') in ([Cast r v], r, S next) in
  let '(ops, v, next) := if is_non_value (snd v) then let r := (next, VTensor n') in (ops ++ [CopyToVal r v], r, S next) else (ops, v, next) in
  if is_non_value new_type then let r := (next, NTensor n') in Some (ops ++ [CopyToNon r v], r, S next) else Some (ops, v, next).

(** The rest of rewriteSignature, rp l.90-107 *)
Definition with_value_semantics (t : ty) : ty := match t with NTensor n => VTensor n | t => t end.
Fixpoint new_operands (fuel : nat) (l : list op) (ret todo : list value) (next : nat) : option (list op * list value * nat) :=
  match todo with
  | [] => Some ([], [], next)
  | v :: r =>
      let w := see_through fuel l ret v in
      do (ops, w, next) <- (match snd w with OtherTy _ => Some ([], w, next) | t => copy_tensor_to_type (with_value_semantics t) w next end);
      do (ops', ws, next) <- new_operands fuel l ret r next;
      Some (ops ++ ops', w :: ws, next)
  end.
Definition rewrite_signature (f : function) (next : nat) : option function :=
  match returns f with
  | [ret] =>
      do (ops, ws, _) <- new_operands (S (List.length (body f))) (body f) ret ret next;
      Some {| public := public f; external := external f; called := called f; arguments := arguments f; body := body f ++ ops; returns := [ws]; result_types := map snd ws |}
  | _ => None
  end.
(** runOnOperation, rp l.29-44, on one function *)
Definition refine_return (f : function) (next : nat) : option function :=
  if negb (public f) then Some f
  else if external f then Some f
  else if called f then None
  else rewrite_signature f next.
