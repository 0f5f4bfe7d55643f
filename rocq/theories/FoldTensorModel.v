(** Folders of operations on constant tensors that only move elements:
    lib/Dialect/Torch/IR/TorchOps.cpp.

    A tensor type has sizes ([None] for an unknown one) and an element type, either of which may be
    missing; a literal (DenseElementsAttr) has the sizes of its type, its elements in row-major
    order and a mark that it is a splat (all elements the same, one stored). A folder answers with
    nothing, one of its operands, a literal, nothing and a diagnostic ([TError]), or [TBad]: a failed
    assertion, a read outside of the literal or a loop that does not end. Elements are abstract;
    IntegerAttr and FloatAttr operands are optional integers. Not modelled: that an attribute's own
    type matches the literal's, except in cat. *)
From Coq Require Import ZArith List Bool.
From Verif Require Import Prelude.
Import ListNotations.
Open Scope Z_scope.

Record tensor_type := { t_sizes : option (list (option Z)); t_dtype : option Z }.
Record literal (A : Type) := { l_sizes : list Z; l_splat : bool; l_elements : list A }.
Arguments l_sizes {A}. Arguments l_splat {A}. Arguments l_elements {A}.
Inductive tfold (A : Type) := TNone | TOperand (k : nat) | TLit (sizes : list Z) (elements : list A) | TError | TBad.
Arguments TNone {A}. Arguments TOperand {A}. Arguments TLit {A}. Arguments TError {A}. Arguments TBad {A}.

Definition opt_eqb (a b : option Z) : bool := match a, b with Some x, Some y => x =? y | None, None => true | _, _ => false end.
Fixpoint sizes_eqb (a b : list (option Z)) : bool :=
  match a, b with
  | [], [] => true
  | x :: a, y :: b => opt_eqb x y && sizes_eqb a b
  | _, _ => false
  end.
Definition type_eqb (a b : tensor_type) : bool :=
  match t_sizes a, t_sizes b with
  | Some x, Some y => sizes_eqb x y
  | None, None => true
  | _, _ => false
  end && opt_eqb (t_dtype a) (t_dtype b).
(** hasSizes and areAllSizesKnown. *)
Definition known (t : tensor_type) : option (list Z) := do s <- t_sizes t; mapM (fun x => x) s.
Definition product (l : list Z) : Z := fold_right Z.mul 1 l.
(** DenseElementsAttr::get with one value. *)
Definition splat_of {A} (sizes : list Z) (x : A) : tfold A := TLit sizes (repeat x (Z.to_nat (product sizes))).
(** DenseElementsAttr::get with a list of values: as many as elements, or one. *)
Definition dense {A} (sizes : list Z) (vs : list A) : tfold A :=
  if zlen vs =? product sizes then TLit sizes vs else match vs with [x] => splat_of sizes x | _ => TBad end.
Definition splat_value {A} (l : literal A) : option A := if l_splat l then hd_error (l_elements l) else None.
(** Utils.cpp:24-36 toPositiveDim and isValidDim. *)
Definition to_positive_dim (dim rank : Z) : Z := if 0 <=? dim then dim else dim + rank.
Definition is_valid_dim (dim rank : Z) : bool := (0 <=? dim) && (dim <? rank).
(** Reading the element at a position. *)
Definition read {A} (l : list A) (k : Z) : option A := if k <? 0 then None else nth_error l (Z.to_nat k).
Definition size_at (l : list Z) (d : Z) : option Z := read l d.

(** * aten.slice.Tensor, TorchOps.cpp:4342-4450 *)
Definition int64_max : Z := 2 ^ 63 - 1.
(** 4390-4393 inputStrides: the product of the later sizes. *)
Fixpoint strides (sizes : list Z) : list Z := match sizes with [] => [] | _ :: r => product r :: strides r end.
(** 4410-4420 the limit, moved so that it is reached exactly; [Z.rem] is C++'s remainder. *)
Definition moved_limit (begin limit stride : Z) : Z :=
  let r := Z.rem (limit - begin) stride in
  let r := if (0 <? stride) || (r =? 0) then r else r - stride in
  limit + r.
(** 4421 for (i = begin; |limit - i| > 0; i += stride): the values of i, if the loop ends. *)
Fixpoint walk (fuel : nat) (i limit stride : Z) : option (list Z) :=
  if Z.abs (limit - i) >? 0 then
    match fuel with
    | O => None
    | S n => do r <- walk n (i + stride) limit stride; Some (i :: r)
    end
  else Some [].
Definition visited (begin limit stride : Z) : option (list Z) :=
  let l := moved_limit begin limit stride in walk (Z.to_nat (Z.abs (l - begin))) begin l stride.
(** 4402-4428 recursiveIter: the positions read, in order. Each axis: its stride in the input, begin, limit and step. *)
Record axis := { a_stride : Z; a_begin : Z; a_limit : Z; a_step : Z }.
Fixpoint iterate (axes : list axis) (offset : Z) : option (list Z) :=
  match axes with
  | [] => Some []
  | a :: rest =>
      do is <- visited (a_begin a) (a_limit a) (a_step a);
      match rest with
      | [] => Some (map (fun i => offset + i) is)
      | _ => do r <- mapM (fun i => iterate rest (offset + a_stride a * i)) is; Some (concat r)
      end
  end.
Fixpoint axes_of (k d begin limit step : Z) (sizes sts : list Z) : list axis :=
  match sizes, sts with
  | n :: sizes, st :: sts =>
      (if k =? d then {| a_stride := st; a_begin := begin; a_limit := limit; a_step := step |}
       else {| a_stride := st; a_begin := 0; a_limit := n; a_step := 1 |}) :: axes_of (k + 1) d begin limit step sizes sts
  | _, _ => []
  end.
Definition slice_values {A} (lit : literal A) (ins out : list Z) (d start stop step : Z) : tfold A :=
  match size_at ins d with
  | None => TBad
  | Some n =>
      let begin := if start <? 0 then start + n else start in
      let begin := Z.max begin 0 in
      let limit := if stop <? 0 then stop + n else stop in
      let limit := if limit <? 0 then -1 else limit in
      let limit := Z.min limit n in
      if ((0 <? step) && (begin <? limit)) || ((step <? 0) && (begin >? limit)) then
        match iterate (axes_of 0 d begin limit step ins (strides ins)) 0 with
        | None => TBad
        | Some ks =>
            match mapM (read (l_elements lit)) ks with
            | None => TBad
            | Some vs => if zlen vs =? product out then TLit out vs else TError
            end
        end
      else TBad
  end.
Definition fold_slice {A} (lit : option (literal A)) (start stop step dim : option Z) (inT outT : tensor_type) : tfold A :=
  match t_sizes inT, t_sizes outT, t_dtype inT, t_dtype outT with
  | Some inS, Some outS, Some inD, Some outD =>
      if negb (inD =? outD) then TNone
      else if match start, stop, step with
              | Some s, Some e, Some k => (k =? 1) && (s =? 0) && (e =? int64_max) && type_eqb inT outT
              | _, _, _ => false
              end then TOperand 0
      else if negb (Nat.eqb (length inS) (length outS)) then TNone
      else match known inT, known outT with
           | Some ins, Some out =>
               match (do l <- lit; splat_value l) with
               | Some x => splat_of out x
               | None =>
                   if product out =? 0 then TNone
                   else match dim with
                        | None => TNone
                        | Some d =>
                            let d := if d <? 0 then d + zlen ins else d in
                            match lit, start, step, stop with
                            | Some l, Some s, Some k, Some e => if product out <=? 16 then slice_values l ins out d s e k else
                                if (k =? 1) && sizes_eqb inS outS then TOperand 0 else TNone
                            | _, _, Some k, _ => if (k =? 1) && sizes_eqb inS outS then TOperand 0 else TNone
                            | _, _, None, _ => TNone
                            end
                        end
               end
           | _, _ => TNone
           end
  | _, _, _, _ => TNone
  end.

(** * aten.transpose.int, TorchOps.cpp:4142-4199 *)
Definition fold_transpose {A} (lit : option (literal A)) (dim0 dim1 : option Z) (selfT resultT : tensor_type) : tfold A :=
  match dim0, dim1, t_sizes selfT with
  | Some d0, Some d1, Some s =>
      let rank := zlen s in
      let d0 := to_positive_dim d0 rank in
      let d1 := to_positive_dim d1 rank in
      if negb (is_valid_dim d0 rank) || negb (is_valid_dim d1 rank) then TNone
      else if d0 =? d1 then TOperand 0
      else match lit, known selfT with
           | Some l, Some sizes =>
               if zlen (l_elements l) >? 16 then TNone
               else match splat_value l, known resultT with
                    | Some x, Some out => splat_of out x
                    | Some _, None => TBad
                    | None, out =>
                        match sizes with
                        | [n0; n1] =>
                            match mapM (fun i => read (l_elements l) ((i mod n0) * n1 + i / n0)) (zrange 0 (zlen (l_elements l))), out with
                            | Some vs, Some out => dense out vs
                            | _, _ => TBad
                            end
                        | _ => TNone
                        end
                    end
           | _, _ => TNone
           end
  | _, _, _ => TNone
  end.

(** * aten.cat *)
(** TorchOps.cpp:4205-4260. [operands]: the elements of the list, with their types and, if they are constants, their literals. *)
Fixpoint others_are_one (k d : Z) (sizes : list Z) : bool :=
  match sizes with [] => true | n :: r => ((k =? d) || (n =? 1)) && others_are_one (k + 1) d r end.
Record cat_operand (A : Type) := { c_type : tensor_type; c_literal : option (literal A) }.
Arguments c_type {A}. Arguments c_literal {A}.
Definition cat_piece {A} (d : Z) (l : literal A) : option (list A) :=
  do n <- size_at (l_sizes l) d;
  match splat_value l with
  | Some x => Some (repeat x (Z.to_nat n))
  | None => mapM (read (l_elements l)) (zrange 0 n)
  end.
Fixpoint cat_values {A} (d : Z) (dt : Z) (os : list (cat_operand A)) : option (option (list A)) :=
  match os with
  | [] => Some (Some [])
  | o :: os =>
      match c_literal o with
      | None => None
      | Some l =>
          match cat_piece d l, cat_values d dt os with
          | None, _ => Some None
          | _, None => None
          | Some p, Some (Some r) => if opt_eqb (t_dtype (c_type o)) (Some dt) then Some (Some (p ++ r)) else Some None
          | _, Some None => Some None
          end
      end
  end.
Definition fold_cat {A} (operands : option (list (cat_operand A))) (dim : option Z) (resultT : tensor_type) : tfold A :=
  match operands with
  | None => TNone
  | Some os =>
      if match os with [o] => type_eqb (c_type o) resultT | _ => false end then TOperand 0
      else match known resultT, t_dtype resultT, dim with
           | Some out, Some dt, Some d =>
               if product out >? 16 then TNone
               else let d := d + (if d <? 0 then zlen out else 0) in
                 if others_are_one 0 d out then
                   match cat_values d dt os with
                   | None => TNone
                   | Some None => TBad
                   | Some (Some vs) => dense out vs
                   end
                 else TNone
           | _, _, _ => TNone
           end
  end.
(** TorchOps.cpp:4262-4303 the pattern: which operands are kept. [None]: not applied; [Some None]: a size outside of the type is read. *)
Fixpoint keep (k : nat) (dim : Z) (types : list tensor_type) : option (option (list nat)) :=
  match types with
  | [] => Some (Some [])
  | t :: ts =>
      match t_sizes t with
      | None => None
      | Some s =>
          if match s with [Some 0] => true | _ => false end then keep (S k) dim ts
          else match read s (if dim <? 0 then dim + zlen s else dim) with
               | None => Some None
               | Some n => match keep (S k) dim ts with
                           | Some (Some r) => Some (Some (if opt_eqb n (Some 0) then r else k :: r))
                           | q => q
                           end
               end
      end
  end.
Definition rewrite_cat (types : list tensor_type) (dim : option Z) : option (option (list nat)) :=
  match dim with
  | None => None
  | Some d => match keep 0 d types with
              | Some (Some r) => if Nat.eqb (length r) (length types) then None else Some (Some r)
              | q => q
              end
  end.

(** * aten.broadcast_to, TorchOps.cpp:4307-4336 *)
Definition fold_broadcast {A} (lit : option (literal A)) (inT outT : tensor_type) : tfold A :=
  match known inT, known outT, t_dtype outT with
  | Some ins, Some out, Some _ =>
      if match t_sizes inT, t_sizes outT with Some a, Some b => sizes_eqb a b | _, _ => false end then TOperand 0
      else match (do l <- lit; splat_value l) with Some x => splat_of out x | None => TNone end
  | _, _, _ => TNone
  end.

(** * aten.select.int, TorchOps.cpp:2710-2740 *)
Definition fold_select {A} (lit : option (literal A)) (dim index : option Z) (resultT : tensor_type) : tfold A :=
  match lit, known resultT, t_dtype resultT with
  | Some l, Some out, Some _ =>
      match splat_value l with
      | Some x => splat_of out x
      | None =>
          match dim, index with
          | Some d, Some i =>
              if negb (product out =? 1) then TNone
              else if others_are_one 0 d (l_sizes l) then match read (l_elements l) i with Some x => splat_of out x | None => TBad end
              else TNone
          | _, _ => TNone
          end
      end
  | _, _, _ => TNone
  end.

(** * aten.index_select, TorchOps.cpp:4966-5049. The index operand's type and, if it is a constant, its literal. *)
Fixpoint select_sizes (k d : Z) (self result : list (option Z)) : bool :=
  match self, result with
  | n :: self, m :: result => (opt_eqb n (Some 1) || (k =? d)) && opt_eqb m (Some 1) && select_sizes (k + 1) d self result
  | _, _ => true
  end.
Definition fold_index_select {A} (lit : option (literal A)) (dim : option Z) (index : option (literal Z)) (selfT indexT resultT : tensor_type) : tfold A :=
  match t_sizes selfT, t_sizes indexT, t_sizes resultT, t_dtype selfT, t_dtype indexT, t_dtype resultT with
  | Some ss, Some iss, Some rs, Some sd, Some _, Some rd =>
      if negb (sd =? rd) || negb (Nat.eqb (length ss) (length rs)) || negb (Nat.eqb (length iss) 1) then TNone
      else if sizes_eqb ss rs && forallb (fun n => match n with Some _ => true | None => false end) ss && match iss with [Some 1] => true | _ => false end
      then TOperand 0
      else match lit, dim, index with
           | Some l, Some d, Some ix =>
               let d := if d <? 0 then zlen ss + d else d in
               if negb (is_valid_dim d (zlen ss)) then TBad
               else if negb (select_sizes 0 d ss rs) then TNone
               else match splat_value ix, read ss d with
                    | Some i, Some n =>
                        let i := match n with Some 0 => i | Some m => if i <? 0 then i + m else i | None => if i <? 0 then i - 1 else i end in
                        match (match splat_value l with Some x => Some x | None => read (l_elements l) i end) with
                        | Some x => splat_of (map (fun _ => 1) rs) x
                        | None => TBad
                        end
                    | _, _ => TBad
                    end
           | _, _, _ => TNone
           end
  | _, _, _, _, _, _ => TNone
  end.

(** * aten.where.self, TorchOps.cpp:5256-5284 and getBroadcastedAttr 5221-5254 for literals.
    [same]: both branches are one value. The condition's literal; the branches' types and literals. Operand 1 is taken where it is true. *)
Definition fold_where {A} (same : bool) (cond : option (literal bool)) (selfT otherT resultT : tensor_type) (self other : option (literal A)) : tfold A :=
  if same then TOperand 1
  else match t_dtype resultT, t_sizes resultT, (do c <- cond; splat_value c) with
       | Some _, Some rs, Some c =>
           let t := if c then selfT else otherT in
           let l := if c then self else other in
           if match t_sizes t, t_dtype t with Some _, Some _ => type_eqb t resultT | _, _ => false end then TOperand (if c then 1 else 2)
           else match (do v <- l; splat_value v) with
                | Some x => match mapM (fun n => n) rs with Some out => splat_of out x | None => TBad end
                | None => TNone
                end
       | _, _, _ => TNone
       end.
