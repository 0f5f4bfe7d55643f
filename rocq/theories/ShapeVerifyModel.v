(** The verifiers of operations that look at shapes and constants: lib/Dialect/Torch/IR/TorchOps.cpp (ops).

    Simplified: integers are unbounded; an error has no text (false); a floating point constant is given by how it compares with zero, and None if it does not. *)
From Coq Require Import Bool ZArith Lia List.
From Verif Require Import Prelude.
Import ListNotations.
Open Scope list_scope.
Open Scope Z_scope.

Inductive dt := DBool | DInt | DF16 | DBF16 | DF32 | DF64 | DF8 | DComplex.
Definition dt_eqb (a b : dt) : bool :=
  match a, b with
  | DBool, DBool | DInt, DInt | DF16, DF16 | DBF16, DBF16 | DF32, DF32 | DF64, DF64 | DF8, DF8 | DComplex, DComplex => true
  | _, _ => false
  end.
(** BaseTensorType: an unknown size (kUnknownSize) is None *)
Definition size := option Z.
Record tensor := { dtype : option dt; sizes : option (list size) }.
(** a constant int of the program, if it is one (m_TorchConstantInt) *)
Definition int := option Z.
(** toPositiveDim, isValidDim: Utils.cpp l.27-33 *)
Definition to_positive_dim (d rank : Z) : Z := if 0 <=? d then d else d + rank.
Definition is_valid_dim (d rank : Z) : bool := (0 <=? d) && (d <? rank).
Definition rank_of {A} (l : list A) : Z := Z.of_nat (List.length l).
Definition size_at (l : list size) (d : Z) : size := nth (Z.to_nat d) l None.
Definition size_eqb (a b : size) : bool :=
  match a, b with Some x, Some y => x =? y | None, None => true | _, _ => false end.

(** AtenPermuteOp::verify, ops l.5639-5726: the loop of l.5682-5723; seen is where reversePermutation is not -1 *)
Fixpoint permute_loop (inp : list size) (seen : list Z) (perm : list int) (out : list size) : bool :=
  match perm, out with
  | p :: perm, o :: out =>
      match p with
      | None => permute_loop inp seen perm out
      | Some from =>
          let from := to_positive_dim from (rank_of inp) in
          is_valid_dim from (rank_of inp)
          && negb (existsb (Z.eqb from) seen)
          && match size_at inp from, o with Some a, Some b => a =? b | _, _ => true end
          && permute_loop inp (from :: seen) perm out
      end
  | _, _ => true
  end.
Definition verify_permute (dims : option (list int)) (out inp : tensor) : bool :=
  match dims, sizes out, sizes inp with
  | Some perm, Some o, Some i =>
      if rank_of o =? rank_of i then if rank_of o =? rank_of perm then permute_loop i [] perm o else false else false
  | _, _, _ => true
  end.
(** AtenLinalgCrossOp::verify, ops l.6210-6290 *)
Definition is_one (s : size) : bool := match s with Some x => x =? 1 | None => false end.
Definition three_or_unknown (s : size) : bool := match s with Some x => x =? 3 | None => true end.
Fixpoint cross_sizes (a b : list size) : bool :=
  match a, b with
  | x :: a, y :: b => (size_eqb x y || is_one x || is_one y) && cross_sizes a b
  | _, _ => true
  end.
Definition verify_cross (self other : tensor) (dim : int) : bool :=
  match dtype self, dtype other, sizes self, sizes other with
  | Some ds, Some d_o, Some s, Some o =>
      if negb (dt_eqb ds d_o) then false
      else if dt_eqb ds DBool || dt_eqb d_o DBool then false
      else if negb (rank_of s =? rank_of o) then false
      else match dim with
           | None => true
           | Some d =>
               if (rank_of s <=? d) || (d <? - rank_of s) then false
               else let d := if d <? 0 then d + rank_of s else d in
                    three_or_unknown (size_at s d) && three_or_unknown (size_at o d) && cross_sizes s o
           end
  | _, _, _, _ => true
  end.
(** AtenKthvalueOp::verify, ops l.6296-6330 *)
Definition verify_kthvalue (self : tensor) (k dim : int) : bool :=
  match dtype self, sizes self with
  | Some ds, Some s =>
      if dt_eqb ds DBool then false
      else match dim with
           | None => true
           | Some d =>
               let d := to_positive_dim d (rank_of s) in
               if is_valid_dim d (rank_of s) then
                 match k, size_at s d with
                 | Some k, Some n => (1 <=? k) && (k <=? n)
                 | _, _ => true
                 end
               else false
           end
  | _, _ => true
  end.
(** AtenNormScalarOp::verify, ops l.5533-5560 *)
Definition verify_norm (self : tensor) : bool :=
  match dtype self with
  | Some (DComplex | DF16 | DF32 | DF64) => true
  | Some _ => false
  | None => true
  end.
(** AtenRenormOp::verify, ops l.5565-5633 *)
Inductive number := NInt (n : Z) | NFloat (sign : option comparison).
Definition not_positive (n : number) : bool :=
  match n with NInt n => n <=? 0 | NFloat (Some Gt) => false | NFloat (Some _) => true | NFloat None => false end.
Definition negative (n : number) : bool :=
  match n with NInt n => n <? 0 | NFloat (Some Lt) => true | NFloat _ => false end.
Definition verify_renorm (self : tensor) (p maxnorm : option number) (dim : int) : bool :=
  match dtype self, sizes self with
  | Some ds, Some s =>
      match ds with
      | DF16 | DBF16 | DF32 | DF64 | DComplex =>
          if rank_of s <=? 1 then false
          else match p with
               | None => true
               | Some p =>
                   if not_positive p then false
                   else match maxnorm with
                        | None => true
                        | Some m =>
                            if negative m then false
                            else match dim with
                                 | None => true
                                 | Some d => negb ((rank_of s <=? d) || (d <? - rank_of s))
                                 end
                        end
               end
      | _ => false
      end
  | _, _ => true
  end.
(** AtenRot90Op::verify, ops l.7632-7660: a dim is a value of the program and its constant if it is one *)
Definition verify_rot90 (self : tensor) (dims : option (list (nat * int))) : bool :=
  match dims with
  | None => true
  | Some [a; b] =>
      match sizes self with
      | None => true
      | Some s => if rank_of s <? 2 then false else negb (Nat.eqb (fst a) (fst b))
      end
  | Some _ => false
  end.
(** AtenCountNonzeroOp::verify, ops l.7666-7687: the type of dim is none, int or another *)
Inductive dim_arg := DimNone | DimInt (d : int) | DimOther.
Definition verify_count_nonzero (self : tensor) (dim : dim_arg) : bool :=
  match dtype self, sizes self with
  | Some _, Some s =>
      match dim with
      | DimNone => true
      | DimOther => false
      | DimInt None => true
      | DimInt (Some d) => negb ((rank_of s <=? d) || (d <? - rank_of s))
      end
  | _, _ => true
  end.
(** AtenCountNonzeroDimIntListOp::verify, ops l.7693-7714: None is a list that is not of constants *)
Definition verify_count_nonzero_list (self : tensor) (dims : option (list Z)) : bool :=
  match dtype self, sizes self with
  | Some _, Some s =>
      match dims with
      | None => false
      | Some l => forallb (fun d => negb ((rank_of s <=? d) || (d <? - rank_of s))) l
      end
  | _, _ => true
  end.
(** AtenTriuIndicesOp::verify, AtenTrilIndicesOp::verify, ops l.7526-7558, l.7579-7611: ScalarType::Int is 3 and Long is 4 *)
Definition verify_tri_indices (row col offset code : int) : bool :=
  match row, col, offset with
  | Some r, Some c, Some _ =>
      if r <? 0 then false
      else if c <? 0 then false
      else match code with
           | None => true
           | Some t => (t =? 3) || (t =? 4)
           end
  | _, _, _ => true
  end.
