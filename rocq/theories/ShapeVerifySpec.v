(** What the operations of ShapeVerifyModel demand of their arguments when they run, and which arguments a program with unknown sizes and values may have. *)
From Coq Require Import Bool ZArith List.
From Verif Require Import Prelude ShapeVerifyModel.
Import ListNotations.
Open Scope list_scope.
Open Scope Z_scope.

(** v is possible where the program says o *)
Definition may {A} (o : option A) (v : A) : Prop := match o with Some x => v = x | None => True end.
Definition may_shape (o : option (list size)) (s : list Z) : Prop := match o with Some l => Forall2 may l s | None => True end.
(** a tensor of type d and shape s *)
Definition may_tensor (t : tensor) (d : dt) (s : list Z) : Prop := may (dtype t) d /\ may_shape (sizes t) s.
Definition known (d : dt) (s : list Z) : tensor := {| dtype := Some d ; sizes := Some (map Some s) |}.
(** d names the dimension i of a tensor of rank r *)
Definition names (r : Z) (d i : Z) : Prop := 0 <= i < r /\ (d = i \/ d = i - r).
(** the dimensions of tensors of rank zero may be named 0 or -1 *)
Definition names_scalar (r d i : Z) : Prop := names (Z.max r 1) d i.

Definition can_permute (perm : list Z) (s o : list Z) : Prop :=
  exists idx, Forall2 (names (rank_of s)) perm idx /\ NoDup idx /\ List.length idx = List.length s /\ Forall2 (fun i n => nth_error s (Z.to_nat i) = Some n) idx o.
Definition can_cross (ds d_o : dt) (s o : list Z) (d : Z) : Prop :=
  ds = d_o /\ ds <> DBool /\ Forall2 (fun a b => a = b \/ a = 1 \/ b = 1) s o /\
  exists i, names (rank_of s) d i /\ nth_error s (Z.to_nat i) = Some 3 /\ nth_error o (Z.to_nat i) = Some 3.
Definition can_kthvalue (ds : dt) (s : list Z) (k d : Z) : Prop :=
  ds <> DBool /\ exists i n, names (rank_of s) d i /\ nth_error s (Z.to_nat i) = Some n /\ 1 <= k <= n.
Definition can_rot90 (s : list Z) (a b : Z) : Prop := 2 <= rank_of s /\ exists i j, names (rank_of s) a i /\ names (rank_of s) b j /\ i <> j.
Definition floating (d : dt) : Prop := In d [DF16; DBF16; DF32; DF64; DComplex].
Definition positive (n : number) : Prop := match n with NInt n => 0 < n | NFloat s => s = Some Gt end.
Definition not_negative (n : number) : Prop := match n with NInt n => 0 <= n | NFloat s => s = Some Gt \/ s = Some Eq end.
Definition can_renorm (ds : dt) (s : list Z) (p m : number) (d : Z) : Prop :=
  floating ds /\ 2 <= rank_of s /\ positive p /\ not_negative m /\ exists i, names (rank_of s) d i.
Definition can_tri_indices (row col code : Z) : Prop := 0 <= row /\ 0 <= col /\ (code = 3 \/ code = 4).
