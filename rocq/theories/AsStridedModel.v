(** Model of python/torch_mlir/extras/fx_as_strided.py.
    Tensors of indices are modelled pointwise: an index tensor of sizes [size] is a
    function from multi-indices to Z (all tensor operations used there are elementwise).
    int64 wrap-around of index arithmetic is not modelled. *)
From Coq Require Import String Ascii DecimalString Decimal ZArith List Lia Bool.
From Verif Require Import Prelude.
Import ListNotations.
Open Scope string_scope.
Open Scope list_scope.
Open Scope Z_scope.

(** fx_as_strided.py:215-220: [offsets]; element [idx] of the tensor built by
    [torch.full] and the broadcast [arange * step] additions. *)
Fixpoint add_steps (dim : nat) (stride : list Z) (idx : list Z) (acc : Z) : Z :=
  match stride with
  | [] => acc
  | step :: rest =>
      add_steps (S dim) rest idx
        (if step =? 0 then acc else acc + nth dim idx 0 * step)
  end.

(** fx_as_strided.py:216-219: [shape[dim] = size[dim]] raises IndexError when a
    non-zero step has no matching size. *)
Fixpoint steps_ok (dim : nat) (stride size : list Z) : bool :=
  match stride with
  | [] => true
  | step :: rest =>
      ((step =? 0) || (dim <? length size)%nat) && steps_ok (S dim) rest size
  end.

(** Python's stable [sorted(..., key, reverse=True)] (fx_as_strided.py:226). *)
Fixpoint insert_desc (key : nat -> Z) (x : nat) (l : list nat) : list nat :=
  match l with
  | [] => [x]
  | y :: r => if key y <? key x then x :: y :: r else y :: insert_desc key x r
  end.
Definition sort_desc (key : nat -> Z) (l : list nat) : list nat :=
  fold_left (fun acc x => insert_desc key x acc) l [].

(** fx_as_strided.py:227-231: one step of the greedy decoder, for one element. *)
Definition decode_step (base_stride : list Z) (s : list Z * Z) (dim : nat) : list Z * Z :=
  let '(coords, remaining) := s in
  let st := nth dim base_stride 0 in
  if st =? 0 then (coords, remaining)
  else let coord := remaining / st in
       (set_nth dim coord coords, remaining - coord * st).

(** fx_as_strided.py:222-231. *)
Definition decode (base_shape base_stride : list Z) (offset : Z) : list Z * Z :=
  let dims := sort_desc (fun i => nth i base_stride 0) (seq 0 (length base_shape)) in
  fold_left (decode_step base_stride) dims (repeat 0 (length base_shape), offset).

(** fx_as_strided.py:196-245 [_indices]: [None] is ValueError (or IndexError /
    torch error on malformed sizes); the result maps each result index to the
    base coordinates. *)
Definition indices (base_shape base_stride : list Z) (base_offset : Z)
    (size stride : list Z) (offset : Z) : option (list Z -> list Z) :=
  assert forallb (fun n => 0 <=? n) size;          (* torch.full *)
  assert steps_ok 0 stride size;                   (* l.216-219 *)
  assert (length base_shape <=? length base_stride)%nat; (* l.226 *)
  let off idx := add_steps 0 stride idx (offset - base_offset) in
  let dec idx := decode base_shape base_stride (off idx) in
  assert negb (existsb (fun idx => negb (snd (dec idx) =? 0)) (all_indices size)); (* l.235 *)
  assert negb (existsb (fun idx =>
      existsb (fun dim =>
          let coord := nth dim (fst (dec idx)) 0 in
          (coord <? 0) || (nth dim base_shape 0 <=? coord))
        (seq 0 (length base_shape))) (all_indices size)); (* l.242-244 *)
  Some (fun idx => fst (dec idx)).

(** ** Graphs *)

(** A dimension/stride/offset in FakeTensor metadata: [Some n] is a concrete int,
    [None] a SymInt (fx_as_strided.py:124-140). *)
Definition dim := option Z.

(** FakeTensor metadata (the parts read at fx_as_strided.py:70-91,171-187). *)
Record tmeta := { m_shape : list dim; m_stride : list dim; m_offset : dim;
                  m_storage : nat; m_dtype : nat }.

(** FX argument values. Node references are by node name: fx names are unique, and
    fx_as_strided.py:43-51 keeps the name of every replaced node, so object identity
    and name identity coincide. *)
Inductive arg :=
| ANode (n : string)
| AInt (z : Z)
| ANone
| ASym                        (* SymInt argument *)
| AList (l : list arg).

Inductive opk :=
| OPlaceholder
| OGetAttr (a : string)
| OAsStrided                  (* torch.ops.aten.as_strided.default *)
| OIndex                      (* torch.ops.aten.index.Tensor *)
| OOther (k : nat).           (* any other target, incl. output *)

Record node := { n_name : string; n_op : opk; n_args : list arg;
                 n_kwargs : list (string * arg); n_meta : option tmeta }.

Definition find_node (g : list node) (n : string) : option node :=
  find (fun x => String.eqb (n_name x) n) g.

Definition kw_get (kw : list (string * arg)) (name : string) : option arg :=
  option_map snd (find (fun p => String.eqb (fst p) name) kw).

(** fx_as_strided.py:114-121 [_arg]; [dflt = None] is [_MISSING]. *)
Definition get_arg (n : node) (index : nat) (name : string) (dflt : option arg) : option arg :=
  if (index <? length (n_args n))%nat then nth_error (n_args n) index
  else match kw_get (n_kwargs n) name with
       | Some a => Some a
       | None => dflt
       end.

(** fx_as_strided.py:124-132 [_ints] on FX arguments. *)
Definition arg_ints (a : arg) : option (list Z) :=
  match a with
  | AList l => mapM (fun x => match x with AInt z => Some z | _ => None end) l
  | _ => None
  end.
(** fx_as_strided.py:124-132 [_ints(meta=True)] on metadata. *)
Definition meta_ints (l : list dim) : option (list Z) := mapM (fun d => d) l.

(** fx_as_strided.py:135-140 [_int] on an FX argument. *)
Definition arg_int (a : arg) : option Z := match a with AInt z => Some z | _ => None end.

(** fx_as_strided.py:143-150 [_tensor]. *)
Definition node_meta (g : list node) (n : string) : option tmeta :=
  do x <- find_node g n; n_meta x.

(** fx_as_strided.py:179-193 [_same_storage_arg]. *)
Fixpoint same_storage_arg (g : list node) (st : nat) (a : arg) : option string :=
  match a with
  | ANode n =>
      match node_meta g n with
      | Some m => if Nat.eqb (m_storage m) st then Some n else None
      | None => None
      end
  | AList l =>
      (fix go (l : list arg) : option string :=
         match l with
         | [] => None
         | x :: r => match same_storage_arg g st x with Some n => Some n | None => go r end
         end) l
  | _ => None
  end.

Fixpoint first_some {A B} (f : A -> option B) (l : list A) : option B :=
  match l with
  | [] => None
  | x :: r => match f x with Some y => Some y | None => first_some f r end
  end.

(** fx_as_strided.py:167-176 [_storage_operand]: outer [None] = ValueError. *)
Definition storage_operand (g : list node) (n : string) : option (option string) :=
  do x <- find_node g n;
  do m <- n_meta x;
  Some (first_some (same_storage_arg g (m_storage m)) (n_args x ++ map snd (n_kwargs x))).

(** fx_as_strided.py:153-164 [_base]; the walk goes strictly backward in the graph, so
    the number of nodes bounds its length ([fuel]). *)
Fixpoint base_of (fuel : nat) (g : list node) (n : string) : option string :=
  match fuel with
  | O => None
  | S f => do o <- storage_operand g n;
           match o with
           | None => Some n
           | Some n' => base_of f g n'
           end
  end.

Definition string_of_nat (n : nat) : string := NilZero.string_of_uint (Nat.to_uint n).

(** fx_as_strided.py:105-106: [while hasattr(gm, name): name += "_"]. The loop stops
    after at most [length used + 1] rounds (proved); [fuel] is that bound. *)
Fixpoint fresh_loop (fuel : nat) (used : list string) (name : string) : string :=
  match fuel with
  | O => name
  | S f => if existsb (String.eqb name) used
           then fresh_loop f used (name ++ "_") else name
  end.
Definition fresh_name (used : list string) (name : string) : string :=
  fresh_loop (S (length used)) used name.

(** State threaded by the rewrite: attributes of the owning GraphModule (names already
    present and registered index tensors with their sizes), and node names in use. *)
Record rstate := { s_attrs : list string;
                   s_bufs : list (string * (list Z * (list Z -> Z)));
                   s_names : list string }.

(** fx_as_strided.py:96-111 [_constant] together with the node created by
    [g.get_attr]. fx's node-name generator is modelled by the same appending loop. *)
Definition constant (s : rstate) (nname : string) (i : nat)
    (t : list Z * (list Z -> Z)) : rstate * node :=
  let name := fresh_name (s_attrs s)
    ("_torch_mlir_as_strided_" ++ nname ++ "_index_" ++ string_of_nat i) in
  let nodename := fresh_name (s_names s) name in
  ({| s_attrs := name :: s_attrs s; s_bufs := (name, t) :: s_bufs s;
      s_names := nodename :: s_names s |},
   {| n_name := nodename; n_op := OGetAttr name; n_args := []; n_kwargs := [];
      n_meta := None |}).

Fixpoint constants (s : rstate) (nname : string) (i : nat)
    (ts : list (list Z * (list Z -> Z))) : rstate * list node :=
  match ts with
  | [] => (s, [])
  | t :: r => let '(s1, n) := constant s nname i t in
              let '(s2, ns) := constants s1 nname (S i) r in
              (s2, n :: ns)
  end.

(** fx_as_strided.py:59-93 [_rewrite]: the nodes that take the place of [n]. *)
Definition rewrite_node (g : list node) (s : rstate) (n : node) : option (rstate * list node) :=
  do source <- get_arg n 0 "self" None;
  do sizea <- get_arg n 1 "size" None;
  do size <- arg_ints sizea;
  do stridea <- get_arg n 2 "stride" None;
  do stride <- arg_ints stridea;
  do offa <- get_arg n 3 "storage_offset" (Some ANone);
  do src <- (match source with ANode x => Some x | _ => None end);
  do sm <- node_meta g src;
  do offset <- (match offa with ANone => m_offset sm | a => arg_int a end);
  do base <- base_of (S (length g)) g src;
  do bm <- node_meta g base;
  do bshape <- meta_ints (m_shape bm);
  do bstride <- meta_ints (m_stride bm);
  do boff <- m_offset bm;
  do coords <- indices bshape bstride boff size stride offset;
  do nm <- n_meta n;                                    (* _tensor(node, "result"), l.91 *)
  let ts := map (fun d => (size, fun idx => nth d (coords idx) 0)) (seq 0 (length bshape)) in
  let '(s', consts) := constants s (n_name n) 0 ts in
  Some (s', consts ++ [{| n_name := n_name n; n_op := OIndex;
      n_args := [ANode base; AList (map (fun c => ANode (n_name c)) consts)];
      n_kwargs := [];
      n_meta := Some {| m_shape := map Some size; m_stride := []; m_offset := Some 0;
                        m_storage := 0; m_dtype := m_dtype nm |} |}]).

(** fx_as_strided.py:39-52: the loop over the reversed snapshot. [g] is the graph as it
    was: producers are still in their original form when a node is processed.
    [eliminate_dead_code]/[lint] (l.54-55) are fx library calls and not modelled. *)
Fixpoint rewrite_rev (g : list node) (rev_nodes : list node) (s : rstate)
    (suffix : list node) : option (rstate * list node) :=
  match rev_nodes with
  | [] => Some (s, suffix)
  | n :: r =>
      match n_op n with
      | OAsStrided =>
          do res <- rewrite_node g s n;
          rewrite_rev g r (fst res) (snd res ++ suffix)
      | _ => rewrite_rev g r s (n :: suffix)
      end
  end.

(** fx_as_strided.py:17-56 [rewrite_as_strided]; [attrs] are the attribute names already
    present on the owning module. *)
Definition rewrite_as_strided (g : list node) (attrs : list string)
  : option (rstate * list node) :=
  rewrite_rev g (rev g)
    {| s_attrs := attrs; s_bufs := []; s_names := map n_name g |} [].
