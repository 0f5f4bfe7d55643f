(** Types of the torch dialect: subtyping, combination of tensor types, printing and parsing.

    Sources under /repo: tt = lib/Dialect/Torch/IR/TorchTypes.cpp, td = lib/Dialect/Torch/IR/TorchDialect.cpp,
    def = include/torch-mlir/Dialect/Torch/IR/TorchTypes.td, hdr = include/torch-mlir/Dialect/Torch/IR/TorchTypes.h.
    Types are uniqued in MLIR, so that [==] is structural equality. Builtin types and attributes are
    printed and parsed by MLIR and are single tokens here. *)
From Coq Require Import ZArith Bool String List.
From Verif Require Import Prelude DtypeModel.
Import ListNotations.
Open Scope list_scope.
Open Scope Z_scope.

(** Types without parameters, def l.255-380. *)
Inductive atom := AnyA | NumberA | IntA | FloatA | BoolA | NoneA | StringA | DeviceA | GeneratorA | LinearParamsA
| QInt8A | QInt16A | QUInt8A | QInt32A.
(** Element types of tensors. *)
Inductive dtype := Builtin (m : mlir_type) | F8E4M3B11FNUZ | StringD.
(** Sparsity: a sparse encoding or some other attribute. *)
Inductive encoding := SparseE (id : Z) | OtherE (id : Z).
(** ValueTensorType and NonValueTensorType, def l.58-200. *)
Record tensor_type := { value_semantics : bool; sizes : option (list Z); elt : option dtype; sparsity : option encoding }.
Inductive ty :=
| Atom (a : atom)
| Module (class_name : string)
| Optional (t : ty)
| List_ (t : ty)
| Tuple (ts : list ty)
| Union (ts : list ty)
| Dict (key value : ty)
| Tens (t : tensor_type).

Definition unknown_size : Z := -1. (** hdr l.38 *)

Definition atom_eq_dec : forall a b : atom, {a = b} + {a <> b}. Proof. decide equality. Defined.
Definition mlir_eq_dec : forall a b : mlir_type, {a = b} + {a <> b}. Proof. repeat (decide equality). Defined.
Definition dtype_eq_dec : forall a b : dtype, {a = b} + {a <> b}. Proof. decide equality. apply mlir_eq_dec. Defined.
Definition tensor_eq_dec : forall a b : tensor_type, {a = b} + {a <> b}.
Proof. repeat (decide equality); apply dtype_eq_dec. Defined.
Fixpoint ty_eqb (a b : ty) : bool :=
  match a, b with
  | Atom x, Atom y => if atom_eq_dec x y then true else false
  | Module x, Module y => String.eqb x y
  | Optional x, Optional y => ty_eqb x y
  | List_ x, List_ y => ty_eqb x y
  | Tuple xs, Tuple ys => (fix go xs ys := match xs, ys with [], [] => true | x :: xs', y :: ys' => ty_eqb x y && go xs' ys' | _, _ => false end) xs ys
  | Union xs, Union ys => (fix go xs ys := match xs, ys with [], [] => true | x :: xs', y :: ys' => ty_eqb x y && go xs' ys' | _, _ => false end) xs ys
  | Dict k v, Dict k' v' => ty_eqb k k' && ty_eqb v v'
  | Tens x, Tens y => if tensor_eq_dec x y then true else false
  | _, _ => false
  end.

(** isSubsizes, tt l.87-100. *)
Fixpoint sizes_agree (type_sizes sub_sizes : list Z) : bool :=
  match type_sizes, sub_sizes with
  | x :: r, y :: r' => (if negb (x =? unknown_size) && negb (x =? y) then false else sizes_agree r r')
  | _, _ => true
  end.
Definition isSubsizes (type_sizes sub_sizes : list Z) : bool :=
  if negb (zlen type_sizes =? zlen sub_sizes) then false else sizes_agree type_sizes sub_sizes.
(** tt l.70-109. *)
Definition tensor_subtype (sub type : tensor_type) : bool :=
  if negb (Bool.eqb (value_semantics sub) (value_semantics type)) then false
  else
    match elt type, elt sub with
    | Some _, None => false
    | Some d, Some d' => if dtype_eq_dec d d' then true else false
    | None, _ => true
    end &&
    match sizes type, sizes sub with
    | Some _, None => false
    | Some s, Some s' => isSubsizes s s'
    | None, _ => true
    end.
(** The loop over the elements of two tuples, tt l.59-67. *)
Section Forallb2.
  Context {A B : Type} (f : A -> B -> bool).
  Fixpoint forallb2 (l : list A) (m : list B) : bool :=
    match l, m with
    | x :: l', y :: m' => f x y && forallb2 l' m'
    | _, _ => true
    end.
End Forallb2.
(** isValidSubtype, tt l.26-114. *)
Fixpoint isValidSubtype (subtype : ty) : ty -> bool :=
  fix go (type : ty) : bool :=
    if ty_eqb subtype type then true
    else
      match subtype with
      | Union cs => forallb (fun c => isValidSubtype c type) cs
      | _ =>
          match type with
          | Atom AnyA => true
          | Atom NumberA => match subtype with Atom IntA | Atom FloatA => true | _ => false end
          | Optional t => go t || match subtype with Atom NoneA => true | _ => false end
          | Union cs => existsb go cs
          | Tuple types =>
              match subtype with
              | Tuple subtypes =>
                  if negb (zlen subtypes =? zlen types) then false else forallb2 isValidSubtype subtypes types
              | _ => false
              end
          | Tens t => match subtype with Tens s => tensor_subtype s t | _ => false end
          | _ => false
          end
      end.

(** meetTensorTypes, tt l.530-582; [None] is the null type. The assertion that both operands have the same
    value semantics is a hypothesis of the theorems. *)
Fixpoint meet_sizes (l r : list Z) : option (list Z) :=
  match l, r with
  | x :: l', y :: r' =>
      do s <- (if x =? y then Some x else if x =? unknown_size then Some y else if y =? unknown_size then Some x else None);
      do rest <- meet_sizes l' r';
      Some (s :: rest)
  | [], _ => Some []
  | _ :: _, [] => None
  end.
Definition or_else {A} (a b : option A) : option A := match a with Some _ => a | None => b end.
Definition meetTensorTypes (lhs rhs : tensor_type) : option tensor_type :=
  do _ <- (match elt lhs, elt rhs with Some a, Some b => if dtype_eq_dec a b then Some tt else None | _, _ => Some tt end);
  let d := or_else (elt lhs) (elt rhs) in
  match sizes lhs, sizes rhs with
  | None, None => Some {| value_semantics := true; sizes := None; elt := d; sparsity := None |}
  | l, r =>
      do _ <- (match l, r with Some a, Some b => guard (zlen a =? zlen b) | _, _ => Some tt end);
      do ls <- or_else l r;
      do rs <- or_else r l;
      do s <- meet_sizes ls rs;
      Some {| value_semantics := value_semantics lhs; sizes := Some s; elt := d; sparsity := None |}
  end.
(** getWithSizesAndDtype, tt l.236-243; getWithValueSemantics, l.402; getWithoutValueSemantics, l.449. *)
Definition getWithSizesAndDtype (t : tensor_type) (s : option (list Z)) (d : option dtype) : tensor_type :=
  {| value_semantics := value_semantics t; sizes := s; elt := d; sparsity := None |}.
Definition getWithValueSemantics (t : tensor_type) : tensor_type :=
  if value_semantics t then t else {| value_semantics := true; sizes := sizes t; elt := elt t; sparsity := None |}.
Definition getWithoutValueSemantics (t : tensor_type) : tensor_type :=
  {| value_semantics := false; sizes := sizes t; elt := elt t; sparsity := None |}.

(** isValidTorchDtype, tt l.175-218. *)
Definition isValidTorchDtype (d : dtype) : bool :=
  let d := match d with Builtin (ComplexT e) => Builtin e | _ => d end in
  match d with
  | Builtin (QInt8T | QUInt8T | QInt16T | QInt32T) => true
  | Builtin (FloatT _) | F8E4M3B11FNUZ => true
  | StringD => true
  | Builtin (IntT w s) =>
      match s with
      | Signless => w =? 1
      | _ => existsb (Z.eqb w) [4; 8; 16; 32; 64]
      end
  | _ => false
  end.
(** verifyTensorType, tt l.265-301; [venc] is the encoding's own check. *)
Definition verifyTensorType (venc : encoding -> list Z -> dtype -> bool) (s : option (list Z)) (d : option dtype) (e : option encoding) : bool :=
  match d with Some x => isValidTorchDtype x | None => true end &&
  match s with Some l => forallb (fun x => negb ((x <? 0) && negb (x =? unknown_size))) l | None => true end &&
  match e with
  | None => true
  | Some enc =>
      match s, d with Some l, Some x => venc enc l x | _, _ => true end &&
      match enc with SparseE _ => true | OtherE _ => false end
  end.

(** ** Printing *)
Inductive token :=
| Word (w : string) | Quoted (w : string) | Less | Greater | LSquare | RSquare | Comma | Star | Question
| Int_ (z : Z) | Type_ (d : dtype) | Attr (e : encoding).
(** printTensorType, tt l.368-397. *)
Definition print_size (x : Z) : token := if x <? 0 then Question else Int_ x.
Fixpoint print_sizes (l : list Z) : list token :=
  match l with [] => [] | [x] => [print_size x] | x :: r => print_size x :: Comma :: print_sizes r end.
Definition printTensorType (s : option (list Z)) (d : option dtype) (e : option encoding) : list token :=
  match s, d with
  | None, None => []
  | _, _ =>
      [Less] ++
      match s with Some l => [LSquare] ++ print_sizes l ++ [RSquare] | None => [Star] end ++
      [Comma] ++
      [match d with Some x => Type_ x | None => Word "unk" end] ++
      match e with Some x => [Comma; Attr x] | None => [] end ++
      [Greater]
  end.
Definition mnemonic (a : atom) : string :=
  match a with
  | AnyA => "any" | NumberA => "number" | IntA => "int" | FloatA => "float" | BoolA => "bool" | NoneA => "none" | StringA => "str"
  | DeviceA => "Device" | GeneratorA => "Generator" | LinearParamsA => "LinearParams"
  | QInt8A => "qint8" | QInt16A => "qint16" | QUInt8A => "quint8" | QInt32A => "qint32"
  end.
(** interleaveComma. *)
Fixpoint commas (l : list (list token)) : list token :=
  match l with [] => [] | [x] => x | x :: r => x ++ Comma :: commas r end.
(** printTorchDialectType: the generated dispatch on the mnemonic (def), td l.188-268, tt l.138-172. *)
Fixpoint print (t : ty) : list token :=
  match t with
  | Atom a => [Word (mnemonic a)]
  | Module n => [Word "nn.Module"; Less; Quoted n; Greater]
  | Optional u => [Word "optional"; Less] ++ print u ++ [Greater]
  | List_ u => [Word "list"; Less] ++ print u ++ [Greater]
  | Dict k v => [Word "dict"; Less] ++ print k ++ [Comma] ++ print v ++ [Greater]
  | Tuple ts => [Word "tuple"; Less] ++ commas (map print ts) ++ [Greater]
  | Union ts => [Word "union"; Less] ++ commas (map print ts) ++ [Greater]
  | Tens t => Word (if value_semantics t then "vtensor" else "tensor") :: printTensorType (sizes t) (elt t) (sparsity t)
  end.

(** ** Parsing *)
Definition expect (test : token -> bool) (l : list token) : option (list token) :=
  match l with t :: r => if test t then Some r else None | [] => None end.
Definition is_less t := match t with Less => true | _ => false end.
Definition is_greater t := match t with Greater => true | _ => false end.
Definition is_lsquare t := match t with LSquare => true | _ => false end.
Definition is_rsquare t := match t with RSquare => true | _ => false end.
Definition is_comma t := match t with Comma => true | _ => false end.
(** The loop over sizes, tt l.319-336: stops where neither [?] nor an integer follows. [first] as in the source. *)
Fixpoint parse_sizes (first : bool) (l : list token) : list Z * list token :=
  match l with
  | Question :: r => if first then let '(s, rest) := parse_sizes false r in (unknown_size :: s, rest) else ([], l)
  | Int_ z :: r => if first then let '(s, rest) := parse_sizes false r in (z :: s, rest) else ([], l)
  | Comma :: r =>
      if first then ([], l)
      else match r with
           | Question :: r' => let '(s, rest) := parse_sizes false r' in (unknown_size :: s, rest)
           | Int_ z :: r' => let '(s, rest) := parse_sizes false r' in (z :: s, rest)
           | _ => ([], r)
           end
  | _ => ([], l)
  end.
(** parseTensorType, tt l.303-366. *)
Definition parseTensorType (venc : encoding -> list Z -> dtype -> bool) (vs : bool) (l : list token) : option (tensor_type * list token) :=
  match l with
  | Less :: r =>
      do (s, r) <- (match r with
                    | Star :: r => Some (None, r)
                    | _ =>
                        do r <- expect is_lsquare r;
                        let '(s, r) := parse_sizes true r in
                        do r <- expect is_rsquare r;
                        Some (Some s, r)
                    end);
      do r <- expect is_comma r;
      do (d, r) <- (match r with
                    | Word "unk" :: r => Some (None, r)
                    | Type_ d :: r => Some (Some d, r)
                    | _ => None
                    end);
      do (e, r) <- (match r with
                    | Comma :: Attr e :: r => Some (Some e, r)
                    | Comma :: _ => None
                    | _ => Some (None, r)
                    end);
      do r <- expect is_greater r;
      assert verifyTensorType venc s d e;
      Some ({| value_semantics := vs; sizes := s; elt := d; sparsity := e |}, r)
  | _ => Some ({| value_semantics := vs; sizes := None; elt := None; sparsity := None |}, l)
  end.
Definition parse_atom (w : string) : option atom :=
  find (fun a => String.eqb w (mnemonic a))
    [AnyA; NumberA; IntA; FloatA; BoolA; NoneA; StringA; DeviceA; GeneratorA; LinearParamsA; QInt8A; QInt16A; QUInt8A; QInt32A].
(** The do-while loop of parseMultipleContainedTypes, tt l.129-135; [n] bounds the number of turns. *)
Fixpoint parse_multi (p : list token -> option (ty * list token)) (n : nat) (r : list token) : option (list ty * list token) :=
  match n with
  | O => None
  | S n =>
      do (t, r) <- p r;
      match r with
      | Comma :: r => do (ts, r) <- parse_multi p n r; Some (t :: ts, r)
      | _ => do r <- expect is_greater r; Some ([t], r)
      end
  end.
(** parseTorchDialectType, td l.64-74 and l.202-282; parseMultipleContainedTypes, tt l.121-136.
    [fuel] bounds the nesting. *)
Section Parser.
  Variable venc : encoding -> list Z -> dtype -> bool.
  Fixpoint parse (fuel : nat) (l : list token) {struct fuel} : option (ty * list token) :=
    match fuel with
    | O => None
    | S fuel =>
        let contained := fun r =>
          do r <- expect is_less r; do (t, r) <- parse fuel r; do r <- expect is_greater r; Some (t, r) in
        let multiple := fun r =>
          do r <- expect is_less r;
          match r with Greater :: r => Some ([], r) | _ => parse_multi (parse fuel) fuel r end in
        match l with
        | Word w :: r =>
            if String.eqb w "nn.Module" then
              do r <- expect is_less r;
              match r with Quoted n :: r => do r <- expect is_greater r; Some (Module n, r) | _ => None end
            else if String.eqb w "optional" then do (t, r) <- contained r; Some (Optional t, r)
            else if String.eqb w "list" then do (t, r) <- contained r; Some (List_ t, r)
            else if String.eqb w "dict" then
              do r <- expect is_less r; do (k, r) <- parse fuel r; do r <- expect is_comma r;
              do (v, r) <- parse fuel r; do r <- expect is_greater r; Some (Dict k v, r)
            else if String.eqb w "tuple" then do (ts, r) <- multiple r; Some (Tuple ts, r)
            else if String.eqb w "union" then do (ts, r) <- multiple r; Some (Union ts, r)
            else if String.eqb w "vtensor" then do (t, r) <- parseTensorType venc true r; Some (Tens t, r)
            else if String.eqb w "tensor" then do (t, r) <- parseTensorType venc false r; Some (Tens t, r)
            else do a <- parse_atom w; Some (Atom a, r)
        | _ => None
        end
    end.
End Parser.

(** convertDtypeToBuiltinElementType, tt l.461-483; element widths lose their quantized nature. *)
Definition convertDtypeToBuiltinElementType (d : dtype) : option dtype :=
  match d with
  | Builtin (FloatT _) | Builtin (IntT _ _) | Builtin (ComplexT _) | F8E4M3B11FNUZ => Some d
  | Builtin QUInt8T | Builtin QInt8T => Some (Builtin (IntT 8 Signless))
  | Builtin QInt16T => Some (Builtin (IntT 16 Signless))
  | Builtin QInt32T => Some (Builtin (IntT 32 Signless))
  | _ => None
  end.
(** DictType::verify, tt l.594-630. *)
Definition isAnyTorchDictKeyType (t : ty) : bool :=
  match t with Atom (AnyA | IntA | BoolA | FloatA | StringA) | Tens _ => true | _ => false end.
Definition isAnyTorchType (t : ty) : bool :=
  isValidSubtype t (Atom NumberA) ||
  match t with
  | Tens _ | Atom (AnyA | BoolA | DeviceA | GeneratorA | LinearParamsA | NumberA | NoneA | StringA)
  | Dict _ _ | List_ _ | Module _ | Optional _ | Tuple _ | Union _ => true
  | _ => false
  end.
Definition dict_verify (k v : ty) : bool := isAnyTorchDictKeyType k && isAnyTorchType v.
