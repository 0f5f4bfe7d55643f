(** The decomposition of einsum into permutations, reshapes and matrix products:
    lib/Dialect/Torch/Transforms/DecomposeComplexOps.cpp (dco), DecomposeAtenEinsumOp and its helpers.

    Equations are lists of characters. The tensors have elements in any type with a sum and a product.
    [None] is a pattern that does not apply, a read outside of a vector, or an error of an operation
    that was created (TensorOps.v). Sizes are taken to be known numbers; the types given to the results,
    and dtypes, are not modelled. *)
From Coq Require Import ZArith Bool Ascii String List.
From Verif Require Import Prelude TensorOps.
Import ListNotations.
Open Scope list_scope.
Open Scope Z_scope.

Definition token := list ascii.
Definition same_char (a b : ascii) : bool := Ascii.eqb a b.
Definition has (l : token) (c : ascii) : bool := existsb (same_char c) l.
(** std::isalpha in the C locale *)
Definition alpha (c : ascii) : bool :=
  let n := nat_of_ascii c in
  (Nat.leb 65 n && Nat.leb n 90) || (Nat.leb 97 n && Nat.leb n 122).
Definition comma : ascii := ","%char.
Definition dot : ascii := "."%char.
Definition space : ascii := " "%char.
Definition minus : ascii := "-"%char.
Definition greater : ascii := ">"%char.

(** * parseEquation, dco l.283-317 *)
Fixpoint parse (cs : token) (is_input : bool) (input : token) (inputs : list token) (result : token) : option (list token * token) :=
  match cs with
  | [] => Some (if negb (match input with [] => true | _ => false end) && is_input then inputs ++ [input] else inputs, result)
  | c :: r =>
      if alpha c then
        if is_input then parse r is_input (input ++ [c]) inputs result else parse r is_input input inputs (result ++ [c])
      else if same_char c comma then parse r is_input [] (inputs ++ [input]) result
      else match r with
           | d :: r' =>
               if same_char c minus && same_char d greater then parse r' false [] (inputs ++ [input]) result
               else if same_char c space then parse r is_input input inputs result else None
           | [] => if same_char c space then parse r is_input input inputs result else None
           end
  end.
Definition parse_equation (cs : token) : option (list token * token) := parse cs true [] [] [].

(** * rewriteEquationWithEllipsisSlicing, dco l.184-281 *)
(** The text before and after the first "->". *)
Fixpoint split_arrow (cs : token) : option (token * token) :=
  match cs with
  | c :: r =>
      match r with
      | d :: r' => if same_char c minus && same_char d greater then Some ([], r')
                   else do p <- split_arrow r; Some (c :: fst p, snd p)
      | [] => None
      end
  | [] => None
  end.
Fixpoint split_commas (cs : token) (current : token) : list token :=
  match cs with [] => [current] | c :: r => if same_char c comma then current :: split_commas r [] else split_commas r (current ++ [c]) end.
(** l.195-210: nothing is read from an empty text. *)
Definition operands (cs : token) : list token := match cs with [] => [] | _ => split_commas cs [] end.
(** l.220-234 *)
Fixpoint explicit_rank (t : token) : option Z :=
  match t with
  | [] => Some 0
  | c :: r => if alpha c then do n <- explicit_rank r; Some (n + 1)
              else if same_char c dot || same_char c space then explicit_rank r else None
  end.
Fixpoint ellipsis_ranks (ts : list token) (ranks : list Z) : option (list Z) :=
  match ts, ranks with
  | t :: ts, r :: ranks => do n <- explicit_rank t; if r - n <? 0 then None else do l <- ellipsis_ranks ts ranks; Some (r - n :: l)
  | _, _ => Some []
  end.
Definition lowercase : token := list_ascii_of_string "abcdefghijklmnopqrstuvwxyz".
(** l.250-259: stops when the count is reached, after a letter has been added. *)
Fixpoint fresh (letters used : token) (count max : Z) : token :=
  match letters with
  | [] => []
  | c :: r => if has used c then fresh r used count max
              else c :: (if count + 1 =? max then [] else fresh r used (count + 1) max)
  end.
(** Replaces the first "...". *)
Fixpoint replace_dots (t new : token) : token :=
  match t with
  | a :: r => match r with
              | b :: c :: r' => if same_char a dot && same_char b dot && same_char c dot then new ++ r' else a :: replace_dots r new
              | _ => t
              end
  | [] => []
  end.
Fixpoint has_dots (t : token) : bool :=
  match t with
  | a :: r => match r with
              | b :: c :: _ => (same_char a dot && same_char b dot && same_char c dot) || has_dots r
              | _ => false
              end
  | [] => false
  end.
(** l.262-276. [None]: substr is given a position after the end, when there are too few letters. *)
Definition replaced (letters : token) (max : Z) (t : token) (r : Z) : option token :=
  if has_dots t then
    if r =? max then Some (replace_dots t letters)
    else if r =? 0 then Some (replace_dots t [])
    else if zlen letters <? r then None else Some (replace_dots t (skipn (Z.to_nat (zlen letters - r)) letters))
  else Some t.
Fixpoint replaced_all (letters : token) (max : Z) (ts : list token) (rs : list Z) : option (list token) :=
  match ts, rs with
  | t :: ts, r :: rs => do a <- replaced letters max t r; do l <- replaced_all letters max ts rs; Some (a :: l)
  | _, _ => Some []
  end.
Fixpoint join (ts : list token) : token := match ts with [] => [] | [t] => t | t :: r => t ++ comma :: join r end.
Definition rewrite_ellipsis (cs : token) (ranks : list Z) : option token :=
  do p <- split_arrow cs;
  let tokens := operands (fst p) in
  if negb (zlen tokens =? zlen ranks) then None
  else
    do es <- ellipsis_ranks tokens ranks;
    let max := fold_left Z.max es 0 in
    let letters := fresh lowercase (filter alpha (concat tokens)) 0 max in
    do tokens <- replaced_all letters max tokens es;
    let result := if has_dots (snd p) then replace_dots (snd p) letters else snd p in
    Some (join tokens ++ [space; minus; greater; space] ++ result).

Section Values.
Context {R : Type} (zero one : R) (plus times : R -> R -> R).
Definition total (l : list R) : R := fold_right plus zero l.

(** * The operations that are created *)
(** aten.diagonal with offset 0: both dimensions are removed and the diagonal is added at the end. *)
Definition diagonal (t : tensor R) (d0 d1 : Z) : option (tensor R) :=
  do a <- axis (rank t) d0; do b <- axis (rank t) d1;
  if Nat.eqb a b then None
  else
    let lo := Nat.min a b in let hi := Nat.max a b in
    Some {| sizes := remove lo (remove hi (sizes t)) ++ [Z.min (get (sizes t) a) (get (sizes t) b)];
            elt := fun ix => let i := get ix (length (sizes t) - 2) in
                             elt t (insert hi i (insert lo i (firstn (length (sizes t) - 2) ix))) |}.
(** aten.matmul of two tensors of rank 3 *)
Definition bmm (a b : tensor R) : option (tensor R) :=
  match sizes a, sizes b with
  | [n; m; k], [n'; k'; p] =>
      if (k =? k') && ((n =? n') || (n =? 1) || (n' =? 1)) then
        Some {| sizes := [if n =? 1 then n' else n; m; p];
                elt := fun ix => total (map (fun j => times (elt a [if n =? 1 then 0 else get ix 0; get ix 1; j])
                                                            (elt b [if n' =? 1 then 0 else get ix 0; j; get ix 2])) (zrange 0 k)) |}
      else None
  | _, _ => None
  end.
(** aten.sum.dim_IntList without keepdim, dimensions counted from the start. *)
Fixpoint keep {B} (ds : list nat) (k : nat) (l : list B) : list B :=
  match l with [] => [] | x :: r => if mem k ds then keep ds (S k) r else x :: keep ds (S k) r end.
Fixpoint drop {B} (ds : list nat) (k : nat) (l : list B) : list B :=
  match l with [] => [] | x :: r => if mem k ds then x :: drop ds (S k) r else drop ds (S k) r end.
(** The index with the kept components from [ix] and the summed ones from [jx]. *)
Fixpoint weave (ds : list nat) (k n : nat) (ix jx : list Z) : list Z :=
  match n with
  | O => []
  | S n => if mem k ds then get jx 0 :: weave ds (S k) n ix (skipn 1 jx) else get ix 0 :: weave ds (S k) n (skipn 1 ix) jx
  end.
Definition sum_dims (t : tensor R) (ds : list nat) : tensor R :=
  {| sizes := keep ds 0 (sizes t);
     elt := fun ix => total (map (fun jx => elt t (weave ds 0 (length (sizes t)) ix jx)) (all_indices (drop ds 0 (sizes t)))) |}.

(** * diagonalizeInputAndRewriteEquation, dco l.319-397 *)
(** The second position of the character at [d0], the first one after it. *)
Fixpoint find_from (c : ascii) (t : token) (k : nat) : option nat :=
  match t with [] => None | x :: r => if same_char c x then Some k else find_from c r (S k) end.
(** l.338-385. The position stays where it is after a removal; the fuel is the number of steps. *)
Fixpoint diagonalize (fuel : nat) (d0 : nat) (t : token) (input : tensor R) : option (token * tensor R) :=
  match fuel with
  | O => Some (t, input)
  | S fuel =>
      match nth_error t d0 with
      | None => Some (t, input)
      | Some id =>
          match find_from id (skipn (S d0) t) (S d0) with
          | None => diagonalize fuel (S d0) t input
          | Some d1 =>
              do u <- diagonal input (Z.of_nat d0) (Z.of_nat d1);
              diagonalize fuel d0 (remove d0 (remove d1 t) ++ [id]) u
          end
      end
  end.
Fixpoint diagonalize_all (ts : list token) (inputs : list (tensor R)) : option (list token * list (tensor R)) :=
  match ts with
  | [] => Some ([], inputs)
  | t :: ts =>
      match inputs with
      | [] => None
      | input :: inputs =>
          do p <- diagonalize (length t) 0 t input;
          do q <- diagonalize_all ts inputs;
          Some (fst p :: fst q, snd p :: snd q)
      end
  end.
Definition equation_text (ts : list token) (result : token) : token :=
  match result with [] => join ts | _ => join ts ++ [minus; greater] ++ result end.

(** * parseDimTokens, dco l.473-517 *)
Definition batching (l r out : token) : token := filter (fun c => has r c && has out c) l.
Definition lhs_reduce (l r out : token) : token := filter (fun c => negb (has r c) && negb (has out c)) l.
Definition lhs_other (l r out : token) : token := filter (fun c => has out c && negb (has r c && has out c)) l.
Definition contracting (l r out : token) : token := filter (fun c => has r c && negb (has out c)) l.
Definition rhs_reduce (l r out : token) : token := filter (fun c => negb (has l c) && negb (has out c)) r.
Definition rhs_other (l r out : token) : token := filter (fun c => has out c && negb (has l c && has out c)) r.

(** The last position of a character; a map that has no entry gives 0. *)
Fixpoint last_position (c : ascii) (t : token) (k found : Z) : Z :=
  match t with [] => found | x :: r => last_position c r (k + 1) (if same_char c x then k else found) end.
(** permuteTensorForMatmul, dco l.540-578 *)
Definition permute_for_matmul (input : tensor R) (tokens b c o r : token) (is_lhs : bool) : option (tensor R) :=
  let order := b ++ (if is_lhs then [] else c) ++ o ++ r ++ (if is_lhs then c else []) in
  permute input (map (fun d => last_position d tokens 0 0) order).
(** collapseDimForMatmul, dco l.401-468 *)
Definition collapse_for_matmul (input : tensor R) (b c o r : nat) (is_lhs : bool) : option (tensor R) :=
  let s := firstn (b + c + o + r) (sizes input) in
  if Nat.ltb (length s) (b + c + o + r) then None
  else
    let shape := if is_lhs
      then [prodZ (firstn b s); prodZ (firstn (o + r) (skipn b s)); prodZ (firstn c (skipn (b + (o + r)) s))]
      else [prodZ (firstn b s); prodZ (firstn c (skipn b s)); prodZ (firstn (o + r) (skipn (b + c) s))] in
    view input shape.
(** performMatmul, dco l.580-716 *)
Definition size_in (tokens : token) (s : list Z) (c : ascii) : Z := get s (Z.to_nat (last_position c tokens 0 0)).
Definition out_size (l : token) (ls : list Z) (r : token) (rs : list Z) (c : ascii) : Z :=
  if has l c && has r c then Z.max (size_in l ls c) (size_in r rs c)
  else if has l c then size_in l ls c else size_in r rs c.
Definition perform_matmul (lhs : tensor R) (l : token) (rhs : tensor R) (r out : token) : option (tensor R * token) :=
  if (rank lhs <? zlen l) || (rank rhs <? zlen r) then None
  else
    let b := batching l r out in let c := contracting l r out in
    let lo := lhs_other l r out in let lr := lhs_reduce l r out in
    let ro := rhs_other l r out in let rr := rhs_reduce l r out in
    do lhs1 <- permute_for_matmul lhs l b c lo lr true;
    do rhs1 <- permute_for_matmul rhs r b c ro rr false;
    do lhs2 <- collapse_for_matmul lhs1 (length b) (length c) (length lo) (length lr) true;
    do rhs2 <- collapse_for_matmul rhs1 (length b) (length c) (length ro) (length rr) false;
    do result <- bmm lhs2 rhs2;
    let tokens := b ++ lo ++ lr ++ ro ++ rr in
    do reshaped <- view result (map (out_size l (sizes lhs) r (sizes rhs)) tokens);
    Some (reshaped, tokens).

(** performLastReduceAndPermute, dco l.718-769. A character that the map does not have is at 0. *)
Fixpoint sum_positions (k : nat) (input out : token) : list nat :=
  match input with [] => [] | c :: r => if has out c then sum_positions (S k) r out else k :: sum_positions (S k) r out end.
Definition last_reduce_and_permute (input : tensor R) (tokens out : token) : option (tensor R) :=
  let ds := sum_positions 0 tokens out in
  let summed := match ds with [] => input | _ => sum_dims input ds end in
  permute summed (map (fun d => last_position d (filter (has out) tokens) 0 0) out).

(** l.2039-2051 *)
Fixpoint matmul_all (lhs : tensor R) (l : token) (tensors : list (tensor R)) (tokens : list token) (out : token) : option (tensor R * token) :=
  match tensors with
  | [] => Some (lhs, l)
  | rhs :: tensors =>
      match tokens with
      | [] => None
      | r :: tokens => do p <- perform_matmul lhs l rhs r out; matmul_all (fst p) (snd p) tensors tokens out
      end
  end.
(** DecomposeAtenEinsumOp, dco l.1982-2058 *)
Definition einsum_tokens (tokens : list token) (out : token) (tensors : list (tensor R)) : option (tensor R) :=
  match tokens, tensors with
  | l :: tokens, lhs :: tensors => do p <- matmul_all lhs l tensors tokens out; last_reduce_and_permute (fst p) (snd p) out
  | _, _ => None
  end.
Definition dec_einsum (equation : token) (tensors : list (tensor R)) : option (tensor R) :=
  do equation <- (if has_dots equation then rewrite_ellipsis equation (map rank tensors) else Some equation);
  do p <- parse_equation equation;
  do q <- diagonalize_all (fst p) tensors;
  do p <- parse_equation (equation_text (fst q) (snd p));
  einsum_tokens (fst p) (snd p) (snd q).
End Values.
