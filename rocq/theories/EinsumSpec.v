(** What torch.einsum computes, from PyTorch's documentation: every operand has a letter for each of
    its dimensions; the product of the operands, each read at its letters, is summed over the letters
    that the result does not have. *)
From Coq Require Import ZArith Bool Ascii String List Setoid.
From Verif Require Import Prelude TensorOps.
Import ListNotations.
Open Scope list_scope.
Open Scope Z_scope.

Definition letters := list ascii.
Fixpoint value_of (keys : letters) (values : list Z) (c : ascii) : Z :=
  match keys, values with k :: keys, v :: values => if Ascii.eqb c k then v else value_of keys values c | _, _ => 0 end.
Definition summed (ins : list letters) (out : letters) : letters :=
  nodup ascii_dec (filter (fun c => negb (existsb (Ascii.eqb c) out)) (concat ins)).
Definition einsum {R} (zero one : R) (plus times : R -> R -> R) (size : ascii -> Z) (ins : list letters) (out : letters) (ts : list (tensor R)) : tensor R :=
  {| sizes := map size out;
     elt := fun ix =>
       fold_right plus zero
         (map (fun jx => fold_right times one
                 (map (fun p : letters * tensor R => elt (snd p) (map (value_of (out ++ summed ins out) (ix ++ jx)) (fst p))) (combine ins ts)))
              (all_indices (map size (summed ins out)))) |}.

(** Every letter has one size, in all operands. *)
Definition consistent {R} (size : ascii -> Z) (ins : list letters) (ts : list (tensor R)) : Prop :=
  (forall c, 0 <= size c) /\ Forall2 (fun l t => sizes t = map size l) ins ts.
(** A letter of an equation: A-Z or a-z. *)
Definition is_letter (c : ascii) : Prop := (65 <= nat_of_ascii c <= 90 \/ 97 <= nat_of_ascii c <= 122)%nat.
(** The equation as it is written. *)
Fixpoint commas (ins : list letters) : letters := match ins with [] => [] | [t] => t | t :: r => t ++ ","%char :: commas r end.
Definition arrow : letters := ["-"; ">"]%char.
Definition written (ins : list letters) (out : letters) : letters := commas ins ++ arrow ++ out.
(** The same text with spaces added, but not inside of the arrow. *)
Inductive spaced : letters -> letters -> Prop :=
| spaced_nil : spaced [] []
| spaced_space : forall a b, spaced a b -> spaced (" "%char :: a) b
| spaced_arrow : forall a b, spaced a b -> spaced ("-" :: ">" :: a)%char ("-" :: ">" :: b)%char
| spaced_char : forall c a b, c <> "-"%char -> c <> " "%char -> spaced a b -> spaced (c :: a) (c :: b).
(** A letter that is summed is in at most two operands. *)
Definition operands_with (c : ascii) (ins : list letters) : nat := length (filter (existsb (Ascii.eqb c)) ins).
Definition at_most_two (ins : list letters) (out : letters) : Prop := forall c, ~ In c out -> (operands_with c ins <= 2)%nat.

(** * The ellipsis *)
Definition dots : letters := ["."; "."; "."]%char.
(** An operand: the letters before and after the ellipsis, or all its letters. *)
Definition operand := (letters * option letters)%type.
Definition shown (o : operand) : letters := fst o ++ match snd o with Some post => dots ++ post | None => [] end.
Definition own (o : operand) : letters := fst o ++ match snd o with Some post => post | None => [] end.
(** Written with [new] for the ellipsis: its last letters, as many as the operand has other dimensions. *)
Definition filled (new : letters) (rank : Z) (o : operand) : letters :=
  match snd o with
  | Some post => fst o ++ skipn (length new - Z.to_nat (rank - zlen (own o))) new ++ post
  | None => fst o
  end.
Fixpoint filled_all (new : letters) (ops : list operand) (ranks : list Z) : list letters :=
  match ops, ranks with o :: ops, r :: ranks => filled new r o :: filled_all new ops ranks | _, _ => [] end.
(** How many dimensions the ellipsis of an operand stands for. *)
Definition covered (rank : Z) (o : operand) : Z := rank - zlen (own o).
Definition spelled (o : operand) : Prop := Forall is_letter (fst o) /\ match snd o with Some post => Forall is_letter post | None => True end.
(** The letters a-z that no operand has. *)
Definition small_letters : letters := list_ascii_of_string "abcdefghijklmnopqrstuvwxyz".
Definition unused (ops : list operand) : letters := filter (fun c => negb (existsb (Ascii.eqb c) (concat (map own ops)))) small_letters.
(** The result of an equation without an arrow: the letters that occur once, in alphabetical order, capital letters first. *)
Definition big_letters : letters := list_ascii_of_string "ABCDEFGHIJKLMNOPQRSTUVWXYZ".
Definition implicit (ins : list letters) : letters :=
  filter (fun c => Nat.eqb (count_occ ascii_dec (concat ins) c) 1) (big_letters ++ small_letters).
