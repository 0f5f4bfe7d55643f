(** How the readers of the generated texts see them: a C++ compiler, TableGen and a reader of indented lines. *)
From Coq Require Import Ascii String Bool Arith List.
Import ListNotations.
Open Scope string_scope.
Open Scope list_scope.
Open Scope nat_scope.

Definition digit_below (base : nat) (c : ascii) : option nat :=
  let n := nat_of_ascii c in
  let v := if (48 <=? n) && (n <=? 57) then Some (n - 48)
           else if (97 <=? n) && (n <=? 102) then Some (n - 87)
           else if (65 <=? n) && (n <=? 70) then Some (n - 55) else None in
  match v with Some d => if d <? base then Some d else None | None => None end.
(** The escape sequences of one letter *)
Definition c_escape (c : ascii) : option ascii :=
  match c with
  | "n" => Some (ascii_of_nat 10) | "t" => Some (ascii_of_nat 9) | "r" => Some (ascii_of_nat 13) | "a" => Some (ascii_of_nat 7)
  | "b" => Some (ascii_of_nat 8) | "f" => Some (ascii_of_nat 12) | "v" => Some (ascii_of_nat 11)
  | "\" => Some "\" | """" => Some """" | "'" => Some "'" | "?" => Some "?"
  | _ => None
  end%char.
(** A sequence of adjacent C++ string literals separated by blanks: what they stand for together.
    [Octal k v]: at most [k] more digits may follow.  [Hexadecimal v]: digits have been seen if there is a [v]. *)
Inductive place := Outside | Inside | Escape | Octal (more value : nat) | Hexadecimal (value : option nat).
Fixpoint cxx (p : place) (s : list ascii) : option (list ascii) :=
  match s with
  | [] => match p with Outside => Some [] | _ => None end
  | c :: r =>
      let inside := if Ascii.eqb c """" then cxx Outside r
                    else if Ascii.eqb c (ascii_of_nat 10) then None
                    else if Ascii.eqb c "\" then cxx Escape r
                    else option_map (cons c) (cxx Inside r) in
      match p with
      | Outside => if Ascii.eqb c """" then cxx Inside r
                   else if Ascii.eqb c " " || Ascii.eqb c (ascii_of_nat 10) then cxx Outside r else None
      | Inside => inside
      | Escape =>
          match digit_below 8 c with
          | Some d => cxx (Octal 2 d) r
          | None => if Ascii.eqb c "x" then cxx (Hexadecimal None) r
                    else match c_escape c with Some e => option_map (cons e) (cxx Inside r) | None => None end
          end
      | Octal (S k) v => match digit_below 8 c with
                         | Some d => cxx (Octal k (8 * v + d)) r
                         | None => option_map (cons (ascii_of_nat v)) inside
                         end
      | Octal O v => option_map (cons (ascii_of_nat v)) inside
      | Hexadecimal v => match digit_below 16 c with
                         | Some d => cxx (Hexadecimal (Some (16 * (match v with Some v => v | None => 0 end) + d))) r
                         | None => match v with Some v => option_map (cons (ascii_of_nat v)) inside | None => None end
                         end
      end
  end%char.
Definition cxx_literals (s : list ascii) : option (list ascii) := cxx Outside s.

(** A TableGen string: what it stands for, and what follows it. *)
Definition td_escape (c : ascii) : option ascii :=
  match c with
  | "n" => Some (ascii_of_nat 10) | "t" => Some (ascii_of_nat 9) | "\" => Some "\" | """" => Some """" | "'" => Some "'" | _ => None
  end%char.
Fixpoint td_chars (escaped : bool) (s : list ascii) : option (list ascii * list ascii) :=
  match s with
  | [] => None
  | c :: r =>
      if escaped then match td_escape c with Some e => option_map (fun x => (e :: fst x, snd x)) (td_chars false r) | None => None end
      else if Ascii.eqb c """" then Some ([], r)
      else if Ascii.eqb c (ascii_of_nat 10) then None
      else if Ascii.eqb c "\" then td_chars true r
      else option_map (fun x => (c :: fst x, snd x)) (td_chars false r)
  end%char.
Definition td_string (s : list ascii) : option (list ascii * list ascii) :=
  match s with c :: r => if Ascii.eqb c """" then td_chars false r else None | [] => None end%char.
(** A TableGen block of code, from [{ to the first }]. *)
Fixpoint td_block (s : list ascii) : option (list ascii * list ascii) :=
  match s with
  | [] => None
  | c :: r => match r with
              | d :: t => if Ascii.eqb c "}" && Ascii.eqb d "]" then Some ([], t)
                          else option_map (fun x => (c :: fst x, snd x)) (td_block r)
              | [] => None
              end
  end%char.
Definition td_code (s : list ascii) : option (list ascii * list ascii) :=
  match s with "[" :: "{" :: r => td_block r | _ => None end%char.

(** [s] has the word [w] in it *)
Definition contains (w s : list ascii) : Prop := exists a b, s = a ++ w ++ b.
(** Texts in which every quotation mark and no other character follows a backslash, and which have no newline *)
Inductive quotable : list ascii -> Prop :=
  | quotable_nil : quotable []
  | quotable_char c s : c <> """"%char -> c <> "\"%char -> c <> ascii_of_nat 10 -> quotable s -> quotable (c :: s)
  | quotable_mark s : quotable s -> quotable ("\"%char :: """"%char :: s).
(** A text made of ended lines *)
Definition ended (lines : list (list ascii)) : list ascii := flat_map (fun l => l ++ [ascii_of_nat 10]) lines.
(** A line of documentation: what is written, not ending in a blank, and blanks after it *)
Definition is_blank (c : ascii) : Prop := c = " "%char \/ c = ascii_of_nat 9.
Definition doc_lines (lines : list (list ascii * list ascii)) : Prop :=
  Forall (fun l => ~ In (ascii_of_nat 10) (fst l) /\ Forall is_blank (snd l) /\
                   (fst l = [] \/ exists a c, fst l = a ++ [c] /\ ~ is_blank c)) lines.
(** Such lines as they stand in a block: one to a line, those with something written on them after [n] blanks *)
Definition in_block (n : nat) (lines : list (list ascii * list ascii)) : list ascii :=
  flat_map (fun l => ascii_of_nat 10 :: match fst l with [] => [] | w => repeat " "%char n ++ w end) lines.
