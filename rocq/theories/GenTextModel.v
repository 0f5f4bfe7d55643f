(** The texts that the generators write: lines with indentation, quoted strings, blocks of documentation and the C++ literal
    that holds the library of abstract interpretation functions.

    Sources: utils = utils.py and lib = abstract_interp_lib_gen.py in /repo/projects/pt1/python/torch_mlir/jit_ir_importer/build_tools/.
    Simplifications: texts are lists of ASCII characters; of the characters at which Python's splitlines cuts only the newline is kept,
    and of those that rstrip removes only blanks, tabs and newlines. *)
From Coq Require Import Ascii String Bool Arith List.
Import ListNotations.
Open Scope string_scope.
Open Scope list_scope.
Open Scope nat_scope.

Definition text := list ascii.
Definition txt (s : string) : text := list_ascii_of_string s.
Definition quotation : ascii := ascii_of_nat 34.
Definition backslash : ascii := "\"%char.
Definition newline : ascii := ascii_of_nat 10.

(** Python's [s.startswith(w)] *)
Fixpoint starts (w s : text) : bool :=
  match w, s with [], _ => true | x :: w, y :: s => Ascii.eqb x y && starts w s | _, [] => false end.
(** Python's [s.replace(w, v)] for a [w] which is not empty: [skip] characters of the occurrence at hand are still to be passed over. *)
Fixpoint replace_from (w v : text) (skip : nat) (s : text) : text :=
  match s with
  | [] => []
  | c :: r =>
      match skip with
      | S k => replace_from w v k r
      | O => if starts w s then v ++ replace_from w v (length w - 1) r else c :: replace_from w v 0 r
      end
  end.
Definition replace (w v s : text) : text := replace_from w v 0 s.

(** main, lib l.6558-6568: the literal that the generated file returns. *)
Definition library_literal (asm : text) : text :=
  let asm := replace [quotation] [backslash; quotation] asm in
  let multiple_lines := replace [newline] [backslash; "n"%char; quotation; newline; quotation] asm in
  [quotation] ++ multiple_lines ++ [quotation].

(** TextEmitter.quote, utils l.34-36 *)
Definition quote (s : text) : text :=
  let s := replace [quotation] [backslash; backslash; quotation] s in
  [quotation] ++ s ++ [quotation].

(** Python's splitlines: no last empty line. *)
Fixpoint splitlines (s : text) : list text :=
  match s with
  | [] => []
  | c :: r => if Ascii.eqb c newline then [] :: splitlines r
              else match splitlines r with [] => [[c]] | h :: t => (c :: h) :: t end
  end.
(** TextEmitter.print, utils l.29-32: what is written at a level of indentation. *)
Definition indentation (level : nat) : text := concat (repeat (txt "  ") level).
Definition print (level : nat) (s : text) : text := flat_map (fun line => indentation level ++ line ++ [newline]) (splitlines s).

Definition blank (c : ascii) : bool := Ascii.eqb c " "%char || Ascii.eqb c (ascii_of_nat 9) || Ascii.eqb c newline.
(** Python's rstrip *)
Fixpoint rstrip (s : text) : text :=
  match s with
  | [] => []
  | c :: r => match rstrip r with [] => if blank c then [] else [c] | t => c :: t end
  end.
Fixpoint join (sep : text) (l : list text) : text :=
  match l with [] => [] | [x] => x | x :: r => x ++ sep ++ join sep r end.
(** textwrap.indent: lines of blanks alone are left as they are. *)
Definition wrap_indent (s prefix : text) : text :=
  let indented line := if forallb blank line then line else prefix ++ line in
  join [newline] (map indented (splitlines s)) ++ (match rev s with c :: _ => if Ascii.eqb c newline then [newline] else [] | [] => [] end).
(** quote_multiline_docstring, utils l.38-47 *)
Definition quote_multiline_docstring (s : text) (indent_level : nat) : text :=
  let s := replace (txt "}]") [] s in
  let s := join [newline] (map rstrip (splitlines s)) in
  let indent := indentation indent_level in
  let s := wrap_indent s (indent ++ indentation 1) in
  txt "[{" ++ [newline] ++ s ++ [newline] ++ indent ++ txt "}]".
