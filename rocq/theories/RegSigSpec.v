(** Python's types and values as trees, and how they are written. *)
From Coq Require Import Ascii String Bool Arith List.
Import ListNotations.
Open Scope string_scope.
Open Scope list_scope.
Open Scope nat_scope.

Definition chars (s : string) : list ascii := list_ascii_of_string s.
(** Items with commas and blanks between them *)
Fixpoint commas (l : list (list ascii)) : list ascii :=
  match l with [] => [] | [x] => x | x :: r => x ++ chars ", " ++ commas r end.
(** A type: a name, applied to types if there are any *)
Inductive ptype := Ty (name : list ascii) (args : list ptype).
Fixpoint written (t : ptype) : list ascii :=
  match t with Ty n [] => n | Ty n args => n ++ chars "[" ++ commas (map written args) ++ chars "]" end.
Definition leaf (s : string) : ptype := Ty (chars s) [].
(** The type with each name [w] that is not applied replaced by the type [v] *)
Fixpoint subst (w : string) (v : ptype) (t : ptype) : ptype :=
  match t with
  | Ty n [] => if list_eq_dec ascii_dec n (chars w) then v else t
  | Ty n args => Ty n (map (subst w v) args)
  end.
Fixpoint mentions (w : string) (t : ptype) : Prop :=
  match t with
  | Ty n [] => n = chars w
  | Ty n args => (fix any (l : list ptype) : Prop := match l with [] => False | x :: r => mentions w x \/ any r end) args
  end.
(** Names have no punctuation and do not have [w] in them, unless they are [w] and not applied. *)
Definition word (n : list ascii) : Prop := ~ In "["%char n /\ ~ In "]"%char n /\ ~ In ","%char n /\ ~ In " "%char n.
Fixpoint tidy (w : string) (t : ptype) : Prop :=
  match t with
  | Ty n args =>
      word n /\ ((n = chars w /\ args = []) \/ ~ (exists a b, n = a ++ chars w ++ b)) /\
      (fix all (l : list ptype) : Prop := match l with [] => True | x :: r => tidy w x /\ all r end) args
  end.

(** A value: a name or number, or a sequence of values *)
Inductive value := Atom (s : list ascii) | Seq (l : list value).
(** Written with brackets, as PyTorch does, and as tuples with a comma after the last item *)
Fixpoint as_list (v : value) : list ascii :=
  match v with Atom s => s | Seq l => chars "[" ++ commas (map as_list l) ++ chars "]" end.
Fixpoint as_tuple (v : value) : list ascii :=
  match v with
  | Atom s => s
  | Seq [] => chars "()"
  | Seq l => chars "(" ++ commas (map as_tuple l) ++ chars ",)"
  end.
(** Atoms are not empty and have no brackets, and no sequence is empty. *)
Fixpoint filled (v : value) : Prop :=
  match v with
  | Atom s => s <> [] /\ ~ In "["%char s /\ ~ In "]"%char s
  | Seq [] => False
  | Seq l => (fix all (l : list value) : Prop := match l with [] => True | x :: r => filled x /\ all r end) l
  end.

(** Python's reading of a string in double quotes: backslash escapes, as far as they are needed here *)
Fixpoint py_chars (s : list ascii) : option (list ascii * list ascii) :=
  match s with
  | [] => None
  | c :: r =>
      if Ascii.eqb c """" then Some ([], r)
      else if Ascii.eqb c (ascii_of_nat 10) then None
      else if Ascii.eqb c "\" then
        match r with
        | [] => None
        | e :: r => let keep := match e with "n" => Some (ascii_of_nat 10) | "t" => Some (ascii_of_nat 9) | "\" => Some "\" | "'" => Some "'" | """" => Some """" | _ => None end in
                    match keep with Some k => option_map (fun x => (k :: fst x, snd x)) (py_chars r) | None => None end
        end
      else option_map (fun x => (c :: fst x, snd x)) (py_chars r)
  end%char.
Definition py_string (s : list ascii) : option (list ascii * list ascii) :=
  match s with c :: r => if Ascii.eqb c """" then py_chars r else None | [] => None end%char.
