(** What names of operators look like and which operator a function belongs to. *)
From Coq Require Import Ascii String Bool Arith List.
From Verif Require Import Prelude RegistryModel.
Import ListNotations.
Open Scope string_scope.
Open Scope list_scope.

(** A part of the name of an operator: the separators do not occur in it. *)
Definition plain (t : text) : Prop := forall c, In c t -> c <> dot /\ c <> Circle /\ c <> Bar /\ c <> colon /\ c <> Ch " "%char /\ c <> Ch "("%char.
Definition plain_names (o : operator) : Prop := plain (namespace o) /\ plain (unqualified_name o) /\ plain (overload_name o).
(** [ns SEP name] or [ns SEP name SEP overload] *)
Definition dotted (sep : char) (o : operator) : text :=
  match overload_name o with
  | [] => namespace o ++ sep :: unqualified_name o
  | ov => namespace o ++ sep :: unqualified_name o ++ sep :: ov
  end.
(** The operator registered last among those with this key. *)
Definition registered {K} (key : operator -> K) (ops : list operator) (k : K) (o : operator) : Prop :=
  exists before after, ops = before ++ o :: after /\ key o = k /\ forall p, In p after -> key p <> k.
(** Nothing is written and no result aliases an operand, as far as the schema says. *)
Definition writes_nothing (o : operator) : Prop := forall x, In x (arguments o) \/ In x (returns o) -> alias_info x <> Some true.
Definition no_aliases (o : operator) : Prop := forall x, In x (arguments o) \/ In x (returns o) -> alias_info x = None.
(** Letters: the capital of each, by the alphabet. *)
Definition alphabet : list (ascii * ascii) := combine (list_ascii_of_string "abcdefghijklmnopqrstuvwxyz") (list_ascii_of_string "ABCDEFGHIJKLMNOPQRSTUVWXYZ").
Inductive capital : char -> char -> Prop :=
| capital_small a b : In (a, b) alphabet -> capital (Ch a) (Ch b)
| capital_other c : (forall a b, In (a, b) alphabet -> c <> Ch a) -> capital c c.
(** A word of a name in the name of its class: capitalised; an underscore stands for an empty word. *)
Inductive class_word : text -> text -> Prop :=
| class_empty : class_word [] [underscore]
| class_some c c' r : capital c c' -> class_word (c :: r) (c' :: r).
(** Parts of a name and the words they are made of. *)
Definition made_of (part : text) (words : list text) : Prop := words <> [] /\ (forall w, In w words -> ~ In underscore w) /\ part = join [underscore] words.
