(** C116: the declarations of parameters and results in the signatures of library functions. *)
From Coq Require Import Ascii String Bool Arith Lia List.
From Verif Require Import GenTextModel GenTextSpec RegSigModel RegSigSpec RegSigProofs.
Import ListNotations.
Open Scope string_scope.
Open Scope list_scope.
Open Scope nat_scope.

Ltac a_word := first [discriminate | now apply word_string].
Definition number_type : ptype := Ty (chars "Union") [leaf "int"; leaf "float"; leaf "complex"].
Definition size_list : ptype := Ty (chars "List") [leaf "int"].
Definition rank_and_dtype : ptype := Ty (chars "Tuple") [leaf "int"; leaf "int"].
(** The types that have names of their own in TorchScript *)
Definition renamed (t : ptype) : option ptype :=
  match t with
  | Ty n [] => if list_eq_dec ascii_dec n (chars "Device") then Some (leaf "device") else if list_eq_dec ascii_dec n (chars "Generator") then Some (leaf "Any") else None
  | Ty n [Ty m []] =>
      if list_eq_dec ascii_dec n (chars "Optional")
      then if list_eq_dec ascii_dec m (chars "Device") then Some (Ty n [leaf "device"]) else if list_eq_dec ascii_dec m (chars "Generator") then Some (leaf "Any") else None
      else None
  | _ => None
  end.

(** ** Types in which only tensors or only numbers occur *)
Theorem C116_types_with_numbers : forall t, tidy "number" t -> mentions "number" t ->
  pytype_shape (written t) = written (subst "number" (leaf "float") t) /\
  pytype_common (written t) = written (subst "number" number_type t).
Proof.
  intros t T M. assert (O : occurs (txt "number") (written t) = true) by (apply (occurs_written "number"); a_word || assumption).
  unfold pytype_shape, pytype_common. rewrite O. split.
  - apply (replace_written "number" (leaf "float") t); a_word || assumption.
  - apply (replace_written "number" number_type t); a_word || assumption.
Qed.
Theorem C116_types_with_tensors : forall t, tidy "Tensor" t -> mentions "Tensor" t ->
  pytype_dtype (written t) = written (subst "Tensor" rank_and_dtype t) /\
  (tidy "number" t -> ~ mentions "number" t -> pytype_shape (written t) = written (subst "Tensor" size_list t)).
Proof.
  intros t T M. assert (O : occurs (txt "Tensor") (written t) = true) by (apply (occurs_written "Tensor"); a_word || assumption).
  unfold pytype_shape, pytype_dtype. rewrite O. split.
  - apply (replace_written "Tensor" rank_and_dtype t); a_word || assumption.
  - intros TN N. assert (O' : occurs (txt "number") (written t) = false) by (apply (occurs_no "number"); a_word || assumption). rewrite O'.
    apply (replace_written "Tensor" size_list t); a_word || assumption.
Qed.
(** Other types keep their name, but for devices and generators. *)
Theorem C116_other_types : forall t, tidy "number" t -> tidy "Tensor" t -> ~ mentions "number" t -> ~ mentions "Tensor" t ->
  pytype_shape (written t) = pytype_common (written t) /\ pytype_dtype (written t) = pytype_common (written t) /\
  (pytype_common (written t) = written t \/ exists u, renamed t = Some u /\ pytype_common (written t) = written u).
Proof.
  intros t TN TT N NT. assert (O : occurs (txt "number") (written t) = false) by (apply (occurs_no "number"); a_word || assumption).
  assert (O' : occurs (txt "Tensor") (written t) = false) by (apply (occurs_no "Tensor"); a_word || assumption).
  unfold pytype_shape, pytype_dtype. rewrite O, O'. split; [reflexivity|]. split; [reflexivity|].
  assert (named : forall s, word (chars s) -> written t = chars s -> t = leaf s).
  { intros s (W & _) E. destruct t as [n [|x r]]; [cbn in E; now rewrite E|]. exfalso. apply W. rewrite <- E, written_args by discriminate. apply in_or_app. right. now left. }
  assert (optional : forall s, word (chars s) -> written t = chars "Optional[" ++ chars s ++ chars "]" -> t = Ty (chars "Optional") [leaf s]).
  { intros s W E. destruct t as [n args]. destruct args as [|x r].
    - cbn [written] in E. exfalso. destruct TN as ((WN & _) & _). apply WN. rewrite E. apply in_or_app. left. vm_compute. tauto.
    - destruct TN as ((WN & _) & _ & FA). rewrite written_args in E by discriminate.
      assert (split_at : forall (a b c d : list ascii), ~ In "["%char a -> ~ In "["%char c -> a ++ "["%char :: b = c ++ "["%char :: d -> a = c /\ b = d).
      { clear. induction a as [|x a IH]; intros b [|y c] d H1 H2 E; cbn [app] in E.
        - injection E as ->. auto.
        - injection E as <- _. exfalso. apply H2. now left.
        - injection E as -> _. exfalso. apply H1. now left.
        - injection E as <- E. apply IH in E as [-> ->]; [auto|intros K; apply H1; now right|intros K; apply H2; now right]. }
      change (chars "Optional[" ++ chars s ++ chars "]") with (chars "Optional" ++ "["%char :: (chars s ++ chars "]")) in E.
      change (chars "[" ++ commas (map written (x :: r)) ++ chars "]") with ("["%char :: (commas (map written (x :: r)) ++ chars "]")) in E.
      apply split_at in E as [-> E]; [|exact WN|vm_compute; intuition discriminate]. apply app_inv_tail in E. destruct W as (W1 & W2 & W3 & W4).
      destruct r as [|y r]; [|cbn [map] in E; rewrite commas_cons in E; exfalso; apply W3; rewrite <- E; apply in_or_app; right; now left].
      cbn [map commas] in E. f_equal. f_equal. destruct x as [m [|z q]]; [cbn [written] in E; now rewrite E|].
      exfalso. apply W1. rewrite <- E, written_args by discriminate. apply in_or_app. right. now left. }
  unfold pytype_common. rewrite O.
  destruct (text_eqb (written t) (txt "Device")) eqn:E1; [right; apply text_eqb_eq in E1; apply named in E1 as ->; [|a_word]; exists (leaf "device"); split; reflexivity|].
  destruct (text_eqb (written t) (txt "Optional[Device]")) eqn:E2; [right; apply text_eqb_eq in E2; apply (optional "Device") in E2 as ->; [|a_word]; eexists; split; reflexivity|].
  destruct (text_eqb (written t) (txt "Generator")) eqn:E3; [right; apply text_eqb_eq in E3; apply named in E3 as ->; [|a_word]; eexists; split; reflexivity|].
  destruct (text_eqb (written t) (txt "Optional[Generator]")) eqn:E4; [right; apply text_eqb_eq in E4; apply (optional "Generator") in E4 as ->; [|a_word]; eexists; split; reflexivity|].
  now left.
Qed.
Theorem C116_devices_and_generators : forall t u, renamed t = Some u ->
  pytype_shape (written t) = written u /\ pytype_dtype (written t) = written u /\ pytype_common (written t) = written u.
Proof.
  intros t u H. destruct t as [n [|[m [|]] [|]]]; cbn [renamed] in H; try discriminate.
  - destruct (list_eq_dec ascii_dec n (chars "Device")) as [->|]; [injection H as <-; vm_compute; auto|].
    destruct (list_eq_dec ascii_dec n (chars "Generator")) as [->|]; [injection H as <-; vm_compute; auto|discriminate].
  - destruct (list_eq_dec ascii_dec n (chars "Optional")) as [->|]; [|discriminate].
    destruct (list_eq_dec ascii_dec m (chars "Device")) as [->|]; [injection H as <-; vm_compute; auto|].
    destruct (list_eq_dec ascii_dec m (chars "Generator")) as [->|]; [injection H as <-; vm_compute; auto|discriminate].
Qed.
(** A shape signature keeps the tensors of a type that has numbers, a dtype signature its numbers. *)
Theorem C116_numbers_beside_tensors_refuted : exists t, tidy "number" t /\ tidy "Tensor" t /\
  pytype_shape (written t) = written (subst "number" (leaf "float") t) /\ occurs (txt "Tensor") (pytype_shape (written t)) = true /\
  pytype_dtype (written t) = written (subst "Tensor" rank_and_dtype t) /\ occurs (txt "number") (pytype_dtype (written t)) = true.
Proof.
  exists (Ty (chars "Dict") [leaf "number"; leaf "Tensor"]).
  assert (T : forall w, (w = "number" \/ w = "Tensor")%string -> tidy w (Ty (chars "Dict") [leaf "number"; leaf "Tensor"])).
  { intros w W. assert (WD : forall s, forallb (fun c => negb (Ascii.eqb c "[" || Ascii.eqb c "]" || Ascii.eqb c "," || Ascii.eqb c " ")) (chars s) = true -> word (chars s)) by (intros s; apply word_string).
    assert (NC : forall s, occurs (chars w) (chars s) = false -> ~ (exists a b, chars s = a ++ chars w ++ b)).
    { intros s H K. assert (X : occurs (chars w) (chars s) = true) by (apply occurs_iff; exact K). congruence. }
    cbn [tidy leaf]. destruct W as [-> | ->].
    - split; [a_word|]. split; [right; now apply NC|]. split; [split; [a_word|]; split; [left; auto|exact Logic.I]|]. split; [split; [a_word|]; split; [right; now apply NC|exact Logic.I]|exact Logic.I].
    - split; [a_word|]. split; [right; now apply NC|]. split; [split; [a_word|]; split; [right; now apply NC|exact Logic.I]|]. split; [split; [a_word|]; split; [left; auto|exact Logic.I]|exact Logic.I]. }
  split; [apply T; now left|]. split; [apply T; now right|]. vm_compute. auto.
Qed.
(** Devices inside other types are not renamed. *)
Theorem C116_list_of_devices_refuted : pytype_common (written (Ty (chars "List") [leaf "Device"])) = written (Ty (chars "List") [leaf "Device"]) /\
  renamed (leaf "Device") = Some (leaf "device").
Proof. split; reflexivity. Qed.

(** ** Default values *)
Theorem C116_no_default : forall a, default_debug a = None -> get_default_value a = [].
Proof. intros a H. unfold get_default_value. now rewrite H. Qed.
(** Lists become tuples with a comma after the last item, at any depth. *)
Theorem C116_list_defaults_partial : forall a v, contains (chars "List") (pytype a) -> default_debug a = Some (as_list v) -> (filled v \/ v = Seq []) ->
  get_default_value a = chars " = " ++ as_tuple v.
Proof.
  intros a v L D F. apply occurs_iff in L. unfold get_default_value. rewrite D. change (txt "List") with (chars "List"). rewrite L. destruct F as [F| ->]; [|reflexivity].
  rewrite text_eqb_neq by (apply as_list_not_empty; exact F). rewrite munge_is, munge_value by exact F. reflexivity.
Qed.
Theorem C116_nested_empty_list_refuted : forall a, pytype a = txt "List[List[int]]" -> default_debug a = Some (as_list (Seq [Seq []])) ->
  get_default_value a = txt " = ((,),)" /\ as_tuple (Seq [Seq []]) = txt "((),)".
Proof. intros a T D. split; [|reflexivity]. unfold get_default_value. rewrite D, T. reflexivity. Qed.
(** Strings are written between double quotes, with Python's escapes. *)
Theorem C116_string_defaults_partial : forall a s, pytype a = chars "str" -> default_debug a = Some s -> ~ In "'"%char s -> ~ In """"%char s ->
  exists q, get_default_value a = chars " = " ++ q /\ forall r, py_string (q ++ r) = Some (s, r).
Proof.
  intros a s T D N1 N2. exists (quotation :: flat_map pesc s ++ [quotation]). split.
  - unfold get_default_value. rewrite D, T. change (occurs (txt "List") (chars "str")) with false. change (text_eqb (chars "str") (txt "str")) with true. cbv iota zeta.
    rewrite repr_plain by exact N1. rewrite replace_apostrophe by exact N1. reflexivity.
  - intros r. cbn [app]. unfold py_string. change (Ascii.eqb quotation """") with true. cbv iota. rewrite <- app_assoc. now apply py_reads.
Qed.
Theorem C116_string_with_an_apostrophe_refuted : forall a, pytype a = chars "str" -> default_debug a = Some (chars "it's") ->
  exists q, get_default_value a = chars " = " ++ q /\ py_string q = Some (chars "it", chars "s""").
Proof. intros a T D. unfold get_default_value. rewrite D, T. eexists. split; reflexivity. Qed.
Theorem C116_string_with_a_quotation_mark_refuted : forall a, pytype a = chars "str" -> default_debug a = Some (chars "a""b") ->
  exists q, get_default_value a = chars " = " ++ q /\ py_string q = Some (chars "a", chars "b""").
Proof. intros a T D. unfold get_default_value. rewrite D, T. eexists. split; reflexivity. Qed.
(** Other defaults are copied. *)
Theorem C116_other_defaults : forall a s, ~ contains (chars "List") (pytype a) -> pytype a <> chars "str" -> default_debug a = Some s ->
  get_default_value a = chars " = " ++ s.
Proof.
  intros a s L T D. unfold get_default_value. rewrite D. assert (E : occurs (txt "List") (pytype a) = false).
  { destruct (occurs (txt "List") (pytype a)) eqn:E; [|reflexivity]. apply occurs_iff in E. contradiction. }
  rewrite E, text_eqb_neq by exact T. reflexivity.
Qed.

(** ** Declarations *)
Theorem C116_names : forall s, rename s = if list_eq_dec ascii_dec s (chars "from") then chars "from_" else s.
Proof. intros s. unfold rename. destruct (list_eq_dec ascii_dec s (chars "from")) as [->|N]; [reflexivity|now rewrite text_eqb_neq]. Qed.
Theorem C116_shape_declarations : forall a, shape_parameter a = rename (a_name a) ++ chars ": " ++ pytype_shape (pytype a) ++ get_default_value a /\
  shape_result a = pytype_shape (pytype a).
Proof. split; reflexivity. Qed.
Theorem C116_dtype_declarations : forall a t, pytype a = written t -> tidy "Tensor" t ->
  (mentions "Tensor" t -> dtype_parameter a = rename (a_name a) ++ chars "_rank_dtype: " ++ written (subst "Tensor" rank_and_dtype t) ++ get_default_value a) /\
  (~ mentions "Tensor" t -> dtype_parameter a = rename (a_name a) ++ chars ": " ++ pytype_common (written t) ++ get_default_value a) /\
  (t = leaf "Tensor" \/ t = leaf "number" -> dtype_result a = chars "int") /\
  (mentions "Tensor" t -> t <> leaf "Tensor" -> dtype_result a = written (subst "Tensor" rank_and_dtype t)).
Proof.
  intros a t P T. unfold dtype_parameter, dtype_result. rewrite P. split; [|split; [|split]].
  - intros M. assert (O : occurs (txt "Tensor") (written t) = true) by (apply (occurs_written "Tensor"); a_word || assumption). rewrite O.
    rewrite (proj1 (C116_types_with_tensors t T M)). reflexivity.
  - intros M. assert (O : occurs (txt "Tensor") (written t) = false) by (apply (occurs_no "Tensor"); a_word || assumption). unfold pytype_dtype. rewrite !O. reflexivity.
  - intros [-> | ->]; reflexivity.
  - intros M N. rewrite text_eqb_neq, text_eqb_neq.
    + cbn [orb]. apply (proj1 (C116_types_with_tensors t T M)).
    + intros E. apply N. destruct t as [n [|x r]]; [cbn [written] in E; now rewrite E|]. exfalso. rewrite written_args in E by discriminate.
      assert (I' : In "["%char (txt "Tensor")) by (rewrite <- E; apply in_or_app; right; now left). vm_compute in I'. intuition discriminate.
    + intros E. destruct t as [n [|x r]]; [cbn [written mentions] in E, M; rewrite E in M; discriminate|]. rewrite written_args in E by discriminate.
      assert (I' : In "["%char (txt "number")) by (rewrite <- E; apply in_or_app; right; now left). vm_compute in I'. intuition discriminate.
Qed.
Theorem C116_decomposition_declarations : forall a, decomposition_parameter a = rename (a_name a) ++ chars ": " ++ pytype_common (pytype a) ++ get_default_value a /\
  decomposition_result a = pytype_common (pytype a).
Proof. split; reflexivity. Qed.

Definition arg (n t : string) (d : option string) : attr := {| a_name := chars n; pytype := chars t; default_debug := option_map chars d |}.
Example C116_nonvacuous :
  let t := Ty (chars "Optional") [Ty (chars "List") [leaf "Tensor"]] in
  tidy "Tensor" t /\ mentions "Tensor" t /\ written t = chars "Optional[List[Tensor]]" /\
  dtype_parameter (arg "from" "Optional[List[Tensor]]" (Some "None")) = chars "from__rank_dtype: Optional[List[Tuple[int, int]]] = None" /\
  shape_parameter (arg "dims" "List[int]" (Some "[0, 1]")) = chars "dims: List[int] = (0, 1,)" /\ filled (Seq [Atom (chars "0"); Atom (chars "1")]) /\
  as_list (Seq [Atom (chars "0"); Atom (chars "1")]) = chars "[0, 1]" /\
  shape_parameter (arg "value" "Optional[number]" None) = chars "value: Optional[float]" /\
  decomposition_parameter (arg "value" "Optional[number]" None) = chars "value: Optional[Union[int, float, complex]]" /\
  shape_parameter (arg "mode" "str" (Some "mean")) = chars "mode: str = ""mean""" /\
  dtype_parameter (arg "device" "Optional[Device]" (Some "None")) = chars "device: Optional[device] = None" /\
  shape_result (arg "" "Tensor" None) = chars "List[int]" /\ dtype_result (arg "" "Tensor" None) = chars "int".
Proof.
  assert (NC : forall s, occurs (chars "Tensor") (chars s) = false -> ~ (exists a b, chars s = a ++ chars "Tensor" ++ b)).
  { intros s H K. assert (X : occurs (chars "Tensor") (chars s) = true) by (apply occurs_iff; exact K). congruence. }
  cbv zeta. split.
  { cbn [tidy leaf]. split; [a_word|]. split; [right; now apply NC|]. split; [|exact Logic.I]. split; [a_word|]. split; [right; now apply NC|]. split; [|exact Logic.I]. split; [a_word|]. split; [left; auto|exact Logic.I]. }
  split; [vm_compute; auto|]. split; [reflexivity|]. split; [reflexivity|]. split; [reflexivity|].
  split; [cbn; repeat split; try discriminate; intros K; vm_compute in K; intuition discriminate|]. repeat (split; [reflexivity|]). reflexivity.
Qed.
Print Assumptions C116_types_with_numbers.
Print Assumptions C116_types_with_tensors.
Print Assumptions C116_other_types.
Print Assumptions C116_list_defaults_partial.
Print Assumptions C116_string_defaults_partial.
Print Assumptions C116_dtype_declarations.
